(** * Model of spafe/features/rplp.py *)
From Coq Require Import Reals ZArith List String Bool.
From Verif Require Import Base Cplx Preprocessing Filters Cepstral BarkBank Fourier Features Lpc.
Import ListNotations.
Local Open Scope R_scope.

(** np.fft.ifft(rows, nfft) of real rows (library function): bin k is
    1/n sum_j x[j] exp(2 pi i j k / n) of the row cropped or zero-padded to n entries *)
Definition idft_bin (n : nat) (x : list F) (k : nat) : cplx :=
  cscal (Fin (1 / INR n))
  (fsum (map (fun j => fmul (nth j x NaN) (Fin (cos (2 * PI * INR (j * k) / INR n)))) (seq 0 n)),
   fsum (map (fun j => fmul (nth j x NaN) (Fin (sin (2 * PI * INR (j * k) / INR n)))) (seq 0 n))).
Definition np_ifft (rows : list (list F)) (nfft : Z) : result (list (list cplx)) :=
  if (nfft <? 1)%Z then Raise ValueError
  else let n := Z.to_nat nfft in
       Ok (map (fun row => map (idft_bin n (crop_pad n row)) (seq 0 n)) rows).

(** spafe/features/rplp.py:151-153 (the local function E), one entry *)
Definition equal_loudness (w : F) : F :=
  fdiv (fmul (fadd (fpown w 2) (Fin (56.8 * 10 ^ 6))) (fpown w 4))
       (fmul (fmul (fadd (fpown w 2) (Fin (6.3 * 10 ^ 6))) (fadd (fpown w 2) (Fin (0.38 * 10 ^ 9))))
             (fadd (fpown w 6) (Fin (9.58 * 10 ^ 26)))).
(** spafe/features/rplp.py:154-157, one entry *)
Definition compressed (w : F) : F := fpow (fabs (equal_loudness w)) (1 / 3).

(** spafe/features/rplp.py:140-148 *)
Definition rasta_step (do_rasta : bool) (auditory : list (list F)) : result (list (list F)) :=
  if do_rasta then do r <- rasta_filter (map (map flog) auditory); Ok (map (map fexp) r)
  else Ok auditory.

(** spafe/features/rplp.py:163-169, from the inverse transform on; the lpcs are not returned *)
Definition plp_row (order : Z) (row : list F) : result (list F) :=
  do (a, e) <- lpc_helper row (order - 1); lpc2lpcc a e order.

(** spafe/features/rplp.py:28-179 (__rastaplp).  "lifter is not None" lets a lifter of 0
    through to lifter_ceps (line 172). *)
Definition rastaplp `{Env} (sig : list F) (a : sargs) (order : Z) (do_rasta : bool)
    (lifter : option R) (normalize : option string) : result (list (list F)) :=
  if (s_nfilts a <? order)%Z then Raise (ParameterError msg_nfilts)
  else
    do fbanks <- match s_fbanks a with
                 | Some b => Ok b
                 | None => rmap fst (bark_filter_banks (s_nfilts a) (s_nfft a) (s_fs a) (s_low a)
                                       (s_high a) (s_scale a) (s_approach a))
                 end;
    do (_, windows) <- framed sig (s_fs a) (s_pre_emph a) (s_coeff a) (s_window a);
    do fourrier <- fft_magnitude windows (s_nfft a);
    do auditory <- np_dot_T (power_frames (s_nfft a) fourrier) fbanks;
    do auditory <- rasta_step do_rasta auditory;
    do inverse <- np_ifft (map (map compressed) auditory) (s_nfft a);
    if (order <? 0)%Z then Raise ValueError                 (* np.zeros, line 163 *)
    else
      do lpccs <- mapM (plp_row order) (map (map cabs) inverse);
      do lpccs <- match lifter with Some l => lifter_ceps lpccs l | None => Ok lpccs end;
      match normalize with
      | Some t => if String.eqb t "" then Ok lpccs else normalize_ceps lpccs t
      | None => Ok lpccs
      end.

(** spafe/features/rplp.py:182-292 (plp) and 295-412 (rplp) *)
Definition plp `{Env} (sig : list F) (a : sargs) (order : Z) (lifter : option R)
    (normalize : option string) : result (list (list F)) := rastaplp sig a order false lifter normalize.
Definition rplp `{Env} (sig : list F) (a : sargs) (order : Z) (lifter : option R)
    (normalize : option string) : result (list (list F)) := rastaplp sig a order true lifter normalize.
