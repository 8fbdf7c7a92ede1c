(** * Model of spafe/features/pncc.py.  Matrices are lists of rows of equal length. *)
From Coq Require Import Reals ZArith List String Bool.
From Verif Require Import Base Preprocessing Cepstral Fourier Gammatone Features.
Import ListNotations.
Local Open Scope R_scope.

(** pncc.py:28-56 (medium_time_power_calculation), M >= 0.  The slice of column l is
    P[max(0, m - M) : min(len(P), m + M + 1), l]. *)
Definition medium_time_power_calculation (P : list (list F)) (M : nat) : list (list F) :=
  let n := List.length P in
  map (fun m => let lo := (m - M)%nat in let hi := Nat.min n (m + M + 1) in
         map (fun l => fmul (Fin (1 / IZR (2 * Z.of_nat M + 1)))
                            (fsum (map (fun row => nth l row NaN) (firstn (hi - lo) (skipn lo P)))))
             (seq 0 (ncols P)))
      (seq 0 n).

(** pncc.py:88-95: one row of the filter from the previous output row and the input row *)
Definition asym_row (lm_a lm_b : R) (prev q : list F) : list F :=
  map2 (fun o x => if fgeb x o then fadd (fmul (Fin lm_a) o) (fmul (Fin (1 - lm_a)) x)
                   else fadd (fmul (Fin lm_b) o) (fmul (Fin (1 - lm_b)) x)) prev q.
(** pncc.py:59-96 (asymmetric_lowpass_filtering).  Index m - 1 is -1, the last row, for m = 0. *)
Definition asymmetric_lowpass_filtering (Q : list (list F)) (lm_a lm_b : R) : result (list (list F)) :=
  let out := map (map (fun _ => f0)) Q in
  do q0 <- py_nth Q 0;
  do out <- py_set out 0 (map (fmul (Fin 0.9)) q0);
  foldM (fun out m => do prev <- py_nth out (m - 1);
                      do q <- py_nth Q m;
                      py_set out m (asym_row lm_a lm_b prev q))
        (zrange 0 (zlen out)) out.

(** pncc.py:99-136 (temporal_masking); the pair is (Q_tilde_tm, online_peak_power) *)
Definition temporal_masking (Q : list (list F)) (lam_t myu_t : R) : result (list (list F)) :=
  let zeros := map (map (fun _ => f0)) Q in
  do q0 <- py_nth Q 0;
  do tm <- py_set zeros 0 q0;
  do peak <- py_set zeros 0 q0;
  do r <- foldM (fun (s : list (list F) * list (list F)) m =>
                   let (tm, peak) := s in
                   do prev <- py_nth peak (m - 1);
                   do q <- py_nth Q m;
                   do peak' <- py_set peak m (map2 (fun p x => fmax2 (fmul (Fin lam_t) p) x) prev q);
                   do tm' <- py_set tm m
                     (map2 (fun p x => if fgeb x (fmul (Fin lam_t) p) then x else fmul (Fin myu_t) p) prev q);
                   Ok (tm', peak'))
                (zrange 1 (zlen Q)) (tm, peak);
  Ok (fst r).

(** pncc.py:164-171, entry (m, l) *)
Definition smoothing_entry (r q : list F) (L N l : Z) : result F :=
  let l1 := Z.max (l - N) 1 in
  let l2 := Z.min (l + N) L in
  do w <- (if (l2 - l1 + 1 =? 0)%Z then Raise ZeroDivisionError else Ok (1 / IZR (l2 - l1 + 1)));
  do v <- mapM (fun l' => do a <- py_nth r l'; do b <- py_nth q l'; Ok (fdiv a b)) (zrange l1 l2);
  Ok (fmul (Fin w) (fsum v)).
(** pncc.py:139-173 (weight_smoothing) *)
Definition weight_smoothing (R_tilde Q_tilde : list (list F)) (nfilts N : Z) : result (list (list F)) :=
  mapM (fun m => do r <- py_nth R_tilde m; do q <- py_nth Q_tilde m;
                 mapM (smoothing_entry r q nfilts N) (zrange 0 (Z.of_nat (ncols R_tilde))))
       (zrange 0 (zlen R_tilde)).

(** pncc.py:176-212 (mean_power_normalization), k = 1 by default *)
Definition mean_power_normalization (T : list (list F)) (lam_myu : R) (nfilts : Z) (k : R) : result (list (list F)) :=
  let myu := map (fun _ => f0) T in
  do myu <- py_set myu 0 (Fin 0.0001);
  do myu <- foldM (fun myu m =>
                     do p <- py_nth myu (m - 1);
                     do w <- (if (nfilts =? 0)%Z then Raise ZeroDivisionError else Ok ((1 - lam_myu) / IZR nfilts));
                     do row <- py_nth T m;
                     do s <- mapM (py_nth row) (zrange 0 nfilts);
                     py_set myu m (fadd (fmul (Fin lam_myu) p) (fmul (Fin w) (fsum s))))
                  (zrange 1 (zlen T)) myu;
  Ok (map2 (fun u row => map (fun t => fdiv (fmul (Fin k) t) u) row) myu T).

(** pncc.py:215-271 (asymmetric_noise_suppression_with_temporal_masking) *)
Definition noise_suppression (Q : list (list F)) (threshold : R) : result (list (list F)) :=
  do le <- asymmetric_lowpass_filtering Q 0.999 0.5;
  let sub := map2 (map2 fsub) Q le in
  let q0 := map (map (fun v => if fltb v (Fin threshold) then f0 else v)) sub in
  do qf <- asymmetric_lowpass_filtering q0 0.999 0.5;
  do tm <- temporal_masking q0 0.85 0.2;
  let cond := map2 (map2 (fun q e => fgeb q (fmul (Fin 2) e))) Q le in
  Ok (map2 (map2 (fun (c : bool) v => if c then fst v else snd v)) cond (map2 (map2 pair) tm qf)).

(** pncc.py:428-444: from the band powers to the argument of the DCT *)
Definition pncc_core (P : list (list F)) (nfilts : Z) : result (list (list F)) :=
  let Q := medium_time_power_calculation P 2 in
  do Rt <- noise_suppression Q 0;
  do St <- weight_smoothing Rt Q nfilts 4;
  let T := map2 (map2 fmul) P St in
  do U <- mean_power_normalization T 0.999 nfilts 1;
  Ok (map (map (fun u => fpow u (1 / 15))) U).

(** pncc.py:274-457 (pncc); [power] is a natural number, the order of the filters is left at 4 *)
Definition pncc `{Env} (sig : list F) (a : sargs) (power : nat) (c : cargs) : result (list (list F)) :=
  if (s_nfilts a <? c_num_ceps c)%Z then Raise (ParameterError msg_nfilts)
  else
    do fbanks <- match s_fbanks a with
                 | Some b => Ok b
                 | None => rmap fst (gammatone_filter_banks (s_nfilts a) (s_nfft a) (s_fs a) (s_low a)
                                       (s_high a) (s_scale a) 4 (s_approach a))
                 end;
    do (_, windows) <- framed sig (s_fs a) (s_pre_emph a) (s_coeff a) (s_window a);
    do fourrier <- fft_magnitude windows (s_nfft a);
    let abs_fft_values := map (map (fun v => fmul (Fin (1 / IZR (s_nfft a))) (fpown v power))) fourrier in
    do P <- np_dot_T abs_fft_values fbanks;
    do V <- pncc_core P (s_nfilts a);
    finish (mkC (c_num_ceps c) (c_dct_type c) false (c_lifter c) (c_normalize c)) (s_nfft a) V [].
