(** * pncc, plp, rplp, compute_yin, get_dominant_frequencies, cqcc and extract_feats as programs on a heap (see Memory.v) *)
From Coq Require Import Reals ZArith List String Bool.
From Flocq Require Import Core.Raux.
From Verif Require Import Base Cplx Preprocessing Filters Cepstral Gammatone BarkBank Fourier Features LinAlg Lpc
  Pncc Rplp Yin Dominant Cqt SpFeats Memory.
Import ListNotations.
Local Open Scope R_scope.

(** Python's index: negative ones count from the end *)
Definition py_index (n : nat) (i : Z) : result nat :=
  let j := if (i <? 0)%Z then (Z.of_nat n + i)%Z else i in
  if ((0 <=? j) && (j <? Z.of_nat n))%Z then Ok (Z.to_nat j) else Raise IndexError.
(** v[i], v[i] = x for 1-D arrays; v[i, :], v[i, :] = xs for 2-D arrays *)
Definition get_item (v : arr1) (i : Z) : prog F := pdo k <- lift (py_index (n1 v) i); peek (b1 v) (cell1 v k).
Definition set_item (v : arr1) (i : Z) (x : F) : prog unit := pdo k <- lift (py_index (n1 v) i); write1 v k x.
Definition get_row (v : arr2) (i : Z) : prog (list F) := pdo k <- lift (py_index (r2 v) i); read_row v k.
Definition set_row (v : arr2) (i : Z) (xs : list F) : prog unit := pdo k <- lift (py_index (r2 v) i); write_row v k xs.
(** np.zeros(n) *)
Definition zeros1 (n : nat) : prog arr1 := new1 (repeat f0 n).
(** v[a:b], a view *)
Definition slice1 (v : arr1) (a b : Z) : arr1 :=
  let idx := py_slice a b (seq 0 (n1 v)) in
  mkA1 (b1 v) (cell1 v (hd 0%nat idx)) (List.length idx) (s1 v).

(** ** features/pncc.py *)
(** pncc.py:28-56; the nested list is made into a new array *)
Definition medium_mem (P : arr2) (M : nat) : prog arr2 :=
  pdo p <- read2 P; new2 (medium_time_power_calculation p M).
(** pncc.py:83-96: np.zeros_like, then a loop that reads the row written before; at m = 0 that is
    row -1, the last one *)
Definition asymmetric_lowpass_mem (Q : arr2) (lm_a lm_b : R) : prog arr2 :=
  pdo out <- zeros2 (r2 Q) (c2 Q);
  pdo q0 <- get_row Q 0;
  pdo _ <- set_row out 0 (map (fmul (Fin 0.9)) q0);
  pdo _ <- forM (zrange 0 (Z.of_nat (r2 out)))
             (fun m => pdo prev <- get_row out (m - 1); pdo q <- get_row Q m;
                       set_row out m (asym_row lm_a lm_b prev q));
  ret out.
(** pncc.py:120-136 *)
Definition temporal_masking_mem (Q : arr2) (lam_t myu_t : R) : prog arr2 :=
  pdo tm <- zeros2 (r2 Q) (c2 Q);
  pdo peak <- zeros2 (r2 Q) (c2 Q);
  pdo q0 <- get_row Q 0;
  pdo _ <- set_row tm 0 q0;
  pdo _ <- set_row peak 0 q0;
  pdo _ <- forM (zrange 1 (Z.of_nat (r2 Q)))
             (fun m => pdo prev <- get_row peak (m - 1); pdo q <- get_row Q m;
                       pdo _ <- set_row peak m (map2 (fun p x => fmax2 (fmul (Fin lam_t) p) x) prev q);
                       set_row tm m (map2 (fun p x => if fgeb x (fmul (Fin lam_t) p) then x else fmul (Fin myu_t) p) prev q));
  ret tm.
(** pncc.py:162-173; row m of the two arguments is read once, before its columns are visited *)
Definition weight_smoothing_mem (R_tilde Q_tilde : arr2) (nfilts N : Z) : prog arr2 :=
  pdo S_tilde <- zeros2 (r2 R_tilde) (c2 R_tilde);
  pdo _ <- forM (zrange 0 (Z.of_nat (r2 R_tilde)))
             (fun m => pdo r <- get_row R_tilde m; pdo q <- get_row Q_tilde m;
                       forM (zrange 0 (Z.of_nat (c2 R_tilde)))
                         (fun l => pdo x <- lift (smoothing_entry r q nfilts N l);
                                   write2 S_tilde (Z.to_nat m) (Z.to_nat l) x));
  ret S_tilde.
(** pncc.py:200-212 *)
Definition mean_power_mem (T : arr2) (lam_myu : R) (nfilts : Z) (k : R) : prog arr2 :=
  pdo myu <- zeros1 (r2 T);
  pdo _ <- set_item myu 0 (Fin 0.0001);
  pdo _ <- forM (zrange 1 (Z.of_nat (r2 T)))
             (fun m => pdo p <- get_item myu (m - 1);
                       pdo w <- lift (if (nfilts =? 0)%Z then Raise ZeroDivisionError else Ok ((1 - lam_myu) / IZR nfilts));
                       pdo row <- get_row T m;
                       pdo s <- lift (mapM (py_nth row) (zrange 0 nfilts));
                       set_item myu m (fadd (fmul (Fin lam_myu) p) (fmul (Fin w) (fsum s))));
  pdo u <- read1 myu; pdo t <- read2 T;
  new2 (map2 (fun u row => map (fun t => fdiv (fmul (Fin k) t) u) row) u t).
(** pncc.py:249-271 *)
Definition noise_suppression_mem (Q : arr2) (threshold : R) : prog arr2 :=
  pdo le <- asymmetric_lowpass_mem Q 0.999 0.5;
  pdo q <- read2 Q; pdo e <- read2 le;
  pdo sub <- new2 (map2 (map2 fsub) q e);
  pdo s <- read2 sub;
  pdo Q0 <- new2 (map (map (fun v => if fltb v (Fin threshold) then f0 else v)) s);
  pdo Qf <- asymmetric_lowpass_mem Q0 0.999 0.5;
  pdo Qtm <- temporal_masking_mem Q0 0.85 0.2;
  pdo q <- read2 Q; pdo e <- read2 le; pdo tm <- read2 Qtm; pdo qf <- read2 Qf;
  let cond := map2 (map2 (fun q e => fgeb q (fmul (Fin 2) e))) q e in
  new2 (map2 (map2 (fun (c : bool) v => if c then fst v else snd v)) cond (map2 (map2 pair) tm qf)).
(** pncc.py:428-444 *)
Definition pncc_core_mem (P : arr2) (nfilts : Z) : prog arr2 :=
  pdo Q <- medium_mem P 2;
  pdo Rt <- noise_suppression_mem Q 0;
  pdo St <- weight_smoothing_mem Rt Q nfilts 4;
  pdo p <- read2 P; pdo s <- read2 St;
  pdo T <- new2 (map2 (map2 fmul) p s);
  pdo U <- mean_power_mem T 0.999 nfilts 1;
  map_mem (map (map (fun u => fpow u (1 / 15)))) U.
(** pncc.py:274-457 *)
Definition pncc_mem `{Env} (sig : arr1) (a : sargs) (power : nat) (c : cargs) (fbanks : option arr2) : prog arr2 :=
  if (s_nfilts a <? c_num_ceps c)%Z then lift (Raise (ParameterError msg_nfilts))
  else
    pdo fbanks <- bank_mem (rmap fst (gammatone_filter_banks (s_nfilts a) (s_nfft a) (s_fs a) (s_low a)
                                        (s_high a) (s_scale a) 4 (s_approach a))) fbanks;
    pdo (_, windows) <- framed_mem sig (s_fs a) (s_pre_emph a) (s_coeff a) (s_window a);
    pdo fourrier <- fft_magnitude_mem windows (s_nfft a);
    pdo f <- read2 fourrier; pdo b <- read2 fbanks;
    pdo d <- lift (np_dot_T (map (map (fun v => fmul (Fin (1 / IZR (s_nfft a))) (fpown v power))) f) b);
    pdo P <- new2 d;
    pdo V <- pncc_core_mem P (s_nfilts a);
    finish_mem (mkC (c_num_ceps c) (c_dct_type c) false (c_lifter c) (c_normalize c)) (s_nfft a) V V.

(** ** utils/filters.py, features/rplp.py *)
(** filters.py:37-46; the filter state is a value *)
Fixpoint rasta_loop (x y : arr2) (z : list F) (rows : list nat) : prog unit :=
  match rows with
  | [] => ret tt
  | i :: t => pdo row <- read_row x i;
              pdo yz <- lift (rasta_row z row);
              pdo _ <- write_row y i (fst yz);
              rasta_loop x y (snd yz) t
  end.
(** filters.py:17-47 *)
Definition rasta_filter_mem (x : arr2) : prog arr2 :=
  pdo y <- zeros2 (r2 x) (c2 x);
  pdo _ <- rasta_loop x y (lfilter_zi_fir rasta_numer) (seq 0 (r2 x));
  ret y.
(** rplp.py:28-179; lpcs is filled and dropped *)
Definition rastaplp_mem `{Env} (sig : arr1) (a : sargs) (order : Z) (do_rasta : bool)
    (lifter : option R) (normalize : option string) (fbanks : option arr2) : prog arr2 :=
  if (s_nfilts a <? order)%Z then lift (Raise (ParameterError msg_nfilts))
  else
    pdo fbanks <- bank_mem (rmap fst (bark_filter_banks (s_nfilts a) (s_nfft a) (s_fs a) (s_low a)
                                        (s_high a) (s_scale a) (s_approach a))) fbanks;
    pdo (_, windows) <- framed_mem sig (s_fs a) (s_pre_emph a) (s_coeff a) (s_window a);
    pdo fourrier <- fft_magnitude_mem windows (s_nfft a);
    pdo auditory <- bands_mem fourrier fbanks (s_nfft a);
    pdo auditory <- (if do_rasta
                     then pdo logs <- map_mem (map (map flog)) auditory;
                          pdo r <- rasta_filter_mem logs;
                          map_mem (map (map fexp)) r
                     else ret auditory);
    pdo L <- map_mem (map (map compressed)) auditory;
    pdo l <- read2 L;
    pdo inverse <- lift (np_ifft l (s_nfft a));
    pdo inverse <- new2 (map (map cabs) inverse);
    if (order <? 0)%Z then lift (Raise ValueError)
    else
      pdo lpcs <- zeros2 (r2 L) (Z.to_nat order);
      pdo lpccs <- zeros2 (r2 L) (Z.to_nat order);
      pdo _ <- forM (seq 0 (r2 L))
                 (fun i => pdo row <- read_row inverse i;
                           pdo (c, e) <- lift (lpc_helper row (order - 1));
                           pdo _ <- write_row lpcs i c;
                           pdo k <- lift (lpc2lpcc c e order);
                           write_row lpccs i k);
      pdo lpccs <- match lifter with Some l => lifter_ceps_mem lpccs l | None => ret lpccs end;
      match normalize with
      | Some t => if String.eqb t "" then ret lpccs else normalize_ceps_mem lpccs t
      | None => ret lpccs
      end.

(** ** frequencies/fundamental_frequencies.py *)
(** one turn of the loop in lines 249-266; assignments happen where the code has them *)
Definition yin_turn (frame : arr1) (fs tau_min tau_max : Z) (th : R) (pitches rates argmins : arr1) (i : nat) : prog unit :=
  pdo x <- read1 frame;
  pdo cmdf <- lift (compute_cmnd (compute_difference x tau_max) tau_max);
  pdo p <- lift (get_pitch cmdf tau_min tau_max th);
  pdo am <- lift (np_argmin cmdf);
  pdo _ <- (if (tau_min <? Z.of_nat am)%Z then write1 argmins i (fdiv (fZ fs) (fnat am)) else ret tt);
  if negb (p =? 0)%Z then
    pdo _ <- write1 pitches i (fdiv (fZ fs) (fZ p));
    pdo r <- lift (py_nth cmdf p);
    write1 rates i r
  else
    pdo r <- lift (py_min cmdf);
    write1 rates i r.
(** fundamental_frequencies.py:129-268; the frames are slices of the caller's array *)
Definition compute_yin_mem `{Env} (sig : arr1) (fs : Z) (wlen whop low high th : R)
  : prog (arr1 * arr1 * arr1 * arr1) :=
  if Req_EM_T high 0 then lift (Raise ZeroDivisionError)
  else if Req_EM_T low 0 then lift (Raise ZeroDivisionError)
  else
    let tau_min := Ztrunc (rnd (IZR fs / high)) in
    let tau_max := Ztrunc (rnd (IZR fs / low)) in
    let w_len := Ztrunc (rnd (wlen * IZR fs)) in
    let w_step := Ztrunc (rnd (whop * IZR fs)) in
    pdo time_scale <- lift (range_step (Z.of_nat (n1 sig) - w_len) w_step);
    pdo times <- lift (mapM (fun t => if (fs =? 0)%Z then Raise ZeroDivisionError
                                      else Ok (fdiv (fZ t) (fZ fs))) time_scale);
    pdo times <- new1 times;
    pdo pitches <- zeros1 (List.length time_scale);
    pdo rates <- zeros1 (List.length time_scale);
    pdo argmins <- zeros1 (List.length time_scale);
    pdo _ <- forM (combine (seq 0 (List.length time_scale)) time_scale)
               (fun it => yin_turn (slice1 sig (snd it) (snd it + w_len)) fs tau_min tau_max th
                                   pitches rates argmins (fst it));
    ret (pitches, rates, argmins, times).

(** ** frequencies/dominant_frequencies.py *)
(** dominant_frequencies.py:16-164; [butter] as in Dominant.v *)
Definition dominant_mem `{Env} (sig : arr1) (fs : Z) (butter : option (list F * list F))
    (nfft : Z) (wlen whop : R) (wtype : string) (only_positive : bool) : prog arr1 :=
  pdo sig <- match butter with Some (b, a) => pdo x <- read1 sig; new1 (lfilter b a x) | None => ret sig end;
  pdo (frames, frame_length) <- framing_mem sig fs wlen whop;
  pdo windows <- windowing_mem frames frame_length wtype;
  pdo d <- mapP (fun i => pdo w <- read_row windows i; lift (dominant_of nfft fs w)) (seq 0 (r2 windows));
  new1 (let d := map fround3 d in if only_positive then filter (fun v => fgeb v f0) d else d).

(** ** features/cqcc.py, features/spfeats.py *)
(** cqcc.py:116-150 with spectral.py:72-128: the windows are read, the arrays a, kernel and spec of
    spectral.py are local and count as values *)
Definition cqt_values_mem `{Env} (sig : arr1) (a : qargs) : prog (list (list cplx)) :=
  let high := or_half (q_high a) (q_fs a) in
  if Rltb (IZR (q_fs a) / 2) high then lift (Raise (ParameterError msg_high_freq))
  else
    pdo (_, windows) <- framed_mem sig (q_fs a) (q_pre_emph a) (q_coeff a) (q_window a);
    let w := match q_window a with None => default_window | Some w => w end in
    pdo x <- read2 windows;
    lift (compute_constant_qtransform x (q_fs a) (q_low a) (Some high) (q_nfft a) (q_octaves a)
            (q_bins a) (win_type w) (q_threshold a) (q_f0 a) (q_rate a)).
(** cqcc.py:28-152; the caller keeps np.real and np.imag of the result as arrays of their own *)
Definition cqt_spectrogram_mem `{Env} (sig : arr1) (a : qargs) : prog (arr2 * arr2) :=
  pdo q <- cqt_values_mem sig a;
  pdo re <- new2 (map (map fst) q);
  pdo im <- new2 (map (map snd) q);
  ret (re, im).
(** cqcc.py:264-305 *)
Definition cqcc_mem `{Env} (sig : arr1) (a : qargs) (ratio : R) (c : cargs) : prog arr2 :=
  pdo q <- cqt_values_mem sig a;
  pdo power_spectrum <- new2 (map (map (fun z => fpown (cabs z) 2)) q);
  pdo logs <- map_mem log_features power_spectrum;
  pdo l <- read2 logs;
  let features := transposed NaN l in
  pdo r <- lift (resample features (Ztrunc (rnd (INR (List.length features) * ratio))));
  pdo r <- new2 r;
  finish_mem (mkC (c_num_ceps c) (c_dct_type c) false (c_lifter c) (c_normalize c)) (q_nfft a) r r.
(** spfeats.py:267-336: sig is read, the entries of the dictionary are new *)
Definition extract_feats_mem (sig : arr1) (fs nfft : Z) (numbers : spectral_feats -> list F) : prog arr1 :=
  pdo x <- read1 sig;
  pdo f <- lift (extract_feats x fs nfft);
  new1 (numbers f).
