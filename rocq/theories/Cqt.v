(** * Model of spafe/utils/spectral.py (constant-Q transform) and spafe/features/cqcc.py *)
From Coq Require Import Reals ZArith List String Bool.
From Flocq Require Import Core.Raux.
From Verif Require Import Base Cplx Preprocessing Cepstral Fourier Features.
Import ListNotations.
Local Open Scope R_scope.

(** spectral.py:75-81 (tmp_cqt_freqs) *)
Definition tmp_cqt_freqs (f0 : R) (octaves bins : Z) : list R :=
  flat_map (fun m => map (fun n => f0 * Rpower 2 (IZR (m * bins + n) / IZR bins)) (zrange 0 bins))
           (zrange 0 octaves).

(** np.ceil(Q * fs / cqt_freqs).astype(np.int64), spectral.py:90, for a frequency that is not 0
    (numpy's value for a division by zero depends on the platform) *)
Definition cqt_win_len (Q : R) (fs : Z) (f : R) : Z := Zceil (Q * IZR fs / f).

Definition czero : cplx := (f0, f0).

(** bin k of the n-point DFT of n complex samples (np.fft.fft) *)
Definition cdft_bin (n : nat) (x : list cplx) (k : nat) : cplx :=
  csum (map (fun j => cmul (nth j x czero) (cexpi (Fin (- (2 * PI * INR (j * k) / INR n))))) (seq 0 n)).

(** spectral.py:103-112: row k of the array a.  A window length below 1 leaves the row 0. *)
Definition cqt_atom (fs nfft : Z) (wt : string) (fk : R) (Nk : Z) : result (list cplx) :=
  let start_index := Z.quot (nfft - Nk) 2 in
  let temp_a := map (fun t => cexpi (Fin (2 * PI * (fk / IZR fs) * INR t))) (seq 0 (Z.to_nat Nk)) in
  do w <- windowing_row cscal temp_a Nk wt;
  if (Nk <? 1)%Z then Ok (repeat czero (Z.to_nat nfft))
  else Ok (repeat czero (Z.to_nat start_index) ++ map (cscal (Fin (1 / IZR Nk))) w
           ++ repeat czero (Z.to_nat (nfft - start_index - Nk))).

(** spectral.py:113-117: row k of kernel_sparse *)
Definition cqt_kernel (fs nfft : Z) (wt : string) (threshold : R) (fk : R) (Nk : Z) : result (list cplx) :=
  do a <- cqt_atom fs nfft wt fk Nk;
  if (nfft <? 1)%Z then Raise ValueError
  else let n := Z.to_nat nfft in
       Ok (map (fun k => let z := cdft_bin n a k in
                         let z := if fleb (cabs z) (Fin threshold) then czero else z in
                         cscal (Fin (1 / IZR nfft)) (cconj z)) (seq 0 n)).

(** a vector times a sparse row: stored zeros do not exist, so NaN times 0 does not occur *)
Definition is_czero (z : cplx) : bool := feqb (fst z) f0 && feqb (snd z) f0.
Definition sparse_dot (x k : list cplx) : cplx :=
  csum (map2 (fun a b => if is_czero b then czero else cmul a b) x k).

(** spectral.py:72-127: the array spec, one row per frame *)
Definition cqt_frames (frames : list (list F)) (fs : Z) (low : R) (high : option R) (nfft octaves bins : Z)
    (wt : string) (threshold f0 q_rate : R) : result (list (list cplx)) :=
  let high := or_half high fs in
  let cqt_freqs := filter (fun f => Rleb low f && Rleb f high) (tmp_cqt_freqs f0 octaves bins) in
  do Q <- (if (bins =? 0)%Z then Raise ZeroDivisionError
           else Ok (q_rate / (Rpower 2 (1 / IZR bins) - 1)));
  let win_lens := filter (fun N => N <=? nfft)%Z (map (cqt_win_len Q fs) cqt_freqs) in
  let cqt_freqs := py_drop (-1 * zlen win_lens) cqt_freqs in
  if (nfft <? 0)%Z then Raise ValueError
  else
    do kernel <- mapM (fun k => do Nk <- py_nth win_lens (Z.of_nat k);
                                cqt_kernel fs nfft wt threshold (nth k cqt_freqs 0) Nk)
                      (seq 0 (List.length cqt_freqs));
    do X <- np_fft frames nfft;
    Ok (map (fun x => map (sparse_dot x) kernel) X).

(** spec.T for n_pitch rows; frames is not empty *)
Definition transposed {A} (d : A) (m : list (list A)) : list (list A) :=
  map (fun j => map (fun row => nth j row d) m) (seq 0 (ncols m)).

(** spafe/utils/spectral.py:19-128 (compute_constant_qtransform) *)
Definition compute_constant_qtransform (frames : list (list F)) (fs : Z) (low : R) (high : option R)
    (nfft octaves bins : Z) (wt : string) (threshold f0 q_rate : R) : result (list (list cplx)) :=
  rmap (transposed czero) (cqt_frames frames fs low high nfft octaves bins wt threshold f0 q_rate).

(** The arguments of cqcc.py:28-42 *)
Record qargs := mkQ {
  q_fs : Z; q_pre_emph : bool; q_coeff : R; q_window : option SlidingWindow; q_nfft : Z;
  q_low : R; q_high : option R; q_octaves : Z; q_bins : Z; q_threshold : R; q_f0 : R; q_rate : R }.
(** the default values of cqcc.py:30-41 *)
Definition default_qargs : qargs := mkQ 16000 true 0.97 None 512 0 None 7 24 0.005 120 1.

(** spafe/features/cqcc.py:28-152 (cqt_spectrogram) *)
Definition cqt_spectrogram `{Env} (sig : list F) (a : qargs) : result (list (list cplx)) :=
  let high := or_half (q_high a) (q_fs a) in
  if Rltb (IZR (q_fs a) / 2) high then Raise (ParameterError msg_high_freq)
  else
    do (_, windows) <- framed sig (q_fs a) (q_pre_emph a) (q_coeff a) (q_window a);
    let w := match q_window a with None => default_window | Some w => w end in
    compute_constant_qtransform windows (q_fs a) (q_low a) (Some high) (q_nfft a) (q_octaves a)
      (q_bins a) (win_type w) (q_threshold a) (q_f0 a) (q_rate a).

(** scipy.signal.resample along axis 0 (library function) for real data with [nx] rows: keep the
    DFT bins up to half the smaller size, transform back with the new size.  Entry [s] of the
    weights of output row [t]; the bin at half an even smaller size counts twice when rows are
    dropped and once otherwise, any other bin but 0 counts for two. *)
Definition resample_bin (nx num k : nat) : R :=
  let n := Nat.min num nx in
  if Nat.eqb k 0 then 1
  else if Nat.eqb (2 * k) n then (if Nat.ltb num nx then 2 else 1) else 2.
Definition resample_weight (nx num t s : nat) : R :=
  / INR nx * fold_right Rplus 0 (map (fun k =>
     resample_bin nx num k * cos (2 * PI * INR k * (INR t / INR num - INR s / INR nx)))
     (seq 0 (S (Nat.min num nx / 2)))).
Definition resample (x : list (list F)) (num : Z) : result (list (list F)) :=
  if (num <? 1)%Z then Raise ValueError
  else
    let nx := List.length x in let n := Z.to_nat num in
    Ok (map (fun t => map (fun j => fdot (column NaN x j) (map (fun s => Fin (resample_weight nx n t s)) (seq 0 nx)))
                          (seq 0 (ncols x))) (seq 0 n)).

(** spafe/features/cqcc.py:155-305 (cqcc).  int(len(log_features) * resampling_ratio) is one
    rounded product, truncated. *)
Definition cqcc `{Env} (sig : list F) (a : qargs) (ratio : R) (c : cargs) : result (list (list F)) :=
  do q <- cqt_spectrogram sig a;
  let power_spectrum := map (map (fun z => fpown (cabs z) 2)) q in
  let features := transposed NaN (log_features power_spectrum) in
  do r <- resample features (Ztrunc (rnd (INR (List.length features) * ratio)));
  finish (mkC (c_num_ceps c) (c_dct_type c) false (c_lifter c) (c_normalize c)) (q_nfft a) r [].
