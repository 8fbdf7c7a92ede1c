(** * The remaining extractors and get_dominant_frequencies for signals given as 2-D arrays
    As in Channels.v: only pre-emphasis, framing and the band-pass filter see the array, the rest
    works on the frames. *)
From Coq Require Import Reals ZArith List String Bool.
From Flocq Require Import Core.Raux.
From Verif Require Import Base Cplx Preprocessing Cepstral Converters MelBanks BarkBank Gammatone Filters Fourier Features Lpc Rplp Pncc Cqt
  Dominant Butter Channels.
Import ListNotations.
Local Open Scope R_scope.

(** lpc.py:247-345 (lpcc) *)
Definition lpcc_2d `{Env} (s : array2) (fs order : Z) (pre_emph : bool)
    (window : option SlidingWindow) (lifter : option R) (normalize : option string)
  : result (list (list F)) :=
  let order := (order - 1)%Z in
  do (frames, windows) <- framed_2d s fs pre_emph 0.97 window;
  if (order + 1 <? 0)%Z then Raise ValueError
  else
    do lpccs <- mapM (fun frame => do (a, e) <- lpc_helper frame order;
                                   lpc2lpcc a e (order + 1)) frames;
    do lpccs <- match lifter with
                | Some l => if Reqb l 0 then Ok lpccs else lifter_ceps lpccs l
                | None => Ok lpccs
                end;
    match normalize with
    | Some t => if String.eqb t "" then Ok lpccs else normalize_ceps lpccs t
    | None => Ok lpccs
    end.

(** psrcc.py:29-206 (psrcc) *)
Definition psrcc_2d `{Env} (s : array2) (a : sargs) (gamma : R) (c : cargs) : result (list (list F)) :=
  if (s_nfilts a <? c_num_ceps c)%Z then Raise (ParameterError msg_nfilts)
  else
    do fbanks <- match s_fbanks a with
                 | Some b => Ok b
                 | None => rmap fst (mel_filter_banks (s_nfilts a) (s_nfft a) (s_fs a) (s_low a)
                                       (s_high a) (s_scale a) (s_approach a))
                 end;
    do (_, windows) <- framed_2d s (s_fs a) (s_pre_emph a) (s_coeff a) (s_window a);
    do (features, fourrier) <- psrcc_features windows fbanks (s_nfft a) gamma;
    finish c (s_nfft a) features (map (map cabs) fourrier).

(** pncc.py:274-457 (pncc) *)
Definition pncc_2d `{Env} (s : array2) (a : sargs) (power : nat) (c : cargs) : result (list (list F)) :=
  if (s_nfilts a <? c_num_ceps c)%Z then Raise (ParameterError msg_nfilts)
  else
    do fbanks <- match s_fbanks a with
                 | Some b => Ok b
                 | None => rmap fst (gammatone_filter_banks (s_nfilts a) (s_nfft a) (s_fs a) (s_low a)
                                       (s_high a) (s_scale a) 4 (s_approach a))
                 end;
    do (_, windows) <- framed_2d s (s_fs a) (s_pre_emph a) (s_coeff a) (s_window a);
    do fourrier <- fft_magnitude windows (s_nfft a);
    let abs_fft_values := map (map (fun v => fmul (Fin (1 / IZR (s_nfft a))) (fpown v power))) fourrier in
    do P <- np_dot_T abs_fft_values fbanks;
    do V <- pncc_core P (s_nfilts a);
    finish (mkC (c_num_ceps c) (c_dct_type c) false (c_lifter c) (c_normalize c)) (s_nfft a) V [].

(** rplp.py:28-179 (__rastaplp): plp without, rplp with [do_rasta] *)
Definition rastaplp_2d `{Env} (s : array2) (a : sargs) (order : Z) (do_rasta : bool)
    (lifter : option R) (normalize : option string) : result (list (list F)) :=
  if (s_nfilts a <? order)%Z then Raise (ParameterError msg_nfilts)
  else
    do fbanks <- match s_fbanks a with
                 | Some b => Ok b
                 | None => rmap fst (bark_filter_banks (s_nfilts a) (s_nfft a) (s_fs a) (s_low a)
                                       (s_high a) (s_scale a) (s_approach a))
                 end;
    do (_, windows) <- framed_2d s (s_fs a) (s_pre_emph a) (s_coeff a) (s_window a);
    do fourrier <- fft_magnitude windows (s_nfft a);
    do auditory <- np_dot_T (power_frames (s_nfft a) fourrier) fbanks;
    do auditory <- rasta_step do_rasta auditory;
    do inverse <- np_ifft (map (map compressed) auditory) (s_nfft a);
    if (order <? 0)%Z then Raise ValueError
    else
      do lpccs <- mapM (plp_row order) (map (map cabs) inverse);
      do lpccs <- match lifter with Some l => lifter_ceps lpccs l | None => Ok lpccs end;
      match normalize with
      | Some t => if String.eqb t "" then Ok lpccs else normalize_ceps lpccs t
      | None => Ok lpccs
      end.

(** cqcc.py:28-152 (cqt_spectrogram) *)
Definition cqt_spectrogram_2d `{Env} (s : array2) (a : qargs) : result (list (list cplx)) :=
  let high := or_half (q_high a) (q_fs a) in
  if Rltb (IZR (q_fs a) / 2) high then Raise (ParameterError msg_high_freq)
  else
    do (_, windows) <- framed_2d s (q_fs a) (q_pre_emph a) (q_coeff a) (q_window a);
    let w := match q_window a with None => default_window | Some w => w end in
    compute_constant_qtransform windows (q_fs a) (q_low a) (Some high) (q_nfft a) (q_octaves a)
      (q_bins a) (win_type w) (q_threshold a) (q_f0 a) (q_rate a).

(** cqcc.py:155-305 (cqcc) *)
Definition cqcc_2d `{Env} (s : array2) (a : qargs) (ratio : R) (c : cargs) : result (list (list F)) :=
  do q <- cqt_spectrogram_2d s a;
  let power_spectrum := map (map (fun z => fpown (cabs z) 2)) q in
  let features := transposed NaN (log_features power_spectrum) in
  do r <- resample features (Ztrunc (rnd (INR (List.length features) * ratio)));
  finish (mkC (c_num_ceps c) (c_dct_type c) false (c_lifter c) (c_normalize c)) (q_nfft a) r [].

(** dominant_frequencies.py:119-124: lfilter works along the last axis, so every row is filtered
    from rest on its own; the result is a new array laid out row after row *)
Definition lfilter_2d (ba : list F * list F) (s : array2) : array2 :=
  mkArray (map (lfilter (fst ba) (snd ba)) (rows2 s)) (cols2 s) COrder.
(** dominant_frequencies.py:16-164 (get_dominant_frequencies) *)
Definition get_dominant_frequencies_2d `{Env} (s : array2) (fs : Z) (butter_filter : bool) (lower upper : R)
    (nfft : Z) (wlen whop : R) (wtype : string) (only_positive : bool) : result (list F) :=
  do s <- (if butter_filter then do ba <- butter_design fs lower upper; Ok (lfilter_2d ba s) else Ok s);
  do (frames, frame_length) <- framing_2d s fs wlen whop;
  do windows <- windowing frames frame_length wtype;
  do dominant_frequencies <- mapM (dominant_of nfft fs) windows;
  let dominant_frequencies := map fround3 dominant_frequencies in
  Ok (if only_positive then filter (fun v => fgeb v f0) dominant_frequencies
      else dominant_frequencies).
