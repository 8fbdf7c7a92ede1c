(** * Model of the filter-bank feature extractors: spafe/features/mfcc.py, lfcc.py, bfcc.py,
    gfcc.py, ngcc.py, msrcc.py, psrcc.py *)
From Coq Require Import Reals ZArith List String Bool.
From Verif Require Import Base Cplx Preprocessing Filters Cepstral MelBanks BarkBank Gammatone Fourier.
Import ListNotations.
Local Open Scope R_scope.

(** The arguments common to the spectrogram functions (mfcc.py:31-41, lfcc.py:30-39,
    bfcc.py:52-62, gfcc.py:31-41); functions without a conversion approach ignore the field. *)
Record sargs := mkS {
  s_fs : Z; s_pre_emph : bool; s_coeff : R; s_window : option SlidingWindow;
  s_nfilts : Z; s_nfft : Z; s_low : R; s_high : option R; s_scale : string;
  s_fbanks : option (list (list F)); s_approach : string }.
(** The further arguments of the cepstral functions (mfcc.py:169, 178-181 and alike) *)
Record cargs := mkC {
  c_num_ceps : Z; c_dct_type : Z; c_use_energy : bool; c_lifter : option R;
  c_normalize : option string }.

(** default arguments, mfcc.py:31-41 and mfcc.py:169-181 *)
Definition default_sargs : sargs :=
  mkS 16000 true 0.97 None 24 512 0 None "constant" None "Oshaghnessy".
Definition default_cargs : cargs := mkC 13 2 false None None.

(** pre-emphasis, framing and windowing: the same lines in mfcc.py:137-151, lfcc.py:128-142,
    bfcc.py:158-172, gfcc.py:136-150, ngcc.py:152-166, psrcc.py:150-164 and lpc.py:177-191
    (with a coefficient that differs).  Returns the frames and the windowed frames. *)
Definition framed `{Env} (sig : list F) (fs : Z) (pre_emph : bool) (coeff : R)
    (window : option SlidingWindow) : result (list (list F) * list (list F)) :=
  do sig <- (if pre_emph then pre_emphasis sig coeff else Ok sig);
  let w := match window with None => default_window | Some w => w end in
  do (frames, frame_length) <- framing sig fs (win_len w) (win_hop w);
  do windows <- windowing frames frame_length (win_type w);
  Ok (frames, windows).

(** np.absolute(np.fft.fft(windows, nfft))[:, : int(nfft / 2) + 1], mfcc.py:155-156,
    lfcc.py:146-147, gfcc.py:154-155 *)
Definition fft_magnitude (windows : list (list F)) (nfft : Z) : result (list (list F)) :=
  do X <- np_fft windows nfft;
  Ok (map (fun row => py_take (Z.quot nfft 2 + 1) (map cabs row)) X).
(** np.absolute(np.fft.rfft(windows, nfft)), bfcc.py:176, ngcc.py:169 *)
Definition rfft_magnitude (windows : list (list F)) (nfft : Z) : result (list (list F)) :=
  do X <- np_rfft windows nfft; Ok (map (map cabs) X).

(** (1.0 / nfft) * np.square(.) and np.dot(., fbanks.T), mfcc.py:159-162 and alike *)
Definition power_frames (nfft : Z) (mag : list (list F)) : list (list F) :=
  map (map (fun v => fmul (Fin (1 / IZR nfft)) (fmul v v))) mag.

(** spafe/features/mfcc.py:29-163 (mel_spectrogram) *)
Definition mel_spectrogram `{Env} (sig : list F) (a : sargs)
  : result (list (list F) * list (list F)) :=
  do fbanks <- match s_fbanks a with
               | Some b => Ok b
               | None => rmap fst (mel_filter_banks (s_nfilts a) (s_nfft a) (s_fs a) (s_low a)
                                     (s_high a) (s_scale a) (s_approach a))
               end;
  do (_, windows) <- framed sig (s_fs a) (s_pre_emph a) (s_coeff a) (s_window a);
  do fourrier <- fft_magnitude windows (s_nfft a);
  do features <- np_dot_T (power_frames (s_nfft a) fourrier) fbanks;
  Ok (features, fourrier).

(** spafe/features/lfcc.py:28-154 (linear_spectrogram); pre_emph_coeff is not used (line 130) *)
Definition linear_spectrogram `{Env} (sig : list F) (a : sargs)
  : result (list (list F) * list (list F)) :=
  do fbanks <- match s_fbanks a with
               | Some b => Ok b
               | None => rmap fst (linear_filter_banks (s_nfilts a) (s_nfft a) (s_fs a) (s_low a)
                                     (s_high a) (s_scale a))
               end;
  do (_, windows) <- framed sig (s_fs a) (s_pre_emph a) 0.97 (s_window a);
  do fourrier <- fft_magnitude windows (s_nfft a);
  do features <- np_dot_T (power_frames (s_nfft a) fourrier) fbanks;
  Ok (features, fourrier).

(** spafe/features/bfcc.py:50-183 (bark_spectrogram); pre_emph_coeff is not used (line 160) *)
Definition bark_spectrogram `{Env} (sig : list F) (a : sargs)
  : result (list (list F) * list (list F)) :=
  do fbanks <- match s_fbanks a with
               | Some b => Ok b
               | None => rmap fst (bark_filter_banks (s_nfilts a) (s_nfft a) (s_fs a) (s_low a)
                                     (s_high a) (s_scale a) (s_approach a))
               end;
  do (_, windows) <- framed sig (s_fs a) (s_pre_emph a) 0.97 (s_window a);
  do fourrier <- rfft_magnitude windows (s_nfft a);
  do features <- np_dot_T (power_frames (s_nfft a) fourrier) fbanks;
  Ok (features, fourrier).

(** spafe/features/gfcc.py:29-162 (erb_spectrogram); the order of the filters is left at 4,
    pre_emph_coeff is not used (line 138) *)
Definition erb_spectrogram `{Env} (sig : list F) (a : sargs)
  : result (list (list F) * list (list F)) :=
  do fbanks <- match s_fbanks a with
               | Some b => Ok b
               | None => rmap fst (gammatone_filter_banks (s_nfilts a) (s_nfft a) (s_fs a) (s_low a)
                                     (s_high a) (s_scale a) 4 (s_approach a))
               end;
  do (_, windows) <- framed sig (s_fs a) (s_pre_emph a) 0.97 (s_window a);
  do fourrier <- fft_magnitude windows (s_nfft a);
  do features <- np_dot_T (power_frames (s_nfft a) fourrier) fbanks;
  Ok (features, fourrier).

(** ceps[:, 0] = v *)
Definition set_col0 (ceps : list (list F)) (v : list F) : result (list (list F)) :=
  if Nat.eqb (ncols ceps) 0 then Raise IndexError
  else Ok (map2 (fun row x => x :: tl row) ceps v).

(** np.log(zero_handling(np.sum((1.0 / nfft) * np.absolute(.)**2, 1))), mfcc.py:305-313 *)
Definition log_energy (nfft : Z) (mag : list (list F)) : list F :=
  map flog (zero_handling (map fsum
    (map (map (fun v => fmul (Fin (1 / IZR nfft)) (fpown (fabs v) 2))) mag))).

(** the end of every cepstral function, from the DCT on: mfcc.py:299-323, lfcc.py:281-304,
    bfcc.py:322-346, gfcc.py:302-326, ngcc.py:180-204, msrcc.py:156-180, psrcc.py:182-206.
    "if lifter" is false for None and 0, "if normalize" for None and "". *)
Definition finish (c : cargs) (nfft : Z) (feats mag : list (list F)) : result (list (list F)) :=
  do d <- sp_dct feats (c_dct_type c);
  let ceps := map (py_take (c_num_ceps c)) d in
  do ceps <- (if c_use_energy c then set_col0 ceps (log_energy nfft mag) else Ok ceps);
  do ceps <- match c_lifter c with
             | Some l => if Reqb l 0 then Ok ceps else lifter_ceps ceps l
             | None => Ok ceps
             end;
  match c_normalize c with
  | Some t => if String.eqb t "" then Ok ceps else normalize_ceps ceps t
  | None => Ok ceps
  end.

(** np.log(zero_handling(features)) *)
Definition log_features (features : list (list F)) : list (list F) :=
  map (fun row => map flog (zero_handling row)) features.

(** spafe/features/mfcc.py:166-323 (mfcc) *)
Definition mfcc `{Env} (sig : list F) (a : sargs) (c : cargs) : result (list (list F)) :=
  if (s_nfilts a <? c_num_ceps c)%Z then Raise (ParameterError msg_nfilts)
  else
    do (features, fourrier) <- mel_spectrogram sig a;
    finish c (s_nfft a) (log_features features) fourrier.

Definition with_fbanks (a : sargs) (b : list (list F)) : sargs :=
  mkS (s_fs a) (s_pre_emph a) (s_coeff a) (s_window a) (s_nfilts a) (s_nfft a) (s_low a) (s_high a)
      (s_scale a) (Some b) (s_approach a).

(** spafe/features/mfcc.py:326-462 (imfcc) *)
Definition imfcc `{Env} (sig : list F) (a : sargs) (c : cargs) : result (list (list F)) :=
  if (s_nfilts a <? c_num_ceps c)%Z then Raise (ParameterError msg_nfilts)
  else
    do fbanks <- match s_fbanks a with
                 | Some b => Ok b
                 | None => rmap fst (inverse_mel_filter_banks (s_nfilts a) (s_nfft a) (s_fs a)
                                       (s_low a) (s_high a) (s_scale a) (s_approach a))
                 end;
    mfcc sig (with_fbanks a fbanks) c.

(** spafe/features/lfcc.py:157-304 (lfcc) *)
Definition lfcc `{Env} (sig : list F) (a : sargs) (c : cargs) : result (list (list F)) :=
  if (s_nfilts a <? c_num_ceps c)%Z then Raise (ParameterError msg_nfilts)
  else
    do (features, fourrier) <- linear_spectrogram sig a;
    finish c (s_nfft a) (log_features features) fourrier.

(** spafe/features/bfcc.py:29-47 (intensity_power_law), one entry; c * 10**p in the reals *)
Definition ipl (w : F) : F :=
  let f w c (p : nat) := fadd (fpown w 2) (Fin (c * 10 ^ p)) in
  fpow (fdiv (fmul (f w 56.8 6%nat) (fpown w 4))
             (fmul (fmul (f w 6.3 6%nat) (f w 0.38 9%nat)) (f (fpown w 3) 9.58 26%nat)))
       (1 / 3).
Definition intensity_power_law (w : list (list F)) : list (list F) := map (map ipl) w.

(** spafe/features/bfcc.py:186-346 (bfcc) *)
Definition bfcc `{Env} (sig : list F) (a : sargs) (c : cargs) : result (list (list F)) :=
  if (s_nfilts a <? c_num_ceps c)%Z then Raise (ParameterError msg_nfilts)
  else
    do (features, fourrier) <- bark_spectrogram sig a;
    finish c (s_nfft a) (log_features (intensity_power_law features)) fourrier.

(** spafe/features/gfcc.py:165-326 (gfcc) *)
Definition gfcc `{Env} (sig : list F) (a : sargs) (c : cargs) : result (list (list F)) :=
  if (s_nfilts a <? c_num_ceps c)%Z then Raise (ParameterError msg_nfilts)
  else
    do (features, fourrier) <- erb_spectrogram sig a;
    finish c (s_nfft a) (map (map (fun v => fpow v (1 / 3))) features) fourrier.

(** spafe/features/ngcc.py:29-204 (ngcc) *)
Definition ngcc `{Env} (sig : list F) (a : sargs) (c : cargs) : result (list (list F)) :=
  if (s_nfilts a <? c_num_ceps c)%Z then Raise (ParameterError msg_nfilts)
  else
    do fbanks <- match s_fbanks a with
                 | Some b => Ok b
                 | None => rmap fst (gammatone_filter_banks (s_nfilts a) (s_nfft a) (s_fs a) (s_low a)
                                       (s_high a) (s_scale a) 4 (s_approach a))
                 end;
    do (_, windows) <- framed sig (s_fs a) (s_pre_emph a) (s_coeff a) (s_window a);
    do fourrier <- rfft_magnitude windows (s_nfft a);
    do features <- np_dot_T (power_frames (s_nfft a) fourrier) fbanks;
    finish c (s_nfft a) (log_features features) fourrier.

(** spafe/features/msrcc.py:23-180 (msrcc) *)
Definition msrcc `{Env} (sig : list F) (a : sargs) (gamma : R) (c : cargs) : result (list (list F)) :=
  if (s_nfilts a <? c_num_ceps c)%Z then Raise (ParameterError msg_nfilts)
  else
    do (features, fourrier) <- mel_spectrogram sig a;
    finish c (s_nfft a) (map (map (fun v => fpow v gamma)) features) fourrier.

(** np.angle(z, deg=True); a zero imaginary part counts as +0 *)
Definition fatan2 (y x : F) : F :=
  match y, x with
  | Fin b, Fin a =>
      if Rlt_dec 0 a then Fin (atan (b / a))
      else if Rlt_dec a 0 then Fin (if Rle_dec 0 b then atan (b / a) + PI else atan (b / a) - PI)
      else Fin (if Rlt_dec 0 b then PI / 2 else if Rlt_dec b 0 then - (PI / 2) else 0)
  | NaN, _ | _, NaN => NaN
  | Fin b, PInf => Fin 0
  | Fin b, NInf => Fin (if Rle_dec 0 b then PI else - PI)
  | PInf, Fin _ => Fin (PI / 2)
  | NInf, Fin _ => Fin (- (PI / 2))
  | PInf, PInf => Fin (PI / 4)
  | PInf, NInf => Fin (3 * PI / 4)
  | NInf, PInf => Fin (- (PI / 4))
  | NInf, NInf => Fin (- (3 * PI / 4))
  end.
Definition angle_deg (z : cplx) : F := fmul (fatan2 (snd z) (fst z)) (Fin (180 / PI)).

(** spafe/features/psrcc.py:169 *)
Definition fbool (b : bool) : F := if b then f1 else f0.
Definition wrap_phase (p : F) : F :=
  fadd (fmul (fadd (Fin 360) p) (fbool (fltb p f0))) (fmul p (fbool (fltb f0 p))).

Definition is_nan (x : F) : bool := match x with NaN => true | _ => false end.
Definition is_inf (x : F) : bool := match x with PInf | NInf => true | _ => false end.

(** spafe/features/psrcc.py:167-180, from the windows to the matrix given to the DCT *)
Definition psrcc_features (windows fbanks : list (list F)) (nfft : Z) (gamma : R)
  : result (list (list F) * list (list cplx)) :=
  do fourrier <- np_rfft windows nfft;
  let phases := map (map (fun z => wrap_phase (angle_deg z))) fourrier in
  do features <- np_dot_T phases fbanks;
  let features := map (map (fun v => fpow v gamma)) features in
  let features := map (map (fun v => if is_nan v then f0 else v)) features in
  do mx <- fmaxl (List.concat features);
  Ok (map (map (fun v => if is_inf v then mx else v)) features, fourrier).

(** spafe/features/psrcc.py:29-206 (psrcc) *)
Definition psrcc `{Env} (sig : list F) (a : sargs) (gamma : R) (c : cargs) : result (list (list F)) :=
  if (s_nfilts a <? c_num_ceps c)%Z then Raise (ParameterError msg_nfilts)
  else
    do fbanks <- match s_fbanks a with
                 | Some b => Ok b
                 | None => rmap fst (mel_filter_banks (s_nfilts a) (s_nfft a) (s_fs a) (s_low a)
                                       (s_high a) (s_scale a) (s_approach a))
                 end;
    do (_, windows) <- framed sig (s_fs a) (s_pre_emph a) (s_coeff a) (s_window a);
    do (features, fourrier) <- psrcc_features windows fbanks (s_nfft a) gamma;
    finish c (s_nfft a) features (map (map cabs) fourrier).
