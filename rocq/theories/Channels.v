(** * Signals given as 2-D arrays
    The docstrings call the signal "a mono audio signal (Nx1)"; wave readers return N x c arrays,
    other libraries c x N arrays.  Nothing in spafe checks the number of dimensions. *)
From Coq Require Import Reals ZArith List String Bool.
From Verif Require Import Base Preprocessing Cepstral MelBanks BarkBank Gammatone Fourier Features Extractors Lpc.
Import ListNotations.
Local Open Scope R_scope.

(** How np.array (preprocessing.py:91, order="K") lays out its copy of a 2-D array: row after row,
    or column after column when the argument has that order.  An array with a single row or
    column counts as row after row. *)
Inductive layout := COrder | FOrder.
(** an array of [rows2], each of [cols2] samples, cols2 >= 1 *)
Record array2 := mkArray { rows2 : list (list F); cols2 : nat; lay2 : layout }.
Definition layout_of (s : array2) : layout :=
  if Nat.eqb (List.length (rows2 s)) 1 || Nat.eqb (cols2 s) 1 then COrder else lay2 s.
(** the memory of the copy and a.strides[0] in elements, preprocessing.py:91-93 *)
Definition memory (s : array2) : list F :=
  match layout_of s with
  | COrder => List.concat (rows2 s)
  | FOrder => List.concat (map (fun j => map (fun row => nth j row NaN) (rows2 s)) (seq 0 (cols2 s)))
  end.
Definition first_stride (s : array2) : Z :=
  match layout_of s with COrder => Z.of_nat (cols2 s) | FOrder => 1%Z end.

(** preprocessing.py:72 for a 2-D array: lfilter works along the last axis, and its result is a
    slice of a new array laid out row after row *)
Definition pre_emphasis_2d (s : array2) (coeff : R) : result array2 :=
  match rows2 s with
  | [] => Raise ValueError
  | rows => do r <- mapM (fun row => pre_emphasis row coeff) rows; Ok (mkArray r (cols2 s) COrder)
  end.
(** preprocessing.py:99-143 for a 2-D array *)
Definition framing_2d `{Env} (s : array2) (fs : Z) (wlen whop : R) : result (list (list F) * Z) :=
  framing_strided (first_stride s) (memory s) fs wlen whop.

(** the lines quoted at [framed] in Features.v *)
Definition framed_2d `{Env} (s : array2) (fs : Z) (pre_emph : bool) (coeff : R)
    (window : option SlidingWindow) : result (list (list F) * list (list F)) :=
  do s <- (if pre_emph then pre_emphasis_2d s coeff else Ok s);
  let w := match window with None => default_window | Some w => w end in
  do (frames, frame_length) <- framing_2d s fs (win_len w) (win_hop w);
  do windows <- windowing frames frame_length (win_type w);
  Ok (frames, windows).

(** mfcc.py:117-163, lfcc.py:108-154, bfcc.py:138-183, gfcc.py:116-162, ngcc.py:139-177: bank,
    frames, magnitudes, band energies *)
Definition gram_2d `{Env} (bank : result (list (list F))) (coeff : R)
    (magnitude : list (list F) -> Z -> result (list (list F))) (s : array2) (a : sargs)
  : result (list (list F) * list (list F)) :=
  do fbanks <- bank;
  do (_, windows) <- framed_2d s (s_fs a) (s_pre_emph a) coeff (s_window a);
  do mag <- magnitude windows (s_nfft a);
  do features <- np_dot_T (power_frames (s_nfft a) mag) fbanks;
  Ok (features, mag).
(** mel_spectrogram, linear_spectrogram, bark_spectrogram, erb_spectrogram *)
Definition spectrogram_2d `{Env} (sp : spectro) (s : array2) (a : sargs) : result (list (list F) * list (list F)) :=
  gram_2d (spectro_bank sp a) (spectro_coeff sp a) (match sp with Bark => rfft_magnitude | _ => fft_magnitude end) s a.
(** mfcc.py:166-323, 326-462, lfcc.py:157-304, bfcc.py:186-346, gfcc.py:165-326, ngcc.py:29-204, msrcc.py:23-180 *)
Definition compress_2d (e : extractor) (features : list (list F)) : list (list F) :=
  match e with
  | Mfcc | Imfcc | Lfcc | Ngcc => log_features features
  | Bfcc => log_features (intensity_power_law features)
  | Gfcc => map (map (fun v => fpow v (1 / 3))) features
  | Msrcc g => map (map (fun v => fpow v g)) features
  end.
Definition run_2d `{Env} (e : extractor) (s : array2) (a : sargs) (c : cargs) : result (list (list F)) :=
  if (s_nfilts a <? c_num_ceps c)%Z then Raise (ParameterError msg_nfilts)
  else
    do (features, mag) <- gram_2d (extractor_bank e a) (extractor_coeff e a)
                            (match e with Bfcc | Ngcc => rfft_magnitude | _ => fft_magnitude end) s a;
    finish c (s_nfft a) (compress_2d e features) mag.
(** lpc.py:177-201 *)
Definition lpc_2d `{Env} (s : array2) (fs order : Z) (pre_emph : bool) (window : option SlidingWindow)
  : result (list (list F) * list (list F)) :=
  let order := (order - 1)%Z in
  do (frames, windows) <- framed_2d s fs pre_emph 0.97 window;
  if (order + 1 <? 0)%Z then Raise ValueError
  else
    do rows <- mapM (fun frame => lpc_helper frame order) frames;
    Ok (map fst rows, map (fun ae => [snd ae]) rows).
