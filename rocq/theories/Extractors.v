(** * Names for the feature extractors that share one interface, used to state a property
    for all of them at once.  Nothing is modelled here. *)
From Coq Require Import Reals ZArith List String Bool.
From Verif Require Import Base SpecBase SpecMat SpecFilters SpecBanks SpecFeatures Preprocessing PreprocessingFacts
  MelBanks BarkBank Gammatone Fourier Features.
Import ListNotations.
Local Open Scope R_scope.

(** the four spectrogram functions *)
Inductive spectro := Mel | Linear | Bark | Erb.
Definition spectrogram `{Env} (s : spectro) : list F -> sargs -> result (list (list F) * list (list F)) :=
  match s with
  | Mel => mel_spectrogram | Linear => linear_spectrogram
  | Bark => bark_spectrogram | Erb => erb_spectrogram
  end.
(** the filter bank a spectrogram uses: the caller's, or the bank its module computes *)
Definition spectro_bank `{Env} (s : spectro) (a : sargs) : result (list (list F)) :=
  match s_fbanks a with
  | Some b => Ok b
  | None =>
      match s with
      | Mel => rmap fst (mel_filter_banks (s_nfilts a) (s_nfft a) (s_fs a) (s_low a) (s_high a)
                           (s_scale a) (s_approach a))
      | Linear => rmap fst (linear_filter_banks (s_nfilts a) (s_nfft a) (s_fs a) (s_low a) (s_high a)
                              (s_scale a))
      | Bark => rmap fst (bark_filter_banks (s_nfilts a) (s_nfft a) (s_fs a) (s_low a) (s_high a)
                            (s_scale a) (s_approach a))
      | Erb => rmap fst (gammatone_filter_banks (s_nfilts a) (s_nfft a) (s_fs a) (s_low a) (s_high a)
                           (s_scale a) 4 (s_approach a))
      end
  end.
(** the pre-emphasis coefficient a spectrogram applies *)
Definition spectro_coeff (s : spectro) (a : sargs) : R :=
  match s with Mel => s_coeff a | _ => 0.97 end.

(** the cepstral functions *)
Inductive extractor := Mfcc | Imfcc | Lfcc | Bfcc | Gfcc | Ngcc | Msrcc (gamma : R).
Definition run `{Env} (e : extractor) : list F -> sargs -> cargs -> result (list (list F)) :=
  match e with
  | Mfcc => mfcc | Imfcc => imfcc | Lfcc => lfcc | Bfcc => bfcc | Gfcc => gfcc | Ngcc => ngcc
  | Msrcc g => fun sig a c => msrcc sig a g c
  end.
Definition extractor_bank `{Env} (e : extractor) (a : sargs) : result (list (list F)) :=
  match e with
  | Mfcc | Msrcc _ => spectro_bank Mel a
  | Lfcc => spectro_bank Linear a
  | Bfcc => spectro_bank Bark a
  | Gfcc | Ngcc => spectro_bank Erb a
  | Imfcc => match s_fbanks a with
             | Some b => Ok b
             | None => rmap fst (inverse_mel_filter_banks (s_nfilts a) (s_nfft a) (s_fs a)
                                   (s_low a) (s_high a) (s_scale a) (s_approach a))
             end
  end.
Definition extractor_coeff (e : extractor) (a : sargs) : R :=
  match e with Lfcc | Bfcc | Gfcc => 0.97 | _ => s_coeff a end.
(** what happens to a band energy before the DCT, in plain mathematics *)
Definition compression (e : extractor) (v : R) : R :=
  match e with
  | Mfcc | Imfcc | Lfcc | Ngcc => spec_log v
  | Bfcc => spec_log (spec_loudness v)
  | Gfcc => spec_root (1 / 3) v
  | Msrcc g => if Req_EM_T g 0 then 1 else spec_root g v
  end.
(** the band energies it is applied to without producing inf or NaN *)
Definition compressible (e : extractor) (v : R) : Prop :=
  match e with
  | Bfcc => True
  | Msrcc g => g = 0 \/ 0 < v \/ (0 <= v /\ 0 < g)
  | _ => 0 <= v
  end.
(** extractors that end with a logarithm *)
Definition logarithmic (e : extractor) : bool :=
  match e with Mfcc | Imfcc | Lfcc | Ngcc | Bfcc => true | _ => false end.

(** the window used: the argument or the default *)
Definition window_of (a : sargs) : SlidingWindow :=
  match s_window a with None => default_window | Some w => w end.
(** a configuration that frames [N] samples into frames of [L] samples every [hop] samples *)
Definition well_framed `{Env} (a : sargs) (N L hop : nat) : Prop :=
  let w := window_of a in
  win_hop w <= win_len w /\
  flen (s_fs a) (win_len w) = Z.of_nat L /\ flen (s_fs a) (win_hop w) = Z.of_nat hop /\
  (0 < hop)%nat /\ (1 <= L <= N)%nat /\ In (win_type w) window_names.
(** windowed frame [i] of the pre-emphasised signal *)
Definition frame_of (a : sargs) (coeff : R) (L hop : nat) (x : nat -> R) (i : nat) : nat -> R :=
  spec_frame (win_type (window_of a)) L hop (spec_pre (s_pre_emph a) coeff x) i.

(** sample [t] of frame [i] before windowing, with the pre-emphasis of lpc and lpcc *)
Definition plain_frame (a : sargs) (hop : nat) (x : nat -> R) (i t : nat) : R :=
  spec_pre (s_pre_emph a) 0.97 x (i * hop + t)%nat.

(** no lifter / no normalisation (None and the values Python counts as false) *)
Definition no_lifter (c : cargs) : Prop := c_lifter c = None \/ c_lifter c = Some 0.
Definition no_normalisation (c : cargs) : Prop := c_normalize c = None \/ c_normalize c = Some ""%string.

(** the exponent of a root-compressing extractor *)
Definition root_exponent (e : extractor) (p : R) : Prop :=
  (e = Gfcc /\ p = 1 / 3) \/ (e = Msrcc p /\ p <> 0).

(** a row without a single finite number *)
Definition nonfinite_row (row : list F) : Prop := Forall (fun v => ~ finite v) row.

(** the same call with another pre_emph_coeff *)
Definition with_coeff (a : sargs) (k : R) : sargs :=
  mkS (s_fs a) (s_pre_emph a) k (s_window a) (s_nfilts a) (s_nfft a) (s_low a) (s_high a)
      (s_scale a) (s_fbanks a) (s_approach a).

(** the same call with use_energy switched on or off *)
Definition with_energy (c : cargs) (u : bool) : cargs :=
  mkC (c_num_ceps c) (c_dct_type c) u (c_lifter c) (c_normalize c).

(** a lifter value for which lifter_ceps returns finite numbers *)
Definition tame_lifter (c : cargs) : Prop :=
  match c_lifter c with None => True | Some l => 0 <= l \/ l <= -1 end.

(** no bank supplied and parameters for which the extractor's module computes one *)
Definition valid_band `{Env} (e : extractor) (a : sargs) : Prop :=
  exists h, s_fbanks a = None /\ In (s_scale a) scale_names /\ spec_high (s_high a) (s_fs a) h /\
    0 <= s_low a /\ s_low a < h /\ h <= IZR (s_fs a) / 2 /\ (0 < s_fs a)%Z /\
    match e with
    | Mfcc | Msrcc _ => exists s, spec_mel_scale (s_approach a) s
    | Imfcc => exists s, spec_mel_scale (s_approach a) s /\ s_high a = Some h
    | Lfcc => True
    | Bfcc => sane_rounding rnd /\ (2 <= s_nfilts a)%Z /\ (s_nfft a < 9007199254740992)%Z /\
              exists s, spec_bark_scale (s_approach a) s
    | Gfcc | Ngcc => (3 <= s_nfft a)%Z
    end.
