(** * Specification for C194: which coefficient a call with pre_emph=True applies (see C48) *)
From Coq Require Import Reals.
From Verif Require Import Base Features Extractors.
Local Open Scope R_scope.

(** mel_spectrogram uses pre_emph_coeff, the other spectrograms 0.97 *)
Definition gram_coeff (s : spectro) (a : sargs) : R :=
  match s with Mel => s_coeff a | Linear | Bark | Erb => 0.97 end.
(** mfcc, imfcc, msrcc and ngcc use pre_emph_coeff, lfcc, bfcc and gfcc 0.97 *)
Definition feature_coeff (e : extractor) (a : sargs) : R :=
  match e with Mfcc | Imfcc | Msrcc _ | Ngcc => s_coeff a | Lfcc | Bfcc | Gfcc => 0.97 end.
