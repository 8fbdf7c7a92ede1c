(** * Floating-point evaluation of the cepstral functions, from the samples to the coefficients

    One frame of mfcc, imfcc, lfcc, ngcc (logarithm) and gfcc, msrcc (power), without energy, lifter
    and normalisation.  The linear steps are arbitrary straight-line programs whose constants
    (window, twiddle factors, DCT weights) are stored as rounded numbers; hypot, log and pow are
    parameters. *)
From Coq Require Import Reals ZArith List.
From Verif Require Import Base Rounded.
Local Open Scope R_scope.

(** entry of zero_handling, spafe/utils/preprocessing.py:41-52: 0 is replaced by 2^-52 *)
Definition zeroed (v : R) : R := if Req_EM_T v 0 then / 2 ^ 52 else v.
(** np.log(zero_handling(features)), band j: mfcc.py:296-297, lfcc.py:278-279, ngcc.py:177-178 *)
Definition log_band `{Env} (lnf : R -> R) (nfft : nat) (m : nat -> R) (bank : nat -> lin) (j : nat) : R :=
  lnf (zeroed (band_energy nfft m bank j)).
(** np.power(features, p), band j: gfcc.py:301 (p = 1/3), msrcc.py:153 (p = gamma) *)
Definition root_band `{Env} (powf : R -> R) (nfft : nat) (m : nat -> R) (bank : nat -> lin) (j : nat) : R :=
  powf (band_energy nfft m bank j).
(** dct(.)[:, k]: mfcc.py:300, gfcc.py:302-304, msrcc.py:156, lfcc.py:282, ngcc.py:181; [dct k] is the program for coefficient k *)
Definition log_cepstrum `{Env} (lnf : R -> R) (hyp : R -> R -> R) (re im : nat -> lin) (nfft : nat)
  (bank dct : nat -> lin) (x : nat -> R) (k : nat) : R :=
  lin_run (log_band lnf nfft (bin_magnitude hyp re im x) bank) (dct k).
Definition root_cepstrum `{Env} (powf : R -> R) (hyp : R -> R -> R) (re im : nat -> lin) (nfft : nat)
  (bank dct : nat -> lin) (x : nat -> R) (k : nat) : R :=
  lin_run (root_band powf nfft (bin_magnitude hyp re im x) bank) (dct k).
