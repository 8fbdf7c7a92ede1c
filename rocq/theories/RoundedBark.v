(** * bfcc and the option use_energy in floating point

    One frame, as in RoundedCeps.v: the linear steps are arbitrary straight-line programs, hypot, log
    and pow are parameters. *)
From Coq Require Import Reals ZArith List.
From Verif Require Import Base Rounded RoundedCeps.
Local Open Scope R_scope.

(** np.log(zero_handling(np.sum(power_frames, 1))): bfcc.py:328-336, and mfcc.py:305-313, mfcc.py:446-454,
    lfcc.py:287-295, gfcc.py:309-317, ngcc.py:186-194, msrcc.py:161-169; [s] is the program that adds up the bins *)
Definition energy_float `{Env} (lnf : R -> R) (hyp : R -> R -> R) (re im : nat -> lin) (nfft : nat) (s : lin) (x : nat -> R) : R :=
  lnf (zeroed (lin_run (bin_power nfft (bin_magnitude hyp re im x)) s)).

(** intensity_power_law, bfcc.py:45-47, one entry.  w**2 is a product; [pw k] is the library's power
    with exponent k, [root] the one with the exponent 1/3 as stored.  56.8 and the like are stored
    constants, 10**26 is converted from an integer. *)
Definition loud_term `{Env} (w c : R) (p : nat) : R := rnd (rnd (w * w) + rnd (rnd c * rnd (10 ^ p))).
Definition loudness_float `{Env} (pw : nat -> R -> R) (root : R -> R) (w : R) : R :=
  root (rnd (rnd (loud_term w 56.8 6 * pw 4%nat w)
             / rnd (rnd (loud_term w 6.3 6 * loud_term w 0.38 9) * loud_term (pw 3%nat w) 9.58 26))).
(** np.log(zero_handling(intensity_power_law(features))), band j: bfcc.py:315-320 *)
Definition loud_band `{Env} (lnf : R -> R) (pw : nat -> R -> R) (root : R -> R) (nfft : nat) (m : nat -> R) (bank : nat -> lin) (j : nat) : R :=
  lnf (zeroed (loudness_float pw root (band_energy nfft m bank j))).
(** dct(.)[:, k]: bfcc.py:323 *)
Definition loud_cepstrum `{Env} (lnf : R -> R) (pw : nat -> R -> R) (root : R -> R) (hyp : R -> R -> R) (re im : nat -> lin) (nfft : nat)
  (bank dct : nat -> lin) (x : nat -> R) (k : nat) : R :=
  lin_run (loud_band lnf pw root nfft (bin_magnitude hyp re im x) bank) (dct k).
