(** * Specification vocabulary for C182: spectral statistics of two similar recordings *)
From Coq Require Import Reals Arith.
From Verif Require Import SpecBase SpecFeatures SpecSpectral.
Local Open Scope R_scope.

(** energy of the difference of the first L samples, as far as a transform of n points sees them *)
Definition seen_energy (n L : nat) (x x2 : nat -> R) : R := bigsum (Nat.min L n) (fun t => (x2 t - x t) ^ 2).
(** magnitude of bin k and the sum of all magnitudes of the half spectrum *)
Definition bin_mag (n L : nat) (x : nat -> R) (k : nat) : R := cmag (spec_re n L x) (spec_im n L x) k.
Definition mag_sum (n L : nat) (x : nat -> R) : R := bigsum (S (n / 2)) (bin_mag n L x).
