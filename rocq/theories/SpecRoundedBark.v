(** * Specification vocabulary: error terms of bfcc *)
From Coq Require Import Reals.
From Verif Require Import Base SpecFeatures SpecRounded SpecRoundedCeps.
Local Open Scope R_scope.

(** powers with the exponents k = 3, 4 and with the stored exponent 1/3, right up to a relative error v *)
Definition powers_within `{Env} (v : R) (pw : nat -> R -> R) (root : R -> R) : Prop :=
  v < 1 /\ (forall k, pow_within v (INR k) (pw k)) /\ pow_within v (rnd (1 / 3)) root.
(** bound for the error of the logarithm of the loudness when that of the energy is off by lam; Y bounds the
    logarithm of the loudness *)
Definition loud_log_bound (u v lam Y : R) : R :=
  (1 + u) / 3 * (16 * lam + 20 * - ln (1 - u) + 3 * - ln (1 - v)) + - ln (1 - v) + u * Y.
