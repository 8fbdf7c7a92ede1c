(** * Specification vocabulary: two recordings that differ a little *)
From Coq Require Import Reals.
Local Open Scope R_scope.

(** the samples differ by at most d *)
Definition apart (N : nat) (d : R) (x x2 : nat -> R) : Prop := forall t, (t < N)%nat -> Rabs (x2 t - x t) <= d.
(** what a difference of d in every sample can do to the root of a band energy: weights up to b, frames of
    L samples, pre-emphasis with the coefficient c if [on] *)
Definition noise_level (on : bool) (c b : R) (L : nat) (d : R) : R :=
  sqrt (b * INR L) * ((if on then 1 + Rabs c else 1) * d).
