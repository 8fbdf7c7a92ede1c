(** * Specification vocabulary for C176 and C177: predictors of successive orders, nearby predictors *)
From Coq Require Import Reals Arith.
From Verif Require Import SpecBase SpecLpc SpecFeatures.
Local Open Scope R_scope.

Fixpoint binom (n k : nat) : nat :=
  match n, k with
  | _, O => 1
  | O, S _ => 0
  | S m, S j => binom m j + binom m (S j)
  end.
(** by how much the predictor b misses the i-th normal equation of the L samples f *)
Definition defect (L p : nat) (f b : nat -> R) (i : nat) : R := bigsum (S p) (fun j => acf L f (dist i j) * b j).
(** no filter of p+1 taps with sum of squares 1 leaves less than s of the L samples f *)
Definition energy_floor (L p : nat) (f : nat -> R) (s : R) : Prop :=
  forall v, s * bigsum (S p) (fun k => v k ^ 2) <= residual_energy L p f v.
(** the n-point power spectrum of the L samples f stays above s *)
Definition spectrum_floor (n L : nat) (f : nat -> R) (s : R) : Prop :=
  forall k, (k < n)%nat -> s <= spec_re n L f k ^ 2 + spec_im n L f k ^ 2.
(** what a change of d in every sample, and rounding by u in each step, can do to an autocorrelation of L
    samples within M *)
Definition change_loss (L : nat) (M d : R) : R := INR L * d * (2 * M + d).
Definition rounding_loss (u : R) (L : nat) (M : R) : R := ((1 + u) ^ L - 1) * (INR L * M ^ 2).
(** the most the pre-emphasis of lpc can amplify a sample *)
Definition emphasis (on : bool) : R := if on then 1.97 else 1.
