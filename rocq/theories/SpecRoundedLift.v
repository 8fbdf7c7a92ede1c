(** * Specification vocabulary: error terms of liftering and deltas *)
From Coq Require Import Reals ZArith List.
From Verif Require Import Base SpecBase SpecFilters Rounded SpecRounded.
Local Open Scope R_scope.

(** weights that are right up to a relative error v *)
Definition weights_within (v l : R) (c : nat) (w : nat -> R) : Prop :=
  0 <= v /\ forall j, (j < c)%nat -> Rabs (w j - spec_lift l j) <= v * spec_lift l j.
(** [p j] multiplies a row with column j of a diagonal matrix with the diagonal w *)
Definition diagonal_programs (w : nat -> R) (c : nat) (p : nat -> lin) : Prop :=
  forall j, (j < c)%nat -> dot_program (fun k => if Nat.eqb k j then w j else 0) c (p j).
(** error of the entries of a column with the weight 1: entries up to M, off by d *)
Definition lift_error (u v : R) (c : nat) (M d : R) : R := ((1 + u) ^ c * (1 + v) - 1) * M + d.
(** a sine with the absolute error v *)
Definition sin_within (v : R) (f : R -> R) : Prop := 0 <= v /\ forall z, Rabs (f z - sin z) <= v.
(** error of the sine lifter's weight of column j *)
Definition sine_error (u v L : R) (j : nat) : R :=
  let e := v + ((1 + u) ^ 3 - 1) * (PI * INR (j + 1) / L) in
  (1 + u) * (L / 2 * ((1 + u) ^ 2 * (1 + e) - 1)) + u * (1 + L / 2).
(** [p] multiplies 2h+1 numbers with -h, ..., h and adds up *)
Definition window_program (h : nat) (p : lin) : Prop := dot_program (fun m => INR m - INR h) (2 * h + 1) p.
