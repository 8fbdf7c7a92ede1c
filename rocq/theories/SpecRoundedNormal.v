(** * Specification vocabulary: error terms of normalisation *)
From Coq Require Import Reals List.
From Verif Require Import Base SpecBase SpecMat Rounded SpecRounded.
Local Open Scope R_scope.

(** a program that adds up n numbers in any order *)
Definition sums (n : nat) (p : lin) : Prop := dot_program (fun _ => 1) n p.
(** mx is the largest and mn the smallest entry *)
Definition extremes (r c : nat) (x : nat -> nat -> R) (mx mn : R) : Prop :=
  (exists i j, (i < r)%nat /\ (j < c)%nat /\ x i j = mx) /\ (exists i j, (i < r)%nat /\ (j < c)%nat /\ x i j = mn) /\
  (forall i j, (i < r)%nat -> (j < c)%nat -> mn <= x i j <= mx).
(** two matrices that differ by at most d in every entry *)
Definition close (r c : nat) (d : R) (x z : nat -> nat -> R) : Prop :=
  forall i j, (i < r)%nat -> (j < c)%nat -> Rabs (z i j - x i j) <= d.
Definition bounded (r c : nat) (M : R) (z : nat -> nat -> R) : Prop :=
  forall i j, (i < r)%nat -> (j < c)%nat -> Rabs (z i j) <= M.
(** error of a deviation from the mean of n numbers up to M *)
Definition dev_error (u : R) (n : nat) (M : R) : R := ((1 + u) ^ (n + 2) - 1 + u) * M.
(** error of a standard deviation of about s, from inputs that are off by d *)
Definition std_error (u : R) (n : nat) (M d s : R) : R :=
  d + dev_error u n M + ((1 + u) ^ (n + 3) - 1) * (s + d + dev_error u n M).
(** error of a rounded quotient y whose numerator is off by p and whose denominator s by q *)
Definition quotient_error (u p q s y : R) : R := (1 + u) * ((p + q * Rabs y) / (s - q)) + u * Rabs y.
