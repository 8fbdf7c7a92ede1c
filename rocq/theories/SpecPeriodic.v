(** * Specification vocabulary for C183: sounds that nearly repeat *)
From Coq Require Import Reals Arith.
From Verif Require Import SpecBase.
Local Open Scope R_scope.

(** [y] repeats every [p] samples *)
Definition repeats (p : nat) (y : nat -> R) : Prop := forall t, y (t + p)%nat = y t.
(** mean and standard deviation of one period *)
Definition period_mean (p : nat) (y : nat -> R) : R := bigsum p y / INR p.
Definition period_dev (p : nat) (y : nat -> R) : R := sqrt (bigsum p (fun t => (y t - period_mean p y) ^ 2) / INR p).
