(** * Specification vocabulary, part 2: finite vectors and matrices given by their
    entries.  Every finite numpy array of the right shape is of this form. *)
From Coq Require Import Reals ZArith List Lia.
From Verif Require Import Base SpecBase.
Import ListNotations.
Local Open Scope R_scope.

(** the vector (v 0, ..., v (n-1)) *)
Definition fvec (n : nat) (v : nat -> R) : list F := map (fun i => Fin (v i)) (seq 0 n).
(** the r x c matrix with entries m i j *)
Definition fmat (r c : nat) (m : nat -> nat -> R) : list (list F) :=
  map (fun i => fvec c (m i)) (seq 0 r).

(** mean and standard deviation of all entries of an r x c matrix *)
Definition spec_mean (r c : nat) (x : nat -> nat -> R) : R :=
  bigsum r (fun i => bigsum c (fun j => x i j)) / (INR r * INR c).
Definition spec_std (r c : nat) (x : nat -> nat -> R) : R :=
  sqrt (spec_mean r c (fun i j => (x i j - spec_mean r c x) ^ 2)).

(** the entries are not all equal *)
Definition non_constant (r c : nat) (x : nat -> nat -> R) : Prop :=
  exists i j i' j', (i < r)%nat /\ (j < c)%nat /\ (i' < r)%nat /\ (j' < c)%nat /\ x i j <> x i' j'.
