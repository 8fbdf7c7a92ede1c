(** * Specification vocabulary for C174: the energy of a frame and what filter banks make of it *)
From Coq Require Import Reals Arith.
From Verif Require Import SpecBase.
Local Open Scope R_scope.

(** sum of the squares of the samples of a frame *)
Definition frame_energy (L : nat) (f : nat -> R) : R := bigsum L (fun t => f t ^ 2).
(** a bank of n filters over bins 0..h that hands out no more than it gets *)
Definition thrifty (n h : nat) (B : nat -> nat -> R) : Prop :=
  forall k, (k <= h)%nat -> (forall j, (j < n)%nat -> 0 <= B j k) /\ bigsum n (fun j => B j k) <= 1.
(** largest magnitude of a sample after pre-emphasis of a recording that stays within M *)
Definition pre_peak (on : bool) (c M : R) : R := (if on then 1 + Rabs c else 1) * M.
