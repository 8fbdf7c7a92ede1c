(** * Specification vocabulary for C185: the samples a row of the constant-Q transform sees *)
From Coq Require Import Reals Arith.
From Verif Require Import SpecBase.
Local Open Scope R_scope.

(** first of the [len] samples in the middle of [n] *)
Definition middle (n len : nat) : nat := ((n - len) / 2)%nat.
(** energy of [len] samples of [d] from [s] on *)
Definition part_energy (s len : nat) (d : nat -> R) : R := bigsum len (fun t => d (s + t)%nat ^ 2).
