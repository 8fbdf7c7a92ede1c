(** * Specification vocabulary: integer samples *)
From Coq Require Import Reals ZArith List.
From Verif Require Import LpcPcm.
Local Open Scope Z_scope.

Fixpoint isum (n : nat) (f : nat -> Z) : Z := match n with O => 0 | S m => isum m f + f m end.
(** autocorrelation of [L] integer samples at lag [d], in unbounded integers *)
Definition iacf (L : nat) (x : nat -> Z) (d : nat) : Z := isum (L - d) (fun t => x t * x (t + d)%nat).
(** number of bits and the values of a type *)
Definition bits_of (t : itype) : Z := match t with Int b | UInt b => b end.
Definition in_type (t : itype) (z : Z) : Prop :=
  match t with Int b => - 2 ^ (b - 1) <= z < 2 ^ (b - 1) | UInt b => 0 <= z < 2 ^ b end.
(** [w] is the value of the type that stands for [z]: the two differ by a multiple of 2^bits *)
Definition stands_for (t : itype) (w z : Z) : Prop :=
  in_type t w /\ exists k, z = w + k * 2 ^ bits_of t.
(** sample [t] of frame [i] *)
Definition iframe (hop : nat) (x : nat -> Z) (i t : nat) : Z := x (i * hop + t)%nat.
Definition ivec (n : nat) (x : nat -> Z) : list Z := map x (seq 0 n).
