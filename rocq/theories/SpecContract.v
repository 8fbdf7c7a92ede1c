(** * Specification vocabulary for C181: distances of whole recordings and of their features *)
From Coq Require Import Reals Arith.
From Verif Require Import SpecBase.
Local Open Scope R_scope.

(** energy of the difference of two recordings of N samples *)
Definition apart_energy (N : nat) (x x2 : nat -> R) : R := bigsum N (fun t => (x2 t - x t) ^ 2).
(** rows of L samples every hop samples: how many rows a sample can be in *)
Definition overlap (L hop : nat) : nat := ((L + hop - 1) / hop)%nat.
(** how much pre-emphasis can amplify *)
Definition pre_gain (on : bool) (c : R) : R := if on then 1 + Rabs c else 1.
