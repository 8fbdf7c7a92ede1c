(** * Specification vocabulary for C180: the same sound framed from another instant on *)
From Coq Require Import Reals Arith.
From Verif Require Import SpecBudget.
Local Open Scope R_scope.

(** row i2 of the recording z, without its first s samples, has the samples that row i of x starts with; rows have
    L samples and start every [hop] samples *)
Definition later (L hop s : nat) (x : nat -> R) (i : nat) (z : nat -> R) (i2 : nat) : Prop :=
  (s <= L)%nat /\ forall t, (t + s < L)%nat -> z (i2 * hop + s + t)%nat = x (i * hop + t)%nat.
(** what may change in a bin, and in the root of a band energy with weights that add up to w: the s samples at either
    end of the row, and the sample before the row, which pre-emphasis takes into account *)
Definition slip_mag (on : bool) (c M : R) (s : nat) : R := 2 * INR s * pre_peak on c M + (if on then 2 * (Rabs c * M) else 0).
Definition slip_level (on : bool) (c M : R) (s : nat) (w : R) (n : nat) : R := sqrt (w / INR n) * slip_mag on c M s.
