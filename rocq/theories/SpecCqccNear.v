(** * Specification for C192: how far a small change of the samples reaches in the constant-Q transform *)
From Coq Require Import Reals.
Local Open Scope R_scope.

(** samples that differ by at most d: pre-emphasis with the coefficient co if [on], the threshold thr of
    the kernels, frames of L samples in a transform of n *)
Definition cqt_reach (on : bool) (co thr : R) (L n : nat) (d : R) : R :=
  (if on then 1 + Rabs co else 1) * d * (1 + Rmax 0 thr * sqrt (INR (Nat.min L n))).
