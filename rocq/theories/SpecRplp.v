(** * Specification vocabulary: perceptual linear prediction (plain real mathematics) *)
From Coq Require Import Reals ZArith List.
From Verif Require Import SpecBase SpecFilters SpecFeatures.
Local Open Scope R_scope.

(** modulus of entry [t] of the [n]-point inverse DFT of the [c] real numbers [l], cropped or
    zero-padded to [n] *)
Definition spec_inverse (n c : nat) (l : nat -> R) (t : nat) : R :=
  sqrt ((bigsum (Nat.min c n) (fun j => l j * cos (2 * PI * INR (j * t) / INR n))) ^ 2
      + (bigsum (Nat.min c n) (fun j => l j * sin (2 * PI * INR (j * t) / INR n))) ^ 2) / INR n.
(** the band energies [w], with or without the RASTA recursion on their logarithms *)
Definition spec_auditory (rasta : bool) (w : nat -> R) (j : nat) : R :=
  if rasta then exp (spec_rasta (fun k => ln (w k)) j) else w j.
