(** * Specification vocabulary: power-normalised cepstra (plain real mathematics) *)
From Coq Require Import Reals ZArith List.
From Verif Require Import SpecBase SpecFeatures.
Local Open Scope R_scope.

(** power of bin [k] with a general exponent, weighted sum with the weights [b] *)
Definition spec_pband (p h n L : nat) (f b : nat -> R) : R :=
  bigsum (S h) (fun k => spec_mag n L f k ^ p / INR n * b k).
(** the sum over the frames m-M .. m+M among the [n] there are, over 2M+1 *)
Definition spec_medium (n M : nat) (x : nat -> R) (m : nat) : R :=
  bigsum n (fun i => if (Nat.leb m (i + M) && Nat.leb i (m + M))%bool then x i else 0) / INR (2 * M + 1).
(** one step of the asymmetric filter: from the last output [o] and the input [x] *)
Definition asym_step (a b o x : R) : R :=
  if Rle_dec o x then a * o + (1 - a) * x else b * o + (1 - b) * x.
(** [p] is the largest of lam^(m-i) * x i, i <= m *)
Definition is_decayed_peak (lam : R) (x : nat -> R) (m : nat) (p : R) : Prop :=
  (exists i, (i <= m)%nat /\ p = lam ^ (m - i) * x i) /\
  forall i, (i <= m)%nat -> lam ^ (m - i) * x i <= p.
