(** * Specification vocabulary: dominant frequencies and statistics of a spectrum *)
From Coq Require Import Reals ZArith List String.
From Flocq Require Import Core.Raux.
From Verif Require Import Base SpecBase Preprocessing PreprocessingFacts.
Import ListNotations.
Local Open Scope R_scope.

(** [k] is the first of the indices 0..n-1 at which [f] is largest *)
Definition is_argmax (n : nat) (f : nat -> R) (k : nat) : Prop :=
  (k < n)%nat /\ (forall j, (j < n)%nat -> f j <= f k) /\ (forall j, (j < k)%nat -> f j < f k).

(** index [k] of an [M]-point transform read as a signed frequency: the upper half is negative *)
Definition signed_bin (M k : nat) : R := if Nat.ltb (2 * k) M then INR k else INR k - INR M.
(** its absolute value *)
Definition folded_bin (M k : nat) : R := INR (Nat.min k (M - k)).

(** [q] is a multiple of 1/1000 nearest to [r] *)
Definition near_milli (r q : R) : Prop := (exists z, q = IZR z / 1000) /\ Rabs (q - r) <= / 2000.

(** windows of [L] samples every [hop] samples cut from [N] samples *)
Definition cut_config `{Env} (fs : Z) (wl wh : R) (wt : string) (N L hop : nat) : Prop :=
  (0 < fs)%Z /\ wh <= wl /\ flen fs wl = Z.of_nat L /\ flen fs wh = Z.of_nat hop /\
  (0 < hop)%nat /\ (1 <= L <= N)%nat /\ In wt window_names.

(** sample n-j of [f], 0 before the start *)
Definition past (f : nat -> R) (n j : nat) : R := if Nat.leb j n then f (n - j)%nat else 0.
(** [y] is the response of the recursive filter of order [d] with numerator [b] and denominator
    1, a 1, ..., a d to [x], from rest *)
Definition iir_response (d : nat) (b a x y : nat -> R) : Prop :=
  forall n, y n + bigsum d (fun j => a (S j) * past y n (S j)) = bigsum (S d) (fun j => b j * past x n j).

(** ** statistics of the magnitudes m 0 .. m (M-1) with the frequencies f *)
Definition spec_moment (M : nat) (m f : nat -> R) (i : nat) : R :=
  bigsum M (fun k => m k * f k ^ i) / bigsum M m.
Definition spec_central (M : nat) (m f : nat -> R) (i : nat) : R :=
  bigsum M (fun k => m k * (f k - spec_moment M m f 1) ^ i) / bigsum M m.
Definition spec_avg (M : nat) (m : nat -> R) : R := bigsum M m / INR M.
(** absolute value of a complex number given by its parts *)
Definition spec_abs (a b : R) : R := sqrt (a ^ 2 + b ^ 2).
(** the complex vector with real parts [re] and imaginary parts [im] *)
Definition cvec (M : nat) (re im : nat -> R) : list (F * F) := map (fun k => (Fin (re k), Fin (im k))) (seq 0 M).
(** its magnitudes *)
Definition cmag (re im : nat -> R) (k : nat) : R := spec_abs (re k) (im k).
(** the frequency the statistics of spafe assign to bin [k] of [M] bins *)
Definition bin_freq (fs : Z) (M k : nat) : R := folded_bin M k * IZR fs / INR M.
