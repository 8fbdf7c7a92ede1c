(** * Specification vocabulary, part 1: plain real mathematics.

    Nothing here refers to the model of the code.  The property theorems are
    stated in these terms. *)
From Coq Require Import Reals ZArith List String.
From Coquelicot Require Import Series.
Import ListNotations.
Local Open Scope R_scope.

(** sum_{i<n} f i *)
Fixpoint bigsum (n : nat) (f : nat -> R) : R :=
  match n with O => 0 | S m => bigsum m f + f m end.

(** Textbook windows, coefficient n of M (M >= 2), periodic argument 2 pi n/(M-1). *)
Definition spec_theta (M n : nat) : R := 2 * PI * INR n / INR (M - 1).
Definition spec_hann (M n : nat) : R := 0.5 - 0.5 * cos (spec_theta M n).
Definition spec_hamming (M n : nat) : R := 0.54 - 0.46 * cos (spec_theta M n).
Definition spec_blackman (M n : nat) : R :=
  0.42 - 0.5 * cos (spec_theta M n) + 0.08 * cos (2 * spec_theta M n).
Definition spec_bartlett (M n : nat) : R := 1 - Rabs (2 * INR n / INR (M - 1) - 1).
(** modified Bessel function I0 *)
Definition spec_I0 (x : R) : R := Series (fun k => (x / 2) ^ (2 * k) / (INR (fact k)) ^ 2).
Definition spec_kaiser (M n : nat) : R :=
  spec_I0 (14 * sqrt (1 - (2 * INR n / INR (M - 1) - 1) ^ 2)) / spec_I0 14.

(** the five window names spafe accepts *)
Definition window_names : list string :=
  ["hanning"; "bartlet"; "kaiser"; "blackman"; "hamming"]%string.

(** the window a name stands for; a one-sample window is 1 *)
Definition spec_window (name : string) (M n : nat) : R :=
  if Nat.leb M 1 then 1
  else if String.eqb name "hanning" then spec_hann M n
  else if String.eqb name "bartlet" then spec_bartlett M n
  else if String.eqb name "kaiser" then spec_kaiser M n
  else if String.eqb name "blackman" then spec_blackman M n
  else spec_hamming M n.
