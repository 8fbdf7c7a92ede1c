(** * Specification vocabulary: accuracy of the library's convolution, size of the noise in YIN *)
From Coq Require Import Reals ZArith List.
From Verif Require Import Base SpecBase SpecYin.
Local Open Scope R_scope.

(** sum of the products of a window with itself tau samples later *)
Definition lag_product (L : nat) (x : nat -> R) (tau : nat) : R := bigsum (L - tau) (fun j => x j * x (j + tau)%nat).
Definition window_energy (L : nat) (x : nat -> R) : R := bigsum L (fun j => x j * x j).
(** a library convolution whose error is at most delta times the energy of the window, plus eta *)
Definition conv_within (delta eta : R) (conv : nat -> (nat -> R) -> nat -> R) : Prop :=
  0 <= delta /\ forall L x tau, (tau <= L)%nat ->
    Rabs (conv L x tau - lag_product L x tau) <= delta * window_energy L x + eta.
(** a bound for the rounding error of the difference function of a window with energy e *)
Definition yin_noise (u eta delta : R) (L : nat) (e : R) : R :=
  (3 * ((1 + u) ^ (L + 4) - 1) + 2 * ((1 + u) ^ 2 * (1 + delta) - 1)) * e + (1 + u) ^ (L + 4) * (6 * INR L + 6) * eta.

(** a correctly rounded convolution: the best a library can do *)
Definition best_conv (r : R -> R) (L : nat) (x : nat -> R) (tau : nat) : R := r (lag_product L x tau).

(** the normalised difference at a lag whose differences do not all vanish *)
Definition yin_value (d : nat -> R) (tau : nat) : R := d tau * INR tau / yin_sum d tau.
(** a bound for the error of that value: [r] is the noise of the differences, relative to their sum *)
Definition yin_margin (u eta r c : R) (tau : nat) : R := 6 * INR tau * (u + r) * (1 + c) + eta.
(** [s] is the first lag below the threshold and [p] the end of the falling run from [s], where
    every comparison holds with room for the errors [m] of both sides *)
Definition clear_lag (c m : nat -> R) (lo hi : nat) (th : R) (s p : nat) : Prop :=
  (lo <= s <= p)%nat /\ (p < hi)%nat /\ c s + m s < th /\
  (forall t, (lo <= t < s)%nat -> th <= c t - m t) /\
  (forall t, (s <= t < p)%nat -> c (S t) + m (S t) < c t - m t) /\
  ((S p < hi)%nat -> c p + m p <= c (S p) - m (S p)).
Definition clear_unvoiced (c m : nat -> R) (lo hi : nat) (th : R) : Prop :=
  forall t, (lo <= t < hi)%nat -> th <= c t - m t.
