(** * Specification vocabulary: linear prediction (plain real mathematics) *)
From Coq Require Import Reals ZArith List.
From Verif Require Import SpecBase.
Local Open Scope R_scope.

Definition dist (i j : nat) : nat := if Nat.leb j i then (i - j)%nat else (j - i)%nat.
(** autocorrelation of the [L] samples [f] at lag [d] *)
Definition acf (L : nat) (f : nat -> R) (d : nat) : R := bigsum (L - d) (fun t => f t * f (t + d)%nat).
(** the [L] samples [f], delayed by [k] and zero elsewhere *)
Definition delayed (L : nat) (f : nat -> R) (k t : nat) : R :=
  if (Nat.leb k t && Nat.ltb (t - k) L)%bool then f (t - k)%nat else 0.
(** prediction residual at time [t] of the predictor [a 0 = 1, a 1, ..., a p], and its energy *)
Definition residual (L p : nat) (f a : nat -> R) (t : nat) : R :=
  bigsum (S p) (fun k => a k * delayed L f k t).
Definition residual_energy (L p : nat) (f a : nat -> R) : R :=
  bigsum (L + p) (fun t => (residual L p f a t) ^ 2).
(** the normal equations *)
Definition normal_equations (L p : nat) (f a : nat -> R) : Prop :=
  a O = 1 /\
  forall i, (1 <= i <= p)%nat -> bigsum (S p) (fun j => acf L f (dist i j) * a j) = 0.

(** real and imaginary part of the powers of z = x + iy *)
Fixpoint cpow (x y : R) (n : nat) : R * R :=
  match n with
  | O => (1, 0)
  | S m => let (u, v) := cpow x y m in (x * u - y * v, x * v + y * u)
  end.
(** z = x + iy is a root of a(0) z^p + a(1) z^(p-1) + ... + a(p) *)
Definition poly_root (p : nat) (a : nat -> R) (x y : R) : Prop :=
  bigsum (S p) (fun k => a k * fst (cpow x y (p - k))) = 0 /\
  bigsum (S p) (fun k => a k * snd (cpow x y (p - k))) = 0.

(** the cepstral recursion of the model gain/(1 + sum a_k z^-k), sign as coded *)
Fixpoint spec_cepstrum_upto (a : nat -> R) (n : nat) : nat -> R :=
  match n with
  | O => fun _ => 0
  | S m =>
      let c := spec_cepstrum_upto a m in
      fun i => if Nat.eqb i m
               then (if Nat.eqb m 0 then 0
                     else a m + bigsum (m - 1) (fun k => INR (S k) / INR m * c (S k) * a (m - S k)%nat))
               else c i
  end.
Definition spec_cepstrum (a : nat -> R) (m : nat) : R := spec_cepstrum_upto a (S m) m.

(** the error value lpc reports: the absolute value of R(0) + sum_k a_k R(k+1) over the full
    correlation R, whose entry k has lag k-(L-1) *)
Definition lpc_error (L p : nat) (f a : nat -> R) : R :=
  Rabs (acf L f (dist (L - 1) 0)
        + bigsum (Nat.min (2 * L - 2) (S p)) (fun k => acf L f (dist (L - 1) (S k)) * a k)).
(** the coefficient lpcc reports: the factor c_k of the recursion is missing *)
Definition coded_cepstrum (a : nat -> R) (m : nat) : R :=
  a m + bigsum (m - 1) (fun k => INR (S k) / INR m * a (m - S k)%nat).

(** the [L] samples of [f] are not all zero *)
Definition sounding (L : nat) (f : nat -> R) : Prop := exists t, (t < L)%nat /\ f t <> 0.
