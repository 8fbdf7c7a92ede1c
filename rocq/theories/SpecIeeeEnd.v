(** * Specification vocabulary: float programs for exact programs, libraries with underflow *)
From Coq Require Import Reals ZArith List.
From Flocq Require Import Core IEEE754.BinarySingleNaN.
From Verif Require Import Base SpecBase Binary64 Rounded SpecRounded SpecRoundedCeps Ieee SpecIeee.
Local Open Scope R_scope.

(** half of the smallest positive float: what an operation can lose to underflow *)
Definition tiny : R := bpow radix2 (-1075).

(** every constant is at most 1 in size, and 0 or not subnormal *)
Fixpoint unit_normal (p : lin) : Prop :=
  match p with
  | Load _ | Zero => True
  | Add p q | Sub p q => unit_normal p /\ unit_normal q
  | Scale c p => (normal c /\ Rabs c <= 1) /\ unit_normal p
  | ScaleAdd c p q => (normal c /\ Rabs c <= 1) /\ unit_normal p /\ unit_normal q
  end.
(** the float program [fp] is the program [p] over n inputs with its constants rounded to floats *)
Definition float_program (n : nat) (p : lin) (fp : flin) : Prop :=
  program n fp /\ reals fp = @lin_stored binary64 p /\ unit_normal p.

(** hypot, log and pow(., p) that are right up to a relative error and an underflow *)
Definition hypot_close (v : R) (hyp : R -> R -> R) : Prop :=
  0 <= v <= / 2 /\ forall a b, 0 <= hyp a b /\ Rabs (hyp a b - sqrt (a ^ 2 + b ^ 2)) <= v * sqrt (a ^ 2 + b ^ 2) + tiny.
Definition ln_close (v : R) (f : R -> R) : Prop :=
  0 <= v <= 1 /\ forall x, 0 < x -> Rabs (f x - ln x) <= v * Rabs (ln x) + tiny.
Definition pow_close (v p : R) (f : R -> R) : Prop :=
  0 <= v <= 1 /\ forall x, 0 < x -> Rabs (f x - Rpower x p) <= v * Rpower x p + tiny.

(** energy that rounding and underflow can put into a band with the weights w *)
Definition float_noise (D nfft bins : nat) (x : nat -> R) (re im : nat -> lin) (w : nat -> R) : R :=
  let d p := ((1 + / 2 ^ 53) ^ D - 1) * lin_size x p + bpow radix2 (-1030) in
  bigsum bins (fun k => w k * (d (re k) ^ 2 + d (im k) ^ 2) / INR nfft).
(** bound for the error of the logarithm of a band energy: roundings and hypot, noise-to-signal ratio
    r, bank weights off by a fraction s of the band energy, underflow *)
Definition float_log_bound (v r s : R) (bins : nat) : R :=
  band_log_bound (/ 2 ^ 53) v r bins + - ln (1 - s) + - ln (1 - / 2 ^ 100).
