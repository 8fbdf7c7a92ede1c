(** * Specification vocabulary: binary64 numbers as reals, programs of bounded size *)
From Coq Require Import Reals ZArith List.
From Flocq Require Import Core IEEE754.BinarySingleNaN.
From Verif Require Import Base Rounded SpecRounded SpecRoundedCeps SpecRoundedDominant Ieee.
Local Open Scope R_scope.

(** the real number of a finite float *)
Definition val (x : f64) : R := B2R x.
Definition fin (x : f64) : Prop := is_finite x = true.

(** the same program with its constants read as reals *)
Fixpoint reals (p : flin) : lin :=
  match p with
  | FLoad i => Load i
  | FZero => Zero
  | FAdd p q => Add (reals p) (reals q)
  | FSub p q => Sub (reals p) (reals q)
  | FScale c p => Scale (val c) (reals p)
  | FScaleAdd c p q => ScaleAdd (val c) (reals p) (reals q)
  end.
(** every constant is a finite float of size at most 1: windows, twiddle factors, bank weights,
    DCT weights and the usual pre-emphasis coefficients are *)
Fixpoint unit_consts (p : flin) : Prop :=
  match p with
  | FLoad _ | FZero => True
  | FAdd p q | FSub p q => unit_consts p /\ unit_consts q
  | FScale c p => fin c /\ Rabs (val c) <= 1 /\ unit_consts p
  | FScaleAdd c p q => fin c /\ Rabs (val c) <= 1 /\ unit_consts p /\ unit_consts q
  end.
(** number of loads and operations *)
Fixpoint nodes (p : flin) : nat :=
  match p with
  | FLoad _ | FZero => 1
  | FAdd p q | FSub p q | FScaleAdd _ p q => S (nodes p + nodes q)
  | FScale _ p => S (nodes p)
  end.
(** a program over n inputs with at most 2^40 operations *)
Definition program (n : nat) (p : flin) : Prop := unit_consts p /\ reads n (reals p) /\ INR (nodes p) <= 2 ^ 40.

(** a library function on floats that is the function [g] on reals, where that does not overflow *)
Definition implements2 (h : f64 -> f64 -> f64) (g : R -> R -> R) : Prop :=
  forall a b, fin a -> fin b -> Rabs (g (val a) (val b)) < bpow radix2 1024 -> fin (h a b) /\ val (h a b) = g (val a) (val b).
(** the same with one argument from the domain D *)
Definition implements1 (D : R -> Prop) (h : f64 -> f64) (g : R -> R) : Prop :=
  forall a, fin a -> D (val a) -> Rabs (g (val a)) < bpow radix2 1024 -> fin (h a) /\ val (h a) = g (val a).

(** the program loads input i somewhere *)
Fixpoint loads (i : nat) (p : flin) : Prop :=
  match p with
  | FLoad j => j = i
  | FZero => False
  | FAdd p q | FSub p q | FScaleAdd _ p q => loads i p \/ loads i q
  | FScale _ p => loads i p
  end.
(** a library function that returns a finite number for finite arguments only *)
Definition strict2 (h : f64 -> f64 -> f64) : Prop := forall a b, fin (h a b) -> fin a /\ fin b.
Definition strict1 (h : f64 -> f64) : Prop := forall a, fin (h a) -> fin a.
