(** * Specification vocabulary for C175: a recording made through a fixed filter (microphone, line, room) *)
From Coq Require Import Reals Arith.
From Verif Require Import SpecBase.
Local Open Scope R_scope.

(** what the filter with impulse response h 0, ..., h (m-1) makes of the recording x *)
Definition filtered (m : nat) (h x : nat -> R) (t : nat) : R :=
  bigsum m (fun s => if (s <=? t)%nat then h s * x (t - s)%nat else 0).
(** its gain at bin k of an n-point transform *)
Definition response (n m : nat) (h : nat -> R) (k : nat) : R :=
  sqrt (bigsum m (fun s => h s * cos (2 * PI * INR (s * k) / INR n)) ^ 2
        + bigsum m (fun s => h s * sin (2 * PI * INR (s * k) / INR n)) ^ 2).
(** its delays, weighted by the coefficients *)
Definition smear (m : nat) (h : nat -> R) : R := bigsum m (fun s => INR s * Rabs (h s)).
(** what crosses the borders of a frame, in a bin and in the root of a band energy with weights that add
    up to w; [peak] bounds the pre-emphasised recording *)
Definition edge_mag (m : nat) (h : nat -> R) (peak : R) : R := 2 * smear m h * peak.
Definition edge_level (m : nat) (h : nat -> R) (peak w : R) (n : nat) : R := sqrt (w / INR n) * edge_mag m h peak.
(** within the bins that have weights b, the gain is g up to a factor exp d *)
Definition even_gain (n m : nat) (h : nat -> R) (top : nat) (b : nat -> R) (g d : R) : Prop :=
  0 < g /\ 0 <= d /\ forall k, (k <= top)%nat -> 0 <= b k /\ (b k <> 0 -> g * exp (- d) <= response n m h k <= g * exp d).
