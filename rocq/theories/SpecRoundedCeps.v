(** * Specification vocabulary: accuracy of library functions, noise of a band *)
From Coq Require Import Reals ZArith String List.
From Verif Require Import Base SpecBase SpecFeatures Rounded SpecRounded.
Local Open Scope R_scope.

(** hypot, log and pow(., p) that are right up to a relative error *)
Definition hypot_within (v : R) (hyp : R -> R -> R) : Prop :=
  0 <= v < 1 /\ forall a b, Rabs (hyp a b - sqrt (a ^ 2 + b ^ 2)) <= v * sqrt (a ^ 2 + b ^ 2).
Definition ln_within (v : R) (f : R -> R) : Prop := 0 <= v /\ forall x, 0 < x -> Rabs (f x - ln x) <= v * Rabs (ln x).
Definition pow_within (v p : R) (f : R -> R) : Prop :=
  0 <= v /\ forall x, 0 < x -> Rabs (f x - Rpower x p) <= v * Rpower x p.

(** a program that only reads the inputs 0 .. n-1 *)
Fixpoint reads (n : nat) (p : lin) : Prop :=
  match p with
  | Load i => (i < n)%nat
  | Zero => True
  | Add p q | Sub p q | ScaleAdd _ p q => reads n p /\ reads n q
  | Scale _ p => reads n p
  end.
(** the largest factor by which a program can blow up its inputs *)
Definition gain (p : lin) : R := lin_size (fun _ => 1) p.

(** energy that rounding can put into a band with the weights w: u is the unit roundoff, D the number
    of roundings along a path of the programs for the real and imaginary parts *)
Definition noise (u : R) (D nfft bins : nat) (x : nat -> R) (re im : nat -> lin) (w : nat -> R) : R :=
  bigsum bins (fun k => w k * ((((1 + u) ^ D - 1) * lin_size x (re k)) ^ 2 + (((1 + u) ^ D - 1) * lin_size x (im k)) ^ 2) / INR nfft).
(** bound for the error of the logarithm of a band energy: roundings, hypot, noise-to-signal ratio r *)
Definition band_log_bound (u v r : R) (bins : nat) : R :=
  INR (bins + 3) * - ln (1 - u) + 2 * - ln (1 - v) + 2 * - ln (1 - r).

(** [re k] and [im k] are programs for the spectrum of the frame [f z] of length L, for every signal z *)
Definition frame_programs (nf L : nat) (f : (nat -> R) -> nat -> R) (bins : nat) (re im : nat -> lin) : Prop :=
  forall z k, (k < bins)%nat -> lin_exact z (re k) = spec_re nf L (f z) k /\ lin_exact z (im k) = spec_im nf L (f z) k.

(** ** plain programs for the spectrum of a frame: pre-emphasis, window, sum of the definition *)
Definition sample_program (on : bool) (c : R) (s : nat) : lin :=
  if on then match s with O => Load 0 | S q => Sub (Load s) (Scale c (Load q)) end else Load s.
Fixpoint sum_program (g : nat -> R) (smp : nat -> lin) (T : nat) : lin :=
  match T with O => Zero | S t => ScaleAdd (g t) (smp t) (sum_program g smp t) end.
Definition plain_re (on : bool) (c : R) (wt : string) (L hop nf i k : nat) : lin :=
  sum_program (fun t => cos (2 * PI * INR (t * k) / INR nf))
    (fun t => Scale (spec_window wt L t) (sample_program on c (i * hop + t))) (Nat.min L nf).
Definition plain_im (on : bool) (c : R) (wt : string) (L hop nf i k : nat) : lin :=
  sum_program (fun t => - sin (2 * PI * INR (t * k) / INR nf))
    (fun t => Scale (spec_window wt L t) (sample_program on c (i * hop + t))) (Nat.min L nf).
