(** * Specification vocabulary: spectra, cosine transforms, cepstra (plain real mathematics) *)
From Coq Require Import Reals ZArith List String.
From Verif Require Import SpecBase.
Import ListNotations.
Local Open Scope R_scope.

(** ** orthonormal cosine transforms *)
(** weight 1/2 at both ends of 0..M, 1 inside *)
Definition end_weight (M k : nat) : R := if (Nat.eqb k 0 || Nat.eqb k M)%bool then 1 / 2 else 1.
(** matrix entry (k, n) of the orthonormal DCT of the given type, N points *)
Definition spec_dct_entry (type : Z) (N k n : nat) : R :=
  if (type =? 1)%Z then
    sqrt (2 / INR (N - 1)) * sqrt (end_weight (N - 1) k) * sqrt (end_weight (N - 1) n)
    * cos (PI * INR k * INR n / INR (N - 1))
  else if (type =? 2)%Z then
    sqrt ((if Nat.eqb k 0 then 1 else 2) / INR N) * cos (PI * INR k * (2 * INR n + 1) / (2 * INR N))
  else if (type =? 3)%Z then
    sqrt ((if Nat.eqb n 0 then 1 else 2) / INR N) * cos (PI * INR n * (2 * INR k + 1) / (2 * INR N))
  else
    sqrt (2 / INR N) * cos (PI * (2 * INR k + 1) * (2 * INR n + 1) / (4 * INR N)).
Definition spec_dct (type : Z) (N : nat) (x : nat -> R) (k : nat) : R :=
  bigsum N (fun n => x n * spec_dct_entry type N k n).

(** type t' undoes type t *)
Definition inverse_type (t t' : Z) : Prop :=
  (t = 1%Z /\ t' = 1%Z) \/ (t = 2%Z /\ t' = 3%Z) \/ (t = 3%Z /\ t' = 2%Z) \/ (t = 4%Z /\ t' = 4%Z).

(** ** short-time spectra of a signal [x : nat -> R] *)
(** pre-emphasis with coefficient [c], switched on or off *)
Definition spec_pre (on : bool) (c : R) (x : nat -> R) (t : nat) : R :=
  if on then match t with O => x O | S u => x t - c * x u end else x t.
(** sample [t] of the windowed frame [i] *)
Definition spec_frame (wt : string) (L hop : nat) (y : nat -> R) (i t : nat) : R :=
  spec_window wt L t * y (i * hop + t)%nat.
(** real and imaginary part of bin [k] of the [n]-point DFT of the [L] samples [f],
    cropped or zero-padded to [n] *)
Definition spec_re (n L : nat) (f : nat -> R) (k : nat) : R :=
  bigsum (Nat.min L n) (fun t => f t * cos (2 * PI * INR (t * k) / INR n)).
Definition spec_im (n L : nat) (f : nat -> R) (k : nat) : R :=
  bigsum (Nat.min L n) (fun t => f t * - sin (2 * PI * INR (t * k) / INR n)).
(** squared magnitude, magnitude, power *)
Definition spec_sq (n L : nat) (f : nat -> R) (k : nat) : R := (spec_re n L f k) ^ 2 + (spec_im n L f k) ^ 2.
Definition spec_mag (n L : nat) (f : nat -> R) (k : nat) : R := sqrt (spec_sq n L f k).
Definition spec_power (n L : nat) (f : nat -> R) (k : nat) : R := spec_sq n L f k / INR n.
(** weighted sum of the power bins 0..h with the weights [b] *)
Definition spec_band (h n L : nat) (f : nat -> R) (b : nat -> R) : R :=
  bigsum (S h) (fun k => spec_power n L f k * b k).
(** total power of the bins 0..h *)
Definition spec_total (h n L : nat) (f : nat -> R) : R := bigsum (S h) (spec_power n L f).

(** number of whole frames of [L] samples every [hop] samples in [N] samples *)
Definition frame_count (N L hop : nat) : nat := ((N - L) / hop + 1)%nat.

(** ** compression laws *)
(** the smallest number that is still different from 1 when added to it *)
Definition spec_eps : R := / 2 ^ 52.
Definition spec_log (v : R) : R := ln (if Req_EM_T v 0 then spec_eps else v).
Definition spec_root (p v : R) : R := if Req_EM_T v 0 then 0 else Rpower v p.
(** the intensity-loudness law of Hermansky's PLP (as coded) *)
Definition spec_loudness (w : R) : R :=
  spec_root (1 / 3)
    ((w ^ 2 + 56.8 * 10 ^ 6) * w ^ 4
     / ((w ^ 2 + 6.3 * 10 ^ 6) * (w ^ 2 + 0.38 * 10 ^ 9) * (w ^ 6 + 9.58 * 10 ^ 26))).

(** number of bins of the full spectrum that bin k of the half spectrum stands for *)
Definition bin_weight (n k : nat) : R := if (Nat.eqb k 0 || Nat.eqb (2 * k) n)%bool then 1 else 2.

(** the phase of the complex number (a, b) in degrees, 0 for the number 0 *)
Definition is_phase (a b p : R) : Prop :=
  0 <= p < 360 /\
  a = sqrt (a ^ 2 + b ^ 2) * cos (p * PI / 180) /\ b = sqrt (a ^ 2 + b ^ 2) * sin (p * PI / 180) /\
  (a = 0 -> b = 0 -> p = 0).
