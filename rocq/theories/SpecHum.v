(** * Specification vocabulary for C173: a hum or an offset added to a recording *)
From Coq Require Import Reals Bool.
From Verif Require Import SpecBase SpecTone.
Local Open Scope R_scope.

(** the recording with a tone on top; for nu = 0 and phi = 0 this is an offset of A *)
Definition with_hum (A nu phi : R) (x : nat -> R) (t : nat) : R := x t + tone A nu phi t.
(** neither the tone nor its mirror image falls on bin k of an n-point transform *)
Definition off_bin (n : nat) (nu : R) (k : nat) : Prop :=
  sin (PI * (nu - INR k / INR n)) <> 0 /\ sin (PI * (nu + INR k / INR n)) <> 0.
(** what leaks from a tone of amplitude one into bin k, through any window of any length *)
Definition leak (n : nat) (nu : R) (k : nat) : R :=
  / Rabs (sin (PI * (nu - INR k / INR n))) + / Rabs (sin (PI * (nu + INR k / INR n))).
(** gain of the pre-emphasis filter at a frequency *)
Definition pre_gain (on : bool) (c nu : R) : R := if on then sqrt (1 - 2 * c * cos (2 * PI * nu) + c ^ 2) else 1.
(** the first sample of a recording is not filtered *)
Definition first_frame (on : bool) (c : R) (i : nat) : R := if on && Nat.eqb i 0 then Rabs c else 0.
(** a bound of what a tone of amplitude A does to a bin of frame i; [ell] bounds its leak *)
Definition hum_mag (on : bool) (c A nu ell : R) (i : nat) : R := Rabs A * (pre_gain on c nu * ell + first_frame on c i).
(** and to the root of a band energy, with weights that add up to s *)
Definition hum_level (on : bool) (c A nu ell s : R) (n i : nat) : R := sqrt (s / INR n) * hum_mag on c A nu ell i.
