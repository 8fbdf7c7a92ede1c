(** * Specification for C170: pure tones *)
From Coq Require Import Reals String.
From Verif Require Import SpecBase.
Local Open Scope R_scope.

(** a tone of [nu] periods per sample *)
Definition tone (A nu phi : R) (t : nat) : R := A * cos (2 * PI * nu * INR t + phi).

(** distance of a tone from 0 Hz and from half the sampling rate, on the scale of the sine *)
Definition edge_distance (nu : R) : R := Rmin (sin (PI * nu)) (cos (PI * nu)).

(** when a tone of [nu] periods per sample stands out, in frames of [L] samples and a transform of
    [n] points, from every bin further than [d] (in units of the sampling rate): [k0] is a bin near
    the tone *)
Definition tone_seen (wt : string) (n L : nat) (nu d : R) (k0 : nat) : Prop :=
  let delta := Rabs (nu - INR k0 / INR n) in
  delta * (INR L - 1) <= 1 /\
  2 / sin (PI * d) + 4 / edge_distance nu < cos (PI * delta * (INR L - 1)) * bigsum L (spec_window wt L).

(** the same for a recording that differs from the tone by at most [eta] times its amplitude *)
Definition tone_seen_in_noise (wt : string) (n L : nat) (nu d eta : R) (k0 : nat) : Prop :=
  let delta := Rabs (nu - INR k0 / INR n) in
  delta * (INR L - 1) <= 1 /\
  2 / sin (PI * d) + 4 / edge_distance nu + 4 * eta * bigsum L (spec_window wt L)
    < cos (PI * delta * (INR L - 1)) * bigsum L (spec_window wt L).
