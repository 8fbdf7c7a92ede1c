(** * Specification for C193: pure tones in the constant-Q transform *)
From Coq Require Import Reals String.
From Verif Require Import SpecBase SpecCqt SpecCqtSeen.
Local Open Scope R_scope.

(** share of a tone that a row with windows of N samples lets through: frames of L samples have been
    windowed already and are padded to n *)
Definition tone_share (wt : string) (L n N : nat) : R :=
  bigsum N (fun t => spec_window wt N t * padded L (spec_window wt L) (middle n N + t)) / INR N.
(** distance of the image of f about 0 Hz from nu, in units of the sampling rate: both lie between
    0 and 1/2 *)
Definition image_distance (nu f : R) : R := Rmin (nu + f) (1 - (nu + f)).
