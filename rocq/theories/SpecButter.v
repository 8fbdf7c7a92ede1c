(** * Specification vocabulary: Butterworth band-pass filters *)
From Coq Require Import Reals List.
From Verif Require Import Base SpecMat.
Local Open Scope R_scope.

(** the gain of the band-pass filter of order 2n that a Butterworth low-pass prototype of order [n]
    and the bilinear transform give, for edges [w1] and [w2] as parts of half the sampling rate, at
    [om] radians per sample *)
Definition butterworth (n : nat) (w1 w2 om : R) : R :=
  let e1 := tan (PI * w1 / 2) in let e2 := tan (PI * w2 / 2) in let t := tan (om / 2) in
  / sqrt (1 + ((t ^ 2 - e1 * e2) / ((e2 - e1) * t)) ^ (2 * n)).

(** [filter] turns the first samples of [x] into the first samples of [y], however many *)
Definition responds (filter : list F -> list F) (x y : nat -> R) : Prop :=
  forall M, filter (fvec M x) = fvec M y.
