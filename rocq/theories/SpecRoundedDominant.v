(** * Specification vocabulary: how sharp a peak must be to survive rounding *)
From Coq Require Import Reals ZArith String List.
From Verif Require Import Base SpecBase SpecFeatures Rounded SpecRounded.
Local Open Scope R_scope.

(** the size of the rounding error of the complex bin k: u is the unit roundoff, D the number of
    roundings along a path of the programs for the real and imaginary parts *)
Definition bin_noise (u : R) (D : nat) (x : nat -> R) (re im : nat -> lin) (k : nat) : R :=
  sqrt ((((1 + u) ^ D - 1) * lin_size x (re k)) ^ 2 + (((1 + u) ^ D - 1) * lin_size x (im k)) ^ 2).
(** two magnitudes closer to each other than this ratio can be ordered wrongly by the rounding of
    their squares and an error v of hypot *)
Definition peak_ratio (u v : R) : R := sqrt (((1 - u) / (1 + u)) ^ 7) * ((1 - v) / (1 + v)).
(** what rounding can add to the frequency t of a bin: two roundings of the bin spacing, one of the
    product, one to three decimals *)
Definition freq_slack (u t : R) : R :=
  let d := (((1 + u) / (1 - u)) ^ 2 - 1) * Rabs t in
  d + (1 + u) * (u * (Rabs t + d) + / 2000) + u * (Rabs t + d).
(** a hypot that is right up to a factor (true of any rounded one, even where the result underflows) *)
Definition hypot_sane (g : R -> R -> R) : Prop := forall a b, 0 <= g a b <= 4 * (Rabs a + Rabs b).
