(** * Specification vocabulary: convolution weights of the RASTA numerator *)
From Coq Require Import Reals List.
From Verif Require Import Base SpecBase Rounded SpecRounded.
Import ListNotations.
Local Open Scope R_scope.

(** entry 4 + j of the convolution of the samples 0..3 with 0.2, 0.1, 0, -0.1, -0.2 weighs sample i
    with coefficient 4 + j - i, or not at all *)
Definition fir_weight (j i : nat) : R := if Nat.leb j i then nth (4 + j - i) [0.2; 0.1; 0; -0.1; -0.2] 0 else 0.
(** np.convolve on stored coefficients adds the products in any order, fused or not *)
Definition convolves `{Env} (fir : nat -> lin) : Prop :=
  forall j, (j < 4)%nat -> dot_program (fun i => rnd (fir_weight j i)) 4 (fir j).
