(** * A name used in the statements about pncc.  Nothing is modelled here. *)
From Coq Require Import Reals ZArith List.
From Verif Require Import Base SpecBase SpecBanks SpecFeatures SpecPncc Features Extractors.
Local Open Scope R_scope.

(** the power of frame [m] in band [l] that pncc starts from: magnitudes to the power [p] *)
Definition band_power (a : sargs) (p L hop : nat) (B : nat -> nat -> R) (x : nat -> R) (m l : nat) : R :=
  spec_pband p (half (s_nfft a)) (Z.to_nat (s_nfft a)) L (frame_of a (s_coeff a) L hop x m) (B l).
