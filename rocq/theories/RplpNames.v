(** * Names used in the statements about plp and rplp.  Nothing is modelled here. *)
From Coq Require Import Reals ZArith List String Bool.
From Verif Require Import Base SpecBase SpecBanks SpecFeatures SpecRplp Features Extractors.
Local Open Scope R_scope.

(** energy of channel [j] in frame [i] *)
Definition channel_energy (a : sargs) (L hop : nat) (B : nat -> nat -> R) (x : nat -> R) (i j : nat) : R :=
  spec_band (half (s_nfft a)) (Z.to_nat (s_nfft a)) L (frame_of a (s_coeff a) L hop x i) (B j).
(** the sequence whose linear prediction is taken in frame [i] *)
Definition plp_sequence (a : sargs) (rasta : bool) (L hop n : nat) (B : nat -> nat -> R) (x : nat -> R) (i : nat) : nat -> R :=
  spec_inverse (Z.to_nat (s_nfft a)) n
    (fun j => spec_loudness (spec_auditory rasta (channel_energy a L hop B x i) j)).
(** every frame has energy in some channel (among the first nfft ones) *)
Definition heard (a : sargs) (n : nat) (e : nat -> R) : Prop :=
  exists j, (j < n)%nat /\ (j < Z.to_nat (s_nfft a))%nat /\ e j <> 0.
(** channel [j] has energy and no other one *)
Definition one_channel (n : nat) (e : nat -> R) (j : nat) : Prop := (j < n)%nat /\ e j <> 0 /\ forall k, (k < n)%nat -> k <> j -> e k = 0.
(** the arguments plp and rplp hand on *)
Definition no_post (lifter : option R) (normalize : option string) : Prop :=
  (lifter = None \/ lifter = Some 0) /\ (normalize = None \/ normalize = Some ""%string).
