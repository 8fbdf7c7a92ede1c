(** * Concrete signals used in the examples about linear prediction

    The signal of N ones: with the default pre-emphasis every frame contains a non-zero sample, so
    the default lpc accepts it. *)
From Coq Require Import Reals ZArith List String Bool Lia Lra.
From Verif Require Import Base BaseFacts SpecBase SpecMat SpecFeatures BigSum MatFacts Preprocessing PreprocessingFacts
  WindowFacts Features Extractors FeaturesFacts Lpc SpecLpc LpcTheory LpcMore LpcLaws ExampleTools ExampleFeatures.
Import ListNotations.
Local Open Scope R_scope.

(** every default frame of a constant signal sounds *)
Lemma ones_sounding : forall c i, c <> 0 -> sounding 400 (plain_frame default_sargs 160 (fun _ => c) i).
Proof.
  intros c i Hc. exists 1%nat. split; [lia|]. unfold plain_frame, spec_pre. cbn [default_sargs s_pre_emph].
  replace (i * 160 + 1)%nat with (S (i * 160)) by lia. intros K. lra.
Qed.

(** a signal that differs from it in its first 100 samples only *)
Definition bent (t : nat) : R := if Nat.ltb t 100 then 2 else 1.
Lemma bent_sounding : forall i, sounding 400 (plain_frame default_sargs 160 bent i).
Proof.
  intros i. exists 200%nat. split; [lia|]. unfold plain_frame, spec_pre, bent. cbn [default_sargs s_pre_emph].
  replace (i * 160 + 200)%nat with (S (i * 160 + 199)) by lia.
  destruct (Nat.ltb_spec (S (i * 160 + 199)) 100); [lia|]. destruct (Nat.ltb_spec (i * 160 + 199) 100); [lia|]. lra.
Qed.

(** frames of two samples, hop 1, no pre-emphasis *)
Definition lp_tiny : sargs :=
  mkS 1 false 0 (Some (mkWindow 2 1 "hamming")) 2 1 0 None "constant" None "Glasberg".
Lemma lp_tiny_framed : forall N, (2 <= N)%nat -> @well_framed exact_env lp_tiny N 2 1.
Proof.
  intros N HN. unfold well_framed, window_of, lp_tiny. cbn [s_window s_fs win_len win_hop win_type].
  split; [lra|]. split; [apply flen_exact; simpl; lra|]. split; [apply flen_exact; simpl; lra|].
  split; [lia|]. split; [lia|]. simpl; tauto.
Qed.
(** its error value for two ones is 5/2 *)
Lemma lp_tiny_error : forall i a, normal_equations 2 1 (plain_frame lp_tiny 1 (fun _ => 1) i) a ->
  lpc_error 2 1 (plain_frame lp_tiny 1 (fun _ => 1) i) a = 5 / 2.
Proof.
  intros i a (H0 & H1). specialize (H1 1%nat ltac:(lia)). unfold lpc_error, acf, plain_frame, spec_pre in *. cbn in *.
  replace (1 * 1 + 1 * 1 * a 0%nat) with 2 by (rewrite H0; ring).
  match goal with |- Rabs ?e = _ => replace e with (5 / 2) by (rewrite H0 in *; lra) end. apply Rabs_pos_eq. lra.
Qed.
