(** * Small helpers for the examples beside the theorems on features *)
From Coq Require Import Reals ZArith List String Lia Lra.
From Verif Require Import Base BaseFacts SpecBase SpecMat SpecFilters SpecBanks SpecFeatures Preprocessing PreprocessingFacts
  ExampleTools Features Extractors.
Import ListNotations.
Local Open Scope R_scope.

(** the default configuration at 16 kHz in exact arithmetic: frames of 400 samples every 160 *)
Lemma default_framed : forall N, (400 <= N)%nat -> @well_framed exact_env default_sargs N 400 160.
Proof.
  intros N HN. unfold well_framed, window_of, default_sargs, default_window. cbn [s_window s_fs win_len win_hop win_type].
  split; [lra|]. split; [apply flen_exact; simpl; lra|]. split; [apply flen_exact; simpl; lra|].
  split; [lia|]. split; [lia|]. simpl; tauto.
Qed.
(** the default configuration is a valid band for mfcc *)
Lemma default_band : @valid_band exact_env Mfcc default_sargs.
Proof.
  exists 8000. unfold default_sargs. cbn [s_fbanks s_scale s_high s_low s_fs s_approach].
  split; [auto|]. split; [simpl; tauto|]. split; [right; split; auto; lra|].
  split; [lra|]. split; [lra|]. split; [lra|]. split; [lia|]. 
  eexists. left. split; reflexivity.
Qed.
