(** * Helpers for the statements and examples about plp and rplp *)
From Coq Require Import Reals ZArith List String Bool Lia Lra.
From Verif Require Import Base BaseFacts SpecBase SpecMat SpecFilters SpecBanks SpecFeatures SpecRplp BigSum MatFacts
  Preprocessing Filters FiltersFacts Fourier Features Extractors FeaturesFacts FeaturesLaws Lpc SpecLpc LpcTheory LpcLaws ExampleTools ExampleFeatures CqtFacts BarkMore
  Rplp RplpNames RplpFacts RplpLaws RplpSilence.
Import ListNotations.
Local Open Scope R_scope.

(** frames of one sample, five filters; filter [j] passes [h j] times the power *)
Definition plp_tiny (h : nat -> R) : sargs :=
  mkS 1 false 0 (Some (mkWindow 1 1 "hamming")) 5 5 0 None "constant"
    (Some (fmat 5 3 (fun j k => if Nat.eqb k 0 then 5 * h j else 0))) "Wang".
Definition plp_tiny_bank (h : nat -> R) (j k : nat) : R := if Nat.eqb k 0 then 5 * h j else 0.
Lemma plp_tiny_B : forall `{Env} h, spectro_bank Bark (plp_tiny h) = Ok (fmat 5 (S (half (s_nfft (plp_tiny h)))) (plp_tiny_bank h)).
Proof. reflexivity. Qed.
Lemma plp_tiny_framed : forall h N, (1 <= N)%nat -> @well_framed exact_env (plp_tiny h) N 1 1.
Proof.
  intros h N HN. unfold well_framed, window_of, plp_tiny. cbn [s_window s_fs win_len win_hop win_type].
  split; [lra|]. split; [apply flen_exact; simpl; lra|]. split; [apply flen_exact; simpl; lra|].
  split; [lia|]. split; [lia|]. simpl; tauto.
Qed.
Lemma plp_tiny_energy : forall h x i j, channel_energy (plp_tiny h) 1 1 (plp_tiny_bank h) x i j = h j * x i ^ 2.
Proof.
  intros. unfold channel_energy, spec_band. change (half (s_nfft (plp_tiny h))) with 2%nat. change (Z.to_nat (s_nfft (plp_tiny h))) with 5%nat.
  cbn [bigsum]. unfold plp_tiny_bank. cbn [Nat.eqb]. unfold spec_power at 1.
  unfold spec_sq, spec_re, spec_im. cbn [Nat.min bigsum]. unfold frame_of, spec_frame, window_of, plp_tiny, spec_pre.
  cbn [s_window win_type s_pre_emph]. unfold spec_window. cbn [Nat.leb]. replace (2 * PI * INR (0 * 0) / INR 5) with 0 by (simpl; field).
  rewrite cos_0, sin_0. replace (i * 1 + 0)%nat with i by lia. simpl INR. field.
Qed.

(** ** a fixed colouration of the channels *)
Lemma inverse_last : forall K D t, (1 <= t < 5)%nat -> spec_inverse 5 5 (fun j => if Nat.eqb j 4 then K + D else K) t = Rabs D / 5.
Proof.
  intros K D t Ht. unfold spec_inverse. cbn [Nat.min]. replace (INR 5) with 5 by (simpl; ring). f_equal.
  assert (Ec : bigsum 5 (fun j => cos (2 * PI * INR (j * t) / 5)) = 0).
  { rewrite (bigsum_ext 5 _ (fun s => cos (0 + 2 * PI * INR s * IZR (Z.of_nat t) / INR 5))).
    - rewrite cos_phase_sum by lia. destruct (Z.eqb_spec (Z.of_nat t) 0); [lia|auto].
    - intros j Hj. f_equal. rewrite mult_INR, INR_IZR_INZ with (n := t). replace (INR 5) with 5 by (simpl; ring). field. }
  assert (Es : bigsum 5 (fun j => sin (2 * PI * INR (j * t) / 5)) = 0).
  { rewrite (bigsum_ext 5 _ (fun s => sin (2 * PI * INR s * IZR (Z.of_nat t) / INR 5))).
    - apply sin_sum. lia.
    - intros j Hj. f_equal. rewrite mult_INR, INR_IZR_INZ with (n := t). replace (INR 5) with 5 by (simpl; ring). field. }
  set (u := 2 * PI * INR (4 * t) / 5).
  assert (G : forall f : R -> R, bigsum 5 (fun j => f (2 * PI * INR (j * t) / 5)) = 0 ->
    bigsum 5 (fun j => (if Nat.eqb j 4 then K + D else K) * f (2 * PI * INR (j * t) / 5)) = D * f u).
  { intros f Hf. rewrite (bigsum_ext 5 _ (fun j => K * f (2 * PI * INR (j * t) / 5) + (if Nat.eqb j 4 then D * f (2 * PI * INR (j * t) / 5) else 0))).
    - rewrite bigsum_plus, bigsum_scal, Hf, (bigsum_delta 5 4 (fun j => D * f (2 * PI * INR (j * t) / 5))) by lia. unfold u. ring.
    - intros j Hj. destruct (Nat.eqb j 4); ring. }
  rewrite (G cos Ec), (G sin Es). pose proof (sin2_cos2 u) as SC. unfold Rsqr in SC.
  replace ((D * cos u) ^ 2 + (D * sin u) ^ 2) with (D * D * (sin u * sin u + cos u * cos u)) by ring. rewrite SC, Rmult_1_r. apply sqrt_Rsqr_abs.
Qed.
Lemma loudness_two : spec_loudness 2 <> spec_loudness 1.
Proof.
  unfold spec_loudness. intros G. assert (H1 : 0 < loud_arg 1) by (unfold loud_arg; apply Rdiv_lt_0_compat; lra).
  assert (H2 : 0 < loud_arg 2) by (unfold loud_arg; apply Rdiv_lt_0_compat; lra).
  fold (loud_arg 1) in G. fold (loud_arg 2) in G. unfold spec_root in G.
  destruct (Req_EM_T (loud_arg 2) 0); [lra|]. destruct (Req_EM_T (loud_arg 1) 0); [lra|].
  unfold Rpower in G. apply exp_inv in G. apply Rmult_eq_reg_l in G; [|lra]. apply ln_inv in G; auto.
  unfold loud_arg in G.
  assert (X : forall a b c d, 0 < b -> 0 < d -> a / b = c / d -> a * d = c * b).
  { intros a b c d Hb Hd Q. replace a with (a / b * b) by (field; lra). rewrite Q. field. lra. }
  apply X in G; lra.
Qed.

(** coefficient 1 of rplp for the two filter banks *)
Lemma tiny_c1 : forall h v, v = exp (0.2 * ln (h 4%nat)) -> 0 < h 4%nat -> (forall j, (j < 4)%nat -> h j = 1) ->
  exists M r c, @rplp exact_env (fvec 1 (fun _ => 1)) (plp_tiny h) 2 None None = Ok M /\ nth 1 (nth 0 M []) NaN = Fin c /\ 0 < r /\
    c * r = - acf 5 (spec_inverse 5 5 (fun j => if Nat.eqb j 4 then spec_loudness 1 + (spec_loudness v - spec_loudness 1) else spec_loudness 1)) 1.
Proof.
  intros h v Hv H4 H1.
  assert (Hp : forall j, (j < 5)%nat -> 0 < h j).
  { intros j Hj. destruct (le_lt_dec 4 j); [replace j with 4%nat by lia; auto|]. rewrite H1 by lia. lra. }
  assert (Hr : rasta_ok (plp_tiny h) 1 1 1 5 (plp_tiny_bank h) true (fun _ => 1)).
  { split; [lia|]. intros i j Hi Hj. rewrite plp_tiny_energy. specialize (Hp j Hj). lra. }
  set (s := plp_sequence (plp_tiny h) true 1 1 5 (plp_tiny_bank h) (fun _ => 1) 0).
  assert (Es : forall t, s t = spec_inverse 5 5 (fun j => if Nat.eqb j 4 then spec_loudness 1 + (spec_loudness v - spec_loudness 1) else spec_loudness 1) t).
  { intros t. unfold s, plp_sequence. change (Z.to_nat (s_nfft (plp_tiny h))) with 5%nat. apply spec_inverse_ext. intros j Hj.
    unfold spec_auditory. destruct (Nat.eqb_spec j 4) as [->|Hj4].
    - replace (spec_loudness 1 + (spec_loudness v - spec_loudness 1)) with (spec_loudness v) by ring. f_equal. rewrite Hv. f_equal.
      rewrite spec_rasta_step by lia. rewrite spec_rasta_early by lia. cbn [Nat.sub]. rewrite !plp_tiny_energy, (H1 3%nat), (H1 1%nat), (H1 0%nat) by lia.
      replace (1 * 1 ^ 2) with 1 by ring. replace (h 4%nat * 1 ^ 2) with (h 4%nat) by ring. rewrite ln_1. ring.
    - rewrite spec_rasta_early by lia. rewrite exp_0. auto. }
  destruct (@rastaplp_value exact_env (plp_tiny h) 1 1 1 5 (plp_tiny_bank h)) with (x := fun _ : nat => 1) (p := 1%nat) (r := true) (li := @None R) (no := @None string)
    as (A & HA & E); auto; try (simpl; lia); [apply plp_tiny_framed; lia|split; auto| |].
  { intros i Hi. exists 0%nat. split; [lia|]. split; [simpl; lia|]. unfold spec_auditory. apply Rgt_not_eq, exp_pos. }
  specialize (HA 0%nat (frame_count_pos 1 1 1)). fold s in HA. change (Z.to_nat (s_nfft (plp_tiny h))) with 5%nat in HA.
  destruct HA as [A0 A1]. specialize (A1 1%nat ltac:(lia)). cbn [bigsum] in A1. change (dist 1 0) with 1%nat in A1. change (dist 1 1) with 0%nat in A1.
  eexists _, (acf 5 s 0), (A 0%nat 1%nat). split; [exact E|]. split.
  { rewrite fmat_nth by apply frame_count_pos. rewrite fvec_nth by lia. cbn [Nat.eqb]. f_equal. unfold coded_cepstrum. cbn [Nat.sub bigsum]. ring. }
  split.
  - assert (Hs : sounding 5 s).
    { change 5%nat with (Z.to_nat (s_nfft (plp_tiny h))) at 1. unfold s. apply (@sounding_iff (plp_tiny h) 1 1 1 5 (plp_tiny_bank h)); [simpl; lia|lia|].
      exists 0%nat. split; [lia|]. split; [simpl; lia|]. unfold spec_auditory. apply Rgt_not_eq, exp_pos. }
    destruct Hs as (t & Ht & Hs). unfold acf. apply (bigsum_pos _ _ t).
    + intros k Hk. rewrite Nat.add_0_r. apply Rle_0_sqr.
    + lia.
    + rewrite Nat.add_0_r. apply Rlt_0_sqr. auto.
  - rewrite <- (acf_ext 5 s _ 1) by (intros; apply Es). rewrite A0 in A1. lra.
Qed.
Lemma colouration : exists M M2 c c2,
  @rplp exact_env (fvec 1 (fun _ => 1)) (plp_tiny (fun _ => 1)) 2 None None = Ok M /\
  @rplp exact_env (fvec 1 (fun _ => 1)) (plp_tiny (fun j => if Nat.eqb j 4 then 32 else 1)) 2 None None = Ok M2 /\
  nth 1 (nth 0 M []) NaN = Fin c /\ nth 1 (nth 0 M2 []) NaN = Fin c2 /\ c = 0 /\ c2 < 0.
Proof.
  destruct (tiny_c1 (fun _ => 1) 1) as (M & r & c & E & Ec & Hr & Q); [rewrite ln_1, Rmult_0_r, exp_0; auto|lra|auto|].
  destruct (tiny_c1 (fun j => if Nat.eqb j 4 then 32 else 1) 2) as (M2 & r2 & c2 & E2 & Ec2 & Hr2 & Q2).
  { cbn [Nat.eqb]. replace 32 with (2 ^ 5) by ring. rewrite ln_pow by lra. replace (0.2 * (INR 5 * ln 2)) with (ln 2) by (simpl INR; lra). symmetry. apply exp_ln. lra. }
  { cbn [Nat.eqb]. lra. }
  { intros j Hj. destruct (Nat.eqb_spec j 4); [lia|auto]. }
  exists M, M2, c, c2. repeat (split; [assumption|]). split.
  - assert (G : c * r = 0); [|apply Rmult_integral in G; lra]. rewrite Q. unfold acf. rewrite bigsum_zero; [ring|].
    intros t Ht. rewrite (inverse_last _ _ (t + 1)) by lia. rewrite Rminus_diag_eq by auto. rewrite Rabs_R0. lra.
  - assert (G : c2 * r2 < 0); [|apply Rnot_le_lt; intros H; pose proof (Rmult_le_pos c2 r2 H ltac:(lra)); lra].
    rewrite Q2. set (d := spec_loudness 2 - spec_loudness 1) in *. assert (Hd : 0 < Rabs d) by (apply Rabs_pos_lt; unfold d; pose proof loudness_two; lra).
    assert (HP : forall t, 0 <= spec_inverse 5 5 (fun j => if Nat.eqb j 4 then spec_loudness 1 + d else spec_loudness 1) t).
    { intros t. unfold spec_inverse. apply Rmult_le_pos; [apply sqrt_pos|]. left. apply Rinv_0_lt_compat. simpl. lra. }
    assert (0 < acf 5 (spec_inverse 5 5 (fun j => if Nat.eqb j 4 then spec_loudness 1 + d else spec_loudness 1)) 1); [|lra].
    unfold acf. apply (bigsum_pos _ _ 1%nat); [intros; apply Rmult_le_pos; auto|lia|].
    rewrite !inverse_last by lia. apply Rmult_lt_0_compat; lra.
Qed.

(** rplp always has something to predict *)
Lemma rplp_heard : forall a n e, (1 <= s_nfft a)%Z -> (0 < n)%nat -> heard a n (spec_auditory true e).
Proof. intros a n e Hn H0. exists 0%nat. split; [lia|]. split; [lia|]. unfold spec_auditory. apply Rgt_not_eq, exp_pos. Qed.

(** the default arguments of plp and rplp, rplp.py:182-198 *)
Definition default_plp : sargs := mkS 16000 false 0.97 None 24 512 0 None "constant" None "Wang".
Lemma default_plp_framed : forall N, (400 <= N)%nat -> @well_framed exact_env default_plp N 400 160.
Proof.
  intros N HN. unfold well_framed, window_of, default_plp, default_window. cbn [s_window s_fs win_len win_hop win_type].
  split; [lra|]. split; [apply flen_exact; simpl; lra|]. split; [apply flen_exact; simpl; lra|].
  split; [lia|]. split; [lia|]. simpl; tauto.
Qed.
Lemma default_plp_bank : exists B, @spectro_bank exact_env Bark default_plp = Ok (fmat 24 (S (half (s_nfft default_plp))) B).
Proof.
  destruct (@valid_band_bank exact_env Bfcc default_plp 24) as (B & HB & Hp); [|reflexivity|simpl; lia|eauto].
  exists 8000. unfold default_plp. cbn [s_fbanks s_scale s_high s_low s_fs s_approach s_nfft s_nfilts].
  split; [auto|]. split; [simpl; tauto|]. split; [right; split; auto; lra|]. split; [lra|]. split; [lra|]. split; [lra|]. split; [lia|].
  split; [apply exact_sane|]. split; [lia|]. split; [lia|]. eexists. right. right. split; [|reflexivity].
  simpl. intuition discriminate.
Qed.
Lemma default_plp_silent : forall B i j, channel_energy default_plp 400 160 B (fun _ => 0) i j = 0.
Proof.
  intros. unfold channel_energy, spec_band. apply bigsum_zero. intros k _. unfold spec_power, spec_sq, spec_re, spec_im.
  rewrite !bigsum_zero by (intros; rewrite frame_of_zero by auto; ring). unfold Rdiv. ring.
Qed.
