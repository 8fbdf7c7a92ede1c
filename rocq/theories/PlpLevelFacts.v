(** * Proofs for C189: plp depends on the level *)
From Coq Require Import Reals ZArith List String Bool Lia Lra.
From Verif Require Import Base BaseFacts SpecBase BigSum SpecMat MatFacts SpecBanks SpecFeatures Preprocessing PreprocessingFacts Features Extractors FeaturesFacts
  SpecRplp Rplp RplpNames SpecLpc LpcTheory LpcLaws RplpFacts RplpLaws ExampleRplp PlpNearFacts.
Import ListNotations.
Local Open Scope R_scope.

Definition eight_h (j : nat) : R := if Nat.eqb j 4 then 8 else 1.
Lemma eight_h_pos : forall j, 0 < eight_h j. Proof. intros j. unfold eight_h. destruct (Nat.eqb j 4); lra. Qed.
Lemma eight_energy : forall i j, channel_energy (plp_tiny eight_h) 1 1 (plp_tiny_bank eight_h) (fun _ => 1) i j = eight_h j.
Proof. intros. rewrite plp_tiny_energy. ring. Qed.
Lemma ln_8 : ln 8 = 3 * ln 2.
Proof. replace 8 with (2 ^ 3) by ring. rewrite ln_pow by lra. simpl INR. ring. Qed.
Lemma eight_up : forall j, spec_root (4 / 3) (eight_h j) = if Nat.eqb j 4 then 1 + 15 else 1.
Proof.
  intros j. unfold spec_root. pose proof (eight_h_pos j). destruct (Req_EM_T (eight_h j) 0); [lra|]. unfold eight_h, Rpower. destruct (Nat.eqb j 4); [|rewrite ln_1, Rmult_0_r; apply exp_0].
  rewrite ln_8. replace (4 / 3 * (3 * ln 2)) with (INR 4 * ln 2) by (simpl INR; lra). rewrite <- ln_pow by lra. rewrite exp_ln by (apply pow_lt; lra). ring.
Qed.
Lemma eight_down : forall j, spec_root (- (4 / 3)) (eight_h j) = if Nat.eqb j 4 then 1 + - (15 / 16) else 1.
Proof.
  intros j. unfold spec_root. pose proof (eight_h_pos j). destruct (Req_EM_T (eight_h j) 0); [lra|]. unfold eight_h, Rpower. destruct (Nat.eqb j 4); [|rewrite ln_1, Rmult_0_r; apply exp_0].
  rewrite ln_8. replace (- (4 / 3) * (3 * ln 2)) with (- (INR 4 * ln 2)) by (simpl INR; lra). rewrite <- ln_pow by lra. rewrite exp_Ropp, exp_ln by (apply pow_lt; lra). field.
Qed.
(** the first coefficient of the predictor for five channels, one of which differs by D *)
Lemma one_differs : forall D b, -5 < D -> normal_equations 5 1 (spec_inverse 5 5 (fun j => if Nat.eqb j 4 then 1 + D else 1)) b ->
  coded_cepstrum b 1 * (((5 + D) / 5) ^ 2 + 4 * (Rabs D / 5) ^ 2) = - ((5 + D) / 5 * (Rabs D / 5) + 3 * (Rabs D / 5) ^ 2).
Proof.
  intros D b HD (B0 & HB). specialize (HB 1%nat ltac:(lia)). set (s := spec_inverse 5 5 (fun j => if Nat.eqb j 4 then 1 + D else 1)) in *.
  assert (E0 : s 0%nat = (5 + D) / 5).
  { unfold s, spec_inverse. cbn [Nat.min bigsum Nat.eqb]. rewrite !Nat.mul_0_r. replace (2 * PI * INR 0 / INR 5) with 0 by (simpl; field). rewrite cos_0, sin_0.
    replace ((0 + 1 * 1 + 1 * 1 + 1 * 1 + 1 * 1 + (1 + D) * 1) ^ 2 + (0 + 1 * 0 + 1 * 0 + 1 * 0 + 1 * 0 + (1 + D) * 0) ^ 2) with ((5 + D) ^ 2) by ring. rewrite sqrt_pow2 by lra. f_equal. simpl INR. lra. }
  assert (E : forall t, (1 <= t < 5)%nat -> s t = Rabs D / 5) by (intros t Ht; unfold s; apply (inverse_last 1 D t Ht)).
  assert (A0 : acf 5 s 0 = ((5 + D) / 5) ^ 2 + 4 * (Rabs D / 5) ^ 2).
  { unfold acf. cbn [Nat.sub bigsum Nat.add]. rewrite E0, !E by lia. ring. }
  assert (A1 : acf 5 s 1 = (5 + D) / 5 * (Rabs D / 5) + 3 * (Rabs D / 5) ^ 2).
  { unfold acf. cbn [Nat.sub bigsum Nat.add]. rewrite E0, !E by lia. ring. }
  cbn [bigsum] in HB. change (dist 1 0) with 1%nat in HB. change (dist 1 1) with 0%nat in HB. rewrite A0, A1, B0 in HB. unfold coded_cepstrum. cbn [Nat.sub bigsum]. lra.
Qed.
Lemma eight_heard : forall i, heard (plp_tiny eight_h) 5 (channel_energy (plp_tiny eight_h) 1 1 (plp_tiny_bank eight_h) (fun _ => 1) i).
Proof. intros i. exists 0%nat. split; [lia|]. split; [cbn; lia|]. rewrite eight_energy. unfold eight_h. cbn. lra. Qed.
Lemma level_apart : exists g0 g1, 0 < g0 /\ 0 < g1 /\ forall g h, 0 < g <= g0 -> g1 <= h -> exists C C2,
  @plp exact_env (fvec 1 (fun _ => g)) (plp_tiny eight_h) 2 None None = Ok (fmat 1 2 C) /\ @plp exact_env (fvec 1 (fun _ => h)) (plp_tiny eight_h) 2 None None = Ok (fmat 1 2 C2) /\
  C 0%nat 1%nat < - (7 / 10) /\ - (4 / 10) < C2 0%nat 1%nat.
Proof.
  assert (BP : forall j k, 0 <= plp_tiny_bank eight_h j k) by (intros j k; unfold plp_tiny_bank; pose proof (eight_h_pos j); destruct (Nat.eqb k 0); lra).
  destruct (@faint_main exact_env (plp_tiny eight_h) 1 1 1 5 (plp_tiny_bank eight_h)) with (x := fun _ : nat => 1) (p := 1%nat) (li := @None R) (no := @None string) as (A & HA & EA);
    [apply plp_tiny_framed; lia|cbn; lia|lia|apply plp_tiny_B|intros; apply BP|lia|cbn; lia|split; left; reflexivity|intros; apply eight_heard|].
  destruct (@loud_main exact_env (plp_tiny eight_h) 1 1 1 5 (plp_tiny_bank eight_h)) with (x := fun _ : nat => 1) (p := 1%nat) (li := @None R) (no := @None string) as (A2 & HA2 & EA2);
    [apply plp_tiny_framed; lia|cbn; lia|lia|apply plp_tiny_B|intros; apply BP|lia|cbn; lia|split; left; reflexivity|intros; apply eight_heard|].
  specialize (HA 0%nat ltac:(cbn; lia)). specialize (HA2 0%nat ltac:(cbn; lia)). change (Z.to_nat (s_nfft (plp_tiny eight_h))) with 5%nat in HA, HA2.
  assert (NE : forall f f2 b, (forall t, f2 t = 1 * f t) -> normal_equations 5 1 f b -> normal_equations 5 1 f2 b) by (intros f f2 b HF; apply (normal_gain 5 1 f f2 1 b); [lra|exact HF]).
  apply (NE _ (spec_inverse 5 5 (fun j => if Nat.eqb j 4 then 1 + 15 else 1))) in HA; [|intros t; rewrite Rmult_1_l; apply spec_inverse_ext; intros j _; rewrite eight_energy; symmetry; apply eight_up].
  apply (NE _ (spec_inverse 5 5 (fun j => if Nat.eqb j 4 then 1 + - (15 / 16) else 1))) in HA2; [|intros t; rewrite Rmult_1_l; apply spec_inverse_ext; intros j _; rewrite eight_energy; symmetry; apply eight_down].
  apply one_differs in HA; [|lra]. apply one_differs in HA2; [|lra]. rewrite Rabs_pos_eq in HA by lra. rewrite Rabs_Ropp, Rabs_pos_eq in HA2 by lra.
  destruct (EA (1 / 100) ltac:(lra)) as (g0 & G0 & HG0). destruct (EA2 (1 / 100) ltac:(lra)) as (g1 & G1 & HG1). exists g0, g1. split; [exact G0|]. split; [exact G1|]. intros g h Hg Hh.
  destruct (HG0 g) as (C & EC & HC); [rewrite Rabs_pos_eq; lra|]. destruct (HG1 h) as (C2 & EC2 & HC2); [rewrite Rabs_pos_eq; lra|].
  specialize (HC 0%nat 1%nat ltac:(cbn; lia) ltac:(lia)). specialize (HC2 0%nat 1%nat ltac:(cbn; lia) ltac:(lia)).
  assert (FE : forall q, fvec 1 (fun _ => q * 1) = fvec 1 (fun _ => q)) by (intros q; apply fvec_ext; intros; ring). rewrite FE in EC, EC2.
  exists C, C2. split; [exact EC|]. split; [exact EC2|]. split; [revert HC|revert HC2]; unfold Rabs; destruct (Rcase_abs _); lra.
Qed.
