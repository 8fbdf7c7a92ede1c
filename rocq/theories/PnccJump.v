(** * Facts: a signal at which pncc jumps *)
From Coq Require Import Reals ZArith List String Bool Lia Lra.
From Verif Require Import Base BaseFacts SpecBase SpecMat SpecFilters SpecBanks SpecFeatures SpecPncc BigSum MatFacts
  Preprocessing Fourier Features Extractors FeaturesFacts FeaturesLaws ExampleTools ExampleFeatures
  CqtFacts Pncc PnccNames PnccFacts PnccMore ExamplePncc.
Import ListNotations.
Local Open Scope R_scope.

(** band powers a, 1, 1, 1 in every channel *)
Definition jumpP (a : R) (m l : nat) : R := if Nat.eqb m 0 then a else 1.
Definition jumpQ (a : R) (m : nat) : R :=
  match m with 0%nat => (a + 2) / 5 | 1%nat | 2%nat => (a + 3) / 5 | _ => 3 / 5 end.
Lemma jump_medium : forall a m l, (m < 4)%nat -> mediumR 4 (jumpP a) m l = jumpQ a m.
Proof.
  intros a m l Hm. unfold mediumR, spec_medium, jumpP.
  destruct m as [|[|[|[|m]]]]; [| | | |lia]; cbn [bigsum Nat.leb Nat.add Nat.mul andb Nat.eqb jumpQ INR]; lra.
Qed.
Section Jump.
  Variable a : R.
  Hypothesis Ha : 0.5 <= a <= 0.55.
  Notation Q := (jumpQ a).
  Definition jle (m : nat) : R :=
    let l0 := 0.001 * Q 0 in let l1 := 0.999 * l0 + 0.001 * Q 1 in let l2 := 0.999 * l1 + 0.001 * Q 2 in
    match m with 0%nat => l0 | 1%nat => l1 | 2%nat => l2 | _ => 0.999 * l2 + 0.001 * Q 3 end.
  Lemma jump_le : forall m, (m < 4)%nat -> leR 4 Q m = jle m.
  Proof.
    unfold leR, asym_init. cbn [Nat.eqb].
    assert (L0 : asymR 0.999 0.5 0 Q 0 = jle 0).
    { cbn [asymR]. unfold asym_step, jle. cbn [jumpQ]. destruct (Rle_dec _ _); lra. }
    assert (L1 : asymR 0.999 0.5 0 Q 1 = jle 1).
    { change (asymR 0.999 0.5 0 Q 1) with (asym_step 0.999 0.5 (asymR 0.999 0.5 0 Q 0) (Q 1)). rewrite L0.
      unfold asym_step, jle. cbn [jumpQ]. destruct (Rle_dec _ _); lra. }
    assert (L2 : asymR 0.999 0.5 0 Q 2 = jle 2).
    { change (asymR 0.999 0.5 0 Q 2) with (asym_step 0.999 0.5 (asymR 0.999 0.5 0 Q 1) (Q 2)). rewrite L1.
      unfold asym_step, jle. cbn [jumpQ]. destruct (Rle_dec _ _); lra. }
    assert (L3 : asymR 0.999 0.5 0 Q 3 = jle 3).
    { change (asymR 0.999 0.5 0 Q 3) with (asym_step 0.999 0.5 (asymR 0.999 0.5 0 Q 2) (Q 3)). rewrite L2.
      unfold asym_step, jle. cbn [jumpQ]. destruct (Rle_dec _ _); lra. }
    intros m Hm. destruct m as [|[|[|[|m]]]]; [assumption|assumption|assumption|assumption|lia].
  Qed.
  Lemma jump_q0 : forall m, (m < 4)%nat -> q0R 4 0 Q m = Q m - jle m.
  Proof.
    intros m Hm. unfold q0R. rewrite jump_le by exact Hm. destruct (Rlt_dec _ _) as [H|]; [|reflexivity]. exfalso.
    destruct m as [|[|[|[|m]]]]; [| | | |lia]; unfold jle in H; cbn [jumpQ] in H; lra.
  Qed.
  (** the suppressed power; in frame 3 it depends on the comparison *)
  Lemma jump_noise : forall m, (m < 3)%nat -> noiseR 4 0 Q m = Q m - jle m.
  Proof.
    intros m Hm. unfold noiseR. rewrite jump_le by lia.
    destruct (Rle_dec _ _) as [H|H]; [clear H|exfalso; destruct m as [|[|[|m]]]; [| | |lia]; unfold jle in H; cbn [jumpQ] in H; lra].
    destruct m as [|[|[|m]]]; [| | |lia]; cbn [maskR peakR].
    - apply jump_q0. lia.
    - rewrite !jump_q0 by lia. destruct (Rle_dec _ _) as [|H]; [reflexivity|]. unfold jle in H. cbn [jumpQ] in H. lra.
    - rewrite !jump_q0 by lia. destruct (Rle_dec _ _) as [|H]; [reflexivity|]. exfalso. apply H.
      unfold Rmax. unfold jle in *. cbn [jumpQ] in *. destruct (Rle_dec _ _); lra.
  Qed.
  Lemma jump_noise3 : noiseR 4 0 Q 3
    = if Rle_dec (0.85 * (Q 2 - jle 2)) (Q 3 - jle 3) then Q 3 - jle 3 else 0.2 * (Q 2 - jle 2).
  Proof.
    unfold noiseR. rewrite jump_le by lia.
    destruct (Rle_dec _ _) as [H|H]; [clear H|exfalso; unfold jle in H; cbn [jumpQ] in H; lra].
    assert (P1 : peakR 0.85 (q0R 4 0 Q) 1 = Q 1 - jle 1).
    { cbn [peakR]. rewrite !jump_q0 by lia. unfold Rmax. destruct (Rle_dec _ _) as [|H]; [reflexivity|]. unfold jle in H. cbn [jumpQ] in H. lra. }
    assert (P2 : peakR 0.85 (q0R 4 0 Q) 2 = Q 2 - jle 2).
    { change (peakR 0.85 (q0R 4 0 Q) 2) with (Rmax (0.85 * peakR 0.85 (q0R 4 0 Q) 1) (q0R 4 0 Q 2)). rewrite P1, jump_q0 by lia.
      unfold Rmax. destruct (Rle_dec _ _) as [|H]; [reflexivity|]. unfold jle in H. cbn [jumpQ] in H. lra. }
    change (maskR 0.85 0.2 (q0R 4 0 Q) 3)
      with (if Rle_dec (0.85 * peakR 0.85 (q0R 4 0 Q) 2) (q0R 4 0 Q 3) then q0R 4 0 Q 3 else 0.2 * peakR 0.85 (q0R 4 0 Q) 2).
    rewrite P2, jump_q0 by lia. reflexivity.
  Qed.
  Lemma jump_T : forall m l, (m < 4)%nat -> (l < 2)%nat -> TR 4 2 (jumpP a) m l = jumpP a m l * (noiseR 4 0 Q m / Q m / 2).
  Proof.
    intros m l Hm Hl. unfold TR. f_equal. unfold smoothR.
    assert (E1 : sm_lo 4 l = 1%nat) by (unfold sm_lo; lia). assert (E2 : sm_hi 4 2 l = 2%nat) by (unfold sm_hi; lia). rewrite E1, E2.
    cbn [Nat.sub bigsum Nat.add INR]. rewrite jump_medium by exact Hm. unfold suppR.
    rewrite (noiseR_ext 4 4 (fun i => mediumR 4 (jumpP a) i 1) Q m); [|left; reflexivity|intros; apply jump_medium; lia].
    unfold Rdiv. rewrite Rplus_0_l. reflexivity.
  Qed.
  Lemma jump_U : forall m l, m = 3%nat -> (l < 2)%nat ->
    let U := TR 4 2 (jumpP a) m l / MYU 0.999 2 (TR 4 2 (jumpP a)) m in
    (0.85 * (Q 2 - jle 2) <= Q 3 - jle 3 -> 300 <= U) /\ (Q 3 - jle 3 < 0.85 * (Q 2 - jle 2) -> 0 < U <= 130).
  Proof.
    intros m l -> Hl U.
    assert (R1 : 0.45 <= noiseR 4 0 Q 1 / Q 1 / 2 <= 0.5).
    { rewrite jump_noise by lia. split; (apply Rmult_le_reg_r with (2 * Q 1); [unfold jumpQ; lra|];
        unfold jle; cbn [jumpQ]; field_simplify; lra). }
    assert (R2 : 0.45 <= noiseR 4 0 Q 2 / Q 2 / 2 <= 0.5).
    { rewrite jump_noise by lia. split; (apply Rmult_le_reg_r with (2 * Q 1); [unfold jumpQ; lra|];
        unfold jle; cbn [jumpQ]; field_simplify; lra). }
    set (T3 := noiseR 4 0 Q 3 / Q 3 / 2).
    assert (HU : U = T3 / MYU 0.999 2 (TR 4 2 (jumpP a)) 3).
    { unfold U. rewrite jump_T by lia. unfold jumpP at 1. cbn [Nat.eqb]. rewrite Rmult_1_l. reflexivity. }
    assert (HM : exists M2, 0.0009 <= M2 <= 0.0011 /\ MYU 0.999 2 (TR 4 2 (jumpP a)) 3 = 0.999 * M2 + 0.001 * T3).
    { cbn [MYU bigsum]. rewrite !jump_T by lia. unfold jumpP. cbn [Nat.eqb]. rewrite !Rmult_1_l. fold T3.
      eexists. split; [|cbn [INR]; replace ((1 - 0.999) / (1 + 1) * (0 + T3 + T3)) with (0.001 * T3) by lra; reflexivity].
      cbn [INR]. set (A := noiseR 4 0 Q 1 / Q 1 / 2) in *. set (B := noiseR 4 0 Q 2 / Q 2 / 2) in *. lra. }
    destruct HM as (M2 & HM2 & EM). rewrite HU, EM. unfold T3. rewrite jump_noise3. split; intros H.
    - destruct (Rle_dec _ _) as [_|K]; [|contradiction].
      assert (B : 0.49 <= (Q 3 - jle 3) / Q 3 / 2 <= 0.5) by (unfold jle; cbn [jumpQ]; lra).
      set (t := (Q 3 - jle 3) / Q 3 / 2) in *.
      apply Rmult_le_reg_r with (0.999 * M2 + 0.001 * t); [lra|]. unfold Rdiv. rewrite (Rmult_assoc t), Rinv_l, Rmult_1_r by lra. lra.
    - destruct (Rle_dec _ _) as [K|_]; [lra|].
      assert (B : 0.1 <= 0.2 * (Q 2 - jle 2) / Q 3 / 2 <= 0.12) by (unfold jle; cbn [jumpQ]; lra).
      set (t := 0.2 * (Q 2 - jle 2) / Q 3 / 2) in *.
      split; [apply Rdiv_lt_0_compat; lra|].
      apply Rmult_le_reg_r with (0.999 * M2 + 0.001 * t); [lra|]. unfold Rdiv. rewrite (Rmult_assoc t), Rinv_l, Rmult_1_r by lra. lra.
  Qed.
  Lemma jump_audible : audible 4 2 (jumpP a).
  Proof.
    intros m l Hm Hl. rewrite jump_medium by exact Hm. destruct m as [|[|[|[|m]]]]; [| | | |lia]; cbn [jumpQ]; lra.
  Qed.
End Jump.

Lemma jump_pncc : forall s x, (forall t, (t < 4)%nat -> x t = if Nat.eqb t 0 then s else 1) -> 0.5 <= s ^ 2 <= 0.55 ->
  @pncc exact_env (fvec 4 x) pncc_tiny 2 pncc_tiny_c
  = Ok (fmat 4 2 (fun i k => spec_dct 2 2 (VR 4 2 (jumpP (s ^ 2)) i) k)).
Proof.
  intros s x Hx Hs.
  assert (W : @well_framed exact_env pncc_tiny 4 1 1) by (apply pncc_tiny_framed; lia).
  rewrite (@pncc_fvec exact_env pncc_tiny 2 pncc_tiny_c 4 1 1 2 (fun _ _ => 1) x W); [|cbn; lia|lia|reflexivity|cbn; lia].
  change (frame_count 4 1 1) with 4%nat.
  assert (EP : fmat 4 2 (band_power pncc_tiny 2 1 1 (fun _ _ => 1) x) = fmat 4 2 (jumpP (s ^ 2))).
  { apply fmat_ext. intros i j Hi Hj. rewrite pncc_tiny_band, Hx by exact Hi. unfold jumpP. destruct (Nat.eqb i 0); [reflexivity|ring]. }
  rewrite EP. change (s_nfilts pncc_tiny) with (Z.of_nat 2). rewrite core_gmat by lia. cbn [rbind].
  rewrite (fmat_of_gmat _ _ _ (VR 4 2 (jumpP (s ^ 2)))).
  - apply (finish_no_energy pncc_tiny_c 1 4 2); try (cbn; lia); try (left; reflexivity).
  - intros i j Hi Hj. apply VF_fin; try lia; [apply jump_audible; exact Hs|].
    intros m l Hm. unfold jumpP. destruct (Nat.eqb m 0); lra.
Qed.
Lemma jump_first : forall s, spec_dct 2 2 (VR 4 2 (jumpP s) 3) 0 = sqrt (1 / 2) * (VR 4 2 (jumpP s) 3 0 + VR 4 2 (jumpP s) 3 1).
Proof.
  intros s. unfold spec_dct, spec_dct_entry. cbn [bigsum Z.eqb Pos.eqb Nat.eqb INR].
  assert (E : forall n, PI * 0 * n / (2 * (1 + 1)) = 0) by (intros; field). rewrite !E, cos_0. rewrite Rplus_0_l.
  replace (1 / (1 + 1)) with (1 / 2) by lra. ring.
Qed.
Lemma pncc_jumps : exists c, 0 < c /\ forall d, 0 < d ->
  exists x x' y y', (forall t, Rabs (x t - x' t) <= d /\ 0 < x t <= 1 /\ 0 < x' t <= 1) /\
    @pncc exact_env (fvec 4 x) pncc_tiny 2 pncc_tiny_c = Ok (fmat 4 2 y) /\
    @pncc exact_env (fvec 4 x') pncc_tiny 2 pncc_tiny_c = Ok (fmat 4 2 y') /\
    c <= y 3%nat 0%nat - y' 3%nat 0%nat.
Proof.
  assert (Hsq : 0 < sqrt (1 / 2)) by (apply sqrt_lt_R0; lra).
  assert (Hp : Rpower 130 (1 / 15) < Rpower 300 (1 / 15)) by (apply Rlt_Rpower_l; lra).
  exists (sqrt (1 / 2) * (2 * (Rpower 300 (1 / 15) - Rpower 130 (1 / 15)))). split; [apply Rmult_lt_0_compat; lra|].
  intros d Hd. set (a0 := 446255298 / 851297851). set (s := sqrt a0).
  assert (Hs2 : s ^ 2 = a0) by (unfold s; rewrite <- Rsqr_pow2; apply Rsqr_sqrt; unfold a0; lra).
  assert (Hs : 0.7 <= s <= 0.73).
  { split; apply Rnot_lt_le; intros K.
    - assert (s * s < 0.7 * 0.7) by (apply Rmult_le_0_lt_compat; [apply sqrt_pos|apply sqrt_pos|exact K|exact K]).
      unfold a0 in Hs2. cbn [pow] in Hs2. lra.
    - assert (0.73 * 0.73 < s * s) by (apply Rmult_le_0_lt_compat; lra). unfold a0 in Hs2. cbn [pow] in Hs2. lra. }
  set (e := Rmin d 0.01).
  assert (He : 0 < e <= d /\ e <= 0.01) by (unfold e, Rmin; destruct (Rle_dec d 0.01); lra).
  set (a1 := (s + e) ^ 2).
  assert (Ha1 : a0 < a1 <= 0.55).
  { unfold a1. replace ((s + e) ^ 2) with (s ^ 2 + (2 * s * e + e * e)) by ring. rewrite Hs2.
    assert (0 < s * e) by (apply Rmult_lt_0_compat; lra). assert (0 < e * e) by (apply Rmult_lt_0_compat; lra).
    assert (s * e <= 0.73 * 0.01) by (apply Rmult_le_compat; lra). assert (e * e <= 0.01 * 0.01) by (apply Rmult_le_compat; lra).
    unfold a0 in *. lra. }
  exists (fun t => if Nat.eqb t 0 then s else 1), (fun t => if Nat.eqb t 0 then s + e else 1). do 2 eexists.
  split; [|split; [apply (jump_pncc s); [reflexivity|rewrite Hs2; unfold a0; lra]|split; [apply (jump_pncc (s + e)); [reflexivity|fold a1; unfold a0 in *; lra]|]]].
  - intros t. destruct (Nat.eqb t 0); [|replace (1 - 1) with 0 by ring; rewrite Rabs_R0; lra].
    replace (s - (s + e)) with (- e) by ring. rewrite Rabs_Ropp, Rabs_pos_eq by lra. lra.
  - cbv beta. rewrite !jump_first. fold a1. rewrite Hs2, <- Rmult_minus_distr_l. apply Rmult_le_compat_l; [lra|].
    assert (Hi : forall l, (l < 2)%nat -> Rpower 300 (1 / 15) <= VR 4 2 (jumpP a0) 3 l).
    { intros l Hl. destruct (jump_U a0 ltac:(unfold a0; lra) 3 l eq_refl Hl) as [K _].
      assert (U := K ltac:(unfold jle, a0; cbn [jumpQ]; lra)). clear K. unfold VR, spec_root.
      destruct (Req_EM_T _ 0); [lra|]. apply Rle_Rpower_l; lra. }
    assert (Lo : forall l, (l < 2)%nat -> VR 4 2 (jumpP a1) 3 l <= Rpower 130 (1 / 15)).
    { intros l Hl. destruct (jump_U a1 ltac:(unfold a0 in *; lra) 3 l eq_refl Hl) as [_ K].
      assert (U := K ltac:(unfold jle, a0 in *; cbn [jumpQ]; lra)). clear K. unfold VR, spec_root.
      destruct (Req_EM_T _ 0); [lra|]. apply Rle_Rpower_l; lra. }
    pose proof (Hi 0%nat ltac:(lia)). pose proof (Hi 1%nat ltac:(lia)). pose proof (Lo 0%nat ltac:(lia)). pose proof (Lo 1%nat ltac:(lia)). lra.
Qed.
