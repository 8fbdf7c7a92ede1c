(** * Facts for C188: polarity, and two recordings close to each other whose phases are not *)
From Coq Require Import Reals ZArith List String Bool Lia Lra Psatz.
From Verif Require Import Base BaseFacts SpecBase BigSum Preprocessing SpecMat MatFacts SpecFilters SpecBanks SpecFeatures SpecNoise WindowFacts Fourier Features
  Extractors FeaturesFacts FeaturesLaws FeaturesPhase DctFacts ExampleTools PropertiesDct PhaseNearFacts.
Import ListNotations.
Local Open Scope R_scope.

Lemma frame_flip : forall a co L hop x i n k, spec_re n L (frame_of a co L hop (fun t => - x t) i) k = - spec_re n L (frame_of a co L hop x i) k /\
  spec_im n L (frame_of a co L hop (fun t => - x t) i) k = - spec_im n L (frame_of a co L hop x i) k.
Proof.
  intros a co L hop x i n k.
  assert (F : forall t, frame_of a co L hop (fun t => - x t) i t = -1 * frame_of a co L hop x i t).
  { intros t. rewrite <- frame_of_gain. unfold frame_of, spec_frame, spec_pre. destruct (s_pre_emph a); [|ring]. destruct (i * hop + t)%nat; ring. }
  split; [unfold spec_re|unfold spec_im].
  - transitivity (-1 * bigsum (Nat.min L n) (fun t => frame_of a co L hop x i t * cos (2 * PI * INR (t * k) / INR n))); [|ring].
    rewrite <- bigsum_scal. apply bigsum_ext. intros t _. rewrite F. ring.
  - transitivity (-1 * bigsum (Nat.min L n) (fun t => frame_of a co L hop x i t * - sin (2 * PI * INR (t * k) / INR n))); [|ring].
    rewrite <- bigsum_scal. apply bigsum_ext. intros t _. rewrite F. ring.
Qed.
Lemma polarity_phase : forall re im p p2, is_phase re im p -> is_phase (- re) (- im) p2 -> p2 = p + 180 \/ p2 = p - 180 \/ (re = 0 /\ im = 0 /\ p2 = 0).
Proof.
  intros re im p p2 H H2. destruct (Req_dec re 0) as [R|R].
  - destruct (Req_dec im 0) as [I|I].
    + right. right. split; [exact R|]. split; [exact I|]. destruct H2 as (_ & _ & _ & Z). apply Z; lra.
    + pose proof (phase_unique _ _ _ _ H2 (phase_minus _ _ _ H (fun C => I (proj2 C)))) as ->. destruct (Rlt_dec p 180); auto.
  - pose proof (phase_unique _ _ _ _ H2 (phase_minus _ _ _ H (fun C => R (proj1 C)))) as ->. destruct (Rlt_dec p 180); auto.
Qed.

(** one frame of 4 samples, the bank passes bin 1 *)
Definition quad : sargs := mkS 1 false 0 (Some (mkWindow 4 4 "hamming")) 1 4 0 None "constant" (Some [[f0; f1; f0]]) "Wang".
Definition quad_c : cargs := mkC 1 2 false None None.
Definition quad_b (j k : nat) : R := match k with S O => 1 | _ => 0 end.
Lemma quad_bank : @spectro_bank exact_env Mel quad = Ok (fmat 1 3 quad_b).
Proof. reflexivity. Qed.
Lemma quad_framed : @well_framed exact_env quad 4 4 4.
Proof.
  unfold well_framed, window_of, quad. cbn [s_window s_fs win_len win_hop win_type].
  split; [lra|]. split; [apply flen_exact; simpl; lra|]. split; [apply flen_exact; simpl; lra|].
  split; [lia|]. split; [lia|]. simpl; tauto.
Qed.
(** a recording with samples A, q, 0, 0 *)
Definition quad_x (A q : R) (t : nat) : R := match t with O => A | S O => q | _ => 0 end.
Lemma quad_bin : forall A q, let f := frame_of quad 0 4 4 (quad_x A q) 0 in
  spec_re 4 4 f 1 = spec_window "hamming" 4 0 * A /\ spec_im 4 4 f 1 = - (spec_window "hamming" 4 1 * q).
Proof.
  intros A q f. unfold spec_re, spec_im. cbn [Nat.min bigsum].
  assert (F : f 0%nat = spec_window "hamming" 4 0 * A /\ f 1%nat = spec_window "hamming" 4 1 * q /\ f 2%nat = 0 /\ f 3%nat = 0).
  { unfold f, frame_of, spec_frame, spec_pre, window_of, quad, quad_x. cbn [s_pre_emph s_window win_type Nat.mul Nat.add]. repeat split; ring. }
  destruct F as (-> & -> & -> & ->). cbn [Nat.mul Nat.add].
  assert (T0 : 2 * PI * INR 0 / INR 4 = 0) by (simpl; field). assert (T1 : 2 * PI * INR 1 / INR 4 = PI / 2) by (simpl; field).
  rewrite T0, T1, cos_0, sin_0, cos_PI2, sin_PI2. split; ring.
Qed.
Lemma tan_phase : forall r p, 0 < r -> 0 < p < 90 -> is_phase r (r * tan (p * PI / 180)) p /\ is_phase r (- (r * tan (p * PI / 180))) (360 - p).
Proof.
  intros r p Hr Hp. pose proof PI_RGT_0 as HP. set (w := p * PI / 180).
  assert (W : 0 < w < PI / 2). { unfold w. split; [apply Rmult_lt_0_compat; [apply Rmult_lt_0_compat; lra|lra]|]. assert (p * PI < 90 * PI) by (apply Rmult_lt_compat_r; lra). lra. }
  assert (C : 0 < cos w) by (apply cos_gt_0; lra).
  assert (S : forall s, s = r * tan w \/ s = - (r * tan w) -> sqrt (r ^ 2 + s ^ 2) = r / cos w).
  { intros s Hs. assert (E : r ^ 2 + s ^ 2 = (r / cos w) ^ 2).
    { replace (s ^ 2) with ((r * tan w) ^ 2) by (destruct Hs as [->| ->]; ring). unfold tan. pose proof (sin2_cos2 w) as Q. unfold Rsqr in Q.
      replace (r ^ 2 + (r * (sin w / cos w)) ^ 2) with (r ^ 2 * (sin w * sin w + cos w * cos w) / (cos w) ^ 2) by (field; lra). rewrite Q. field. lra. }
    rewrite E. apply sqrt_pow2. left. apply Rdiv_lt_0_compat; assumption. }
  split; split; try lra; rewrite S by auto.
  - fold w. split; [field; lra|]. split; [unfold tan; field; lra|lra].
  - replace ((360 - p) * PI / 180) with (- w + 2 * PI) by (unfold w; field). rewrite cos_plus, sin_plus, cos_2PI, sin_2PI, cos_neg, sin_neg.
    split; [field; lra|]. split; [unfold tan; field; lra|lra].
Qed.
Lemma quad_value : forall A q g p, g <> 0 -> 0 < p -> is_phase (spec_window "hamming" 4 0 * A) (- (spec_window "hamming" 4 1 * q)) p ->
  @psrcc exact_env (fvec 4 (quad_x A q)) quad g quad_c = Ok (fmat 1 1 (fun _ _ => Rpower p g)).
Proof.
  intros A q g p Hg Hp Hph. destruct (@C73_phases exact_env quad quad_c g 4 4 4 1 quad_b (quad_x A q) Hg quad_framed) as (P & HP & R); try (simpl; lia); try (left; reflexivity); try reflexivity.
  cbv zeta in HP, R. change (half (s_nfft quad)) with 2%nat in R. change (Z.to_nat (s_nfft quad)) with 4%nat in HP. change (s_coeff quad) with 0 in HP.
  assert (EP : P 0%nat 1%nat = p).
  { destruct (quad_bin A q) as [E1 E2]. cbv zeta in E1, E2. specialize (HP 0%nat 1%nat). rewrite E1, E2 in HP. exact (phase_unique _ _ _ _ HP Hph). }
  change (frame_count 4 4 4) with 1%nat in R. change (Nat.min (Z.to_nat (c_num_ceps quad_c)) 1) with 1%nat in R. change (c_dct_type quad_c) with 2%Z in R.
  assert (EB : forall j, bigsum 3 (fun k => P 0%nat k * quad_b j k) = p). { intros j. cbn [bigsum quad_b]. rewrite EP. ring. }
  rewrite R.
  - f_equal. apply fmat_ext. intros i j Hi Hj. assert (i = 0%nat) by lia. assert (j = 0%nat) by lia. subst i j.
    rewrite (spec_dct_ext 2 1 _ (fun _ => Rpower p g)).
    + rewrite spec_dct2_const by lia. cbn [Nat.eqb INR]. rewrite sqrt_1. ring.
    + intros m _. rewrite EB. unfold spec_root. destruct (Req_EM_T p 0); [lra|reflexivity].
  - intros i j Hi Hj. assert (i = 0%nat) by lia. subst i. rewrite EB. left. exact Hp.
Qed.
Lemma hamming_pos : forall n, 0 < spec_window "hamming" 4 n.
Proof. intros n. change (0 < spec_hamming 4 n). unfold spec_hamming. pose proof (COS_bound (spec_theta 4 n)). lra. Qed.
Lemma tan_small : forall p, 0 < p <= 1 -> 0 < tan (p * PI / 180) <= 2 * p.
Proof.
  intros p Hp. pose proof PI_RGT_0 as HP. pose proof PI_4 as H4. set (w := p * PI / 180).
  assert (W : 0 < w /\ w <= p). { unfold w. split; [apply Rmult_lt_0_compat; [apply Rmult_lt_0_compat; lra|lra]|]. assert (p * PI <= p * 4) by (apply Rmult_le_compat_l; lra). lra. }
  assert (W3 : w < PI / 3). { unfold w. assert (p * PI <= 1 * PI) by (apply Rmult_le_compat_r; lra). lra. }
  assert (S0 : 0 < sin w) by (apply sin_gt_0; lra). assert (S : sin w < w) by (apply sin_lt_x; lra).
  assert (C : 1 / 2 < cos w). { rewrite <- cos_PI3. apply cos_decreasing_1; lra. }
  unfold tan. split; [apply Rdiv_lt_0_compat; lra|]. apply Rmult_le_reg_r with (cos w); [lra|]. replace (sin w / cos w * cos w) with (sin w) by (field; lra).
  assert (2 * p * (1 / 2) <= 2 * p * cos w) by (apply Rmult_le_compat_l; lra). lra.
Qed.
Lemma quad_jump : forall A g d M, g <> 0 -> 0 < A -> 0 < d -> 0 < M -> exists x x2 u v, x 0%nat = A /\ x2 0%nat = A /\ apart 4 d x x2 /\
  @psrcc exact_env (fvec 4 x) quad g quad_c = Ok (fmat 1 1 (fun _ _ => u)) /\ @psrcc exact_env (fvec 4 x2) quad g quad_c = Ok (fmat 1 1 (fun _ _ => v)) /\
  (g < 0 -> M < u - v) /\ (0 < g -> Rpower 300 g - 1 <= v - u).
Proof.
  intros A g d M Hg HA Hd HM. pose proof (hamming_pos 0) as W0. pose proof (hamming_pos 1) as W1.
  set (w0 := spec_window "hamming" 4 0) in *. set (w1 := spec_window "hamming" 4 1) in *.
  assert (Hr : 0 < w0 * A) by (apply Rmult_lt_0_compat; assumption).
  set (p := Rmin 1 (Rmin (d * w1 / (4 * (w0 * A))) (Rpower (M + 1) (1 / g)))).
  assert (P0 : 0 < p). { unfold p. apply Rmin_glb_lt; [lra|]. apply Rmin_glb_lt; [|apply exp_pos]. apply Rdiv_lt_0_compat; [apply Rmult_lt_0_compat; lra|lra]. }
  assert (P1 : p <= 1) by apply Rmin_l.
  assert (P2 : p <= d * w1 / (4 * (w0 * A))) by (eapply Rle_trans; [apply Rmin_r|apply Rmin_l]).
  assert (P3 : p <= Rpower (M + 1) (1 / g)) by (eapply Rle_trans; [apply Rmin_r|apply Rmin_r]).
  clearbody p. destruct (tan_small p (conj P0 P1)) as [T0 T1]. destruct (tan_phase (w0 * A) p Hr ltac:(lra)) as [F1 F2].
  set (t := tan (p * PI / 180)) in *. set (q := w0 * A * t / w1).
  assert (Eq : w1 * q = w0 * A * t) by (unfold q; field; lra).
  assert (Q0 : 0 < q) by (apply Rdiv_lt_0_compat; [apply Rmult_lt_0_compat|]; assumption).
  assert (Q1 : 2 * q <= d).
  { apply Rmult_le_reg_l with w1; [exact W1|]. replace (w1 * (2 * q)) with (2 * (w1 * q)) by ring. rewrite Eq.
    assert (w0 * A * t <= w0 * A * (2 * p)) by (apply Rmult_le_compat_l; lra).
    assert (4 * (w0 * A) * p <= 4 * (w0 * A) * (d * w1 / (4 * (w0 * A)))) by (apply Rmult_le_compat_l; lra).
    replace (4 * (w0 * A) * (d * w1 / (4 * (w0 * A)))) with (w1 * d) in H0 by (field; lra). lra. }
  exists (quad_x A (- q)), (quad_x A q), (Rpower p g), (Rpower (360 - p) g).
  split; [reflexivity|]. split; [reflexivity|]. split; [|split; [|split; [|split]]].
  - intros s _. destruct s as [|[|s]]; cbn [quad_x]; apply Rabs_le; lra.
  - apply quad_value; [exact Hg|exact P0|]. fold w0 w1. replace (- (w1 * - q)) with (w1 * q) by ring. rewrite Eq. exact F1.
  - apply quad_value; [exact Hg|lra|]. fold w0 w1. rewrite Eq. exact F2.
  - intros G. assert (V : Rpower (360 - p) g < 1).
    { unfold Rpower. rewrite <- exp_0. apply exp_increasing. assert (0 < ln (360 - p)) by (rewrite <- ln_1; apply ln_increasing; lra). assert (0 < (- g) * ln (360 - p)) by (apply Rmult_lt_0_compat; lra). lra. }
    assert (U : M + 1 <= Rpower p g).
    { rewrite <- (exp_ln (M + 1)) by lra. unfold Rpower. assert (L : ln p <= 1 / g * ln (M + 1)).
      { rewrite <- (ln_exp (1 / g * ln (M + 1))). fold (Rpower (M + 1) (1 / g)). destruct P3 as [P3|P3]; [left; apply ln_increasing; assumption|right; rewrite P3; reflexivity]. }
      assert (L2 : ln (M + 1) <= g * ln p). { assert (- g * ln p <= - g * (1 / g * ln (M + 1))) by (apply Rmult_le_compat_l; lra). replace (- g * (1 / g * ln (M + 1))) with (- ln (M + 1)) in H by (field; lra). lra. }
      destruct L2 as [L2|L2]; [left; apply exp_increasing; exact L2|right; rewrite L2; reflexivity]. }
    lra.
  - intros G. assert (U : Rpower p g <= 1).
    { rewrite <- (Rpower_O p) by exact P0. unfold Rpower. assert (ln p <= 0) by (rewrite <- ln_1; destruct P1 as [P1|P1]; [left; apply ln_increasing; assumption|right; rewrite P1; reflexivity]).
      assert (L : g * ln p <= 0 * ln p). { assert (0 <= g * - ln p) by (apply Rmult_le_pos; lra). lra. }
      destruct L as [L|L]; [left; apply exp_increasing; exact L|right; rewrite L; reflexivity]. }
    assert (V : Rpower 300 g <= Rpower (360 - p) g). { apply Rle_Rpower_l; lra. }
    lra.
Qed.
Lemma zero_phase : forall r, 0 < r -> is_phase r 0 0.
Proof.
  intros r Hr. split; [lra|]. replace (0 * PI / 180) with 0 by field. replace (r ^ 2 + 0 ^ 2) with (r ^ 2) by ring. rewrite sqrt_pow2, cos_0, sin_0 by lra. repeat split; lra.
Qed.
Lemma half_turn : forall r, 0 < r -> is_phase (- r) 0 180.
Proof.
  intros r Hr. split; [lra|]. replace (180 * PI / 180) with PI by field. replace ((- r) ^ 2 + 0 ^ 2) with (r ^ 2) by ring. rewrite sqrt_pow2, cos_PI, sin_PI by lra. repeat split; lra.
Qed.
(** the samples -1, 0, 0, 0: every bin is the same *)
Lemma quad_flat : forall k, let f := frame_of quad 0 4 4 (quad_x (-1) 0) 0 in spec_re 4 4 f k = - (8 / 100) /\ spec_im 4 4 f k = 0.
Proof.
  intros k f. unfold spec_re, spec_im. cbn [Nat.min bigsum].
  assert (F : f 0%nat = - (8 / 100) /\ f 1%nat = 0 /\ f 2%nat = 0 /\ f 3%nat = 0).
  { unfold f, frame_of, spec_frame, spec_pre, window_of, quad, quad_x. cbn [s_pre_emph s_window win_type Nat.mul Nat.add].
    assert (W : spec_window "hamming" 4 0 = 8 / 100). { change (spec_hamming 4 0 = 8 / 100). unfold spec_hamming, spec_theta. cbn [INR]. replace (2 * PI * 0 / INR (4 - 1)) with 0 by (field; simpl; lra). rewrite cos_0. lra. }
    rewrite W. repeat split; lra. }
  destruct F as (-> & -> & -> & ->). change (0 * k)%nat with 0%nat. replace (2 * PI * INR 0 / INR 4) with 0 by (simpl; field). rewrite cos_0, sin_0. split; ring.
Qed.
