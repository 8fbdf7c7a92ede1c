(** * Facts for C188: what small changes, gain and polarity do to the phases psrcc uses *)
From Coq Require Import Reals ZArith List String Bool Lia Lra Psatz.
From Verif Require Import Base BaseFacts SpecBase BigSum Cplx CplxFacts Preprocessing SpecMat MatFacts SpecFilters SpecBanks SpecFeatures Fourier Features
  Extractors FeaturesFacts FeaturesLaws FeaturesPhase DominantFacts NoiseFacts SpecNoise PreprocessingFacts.
Import ListNotations.
Local Open Scope R_scope.

(** ** Jordan's inequality *)
Lemma jordan : forall t, 0 <= t <= PI / 2 -> 2 * t <= PI * sin t.
Proof.
  intros t [H0 H1]. pose proof PI_RGT_0 as HP. destruct (Rle_dec (2 * t) (PI * sin t)) as [|Hn]; [assumption|]. exfalso. apply Rnot_le_lt in Hn.
  assert (T0 : 0 < t). { destruct (Req_dec t 0) as [->|]; [rewrite sin_0 in Hn; lra|lra]. }
  assert (T1 : t < PI / 2). { destruct (Req_dec t (PI / 2)) as [->|]; [rewrite sin_PI2 in Hn; lra|lra]. }
  destruct (MVT_cor2 sin cos 0 t T0) as (c1 & E1 & C1). { intros; apply derivable_pt_lim_sin. }
  destruct (MVT_cor2 sin cos t (PI / 2) T1) as (c2 & E2 & C2). { intros; apply derivable_pt_lim_sin. }
  rewrite sin_0, !Rminus_0_r in E1. rewrite sin_PI2 in E2.
  assert (D : cos c2 < cos c1) by (apply cos_decreasing_1; lra).
  assert (A : PI * cos c1 < 2). { apply Rmult_lt_reg_r with t; [exact T0|]. rewrite Rmult_assoc, <- E1. lra. }
  assert (B : 2 < PI * cos c2). { apply Rmult_lt_reg_r with (PI / 2 - t); [lra|]. rewrite Rmult_assoc, <- E2. lra. }
  pose proof (Rmult_lt_compat_l PI _ _ HP D). lra.
Qed.

(** ** two complex numbers at angle w *)
Lemma apart_polar : forall r s c q, 0 <= r -> 0 <= s -> -1 <= c <= 1 -> q ^ 2 = (1 - c) / 2 -> (r * q) ^ 2 <= r ^ 2 + s ^ 2 - 2 * (r * s) * c.
Proof.
  intros r s c q Hr Hs Hc Hq. rewrite Rpow_mult_distr, Hq. pose proof (Rmult_le_pos _ _ Hr Hs). pose proof (pow2_ge_0 r). pose proof (pow2_ge_0 s).
  destruct (Rle_dec 0 c) as [C|C].
  - assert (r ^ 2 * ((1 - c) / 2) <= r ^ 2 * (1 - c ^ 2)).
    { apply Rmult_le_compat_l; [assumption|]. replace (1 - c ^ 2) with ((1 - c) * (1 + c)) by ring. unfold Rdiv. apply Rmult_le_compat_l; lra. }
    pose proof (pow2_ge_0 (s - r * c)) as S. replace ((s - r * c) ^ 2) with (s ^ 2 - 2 * (r * s) * c + r ^ 2 * c ^ 2) in S by ring. lra.
  - assert (r ^ 2 * ((1 - c) / 2) <= r ^ 2 * 1) by (apply Rmult_le_compat_l; lra).
    assert (0 <= r * s * - c) by (apply Rmult_le_pos; lra). lra.
Qed.
Lemma half_angle : forall w, sin (w / 2) ^ 2 = (1 - cos w) / 2.
Proof. intros w. replace w with (2 * (w / 2)) at 2 by field. rewrite cos_2a_sin. field. Qed.
Lemma phase_gap : forall w u, 0 <= w < 360 -> Rabs (sin (w * PI / 180 / 2)) <= u -> w <= 180 * u \/ 360 - 180 * u <= w.
Proof.
  intros w u Hw Hs. pose proof PI_RGT_0 as HP. set (t := w * PI / 180 / 2) in *.
  assert (Et : w = 360 * t / PI) by (unfold t; field; lra).
  assert (T : 0 <= t < PI). { unfold t. split; [apply Rmult_le_pos; [|lra]; apply Rmult_le_pos; [apply Rmult_le_pos; lra|lra]|]. assert (w * PI < 360 * PI) by (apply Rmult_lt_compat_r; lra). lra. }
  rewrite Rabs_pos_eq in Hs by (apply sin_ge_0; lra).
  destruct (Rle_dec t (PI / 2)) as [Q|Q].
  - left. pose proof (jordan t ltac:(lra)) as J. rewrite Et. apply Rmult_le_reg_r with PI; [exact HP|].
    replace (360 * t / PI * PI) with (180 * (2 * t)) by (field; lra). pose proof (Rmult_le_compat_l PI _ _ (Rlt_le _ _ HP) Hs). lra.
  - right. pose proof (jordan (PI - t) ltac:(lra)) as J. rewrite sin_minus, sin_PI, cos_PI in J. rewrite Et. apply Rmult_le_reg_r with PI; [exact HP|].
    replace (360 * t / PI * PI) with (360 * PI - 180 * (2 * (PI - t))) by (field; lra). pose proof (Rmult_le_compat_l PI _ _ (Rlt_le _ _ HP) Hs). lra.
Qed.
(** phases of two numbers at distance e, the first of magnitude at least m *)
Lemma phases_near : forall a b a2 b2 p q m e, is_phase a b p -> is_phase a2 b2 q -> 0 < m -> 0 <= e -> m ^ 2 <= a ^ 2 + b ^ 2 ->
  (a2 - a) ^ 2 + (b2 - b) ^ 2 <= e ^ 2 -> Rabs (q - p) <= 180 * (e / m) \/ 360 - 180 * (e / m) <= Rabs (q - p).
Proof.
  intros a b a2 b2 p q m e (Hp & Pa & Pb & _) (Hq & Qa & Qb & _) Hm He Hab Hd.
  assert (N1 : 0 <= a ^ 2 + b ^ 2) by (pose proof (pow2_ge_0 a); pose proof (pow2_ge_0 b); lra).
  assert (N2 : 0 <= a2 ^ 2 + b2 ^ 2) by (pose proof (pow2_ge_0 a2); pose proof (pow2_ge_0 b2); lra).
  set (r := sqrt (a ^ 2 + b ^ 2)) in *. set (s := sqrt (a2 ^ 2 + b2 ^ 2)) in *.
  assert (R0 : 0 <= r) by apply sqrt_pos. assert (S0 : 0 <= s) by apply sqrt_pos.
  assert (RR : r ^ 2 = a ^ 2 + b ^ 2) by (apply pow2_sqrt; exact N1). assert (SS : s ^ 2 = a2 ^ 2 + b2 ^ 2) by (apply pow2_sqrt; exact N2).
  assert (Rm : m <= r). { unfold r. rewrite <- (sqrt_pow2 m) by lra. apply sqrt_le_1_alt. exact Hab. }
  set (w := (q - p) * PI / 180).
  assert (Ew : w = q * PI / 180 - p * PI / 180) by (unfold w; field).
  assert (Ec : r ^ 2 + s ^ 2 - 2 * (r * s) * cos w = (a2 - a) ^ 2 + (b2 - b) ^ 2).
  { rewrite Ew, cos_minus. rewrite RR, SS. transitivity (a ^ 2 + b ^ 2 + (a2 ^ 2 + b2 ^ 2) - 2 * ((r * cos (p * PI / 180)) * (s * cos (q * PI / 180)) + (r * sin (p * PI / 180)) * (s * sin (q * PI / 180)))).
    - ring. - rewrite <- Pa, <- Pb, <- Qa, <- Qb. ring. }
  pose proof (apart_polar r s (cos w) (sin (w / 2)) R0 S0 (COS_bound w) (half_angle w)) as A. rewrite Ec in A.
  assert (B : Rabs (r * sin (w / 2)) <= e).
  { apply Rsqr_incr_0_var; [|exact He]. rewrite <- Rsqr_abs. rewrite !Rsqr_pow2. lra. }
  rewrite Rabs_mult, Rabs_pos_eq in B by exact R0.
  apply phase_gap.
  - split; [apply Rabs_pos|]. apply Rabs_def1; lra.
  - assert (Es : Rabs (sin (Rabs (q - p) * PI / 180 / 2)) = Rabs (sin (w / 2))).
    { unfold w. unfold Rabs at 2. destruct (Rcase_abs (q - p)); [|reflexivity]. replace (- (q - p) * PI / 180 / 2) with (- ((q - p) * PI / 180 / 2)) by field. rewrite sin_neg. apply Rabs_Ropp. }
    rewrite Es. apply Rmult_le_reg_r with m; [exact Hm|]. replace (e / m * m) with e by (field; lra).
    apply Rle_trans with (r * Rabs (sin (w / 2))); [|exact B]. rewrite Rmult_comm. apply Rmult_le_compat_r; [apply Rabs_pos|exact Rm].
Qed.
Lemma phase_unique : forall a b p q, is_phase a b p -> is_phase a b q -> p = q.
Proof.
  intros a b p q Hp Hq. destruct (Req_dec (a ^ 2 + b ^ 2) 0) as [Z|Z].
  - assert (a = 0 /\ b = 0) as [A B]. { pose proof (pow2_ge_0 a). pose proof (pow2_ge_0 b). split; apply Rsqr_0_uniq; rewrite Rsqr_pow2; lra. }
    destruct Hp as (_ & _ & _ & P0). destruct Hq as (_ & _ & _ & Q0). rewrite (P0 A B), (Q0 A B). reflexivity.
  - assert (N1 : 0 <= a ^ 2 + b ^ 2) by (pose proof (pow2_ge_0 a); pose proof (pow2_ge_0 b); lra).
    assert (S : 0 < sqrt (a ^ 2 + b ^ 2)) by (apply sqrt_lt_R0; lra).
    destruct (phases_near a b a b p q (sqrt (a ^ 2 + b ^ 2)) 0 Hp Hq S (Rle_refl 0)) as [H|H].
    + rewrite pow2_sqrt by exact N1. lra.
    + right. ring.
    + unfold Rdiv in H. rewrite Rmult_0_l, Rmult_0_r in H. pose proof (Rabs_pos (q - p)). pose proof (Rabs_no_R0 (q - p)) as H1.
      destruct (Req_dec (q - p) 0) as [D|D]; [lra|]. specialize (H1 D). lra.
    + destruct Hp as (Hp & _). destruct Hq as (Hq & _). unfold Rdiv in H. rewrite Rmult_0_l, Rmult_0_r in H. assert (Rabs (q - p) < 360) by (apply Rabs_def1; lra). lra.
Qed.
Lemma phase_gain : forall a b p g, 0 < g -> is_phase a b p -> is_phase (g * a) (g * b) p.
Proof.
  intros a b p g Hg (Hp & A & B & Z).
  assert (E : sqrt ((g * a) ^ 2 + (g * b) ^ 2) = g * sqrt (a ^ 2 + b ^ 2)).
  { replace ((g * a) ^ 2 + (g * b) ^ 2) with (g ^ 2 * (a ^ 2 + b ^ 2)) by ring. rewrite sqrt_mult_alt by apply pow2_ge_0. rewrite sqrt_pow2 by lra. reflexivity. }
  split; [exact Hp|]. rewrite E, !Rmult_assoc. split; [f_equal; exact A|]. split; [f_equal; exact B|].
  intros H1 H2. apply Z; [destruct (Rmult_integral _ _ H1); lra|destruct (Rmult_integral _ _ H2); lra].
Qed.
Lemma phase_minus : forall a b p, is_phase a b p -> ~ (a = 0 /\ b = 0) -> is_phase (- a) (- b) (if Rlt_dec p 180 then p + 180 else p - 180).
Proof.
  intros a b p (Hp & A & B & Z) N.
  assert (E : sqrt ((- a) ^ 2 + (- b) ^ 2) = sqrt (a ^ 2 + b ^ 2)) by (f_equal; ring).
  assert (T : cos ((if Rlt_dec p 180 then p + 180 else p - 180) * PI / 180) = - cos (p * PI / 180) /\ sin ((if Rlt_dec p 180 then p + 180 else p - 180) * PI / 180) = - sin (p * PI / 180)).
  { destruct (Rlt_dec p 180).
    - replace ((p + 180) * PI / 180) with (p * PI / 180 + PI) by field. rewrite neg_cos, neg_sin. auto.
    - replace ((p - 180) * PI / 180) with (p * PI / 180 - PI) by field. rewrite cos_minus, sin_minus, cos_PI, sin_PI. split; ring. }
  destruct T as [T1 T2]. split; [destruct (Rlt_dec p 180); lra|]. rewrite E, T1, T2. split; [rewrite A at 1; ring|]. split; [rewrite B at 1; ring|].
  intros H1 H2. exfalso. apply N. split; lra.
Qed.

(** ** psrcc sees nothing but the phases *)
Definition phase_of (re im : R) : R := toR (wrap_phase (angle_deg (emb (re, im)))).
Lemma phase_of_is : forall re im, is_phase re im (phase_of re im).
Proof. intros re im. unfold phase_of. destruct (wrap_phase_is (re, im)) as (p & -> & Hp). exact Hp. Qed.
Lemma phase_of_eq : forall re im p, is_phase re im p -> phase_of re im = p.
Proof. intros re im p Hp. exact (phase_unique _ _ _ _ (phase_of_is re im) Hp). Qed.
Lemma rfft_phases : forall m L nfft f X, np_rfft (fmat m L f) nfft = Ok X ->
  map (map (fun z => wrap_phase (angle_deg z))) X = fmat m (S (half nfft)) (fun i k => phase_of (spec_re (Z.to_nat nfft) L (f i) k) (spec_im (Z.to_nat nfft) L (f i) k)).
Proof.
  intros m L nfft f X H. unfold np_rfft in H. destruct (Z.ltb_spec nfft 1) as [|Hn]; [discriminate|]. apply Ok_inj in H. subst X. rewrite half_nat by lia.
  unfold fmat, fvec at 2. rewrite !map_map. apply map_ext. intros i. rewrite map_map. apply map_ext. intros k.
  rewrite dft_bin_fvec. unfold phase_of. destruct (wrap_phase_is (spec_re (Z.to_nat nfft) L (f i) k, spec_im (Z.to_nat nfft) L (f i) k)) as (p & -> & _). reflexivity.
Qed.
Lemma finish_any_mag : forall c nfft f m m2, c_use_energy c = false -> finish c nfft f m = finish c nfft f m2.
Proof. intros c nfft f m m2 H. unfold finish. rewrite H. reflexivity. Qed.
Lemma psrcc_same_phases : forall `{Env} a c g N L hop x y, well_framed a N L hop -> c_use_energy c = false ->
  (forall i k, let f := frame_of a (s_coeff a) L hop x i in let h := frame_of a (s_coeff a) L hop y i in let n := Z.to_nat (s_nfft a) in
     phase_of (spec_re n L f k) (spec_im n L f k) = phase_of (spec_re n L h k) (spec_im n L h k)) ->
  psrcc (fvec N x) a g c = psrcc (fvec N y) a g c.
Proof.
  intros E a c g N L hop x y Hw He Hp. rewrite !psrcc_unfold. destruct (_ <? _)%Z; [reflexivity|].
  destruct (spectro_bank Mel a) as [b|]; [|reflexivity]. cbn [rbind]. rewrite !(framed_fvec a N L hop) by auto. cbn [rbind]. unfold psrcc_features.
  destruct (np_rfft (fmat (frame_count N L hop) L (frame_of a (s_coeff a) L hop x)) (s_nfft a)) as [X|ex] eqn:EX.
  2:{ assert (Z1 : (s_nfft a <? 1)%Z = true /\ ex = ValueError). { unfold np_rfft in EX. destruct (_ <? 1)%Z; [split; congruence|discriminate]. }
      destruct Z1 as [Z1 ->]. unfold np_rfft. rewrite Z1. reflexivity. }
  destruct (np_rfft (fmat (frame_count N L hop) L (frame_of a (s_coeff a) L hop y)) (s_nfft a)) as [Y|ex] eqn:EY.
  2:{ unfold np_rfft in EX, EY. destruct (_ <? 1)%Z; discriminate. }
  cbn [rbind]. rewrite (rfft_phases _ _ _ _ _ EX), (rfft_phases _ _ _ _ _ EY).
  rewrite (fmat_ext _ _ _ (fun i k => phase_of (spec_re (Z.to_nat (s_nfft a)) L (frame_of a (s_coeff a) L hop y i) k) (spec_im (Z.to_nat (s_nfft a)) L (frame_of a (s_coeff a) L hop y i) k))) by (intros; apply Hp).
  destruct (np_dot_T _ _); [|reflexivity]. cbn [rbind]. destruct (fmaxl _); [|reflexivity]. cbn [rbind]. apply finish_any_mag, He.
Qed.
Lemma spec_im_gain : forall n L f g k, spec_im n L (fun t => g * f t) k = g * spec_im n L f k.
Proof. intros. unfold spec_im. rewrite <- bigsum_scal. apply bigsum_ext. intros. ring. Qed.
Lemma psrcc_gain : forall `{Env} a c g N L hop x k, well_framed a N L hop -> c_use_energy c = false -> 0 < k ->
  psrcc (fvec N (fun t => k * x t)) a g c = psrcc (fvec N x) a g c.
Proof.
  intros E a c g N L hop x k Hw He Hk. apply (psrcc_same_phases a c g N L hop); [assumption|assumption|]. intros i j f h n.
  assert (R : spec_re n L f j = k * spec_re n L h j). { unfold spec_re. rewrite <- bigsum_scal. apply bigsum_ext. intros t _. unfold f. rewrite frame_of_gain. fold h. ring. }
  assert (I : spec_im n L f j = k * spec_im n L h j). { unfold spec_im. rewrite <- bigsum_scal. apply bigsum_ext. intros t _. unfold f. rewrite frame_of_gain. fold h. ring. }
  rewrite R, I. apply phase_of_eq, phase_gain; [exact Hk|apply phase_of_is].
Qed.

(** ** rows of two recordings *)
Lemma bins_near : forall a co N L hop n x x2 d i k m p p2, (0 < hop)%nat -> (1 <= L <= N)%nat -> apart N d x x2 -> (i < frame_count N L hop)%nat -> 0 < m ->
  let f := frame_of a co L hop x i in let f2 := frame_of a co L hop x2 i in
  m <= spec_mag n L f k -> is_phase (spec_re n L f k) (spec_im n L f k) p -> is_phase (spec_re n L f2 k) (spec_im n L f2 k) p2 ->
  let e := 180 * (INR L * ((if s_pre_emph a then 1 + Rabs co else 1) * d) / m) in
  Rabs (p2 - p) <= e \/ 360 - e <= Rabs (p2 - p).
Proof.
  intros a co N L hop n x x2 d i k m p p2 Hh HL Hd Hi Hm f f2 Hf Hp Hp2 e.
  assert (Hd0 : 0 <= d) by (eapply Rle_trans; [apply Rabs_pos|apply (Hd 0%nat); lia]).
  set (am := (if s_pre_emph a then 1 + Rabs co else 1)) in *.
  assert (Am : 0 <= am * d). { apply Rmult_le_pos; [|exact Hd0]. pose proof (Rabs_pos co). unfold am. destruct (s_pre_emph a); lra. }
  assert (D : spec_mag n L (fun t => f2 t - f t) k <= INR L * (am * d)).
  { eapply Rle_trans; [apply spec_mag_le|]. unfold l1. apply Rle_trans with (INR (Nat.min L n) * (am * d)).
    - rewrite <- bigsum_const. apply bigsum_le. intros t Ht. unfold f, f2. rewrite frame_minus. apply (frame_small a co N); [exact Hd0|exact Hd|lia|]. apply (frame_in N L); lia.
    - apply Rmult_le_compat_r; [exact Am|apply le_INR; lia]. }
  refine (phases_near _ _ _ _ p p2 m (INR L * (am * d)) Hp Hp2 Hm _ _ _).
  - apply Rmult_le_pos; [apply pos_INR|exact Am].
  - apply Rle_trans with (spec_mag n L f k ^ 2); [apply pow_incr; lra|]. unfold spec_mag. rewrite pow2_sqrt by apply spec_sq_nonneg. right. reflexivity.
  - rewrite spec_re_minus, spec_im_minus. apply Rle_trans with (spec_mag n L (fun t => f2 t - f t) k ^ 2).
    + unfold spec_mag. rewrite pow2_sqrt by apply spec_sq_nonneg. right. reflexivity.
    + apply pow_incr. split; [apply sqrt_pos|exact D].
Qed.
Lemma power_lip : forall g b u v, g <= 1 -> 0 < b -> b <= u -> b <= v -> Rabs (Rpower u g - Rpower v g) <= Rabs g * Rpower b (g - 1) * Rabs (u - v).
Proof.
  assert (K : forall g b u v, g <= 1 -> 0 < b -> b <= u -> u < v -> Rabs (Rpower v g - Rpower u g) <= Rabs g * Rpower b (g - 1) * Rabs (v - u)).
  { intros g b u v Hg Hb Hu Huv. destruct (MVT_cor2 (fun z => Rpower z g) (fun z => g * Rpower z (g - 1)) u v Huv) as (c & E & C).
    { intros z Hz. apply derivable_pt_lim_power. lra. }
    rewrite E, !Rabs_mult. apply Rmult_le_compat_r; [apply Rabs_pos|]. apply Rmult_le_compat_l; [apply Rabs_pos|].
    rewrite Rabs_pos_eq by (left; apply exp_pos). unfold Rpower.
    assert (X : (g - 1) * ln c <= (g - 1) * ln b).
    { assert (ln b <= ln c) by (destruct (Req_dec b c) as [->|]; [lra|left; apply ln_increasing; lra]). assert (0 <= (1 - g) * (ln c - ln b)) by (apply Rmult_le_pos; lra). lra. }
    destruct X as [X|X]; [left; apply exp_increasing; exact X|right; rewrite X; reflexivity]. }
  intros g b u v Hg Hb Hu Hv. destruct (Rtotal_order u v) as [H|[->|H]].
  - rewrite (Rabs_minus_sym (Rpower u g)), (Rabs_minus_sym u). apply K; assumption.
  - unfold Rminus. rewrite !Rplus_opp_r, Rabs_R0. lra.
  - apply K; assumption.
Qed.
Lemma steady_phase : forall p p2 e, 0 <= p2 < 360 -> e < p < 360 - e -> Rabs (p2 - p) <= e \/ 360 - e <= Rabs (p2 - p) -> Rabs (p2 - p) <= e.
Proof. intros p p2 e H2 Hp [H|H]; [exact H|]. exfalso. revert H. unfold Rabs. destruct (Rcase_abs (p2 - p)); lra. Qed.
Lemma bands_near : forall h w p p2 e, (forall k, (k < h)%nat -> 0 <= w k) -> (forall k, (k < h)%nat -> w k <> 0 -> Rabs (p2 k - p k) <= e) ->
  Rabs (bigsum h (fun k => p2 k * w k) - bigsum h (fun k => p k * w k)) <= e * bigsum h w.
Proof.
  intros h w p p2 e Hw Hp. rewrite <- bigsum_minus. eapply Rle_trans; [apply bigsum_Rabs|]. rewrite <- bigsum_scal. apply bigsum_le. intros k Hk.
  replace (p2 k * w k - p k * w k) with ((p2 k - p k) * w k) by ring. rewrite Rabs_mult, (Rabs_pos_eq (w k)) by (apply Hw; exact Hk).
  destruct (Req_dec (w k) 0) as [->|Z]; [lra|]. apply Rmult_le_compat_r; [apply Hw; exact Hk|]. apply Hp; assumption.
Qed.
