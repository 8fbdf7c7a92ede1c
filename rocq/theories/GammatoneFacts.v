(** * Lemmas about the gammatone filter bank *)
From Coq Require Import Reals ZArith List String Bool Lia Lra Psatz.
From Coquelicot Require Import Complex.
From Verif Require Import Base BaseFacts Cplx CplxFacts SpecBase SpecMat SpecFilters SpecBanks BigSum MatFacts
  Preprocessing Converters ConvertersFacts Filters FiltersFacts MelBanks MelBanksFacts MelBanksMore Gammatone.
Import ListNotations.
Local Open Scope R_scope.

(** ** centre frequencies *)
Lemma gt_c_pos : 0 < gt_c.
Proof. unfold gt_c; lra. Qed.
Lemma centres_eq : forall low high n, 0 <= low -> 0 <= high ->
  generate_center_frequencies low high n = fvec n (spec_gt_centre low high n).
Proof.
  intros low high n Hl Hh. unfold generate_center_frequencies.
  fold gt_c. replace (EarQ * minBW) with gt_c by (unfold gt_c, EarQ, minBW; lra).
  pose proof gt_c_pos. cbn [fadd]. rewrite !flog_pos by lra. unfold fsub; cbn [fneg fadd].
  rewrite (map_ext_in _ (fun k => Fin ((high + gt_c) * exp (INR (k + 1) / INR n * (ln (low + gt_c) + - ln (high + gt_c))) + - gt_c))).
  2:{ intros k Hk. apply in_seq in Hk. unfold fnat. rewrite fdiv_Fin by (apply not_0_INR; lia). reflexivity. }
  change (map (fun k => Fin ((high + gt_c) * exp (INR (k + 1) / INR n * (ln (low + gt_c) + - ln (high + gt_c))) + - gt_c)) (seq 0 n))
    with (fvec n (fun k => (high + gt_c) * exp (INR (k + 1) / INR n * (ln (low + gt_c) + - ln (high + gt_c))) + - gt_c)).
  rewrite fvec_rev. apply fvec_ext. intros i Hi. unfold spec_gt_centre.
  replace (n - 1 - i + 1)%nat with (n - i)%nat by lia. rewrite minus_INR by lia.
  assert (INR n <> 0) by (apply not_0_INR; lia).
  rewrite <- (exp_ln (high + gt_c)) at 1 by lra. rewrite <- exp_plus.
  replace (ln (high + gt_c) + (INR n - INR i) / INR n * (ln (low + gt_c) + - ln (high + gt_c)))
    with (ln (low + gt_c) + INR i / INR n * (ln (high + gt_c) - ln (low + gt_c))) by (field; auto). ring.
Qed.

Lemma gt_centre_first : forall low high n, 0 <= low -> spec_gt_centre low high n 0 = low.
Proof.
  intros. unfold spec_gt_centre. simpl. unfold Rdiv. rewrite !Rmult_0_l, Rplus_0_r.
  pose proof gt_c_pos. rewrite exp_ln by lra. ring.
Qed.
Lemma gt_centre_last : forall low high n, (0 < n)%nat -> 0 <= low -> 0 <= high ->
  spec_gt_centre low high n n = high.
Proof.
  intros. unfold spec_gt_centre. assert (INR n <> 0) by (apply not_0_INR; lia).
  replace (ln (low + gt_c) + INR n / INR n * (ln (high + gt_c) - ln (low + gt_c))) with (ln (high + gt_c)) by (field; auto).
  pose proof gt_c_pos. rewrite exp_ln by lra. ring.
Qed.
Lemma gt_centre_incr : forall low high n i j, 0 <= low -> low < high -> (0 < n)%nat -> (i < j)%nat ->
  spec_gt_centre low high n i < spec_gt_centre low high n j.
Proof.
  intros low high n i j Hl Hlh Hn Hij. unfold spec_gt_centre. pose proof gt_c_pos.
  apply Rplus_lt_compat_r, exp_increasing, Rplus_lt_compat_l.
  apply Rmult_lt_compat_r.
  - assert (ln (low + gt_c) < ln (high + gt_c)) by (apply ln_increasing; lra). lra.
  - apply Rmult_lt_compat_r; [apply Rinv_0_lt_compat, lt_0_INR; auto | apply lt_INR; auto].
Qed.
Lemma gt_centre_range : forall low high n i, 0 <= low -> low < high -> (i < n)%nat ->
  low <= spec_gt_centre low high n i < high.
Proof.
  intros low high n i Hl Hlh Hi. split.
  - rewrite <- (gt_centre_first low high n) at 1 by auto. destruct i; [lra|].
    left. apply gt_centre_incr; auto; lia.
  - rewrite <- (gt_centre_last low high n) at 2 by (try lra; lia). apply gt_centre_incr; auto; lia.
Qed.
Lemma gt_centre_spacing : forall low high n i, 
  ln (spec_gt_centre low high n i + gt_c)
  = ln (low + gt_c) + INR i / INR n * (ln (high + gt_c) - ln (low + gt_c)).
Proof. intros. unfold spec_gt_centre. replace (_ - gt_c + gt_c) with (exp (ln (low + gt_c) + INR i / INR n * (ln (high + gt_c) - ln (low + gt_c)))) by ring. apply ln_exp. Qed.

(** ** constants *)
Lemma sqrt2_pos : 0 < sqrt 2.
Proof. apply sqrt_lt_R0; lra. Qed.
Lemma sqrt2_sq : sqrt 2 * sqrt 2 = 2.
Proof. apply sqrt_sqrt; lra. Qed.
Lemma two_three_halves : Rpower 2 (3 / 2) = 2 * sqrt 2.
Proof.
  replace (3 / 2) with (1 + / 2) by lra. rewrite Rpower_plus, Rpower_1, Rpower_sqrt by lra. auto.
Qed.
Lemma Smax_eq : sqrt (3 + Rpower 2 (3 / 2)) = 1 + sqrt 2.
Proof.
  rewrite two_three_halves. pose proof sqrt2_pos. pose proof sqrt2_sq.
  replace (3 + 2 * sqrt 2) with ((1 + sqrt 2) * (1 + sqrt 2)) by nra. apply sqrt_square; lra.
Qed.
Lemma sqrt2_gt1 : 1 < sqrt 2.
Proof. rewrite <- sqrt_1 at 1. apply sqrt_lt_1; lra. Qed.
Lemma Smin_eq : sqrt (3 - Rpower 2 (3 / 2)) = sqrt 2 - 1.
Proof.
  rewrite two_three_halves. pose proof sqrt2_gt1. pose proof sqrt2_sq.
  replace (3 - 2 * sqrt 2) with ((sqrt 2 - 1) * (sqrt 2 - 1)) by nra. apply sqrt_square; lra.
Qed.

(** ** gain *)
Section Gain.
Variables (b T w : R).
Hypothesis Hb : 0 < b.
Hypothesis HT : 0 < T.
Hypothesis Hw : 0 <= w < PI.
Let K := exp (b * T).
Let r := exp (- (b * T)).
Let a (s : R) := r * (cos w + s * sin w).
Let Kj : C := (cos w, sin w).

Lemma r_lt1 : 0 < r < 1.
Proof.
  unfold r. split; [apply exp_pos|]. rewrite <- exp_0. apply exp_increasing.
  assert (0 < b * T) by (apply Rmult_lt_0_compat; auto). lra.
Qed.
Lemma K_r : / K = r.
Proof. unfold K, r. rewrite exp_Ropp. auto. Qed.
Lemma K_neq : K <> 0.
Proof. unfold K. pose proof (exp_pos (b * T)). lra. Qed.

Lemma zero_neq : forall s, Cminus (RtoC (a s)) Kj <> RtoC 0.
Proof.
  intros s E. unfold Cminus, Cplus, Copp, RtoC, Kj in E. injection E as E1 E2.
  pose proof r_lt1. assert (sin w = 0) by lra.
  assert (w = 0). { destruct (Req_dec w 0); auto. pose proof (sin_gt_0 w). lra. }
  subst w. unfold a in E1. rewrite cos_0, sin_0 in E1. nra.
Qed.
Definition gG (s : R) : C := Cmult (Cmult (RtoC (2 * T)) Kj) (Cminus (RtoC (a s)) Kj).
Lemma Kj_mod : Cmod Kj = 1.
Proof.
  unfold Kj, Cmod. cbn [fst snd]. pose proof (sin2_cos2 w). unfold Rsqr in *.
  replace (cos w ^ 2 + sin w ^ 2) with 1 by nra. apply sqrt_1.
Qed.
Lemma gG_neq : forall s, gG s <> RtoC 0.
Proof.
  intros s. unfold gG. apply Cmult_neq_0; [apply Cmult_neq_0|apply zero_neq].
  - intros E. injection E. lra.
  - intros E. apply Cmod_eq_0_iff in E || (apply (f_equal Cmod) in E; rewrite Cmod_0, Kj_mod in E; lra).
Qed.
Definition gCoe : C :=
  Cplus (Cminus (RtoC (-2 / K ^ 2)) (Cmult (RtoC 2) (Cmult Kj Kj)))
        (Cmult (RtoC (1 / K)) (Cmult (RtoC 2) (Cplus (RtoC 1) (Cmult Kj Kj)))).
Lemma gCoe_factor : gCoe = Cmult (RtoC (-2 * (r - 1))) (Cminus (RtoC r) (Cmult Kj Kj)).
Proof.
  unfold gCoe. replace (-2 / K ^ 2) with (-2 * (r * r)) by (rewrite <- K_r; field; apply K_neq).
  replace (1 / K) with r by (rewrite <- K_r; field; apply K_neq).
  unfold RtoC, Cplus, Cminus, Copp, Cmult. cbn [fst snd Cplus Copp]. f_equal; ring.
Qed.
Lemma gCoe_neq : gCoe <> RtoC 0.
Proof.
  rewrite gCoe_factor. pose proof r_lt1. apply Cmult_neq_0.
  - intros E. injection E. lra.
  - intros E. assert (E' : RtoC r = Cmult Kj Kj).
    { replace (RtoC r) with (Cplus (Cminus (RtoC r) (Cmult Kj Kj)) (Cmult Kj Kj)) by ring. rewrite E. ring. }
    apply (f_equal Cmod) in E'. rewrite Cmod_mult, Kj_mod, Cmod_R, Rabs_pos_eq in E' by lra. lra.
Qed.
Definition gGain : R :=
  Cmod (Cmult (Cmult (Cmult (Cmult (gG (1 + sqrt 2)) (gG (- (1 + sqrt 2)))) (gG (sqrt 2 - 1))) (gG (- (sqrt 2 - 1))))
              (Cinv (Cmult (Cmult gCoe gCoe) (Cmult gCoe gCoe)))).
Lemma gGain_pos : 0 < gGain.
Proof.
  unfold gGain. apply Cmod_gt_0.
  assert (P : Cmult (Cmult gCoe gCoe) (Cmult gCoe gCoe) <> RtoC 0)
    by (apply Cmult_neq_0; apply Cmult_neq_0; apply gCoe_neq).
  apply Cmult_neq_0; [apply Cmult_neq_0; [apply Cmult_neq_0; [apply Cmult_neq_0|]|]|]; try apply gG_neq.
  intros E.
  assert (E1 : Cmult (Cinv (Cmult (Cmult gCoe gCoe) (Cmult gCoe gCoe))) (Cmult (Cmult gCoe gCoe) (Cmult gCoe gCoe)) = RtoC 1)
    by (apply Cinv_l; auto).
  rewrite E in E1. rewrite Cmult_0_l in E1. injection E1. lra.
Qed.

Lemma compute_gain_eq : forall fc, w = 2 * fc * PI * T ->
  compute_gain (Fin fc) (Fin b) (Fin w) (Fin T)
  = ([Fin (a (1 + sqrt 2)); Fin (a (- (1 + sqrt 2))); Fin (a (sqrt 2 - 1)); Fin (a (- (sqrt 2 - 1)))], Fin gGain).
Proof.
  intros fc Ew. unfold compute_gain. rewrite Smax_eq, Smin_eq. cbn [fmul fexp fcos fsin]. rewrite <- Ew.
  fold K. cbn [fmul fadd]. unfold fsub. cbn [fneg fadd]. rewrite !fdiv_Fin by apply K_neq.
  assert (EA : forall x s, x = s * sin w -> Fin ((cos w + x) / K) = Fin (a s)).
  { intros x s ->. f_equal. unfold a. rewrite <- K_r. unfold Rdiv. ring. }
  rewrite (EA _ (1 + sqrt 2)) by auto. rewrite (EA _ (- (1 + sqrt 2))) by ring.
  rewrite (EA _ (sqrt 2 - 1)) by auto. rewrite (EA _ (- (sqrt 2 - 1))) by ring.
  f_equal. rewrite cexpi_emb. fold Kj. cbn [nth]. rewrite fpown_Fin.
  rewrite fdiv_Fin by (apply pow_nonzero, K_neq). rewrite !cre_emb.
  rewrite !cscal_emb, !csub_emb, !cmul_emb. rewrite !cscal_emb.
  unfold f1. rewrite cre_emb, cadd_emb, cscal_emb, csub_emb, cscal_emb, cadd_emb, !cmul_emb.
  fold gCoe. fold (gG (1 + sqrt 2)) (gG (- (1 + sqrt 2))) (gG (sqrt 2 - 1)) (gG (- (sqrt 2 - 1))).
  rewrite cinv_emb by (apply Cmult_neq_0; apply Cmult_neq_0; apply gCoe_neq).
  rewrite cmul_emb, cabs_emb. auto.
Qed.
End Gain.

(** ** one row *)
Lemma Cmod_dist2 : forall t x y, Cmod (Cminus (cos t, sin t) (x, y)) = sqrt (dist2 t x y).
Proof. intros. reflexivity. Qed.
Lemma dist2_nonneg : forall t x y, 0 <= dist2 t x y.
Proof. intros. unfold dist2. pose proof (pow2_ge_0 (cos t - x)). pose proof (pow2_ge_0 (sin t - y)). lra. Qed.
Lemma dist2_real_pos : forall t x, sin t <> 0 -> 0 < dist2 t x 0.
Proof.
  intros t x H. unfold dist2. assert (0 < (sin t - 0) ^ 2) by (rewrite Rminus_0_r; apply Rsqr_pos_lt in H; unfold Rsqr in H; lra). pose proof (pow2_ge_0 (cos t - x)). lra.
Qed.
Lemma dist2_pole_pos : forall t r w, 0 <= r < 1 -> 0 < dist2 t (r * cos w) (r * sin w).
Proof.
  intros t r w Hr. unfold dist2. pose proof (sin2_cos2 t). pose proof (sin2_cos2 w). unfold Rsqr in *.
  pose proof (COS_bound (t - w)) as [_ Hc]. rewrite cos_minus in Hc.
  replace ((cos t - r * cos w) ^ 2 + (sin t - r * sin w) ^ 2)
    with ((sin t * sin t + cos t * cos t) + r * r * (sin w * sin w + cos w * cos w) - 2 * r * (cos t * cos w + sin t * sin w)) by ring.
  rewrite H, H0. nra.
Qed.
Lemma dist2_pole_pos' : forall t r w, 0 <= r < 1 -> 0 < dist2 t (r * cos w) (- (r * sin w)).
Proof.
  intros. pose proof (dist2_pole_pos t r (- w) H). rewrite cos_neg, sin_neg in H0.
  replace (- (r * sin w)) with (r * - sin w) by ring. auto.
Qed.

Lemma sqrt_pow4 : forall x, 0 <= x -> sqrt x ^ 4 = x ^ 2.
Proof. intros. replace (sqrt x ^ 4) with ((sqrt x * sqrt x) ^ 2) by ring. rewrite sqrt_sqrt; auto. Qed.

Definition gt_b (order : nat) (fc : R) : R :=
  1.019 * 2 * PI * (1.0 * Rpower ((fc / 9.26449) ^ order + 24.7 ^ order) (1 / INR order)).
Lemma gt_b_pos : forall order fc, 0 < gt_b order fc.
Proof.
  intros. unfold gt_b. pose proof PI_RGT_0.
  assert (0 < Rpower ((fc / 9.26449) ^ order + 24.7 ^ order) (1 / INR order)) by apply exp_pos.
  apply Rmult_lt_0_compat; [|lra]. apply Rmult_lt_0_compat; lra.
Qed.

Lemma gammatone_row_eq : forall nfft fs order fc,
  (0 < nfft)%Z -> (0 < fs)%Z -> (0 < order)%nat -> 0 <= fc -> fc < IZR fs / 2 ->
  exists g, 0 < g /\
  gammatone_row nfft fs (Z.of_nat order) (Fin fc)
  = fvec (S (half nfft)) (fun k => g * spec_gt_response (IZR fs) order (IZR nfft) fc k).
Proof.
  intros nfft fs order fc Hn Hfs Ho Hfc Hfc2.
  assert (Hfs' : 0 < IZR fs) by (apply IZR_lt; auto).
  assert (Hn' : 0 < IZR nfft) by (apply IZR_lt; auto).
  set (T := 1 / IZR fs). set (b := gt_b order fc). set (w := 2 * fc * PI * T).
  assert (HT : 0 < T) by (unfold T; apply Rdiv_lt_0_compat; lra).
  assert (Hb : 0 < b) by apply gt_b_pos.
  assert (Hw : 0 <= w < PI).
  { unfold w, T. pose proof PI_RGT_0. split.
    - apply Rmult_le_pos; [|unfold T in HT; lra]. nra.
    - apply Rmult_lt_reg_r with (IZR fs); auto. unfold Rdiv. rewrite Rmult_1_l, Rmult_assoc, Rinv_l by lra. nra. }
  exists (T ^ 4 / gGain b T w).
  pose proof (gGain_pos b T w Hb HT Hw) as HG.
  split; [apply Rdiv_lt_0_compat; auto; apply pow_lt; auto|].
  unfold gammatone_row. fold T.
  rewrite (fdiv_Fin fc EarQ) by (unfold EarQ; lra). unfold fpowz.
  replace (Z.of_nat order <? 0)%Z with false by (symmetry; apply Z.ltb_ge; lia).
  rewrite !Nat2Z.id, !fpown_Fin. cbn [fadd].
  assert (Hpos : 0 < (fc / EarQ) ^ order + minBW ^ order).
  { assert (0 <= (fc / EarQ) ^ order) by (apply pow_le; unfold EarQ; apply Rmult_le_pos; [auto|lra]).
    assert (0 < minBW ^ order) by (apply pow_lt; unfold minBW; lra). lra. }
  rewrite fpow_pos by auto. rewrite <- INR_IZR_INZ.
  destruct (Req_EM_T (1 / INR order) 0) as [E0|_].
  { exfalso. assert (0 < INR order) by (apply lt_0_INR; auto).
    assert (0 < 1 / INR order) by (apply Rdiv_lt_0_compat; lra). lra. }
  cbn [fmul]. change (1.019 * 2 * PI * (1.0 * Rpower ((fc / EarQ) ^ order + minBW ^ order) (1 / INR order))) with b.
  fold w. cbn [fexp fcos fsin]. rewrite !fdiv_Fin by (pose proof (exp_pos (b * T)); lra).
  rewrite (compute_gain_eq b T w Hb HT fc eq_refl).
  rewrite rows_of_nfft by lia. unfold fvec. apply map_ext. intros k. cbn [nth].
  set (t := 2 * PI * INR k / IZR nfft). set (r := exp (- (b * T))).
  assert (Hr : 0 < r < 1) by (apply r_lt1; auto).
  change (-4 <? 0)%Z with true. cbv iota. change (Z.to_nat (- -4)) with 4%nat.
  unfold fnat, fZ. cbn [fmul]. rewrite (fdiv_Fin (2 * PI * INR k)) by lra. fold t.
  rewrite cexpi_emb, !cre_emb.
  change (Fin (cos w / exp (b * T)), Fin (sin w / exp (b * T))) with (emb (cos w / exp (b * T), sin w / exp (b * T))).
  rewrite cconj_emb. cbn [fst snd]. rewrite !csub_emb, !cmul_emb, !cabs_emb, !fpown_Fin.
  replace (cos w / exp (b * T)) with (r * cos w) by (unfold r; rewrite exp_Ropp; unfold Rdiv; ring).
  replace (sin w / exp (b * T)) with (r * sin w) by (unfold r; rewrite exp_Ropp; unfold Rdiv; ring).
  rewrite !Cmod_mult. unfold RtoC. rewrite !Cmod_dist2.
  pose proof (dist2_pole_pos t r w ltac:(lra)) as D1. pose proof (dist2_pole_pos' t r w ltac:(lra)) as D2.
  rewrite <- (sqrt_mult_alt (dist2 t (r * cos w) (r * sin w))) by lra.
  assert (D3 : 0 < dist2 t (r * cos w) (r * sin w) * dist2 t (r * cos w) (- (r * sin w))) by (apply Rmult_lt_0_compat; auto).
  rewrite sqrt_pow4 by lra. rewrite (fdiv_Fin 1) by (apply pow_nonzero; lra).
  rewrite (fdiv_Fin (T ^ 4)) by lra. cbn [fmul]. f_equal.
  rewrite <- !sqrt_mult_alt by (repeat apply Rmult_le_pos; apply dist2_nonneg).
  unfold spec_gt_response, spec_gt_mag.
  replace (2 * PI * fc / IZR fs) with w by (unfold w, T; field; lra). fold t.
  replace (spec_gt_radius (IZR fs) order fc) with r.
  - unfold Rdiv. ring.
  - unfold r, spec_gt_radius, b, gt_b, T. f_equal.
    replace (1.0 * Rpower ((fc / 9.26449) ^ order + 24.7 ^ order) (1 / INR order))
      with (Rpower ((fc / 9.26449) ^ order + 24.7 ^ order) (1 / INR order)) by lra.
    generalize (Rpower ((fc / 9.26449) ^ order + 24.7 ^ order) (1 / INR order)); intros P.
    generalize 1.019; intros x. field. lra.
Qed.

Lemma gt_response_nonneg : forall fs order nfft fc k, 0 <= spec_gt_response fs order nfft fc k.
Proof.
  intros. unfold spec_gt_response, spec_gt_mag. apply Rmult_le_pos; [apply sqrt_pos|].
  set (d := _ * _ : R). destruct (Req_dec (d ^ 2) 0) as [->|H].
  - rewrite Rinv_0. lra.
  - left. apply Rinv_0_lt_compat. pose proof (pow2_ge_0 d). lra.
Qed.
Lemma gt_response_pos1 : forall fs order nfft fc, 0 < fs -> (3 <= nfft)%Z ->
  0 < spec_gt_response fs order (IZR nfft) fc 1.
Proof.
  intros fs order nfft fc Hfs Hn. unfold spec_gt_response, spec_gt_mag.
  set (t := 2 * PI * INR 1 / IZR nfft). apply IZR_le in Hn.
  assert (Ht : 0 < t < PI).
  { unfold t. simpl INR. pose proof PI_RGT_0. split.
    - apply Rdiv_lt_0_compat; lra.
    - apply Rmult_lt_reg_r with (IZR nfft); [lra|]. unfold Rdiv. rewrite Rmult_assoc, Rinv_l by lra. nra. }
  assert (Hs : sin t <> 0) by (pose proof (sin_gt_0 t); lra).
  assert (Hr : 0 <= spec_gt_radius fs order fc < 1).
  { unfold spec_gt_radius. split; [left; apply exp_pos|]. pose proof PI_RGT_0.
    assert (0 < Rpower ((fc / 9.26449) ^ order + 24.7 ^ order) (1 / INR order)) by apply exp_pos.
    assert (0 < 2 * PI * 1.019 * Rpower ((fc / 9.26449) ^ order + 24.7 ^ order) (1 / INR order) / fs).
    { apply Rdiv_lt_0_compat; auto. apply Rmult_lt_0_compat; lra. }
    revert H1. generalize (2 * PI * 1.019 * Rpower ((fc / 9.26449) ^ order + 24.7 ^ order) (1 / INR order) / fs).
    intros x Hx. rewrite <- exp_0. apply exp_increasing. lra. }
  apply Rdiv_lt_0_compat.
  - apply sqrt_lt_R0. repeat apply Rmult_lt_0_compat; apply dist2_real_pos; auto.
  - apply pow_lt, Rmult_lt_0_compat; [apply dist2_pole_pos; auto | apply dist2_pole_pos'; auto].
Qed.

Lemma normalise_fvec : forall n v, (0 < n)%nat -> (exists k, (k < n)%nat /\ 0 < v k) ->
  exists m, 0 < m /\ (forall k, (k < n)%nat -> v k <= m) /\ (exists k, (k < n)%nat /\ v k = m) /\
  normalise_row (fvec n v) = Ok (fvec n (fun k => v k / m)).
Proof.
  intros n v Hn (k0 & Hk0 & Hv0). unfold normalise_row.
  destruct (fmaxl_fvec n v Hn) as (k & Hk & E & H1).
  exists (v k). rewrite E. cbn [rbind]. specialize (H1 k0 Hk0) as Hm0.
  split; [lra|]. split; [auto|]. split; [exists k; auto|].
  rewrite (fvec_map _ _ _ (fun x => x / v k)) by (intros; apply fdiv_Fin; lra). auto.
Qed.

(** ** the bank *)
Lemma gammatone_bank_eq : forall n nfft fs low high h scale order approach,
  In scale scale_names -> spec_high high fs h ->
  (3 <= nfft)%Z -> (0 < fs)%Z -> (0 < order)%nat -> 0 <= low -> low < h -> h <= IZR fs / 2 ->
  exists m : nat -> R,
    (forall j, (j < n)%nat -> 0 < m j /\
       (forall k, (k < S (half nfft))%nat -> spec_gt_response (IZR fs) order (IZR nfft) (spec_gt_centre low h n j) k <= m j) /\
       (exists k, (k < S (half nfft))%nat /\ spec_gt_response (IZR fs) order (IZR nfft) (spec_gt_centre low h n j) k = m j)) /\
    gammatone_filter_banks (Z.of_nat n) nfft fs low high scale (Z.of_nat order) approach
    = Ok (fmat n (S (half nfft)) (fun j k => spec_scale scale n j *
            (spec_gt_response (IZR fs) order (IZR nfft) (spec_gt_centre low h n j) k / m j)),
          map (fun f => hz2erb f approach) (fvec n (spec_gt_centre low h n))).
Proof.
  intros n nfft fs low high h scale order approach Hsc Hh Hn Hfs Ho Hl Hlh Hhf.
  pose proof (spec_high_or _ _ _ Hh) as Eh.
  set (R := fun j k => spec_gt_response (IZR fs) order (IZR nfft) (spec_gt_centre low h n j) k).
  assert (Hfs' : 0 < IZR fs) by (apply IZR_lt; auto).
  assert (Hhalf : (1 <= half nfft)%nat).
  { unfold half. apply (Z2Nat.inj_le 1); [lia| |]. apply Z.div_pos; lia. apply Z.div_le_lower_bound; lia. }
  assert (Hrow : forall j, (j < n)%nat -> exists m, 0 < m /\ (forall k, (k < S (half nfft))%nat -> R j k <= m) /\
     (exists k, (k < S (half nfft))%nat /\ R j k = m) /\
     normalise_row (gammatone_row nfft fs (Z.of_nat order) (Fin (spec_gt_centre low h n j)))
     = Ok (fvec (S (half nfft)) (fun k => R j k / m))).
  { intros j Hj. pose proof (gt_centre_range low h n j Hl Hlh Hj).
    destruct (gammatone_row_eq nfft fs order (spec_gt_centre low h n j)) as (g & Hg & E); try lia; try lra.
    rewrite E.
    destruct (normalise_fvec (S (half nfft)) (fun k => g * R j k)) as (m & M1 & M2 & (k0 & Hk0 & M3) & M4); [lia| |].
    - exists 1%nat. split; [lia|]. apply Rmult_lt_0_compat; auto. apply gt_response_pos1; auto.
    - exists (m / g). split; [apply Rdiv_lt_0_compat; auto|]. split; [|split].
      + intros k Hk. specialize (M2 k Hk). apply Rmult_le_reg_l with g; auto.
        replace (g * (m / g)) with m by (field; lra). auto.
      + exists k0. split; auto. rewrite <- M3. field. lra.
      + fold (R j). unfold R in M4. unfold R. rewrite M4. f_equal. apply fvec_ext. intros. field. split; lra. }
  assert (Hm : exists m : nat -> Rdefinitions.R, forall j, (j < n)%nat -> 0 < m j /\ (forall k, (k < S (half nfft))%nat -> R j k <= m j) /\
     (exists k, (k < S (half nfft))%nat /\ R j k = m j) /\
     normalise_row (gammatone_row nfft fs (Z.of_nat order) (Fin (spec_gt_centre low h n j)))
     = Ok (fvec (S (half nfft)) (fun k => R j k / m j))).
  { clear - Hrow. revert Hrow. generalize n at 1 3. intros N. induction N as [|N IH]; intros H.
    - exists (fun _ => 0). intros; lia.
    - destruct IH as [m Hm]; [intros; apply H; lia|]. destruct (H N) as [x Hx]; [lia|].
      exists (fun j => if Nat.eq_dec j N then x else m j). intros j Hj.
      destruct (Nat.eq_dec j N) as [->|]; auto. apply Hm. lia. }
  destruct Hm as [m Hm]. exists m. split; [intros j Hj; destruct (Hm j Hj) as (A & B & C & _); auto|].
  unfold gammatone_filter_banks. rewrite Eh, !Rltb_false by lra.
  replace ((Z.of_nat n <? 0) || (nfft <? 0))%Z with false by (symmetry; apply orb_false_intro; apply Z.ltb_ge; lia).
  destruct (Z.eqb_spec fs 0); [lia|]. destruct (Z.eqb_spec (Z.of_nat order) 0); [lia|].
  destruct (Z.eqb_spec nfft 0); [lia|]. rewrite Nat2Z.id, centres_eq by lra.
  assert (HM : mapM normalise_row (map (gammatone_row nfft fs (Z.of_nat order)) (fvec n (spec_gt_centre low h n)))
     = Ok (fmat n (S (half nfft)) (fun j k => R j k / m j))).
  { unfold fvec at 1. rewrite map_map, mapM_map. unfold fmat. apply mapM_ok_map. intros j Hj. apply in_seq in Hj.
    apply Hm. lia. }
  rewrite HM. rewrite scale_fbank_ok by auto. cbn [rbind]. rewrite scale_rows_fmat. reflexivity.
Qed.

(** ** validation *)
Lemma gammatone_raise : forall nfilts nfft fs low high scale order a e,
  gammatone_filter_banks nfilts nfft fs low high scale order a = Raise e ->
  (low < 0 /\ e = ParameterError msg_low_freq) \/
  (0 <= low /\ IZR fs / 2 < or_half high fs /\ e = ParameterError msg_high_freq) \/
  (0 <= low /\ or_half high fs <= IZR fs / 2 /\
   (e = ValueError \/ e = KeyError \/ e = ZeroDivisionError \/ e = IndexError)).
Proof.
  intros nfilts nfft fs low high scale order a e. unfold gammatone_filter_banks.
  unfold Rltb at 1. destruct (Rlt_dec low 0). { intros H; injection H; auto. }
  unfold Rltb at 1. destruct (Rlt_dec (IZR fs / 2) (or_half high fs)).
  { intros H; injection H as <-. right; left. repeat split; auto; lra. }
  intros H. right; right. split; [lra|]. split; [lra|].
  destruct ((nfilts <? 0) || (nfft <? 0))%Z; [injection H; auto|].
  destruct (fs =? 0)%Z; [injection H; auto|]. destruct (order =? 0)%Z; [injection H; auto|].
  destruct (nfft =? 0)%Z; [injection H; auto|].
  match type of H with rbind ?r _ = _ => destruct r eqn:Es end; cbn [rbind] in H; [discriminate|].
  injection H as ->. apply scale_fbank_raise in Es. tauto.
Qed.
Lemma gammatone_validation : forall nfilts nfft fs low high h scale order a, spec_high high fs h ->
  (gammatone_filter_banks nfilts nfft fs low high scale order a = Raise (ParameterError msg_low_freq) <-> low < 0) /\
  (gammatone_filter_banks nfilts nfft fs low high scale order a = Raise (ParameterError msg_high_freq)
   <-> 0 <= low /\ IZR fs / 2 < h).
Proof.
  intros nfilts nfft fs low high h scale order a Hh. pose proof (spec_high_or _ _ _ Hh) as <-. split; split; intros H.
  - apply gammatone_raise in H as [[? _]|[(_ & _ & H)|(_ & _ & H)]]; auto; [discriminate|].
    destruct H as [H|[H|[H|H]]]; discriminate.
  - unfold gammatone_filter_banks. rewrite Rltb_true by auto. auto.
  - apply gammatone_raise in H as [[_ H]|[(? & ? & _)|(_ & _ & H)]]; auto; [discriminate|].
    destruct H as [H|[H|[H|H]]]; discriminate.
  - unfold gammatone_filter_banks. rewrite Rltb_false, Rltb_true by lra. auto.
Qed.
