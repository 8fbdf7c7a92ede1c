(** * Proofs for C170: pure tones *)
From Coq Require Import Reals ZArith List String Bool Lia Lra.
From Flocq Require Import Core.Raux Core.Round_NE Core.Generic_fmt Core.Zaux.
From Coquelicot Require Import PSeries.
From Verif Require Import Base BaseFacts SpecBase SpecMat SpecFeatures BigSum MatFacts Preprocessing PreprocessingFacts
  WindowFacts SpecBanks Features Extractors FeaturesFacts FeaturesMore SpecSpectral Dominant DominantFacts SpecTone.
Import ListNotations.
Local Open Scope R_scope.

(** ** Sums of a unit oscillation *)
Definition osc (th c s : R) (t : nat) : R := c * cos (th * INR t) + s * sin (th * INR t).

Lemma osc_sum : forall th c s m n,
  2 * sin (th / 2) * bigsum n (fun t => osc th c s (m + t)) =
  (c * sin (th * INR (m + n) - th / 2) - s * cos (th * INR (m + n) - th / 2)) - (c * sin (th * INR m - th / 2) - s * cos (th * INR m - th / 2)).
Proof.
  intros th c s m n. induction n as [|n IH].
  - cbn [bigsum]. rewrite Nat.add_0_r. ring.
  - rewrite bigsum_S, Rmult_plus_distr_l, IH. unfold osc.
    replace (m + S n)%nat with (S (m + n)) by lia. rewrite S_INR.
    replace (th * (INR (m + n) + 1) - th / 2) with (th * INR (m + n) + th / 2) by field.
    rewrite !sin_plus, !cos_plus, !sin_minus, !cos_minus. ring.
Qed.
Lemma unit_dot : forall c s u v, c * c + s * s = 1 -> u * u + v * v = 1 -> Rabs (c * u - s * v) <= 1.
Proof. intros c s u v H1 H2. apply Rabs_le. pose proof (Rle_0_sqr (c - u)). pose proof (Rle_0_sqr (s + v)).
  pose proof (Rle_0_sqr (c + u)). pose proof (Rle_0_sqr (s - v)). unfold Rsqr in *. lra. Qed.
Lemma sin_cos_1 : forall x, sin x * sin x + cos x * cos x = 1.
Proof. intros x. pose proof (sin2_cos2 x) as K. unfold Rsqr in K. exact K. Qed.
Lemma osc_bound : forall th c s m n, c * c + s * s = 1 -> sin (th / 2) <> 0 ->
  Rabs (bigsum n (fun t => osc th c s (m + t))) <= / Rabs (sin (th / 2)).
Proof.
  intros th c s m n H N. pose proof (osc_sum th c s m n) as E.
  pose proof (unit_dot c s _ _ H (sin_cos_1 (th * INR (m + n) - th / 2))) as U1.
  pose proof (unit_dot c s _ _ H (sin_cos_1 (th * INR m - th / 2))) as U2.
  assert (P : 0 < Rabs (sin (th / 2))) by (apply Rabs_pos_lt; assumption).
  apply Rmult_le_reg_l with (2 * Rabs (sin (th / 2))); [lra|].
  replace (2 * Rabs (sin (th / 2))) with (Rabs (2 * sin (th / 2))) at 1 by (rewrite Rabs_mult, (Rabs_right 2); lra).
  rewrite <- Rabs_mult, E. replace (2 * Rabs (sin (th / 2)) * / Rabs (sin (th / 2))) with (1 + 1) by (field; lra).
  eapply Rle_trans; [apply Rabs_triang|]. rewrite Rabs_Ropp. lra.
Qed.

(** ** Abel's inequality *)
Lemma abel_id : forall n (w z : nat -> R), bigsum (S n) (fun t => w t * z t) =
  w n * bigsum (S n) z + bigsum n (fun t => (w t - w (S t)) * bigsum (S t) z).
Proof.
  intros n w z. induction n as [|n IH]; [cbn; ring|].
  rewrite bigsum_S, IH, (bigsum_S n (fun t => (w t - w (S t)) * bigsum (S t) z)). rewrite (bigsum_S (S n) z). ring.
Qed.
Lemma abel : forall n (w z : nat -> R) M, (0 < n)%nat -> (forall t, (t < n)%nat -> 0 <= w t) -> (forall t, (S t < n)%nat -> w (S t) <= w t) ->
  (forall m, (m <= n)%nat -> Rabs (bigsum m z) <= M) -> Rabs (bigsum n (fun t => w t * z t)) <= w 0%nat * M.
Proof.
  intros [|n] w z M H0 W D Z; [lia|]. rewrite abel_id.
  assert (E : w 0%nat * M = w n * M + bigsum n (fun t => (w t - w (S t)) * M)) by (rewrite bigsum_scal_r, bigsum_telescope; ring).
  rewrite E. eapply Rle_trans; [apply Rabs_triang|]. apply Rplus_le_compat.
  - rewrite Rabs_mult, (Rabs_pos_eq (w n)) by (apply W; lia). apply Rmult_le_compat_l; [apply W; lia|apply Z; lia].
  - eapply Rle_trans; [apply bigsum_Rabs|]. apply bigsum_le. intros t Ht. rewrite Rabs_mult, Rabs_pos_eq by (pose proof (D t ltac:(lia)); lra).
    apply Rmult_le_compat_l; [pose proof (D t ltac:(lia)); lra|apply Z; lia].
Qed.

(** ** The windows fall from the middle on *)
Lemma theta_right : forall M t, (2 <= M)%nat -> (M / 2 <= t)%nat -> (S t < M)%nat -> PI <= spec_theta M t <= spec_theta M (S t) /\ spec_theta M (S t) <= 2 * PI.
Proof.
  intros M t HM H1 H2. unfold spec_theta. pose proof (INR_pred_pos M HM) as P. pose proof PI_RGT_0 as HP.
  assert (A : INR (M - 1) <= 2 * INR t).
  { replace 2 with (INR 2) by reflexivity. rewrite <- mult_INR. apply le_INR. pose proof (Nat.div_mod M 2 ltac:(lia)). pose proof (Nat.mod_upper_bound M 2 ltac:(lia)). lia. }
  assert (B : INR (S t) <= INR (M - 1)) by (apply le_INR; lia). rewrite S_INR in *.
  assert (Q : forall x y, x * INR (M - 1) <= y -> x <= y / INR (M - 1)).
  { intros x y K. apply Rmult_le_reg_r with (INR (M - 1)); [assumption|]. unfold Rdiv. rewrite Rmult_assoc, Rinv_l by lra. lra. }
  split; [split|].
  - apply Q. nra.
  - unfold Rdiv. apply Rmult_le_compat_r; [left; apply Rinv_0_lt_compat; assumption|]. nra.
  - apply Rmult_le_reg_r with (INR (M - 1)); [assumption|]. unfold Rdiv. rewrite Rmult_assoc, Rinv_l by lra. nra.
Qed.
Lemma window_falls : forall wt M t, (M / 2 <= t)%nat -> (S t < M)%nat -> spec_window wt M (S t) <= spec_window wt M t.
Proof.
  intros wt M t H1 H2. unfold spec_window. destruct (Nat.leb_spec M 1); [lra|]. assert (HM : (2 <= M)%nat) by lia.
  destruct (theta_right M t HM H1 H2) as ((T1 & T2) & T3).
  assert (C : cos (spec_theta M t) <= cos (spec_theta M (S t))) by (apply cos_incr_1; lra).
  pose proof (COS_bound (spec_theta M t)) as B1. pose proof (COS_bound (spec_theta M (S t))) as B2.
  assert (V : forall u, (M / 2 <= u)%nat -> 2 * INR u / INR (M - 1) - 1 = spec_theta M u / PI - 1).
  { intros u _. unfold spec_theta. field. split; [pose proof (INR_pred_pos M HM)|pose proof PI_RGT_0]; lra. }
  pose proof PI_RGT_0 as HP.
  assert (U : 0 <= spec_theta M t / PI - 1 <= spec_theta M (S t) / PI - 1 /\ spec_theta M (S t) / PI - 1 <= 1).
  { assert (H3 : forall x y, x <= y -> x / PI <= y / PI) by (intros; apply Rmult_le_compat_r; [left; apply Rinv_0_lt_compat; assumption|assumption]).
    pose proof (H3 _ _ T1) as K1. pose proof (H3 _ _ T2) as K2. pose proof (H3 _ _ T3) as K3.
    replace (PI / PI) with 1 in K1 by (field; lra). replace (2 * PI / PI) with 2 in K3 by (field; lra). lra. }
  destruct (String.eqb wt "hanning"); [unfold spec_hann; lra|].
  destruct (String.eqb wt "bartlet").
  { unfold spec_bartlett. rewrite !V by lia. rewrite !Rabs_pos_eq by lra. lra. }
  destruct (String.eqb wt "kaiser").
  { unfold spec_kaiser. rewrite !V by lia. set (u := spec_theta M t / PI - 1) in *. set (v := spec_theta M (S t) / PI - 1) in *.
    rewrite <- !i0_spec. unfold i0. fold i0c. apply Rmult_le_compat_r.
    - left. apply Rinv_0_lt_compat. pose proof (i0_ge_1 ((14 / 2) ^ 2) ltac:(lra)). lra.
    - apply i0_mono_sq.
      assert (Q : forall z, 0 <= z <= 1 -> (14 * sqrt (1 - z ^ 2) / 2) ^ 2 = 49 * (1 - z ^ 2)).
      { intros z Hz. replace ((14 * sqrt (1 - z ^ 2) / 2) ^ 2) with (49 * (sqrt (1 - z ^ 2) * sqrt (1 - z ^ 2))) by field. rewrite sqrt_sqrt by nra. reflexivity. }
      rewrite !Q by lra. split; nra. }
  destruct (String.eqb wt "blackman").
  { unfold spec_blackman. rewrite !cos_2a_cos. set (c := cos (spec_theta M t)) in *. set (c2 := cos (spec_theta M (S t))) in *. nra. }
  unfold spec_hamming; lra.
Qed.

(** a window times an oscillation *)
Lemma win_osc : forall wt L th c s, c * c + s * s = 1 -> sin (th / 2) <> 0 ->
  Rabs (bigsum L (fun t => spec_window wt L t * osc th c s t)) <= 2 / Rabs (sin (th / 2)).
Proof.
  intros wt L th c s H N. set (M := / Rabs (sin (th / 2))).
  assert (P : 0 < M) by (apply Rinv_0_lt_compat, Rabs_pos_lt; assumption).
  set (h := (L / 2)%nat). assert (HL : (h <= L)%nat) by (apply Nat.div_le_upper_bound; lia).
  assert (D2 : (2 * h <= L)%nat) by (apply Nat.mul_div_le; lia).
  replace (2 / Rabs (sin (th / 2))) with (M + M) by (unfold M; field; apply Rabs_no_R0; assumption).
  replace L with (h + (L - h))%nat at 1 by lia. rewrite bigsum_split.
  assert (Part : forall n (w z : nat -> R), (forall t, (t < n)%nat -> 0 <= w t <= 1) -> (forall t, (S t < n)%nat -> w (S t) <= w t) ->
    (forall m, (m <= n)%nat -> Rabs (bigsum m z) <= M) -> Rabs (bigsum n (fun t => w t * z t)) <= M).
  { intros n w z W D Z. destruct n as [|n]; [cbn; rewrite Rabs_R0; lra|].
    eapply Rle_trans; [apply (abel (S n) w z M); [lia|intros t Ht; apply W; lia|exact D|exact Z]|].
    pose proof (W 0%nat ltac:(lia)). nra. }
  eapply Rle_trans; [apply Rabs_triang|]. apply Rplus_le_compat.
  - rewrite bigsum_rev.
    apply (Part h (fun i => spec_window wt L (h - 1 - i)) (fun i => osc th c s (h - 1 - i))).
    + intros t Ht. apply spec_window_bounds. lia.
    + intros t Ht. rewrite <- (spec_window_sym wt L (h - 1 - t)), <- (spec_window_sym wt L (h - 1 - S t)) by lia.
      replace (L - 1 - (h - 1 - S t))%nat with (S (L - 1 - (h - 1 - t))) by lia. apply window_falls; [fold h|]; lia.
    + intros m Hm. rewrite bigsum_rev, (bigsum_ext m _ (fun i => osc th c s ((h - m) + i))).
      * apply osc_bound; assumption.
      * intros i Hi. f_equal. lia.
  - apply (Part (L - h)%nat (fun i => spec_window wt L (h + i)) (fun i => osc th c s (h + i))).
    + intros t Ht. apply spec_window_bounds. lia.
    + intros t Ht. replace (h + S t)%nat with (S (h + t)) by lia. apply window_falls; [fold h|]; lia.
    + intros m Hm. apply osc_bound; assumption.
Qed.

(** the main lobe *)
Definition mid (L : nat) : R := (INR L - 1) / 2.
Lemma win_main : forall wt L th, (1 <= L)%nat -> Rabs th * mid L <= PI ->
  cos (th * mid L) * bigsum L (spec_window wt L) <= bigsum L (fun t => spec_window wt L t * cos (th * (INR t - mid L))).
Proof.
  intros wt L th HL HT. rewrite <- bigsum_scal. apply bigsum_le. intros t Ht. rewrite Rmult_comm.
  apply Rmult_le_compat_l; [apply spec_window_bounds; assumption|].
  assert (B : 0 <= INR t <= INR L - 1).
  { split; [apply pos_INR|]. replace (INR L - 1) with (INR (L - 1)) by (rewrite minus_INR by assumption; reflexivity). apply le_INR. lia. }
  assert (Ev : forall x, cos x = cos (Rabs x)) by (intros x; unfold Rabs; destruct Rcase_abs; [rewrite cos_neg|]; reflexivity).
  assert (Hm : 0 <= mid L) by (unfold mid; lra).
  assert (D : Rabs (INR t - mid L) <= mid L) by (unfold mid in *; apply Rabs_le; lra).
  rewrite (Ev (th * mid L)), (Ev (th * (INR t - mid L))), !Rabs_mult, (Rabs_pos_eq (mid L)) by assumption.
  pose proof (Rabs_pos th) as T0. pose proof (Rabs_pos (INR t - mid L)) as T1.
  assert (K : Rabs th * Rabs (INR t - mid L) <= Rabs th * mid L) by (apply Rmult_le_compat_l; assumption).
  assert (K0 : 0 <= Rabs th * Rabs (INR t - mid L)) by (apply Rmult_le_pos; assumption).
  apply cos_decr_1; lra.
Qed.

(** ** The spectrum of a windowed tone *)
Section Spectrum.
Context (wt : string) (n L : nat) (A nu phi : R) (HL : (1 <= L <= n)%nat).
Let f (t : nat) : R := spec_window wt L t * tone A nu phi t.
Let p := cos phi.
Let q := sin phi.
Let thd (k : nat) := 2 * PI * (nu - INR k / INR n).
Let the (k : nat) := 2 * PI * (nu + INR k / INR n).
Lemma pq_1 : p * p + q * q = 1.
Proof. unfold p, q. rewrite Rplus_comm. apply sin_cos_1. Qed.
Lemma tone_proj : forall k c s, spec_re n L f k * c - spec_im n L f k * s =
  A / 2 * (bigsum L (fun t => spec_window wt L t * osc (thd k) (p * c - q * s) (- (p * s + q * c)) t) +
           bigsum L (fun t => spec_window wt L t * osc (the k) (p * c + q * s) (p * s - q * c) t)).
Proof.
  intros k c s. unfold spec_re, spec_im. rewrite Nat.min_l by lia.
  rewrite <- !bigsum_scal_r, <- bigsum_minus, <- bigsum_plus, <- bigsum_scal. apply bigsum_ext. intros t _. unfold f, tone, osc.
  assert (Hn : INR n <> 0) by (apply not_0_INR; lia).
  set (a := 2 * PI * nu * INR t). set (b := 2 * PI * INR (t * k) / INR n).
  replace (thd k * INR t) with (a - b) by (unfold thd, a, b; rewrite mult_INR; field; assumption).
  replace (the k * INR t) with (a + b) by (unfold the, a, b; rewrite mult_INR; field; assumption).
  rewrite !cos_plus, !cos_minus, !sin_plus, !sin_minus. fold p q. field.
Qed.
Lemma mag_dir : forall k, exists c s, c * c + s * s = 1 /\ spec_mag n L f k = spec_re n L f k * c - spec_im n L f k * s.
Proof.
  intros k. unfold spec_mag, spec_sq. set (a := spec_re n L f k). set (b := spec_im n L f k).
  destruct (Req_dec (a ^ 2 + b ^ 2) 0) as [Z|Z].
  - exists 1, 0. split; [ring|]. rewrite Z, sqrt_0. assert (a = 0) by nra. nra.
  - assert (P : 0 < a ^ 2 + b ^ 2) by nra. pose proof (sqrt_lt_R0 _ P) as S. pose proof (sqrt_sqrt (a ^ 2 + b ^ 2) ltac:(lra)) as Q.
    set (r := sqrt (a ^ 2 + b ^ 2)) in *. exists (a / r), (- b / r). split.
    + replace (a / r * (a / r) + - b / r * (- b / r)) with ((a ^ 2 + b ^ 2) / (r * r)) by (field; lra). rewrite Q. field. assumption.
    + replace (a * (a / r) - b * (- b / r)) with ((a ^ 2 + b ^ 2) / r) by (field; lra). rewrite <- Q. field. lra.
Qed.
Lemma half_angle : forall x, 2 * PI * x / 2 = PI * x.
Proof. intros. field. Qed.
Lemma rot1 : forall c s, c * c + s * s = 1 -> (p * c - q * s) * (p * c - q * s) + - (p * s + q * c) * - (p * s + q * c) = 1.
Proof. intros c s H. replace (_ + _) with ((p * p + q * q) * (c * c + s * s)) by ring. rewrite pq_1, H. ring. Qed.
Lemma rot2 : forall c s, c * c + s * s = 1 -> (p * c + q * s) * (p * c + q * s) + (p * s - q * c) * (p * s - q * c) = 1.
Proof. intros c s H. replace (_ + _) with ((p * p + q * q) * (c * c + s * s)) by ring. rewrite pq_1, H. ring. Qed.
Lemma tone_leak : forall k, sin (PI * (nu - INR k / INR n)) <> 0 -> sin (PI * (nu + INR k / INR n)) <> 0 ->
  spec_mag n L f k <= Rabs A * (/ Rabs (sin (PI * (nu - INR k / INR n))) + / Rabs (sin (PI * (nu + INR k / INR n)))).
Proof.
  intros k N1 N2. destruct (mag_dir k) as (c & s & U & ->). rewrite tone_proj.
  eapply Rle_trans; [apply Rle_abs|]. rewrite Rabs_mult. unfold Rdiv. rewrite Rabs_mult, (Rabs_right (/ 2)), Rmult_assoc by lra.
  apply Rmult_le_compat_l; [apply Rabs_pos|]. apply Rmult_le_reg_l with 2; [lra|]. rewrite <- Rmult_assoc, Rinv_r, Rmult_1_l by lra.
  eapply Rle_trans; [apply Rabs_triang|]. rewrite Rmult_plus_distr_l.
  apply Rplus_le_compat.
  - rewrite <- half_angle in N1 |- *. apply (win_osc wt L (thd k) _ _ (rot1 c s U) N1).
  - rewrite <- half_angle in N2 |- *. apply (win_osc wt L (the k) _ _ (rot2 c s U) N2).
Qed.
Lemma tone_main : forall k, PI * Rabs (nu - INR k / INR n) * (INR L - 1) <= PI -> sin (PI * (nu + INR k / INR n)) <> 0 ->
  Rabs A / 2 * (cos (PI * Rabs (nu - INR k / INR n) * (INR L - 1)) * bigsum L (spec_window wt L) - 2 / Rabs (sin (PI * (nu + INR k / INR n))))
  <= spec_mag n L f k.
Proof.
  intros k HT N2. set (x := thd k * mid L). set (u := cos x). set (v := sin x).
  assert (UV : u * u + v * v = 1) by (unfold u, v; rewrite Rplus_comm; apply sin_cos_1).
  set (c := p * u - q * v). set (s := - q * u - p * v).
  assert (U : c * c + s * s = 1) by (unfold c, s; replace (_ + _) with ((p * p + q * q) * (u * u + v * v)) by ring; rewrite pq_1, UV; ring).
  pose proof (tone_proj k c s) as E.
  assert (E1 : p * c - q * s = u) by (unfold c, s; replace (_ - _) with ((p * p + q * q) * u) by ring; rewrite pq_1; ring).
  assert (E2 : - (p * s + q * c) = v) by (unfold c, s; replace (- _) with ((p * p + q * q) * v) by ring; rewrite pq_1; ring).
  rewrite E1, E2 in E.
  assert (M : bigsum L (fun t => spec_window wt L t * osc (thd k) u v t) = bigsum L (fun t => spec_window wt L t * cos (thd k * (INR t - mid L)))).
  { apply bigsum_ext. intros t _. unfold osc, u, v, x. f_equal. rewrite Rmult_minus_distr_l, cos_minus. ring. }
  rewrite M in E.
  assert (AB : Rabs (thd k) * mid L = PI * Rabs (nu - INR k / INR n) * (INR L - 1)).
  { unfold thd, mid. rewrite Rabs_mult, (Rabs_pos_eq (2 * PI)) by (pose proof PI_RGT_0; lra). field. }
  assert (Ev : forall z, cos z = cos (Rabs z)) by (intros z; unfold Rabs; destruct Rcase_abs; [rewrite cos_neg|]; reflexivity).
  assert (W := win_main wt L (thd k) ltac:(lia) ltac:(rewrite AB; exact HT)).
  rewrite (Ev (thd k * mid L)), Rabs_mult, (Rabs_pos_eq (mid L)), AB in W.
  2:{ unfold mid. pose proof (le_INR 1 L ltac:(lia)) as K. change (INR 1) with 1 in K. lra. }
  rewrite <- half_angle in N2.
  assert (O := win_osc wt L (the k) _ _ (rot2 c s U) N2). unfold the in O at 2. rewrite half_angle in O.
  pose proof (proj_bound (spec_re n L f k) (spec_im n L f k) c s U) as PB. fold (spec_sq n L f k) in PB. fold (spec_mag n L f k) in PB.
  rewrite E in PB. eapply Rle_trans; [|exact PB]. rewrite Rabs_mult.
  replace (Rabs (A / 2)) with (Rabs A / 2) by (unfold Rdiv; rewrite Rabs_mult, (Rabs_right (/ 2)); lra).
  apply Rmult_le_compat_l; [pose proof (Rabs_pos A); lra|].
  eapply Rle_trans; [|apply Rle_abs]. apply Rabs_le_inv in O. lra.
Qed.
End Spectrum.

(** ** Where the largest bin is *)
Lemma sin_image : forall nu y, 0 < nu < / 2 -> 0 <= y <= / 2 -> edge_distance nu <= sin (PI * (nu + y)) /\ 0 < edge_distance nu.
Proof.
  intros nu y Hn Hy. pose proof PI_RGT_0 as HP.
  assert (S0 : 0 < sin (PI * nu)) by (apply sin_gt_0; nra).
  assert (C0 : 0 < cos (PI * nu)) by (apply cos_gt_0; nra).
  split; [|unfold edge_distance; apply Rmin_glb_lt; assumption]. unfold edge_distance.
  destruct (Rle_lt_dec (PI * (nu + y)) (PI / 2)) as [K|K].
  - eapply Rle_trans; [apply Rmin_l|]. apply sin_incr_1; nra.
  - eapply Rle_trans; [apply Rmin_r|]. rewrite (cos_sin (PI * nu)). apply sin_decr_1; nra.
Qed.
Lemma sin_far : forall d z, 0 < d -> d <= Rabs z -> Rabs z <= / 2 -> sin (PI * d) <= Rabs (sin (PI * z)) /\ 0 < sin (PI * d).
Proof.
  intros d z Hd H1 H2. pose proof PI_RGT_0 as HP.
  assert (E : Rabs (sin (PI * z)) = sin (PI * Rabs z)).
  { assert (P : 0 <= sin (PI * Rabs z)) by (apply sin_ge_0; nra).
    destruct (Rle_lt_dec 0 z) as [K|K]; [rewrite (Rabs_pos_eq z) in * by assumption; apply Rabs_pos_eq; assumption|].
    rewrite (Rabs_left z) in * by assumption. replace (PI * z) with (- (PI * - z)) by ring. rewrite sin_neg, Rabs_Ropp. apply Rabs_pos_eq. assumption. }
  rewrite E. split; [apply sin_incr_1; nra|apply sin_gt_0; nra].
Qed.
Lemma bin_half : forall n k, (1 <= n)%nat -> (k <= n / 2)%nat -> 0 <= INR k / INR n <= / 2.
Proof.
  intros n k Hn Hk. assert (P : 0 < INR n) by (apply lt_0_INR; lia). pose proof (pos_INR k) as K. split.
  - apply Rmult_le_pos; [assumption|]. left. apply Rinv_0_lt_compat. assumption.
  - apply Rmult_le_reg_r with (INR n); [assumption|]. unfold Rdiv. rewrite Rmult_assoc, Rinv_l, Rmult_1_r by lra.
    assert (J : (2 * k <= n)%nat) by (pose proof (Nat.mul_div_le n 2 ltac:(lia)); lia). apply le_INR in J. rewrite mult_INR in J. change (INR 2) with 2 in J. lra.
Qed.
Lemma tone_argmax : forall wt n L A nu phi d k0 k, (1 <= L <= n)%nat -> A <> 0 -> 0 < nu < / 2 -> 0 < d -> (k0 <= n / 2)%nat ->
  tone_seen wt n L nu d k0 ->
  is_argmax (S (n / 2)) (spec_power n L (fun t => spec_window wt L t * tone A nu phi t)) k -> Rabs (nu - INR k / INR n) < d.
Proof.
  intros wt n L A nu phi d k0 k HL HA Hnu Hd Hk0 (S1 & S2) (Hk & Hmax & _).
  destruct (Rle_lt_dec d (Rabs (nu - INR k / INR n))) as [Far|]; [exfalso|assumption].
  specialize (Hmax k0 ltac:(lia)). set (f := fun t => spec_window wt L t * tone A nu phi t) in *.
  assert (Pn : 0 < INR n) by (apply lt_0_INR; lia).
  assert (MM : spec_mag n L f k0 <= spec_mag n L f k).
  { apply sqrt_le_1_alt. unfold spec_power in Hmax. apply Rmult_le_reg_r with (/ INR n); [apply Rinv_0_lt_compat; assumption|]. exact Hmax. }
  pose proof PI_RGT_0 as HP. pose proof (bin_half n k ltac:(lia) ltac:(lia)) as B. pose proof (bin_half n k0 ltac:(lia) Hk0) as B0.
  destruct (sin_image nu _ Hnu B) as (I1 & I0). destruct (sin_image nu _ Hnu B0) as (I2 & _).
  destruct (sin_far d (nu - INR k / INR n) Hd Far) as (F1 & F0); [apply Rabs_le; lra|].
  assert (UP := tone_leak wt n L A nu phi HL k). fold f in UP.
  assert (N1 : sin (PI * (nu - INR k / INR n)) <> 0) by (intros Z; rewrite Z, Rabs_R0 in F1; lra).
  specialize (UP N1 ltac:(lra)).
  assert (LO := tone_main wt n L A nu phi HL k0). fold f in LO. specialize (LO ltac:(rewrite Rmult_assoc; rewrite <- (Rmult_1_r PI) at 2; apply Rmult_le_compat_l; lra) ltac:(lra)).
  assert (R1 : / Rabs (sin (PI * (nu - INR k / INR n))) <= / sin (PI * d)) by (apply Rinv_le_contravar; assumption).
  assert (R2 : / Rabs (sin (PI * (nu + INR k / INR n))) <= / edge_distance nu) by (apply Rinv_le_contravar; [assumption|rewrite Rabs_pos_eq; lra]).
  assert (R3 : 2 / Rabs (sin (PI * (nu + INR k0 / INR n))) <= 2 / edge_distance nu)
    by (apply Rmult_le_compat_l; [lra|]; apply Rinv_le_contravar; [assumption|rewrite Rabs_pos_eq; lra]).
  assert (PA : 0 < Rabs A) by (apply Rabs_pos_lt; assumption).
  assert (X1 : spec_mag n L f k <= Rabs A * (/ sin (PI * d) + / edge_distance nu)) by (eapply Rle_trans; [exact UP|]; apply Rmult_le_compat_l; lra).
  set (T := cos (PI * Rabs (nu - INR k0 / INR n) * (INR L - 1)) * bigsum L (spec_window wt L)) in *.
  assert (X2 : Rabs A / 2 * (T - 2 / edge_distance nu) <= spec_mag n L f k0) by (eapply Rle_trans; [|exact LO]; apply Rmult_le_compat_l; lra).
  assert (X3 : Rabs A * (/ sin (PI * d) + / edge_distance nu) < Rabs A / 2 * (T - 2 / edge_distance nu)).
  { replace (Rabs A / 2 * (T - 2 / edge_distance nu)) with (Rabs A * (T / 2 - / edge_distance nu)) by (unfold Rdiv; field; lra).
    apply Rmult_lt_compat_l; [assumption|]. unfold Rdiv in S2. lra. }
  lra.
Qed.

(** ** The call *)
Lemma dominant_tone : forall `{Env} N A nu phi fs wl wh wt L hop n d k0, cut_config fs wl wh wt N L hop -> (L <= n)%nat -> A <> 0 ->
  0 < nu < / 2 -> 0 < d -> (k0 <= n / 2)%nat -> tone_seen wt n L nu d k0 ->
  exists k v, get_dominant_frequencies (fvec N (tone A nu phi)) fs None (Z.of_nat n) wl wh wt false = Ok (fvec (frame_count N L hop) v) /\
  forall i, (i < frame_count N L hop)%nat -> (k i <= n / 2)%nat /\ Rabs (nu - INR (k i) / INR n) < d /\
    near_milli (signed_bin (S (n / 2)) (k i) * IZR fs / INR (S (n / 2))) (v i).
Proof.
  intros E N A nu phi fs wl wh wt L hop n d k0 HC Hn HA Hnu Hd Hk0 HS.
  assert (HL : (1 <= L)%nat) by (unfold cut_config in HC; lia).
  destruct (get_dominant_raw N (tone A nu phi) fs wl wh wt L hop n HC ltac:(lia)) as (k & Hk & Ek).
  exists k, (fun i => freq3 n fs (k i)). split; [exact Ek|]. intros i Hi. pose proof (Hk i Hi) as AM.
  split; [destruct AM; lia|]. split; [|apply freq3_range; [apply HC|apply AM]].
  refine (tone_argmax wt n L A nu (2 * PI * nu * INR (i * hop) + phi) d k0 (k i) ltac:(lia) HA Hnu Hd Hk0 HS _).
  eapply is_argmax_ext; [|exact AM]. intros j _. apply spec_power_ext. intros t _. unfold spec_frame, tone. do 2 f_equal.
  rewrite plus_INR. f_equal. ring.
Qed.
Lemma reported_tone : forall n k fs nu d v, (1 <= n)%nat -> (0 < fs)%Z -> (k <= n / 2)%nat -> Rabs (nu - INR k / INR n) < d ->
  near_milli (signed_bin (S (n / 2)) k * IZR fs / INR (S (n / 2))) v ->
  let r := INR n / INR (S (n / 2)) in
  (nu + d <= / 4 -> Rabs (v - r * (nu * IZR fs)) <= r * (d * IZR fs) + / 2000) /\
  (/ 4 + / (2 * INR n) <= nu - d -> Rabs (v - (r * (nu * IZR fs) - IZR fs)) <= r * (d * IZR fs) + / 2000 /\
     ((Z.of_nat (S (n / 2)) < 2000 * fs)%Z -> v < 0)).
Proof.
  intros n k fs nu d v Hn Hfs Hk Hd Hv r. assert (Pn : 0 < INR n) by (apply lt_0_INR; lia).
  assert (PM : 0 < INR (S (n / 2))) by (apply lt_0_INR; lia). apply IZR_lt in Hfs as Pf.
  apply Rabs_def2 in Hd. assert (Hkn : INR k = INR k / INR n * INR n) by (field; lra).
  assert (Pr : 0 < r * IZR fs) by (apply Rmult_lt_0_compat; [apply Rdiv_lt_0_compat; assumption|assumption]).
  assert (K : Rabs (r * IZR fs * (INR k / INR n - nu)) <= r * (d * IZR fs)).
  { rewrite Rabs_mult, (Rabs_pos_eq (r * IZR fs)) by lra. replace (r * (d * IZR fs)) with (r * IZR fs * d) by ring. apply Rmult_le_compat_l; [lra|]. apply Rabs_le. lra. }
  assert (ED : (n = 2 * (n / 2) + n mod 2)%nat) by (apply Nat.div_mod; lia). pose proof (Nat.mod_upper_bound n 2 ltac:(lia)) as EM.
  split.
  - intros Hq. assert (J : (4 * k < n)%nat).
    { apply INR_lt. rewrite mult_INR. replace (INR 4) with 4 by (cbn; lra). rewrite Hkn. nra. }
    rewrite reported_ratio in Hv by lia. unfold near_milli in Hv. fold r in Hv.
    replace (v - r * (nu * IZR fs)) with ((v - r * (INR k * IZR fs / INR n)) + r * IZR fs * (INR k / INR n - nu)) by (field; lra).
    eapply Rle_trans; [apply Rabs_triang|]. lra.
  - intros Hq. assert (J : (n + 2 < 4 * k)%nat).
    { apply INR_lt. rewrite mult_INR, plus_INR. replace (INR 4) with 4 by (cbn; lra). replace (INR 2) with 2 by (cbn; lra).
      assert (Q : / (2 * INR n) * INR n = / 2) by (field; lra). rewrite Hkn. nra. }
    assert (SB : signed_bin (S (n / 2)) k = INR k - INR (S (n / 2))).
    { unfold signed_bin. destruct (Nat.ltb_spec (2 * k) (S (n / 2))); [lia|reflexivity]. }
    rewrite SB in Hv. unfold near_milli in Hv. split.
    + replace (v - (r * (nu * IZR fs) - IZR fs)) with ((v - (INR k - INR (S (n / 2))) * IZR fs / INR (S (n / 2))) + r * IZR fs * (INR k / INR n - nu)) by (unfold r; field; lra).
      eapply Rle_trans; [apply Rabs_triang|]. lra.
    + intros HM. apply IZR_lt in HM. rewrite <- INR_IZR, mult_IZR in HM. destruct Hv as (_ & Hv). apply Rabs_le_inv in Hv.
      assert (Q : (INR k - INR (S (n / 2))) * IZR fs / INR (S (n / 2)) <= - (IZR fs / INR (S (n / 2)))).
      { assert (KK : INR k + 1 <= INR (S (n / 2))) by (rewrite <- S_INR; apply le_INR; lia).
        unfold Rdiv. rewrite <- Ropp_mult_distr_l_reverse. apply Rmult_le_compat_r; [left; apply Rinv_0_lt_compat; assumption|]. nra. }
      assert (Q2 : / 2000 < IZR fs / INR (S (n / 2))).
      { apply Rmult_lt_reg_r with (INR (S (n / 2))); [assumption|]. unfold Rdiv. rewrite Rmult_assoc, Rinv_l by lra. lra. }
      lra.
Qed.

(** ** The sum of a Hamming window, numbers, and the default call *)
Lemma hamming_sum : forall L, (3 <= L)%nat -> bigsum L (spec_window "hamming" L) = 0.54 * INR L - 0.46.
Proof.
  intros L HL. destruct L as [|m]; [lia|]. assert (Pm : 2 <= INR m) by (replace 2 with (INR 2) by (cbn; lra); apply le_INR; lia).
  assert (E : forall t, spec_window "hamming" (S m) t = 0.54 + (- 0.46) * osc (2 * PI / INR m) 1 0 t).
  { intros t. unfold spec_window. destruct (Nat.leb_spec (S m) 1); [lia|]. cbn [String.eqb Ascii.eqb Bool.eqb].
    unfold osc, spec_hamming, spec_theta. replace (INR (S m - 1)) with (INR m) by (f_equal; lia).
    replace (2 * PI * INR t / INR m) with (2 * PI / INR m * INR t) by (field; lra). lra. }
  rewrite (bigsum_ext _ _ _ (fun t _ => E t)), bigsum_plus, bigsum_const, bigsum_scal. set (th := 2 * PI / INR m).
  assert (S0 : bigsum m (osc th 1 0) = 0).
  { pose proof (osc_sum th 1 0 0 m) as J. cbn [Nat.add INR] in J.
    replace (th * INR m - th / 2) with (- (th / 2) + 2 * INR 1 * PI) in J by (unfold th; cbn [INR]; field; lra).
    rewrite sin_period in J. replace (th * 0 - th / 2) with (- (th / 2)) in J by ring. rewrite !Rmult_0_l in J.
    assert (P : 0 < sin (th / 2)).
    { pose proof PI_RGT_0. unfold th. replace (2 * PI / INR m / 2) with (PI / INR m) by (field; lra).
      apply sin_gt_0; [apply Rdiv_lt_0_compat; lra|]. apply Rmult_lt_reg_r with (INR m); [lra|]. unfold Rdiv. rewrite Rmult_assoc, Rinv_l by lra. nra. }
    change (fun t => osc th 1 0 t) with (osc th 1 0) in J. nra. }
  cbn [bigsum]. rewrite S0. replace (osc th 1 0 m) with 1; [lra|].
  unfold osc. replace (th * INR m) with (0 + 2 * INR 1 * PI) by (unfold th; cbn [INR]; field; lra). rewrite cos_period, cos_0. lra.
Qed.
Lemma pi_low : 3.1415 < PI.
Proof.
  pose proof (PI_2_3_7_ineq 1) as (H & _). unfold sum_f_R0, tg_alt, PI_2_3_7_tg, Ratan_seq in H. cbn in H. lra.
Qed.
Lemma sin_low : forall x c, 0 <= c <= x -> x <= PI / 2 -> c - c ^ 3 / 6 <= sin x.
Proof.
  intros x c H H2. pose proof PI_RGT_0. apply Rle_trans with (sin c); [|apply sin_incr_1; lra].
  pose proof (sin_bound c 0 ltac:(lra) ltac:(lra)) as (J & _). unfold sin_approx, sin_term, sum_f_R0 in J. cbn in J. lra.
Qed.
Lemma nearest_bin : forall h nu, (1 <= h)%nat -> 0 < nu < / 2 -> exists k, (k <= h)%nat /\ Rabs (nu - INR k / INR (2 * h)) <= / (2 * INR (2 * h)).
Proof.
  intros h nu Hh Hnu. assert (P : 0 < INR (2 * h)) by (apply lt_0_INR; lia). assert (EH : INR (2 * h) = 2 * INR h) by (rewrite mult_INR; reflexivity).
  set (x := nu * INR (2 * h)). pose proof (Znearest_half (fun z => negb (Z.even z)) x) as Hz. set (z := ZnearestE x) in *. fold z in Hz.
  apply Rabs_le_inv in Hz. assert (X : 0 < x < INR h) by (unfold x; nra).
  assert (Z0 : (0 <= z)%Z) by (assert (-1 < z)%Z; [apply lt_IZR; lra|lia]).
  assert (Z1 : (z <= Z.of_nat h)%Z) by (assert (z < Z.of_nat h + 1)%Z; [apply lt_IZR; rewrite plus_IZR, <- INR_IZR; lra|lia]).
  exists (Z.to_nat z). split; [lia|]. rewrite INR_IZR, Z2Nat.id by assumption.
  replace (nu - IZR z / INR (2 * h)) with ((x - IZR z) * / INR (2 * h)) by (unfold x; field; lra).
  rewrite Rabs_mult, (Rabs_pos_eq (/ _)) by (left; apply Rinv_0_lt_compat; assumption).
  rewrite Rinv_mult_distr by lra. apply Rmult_le_compat_r; [left; apply Rinv_0_lt_compat; assumption|]. apply Rabs_le. lra.
Qed.
Lemma edge_16 : forall nu, / 16 <= nu <= 7 / 16 -> 0.195 <= edge_distance nu.
Proof.
  intros nu H. pose proof pi_low. pose proof PI_4.
  assert (S : 0.195 <= sin (PI / 16)) by (eapply Rle_trans; [|apply (sin_low (PI / 16) 0.1963); lra]; lra).
  unfold edge_distance. apply Rmin_glb; (eapply Rle_trans; [exact S|]); [|rewrite <- (sin_shift (PI * nu))]; apply sin_incr_1; nra.
Qed.
Lemma default_seen : forall nu, / 16 <= nu <= 7 / 16 -> exists k0, (k0 <= 512 / 2)%nat /\ tone_seen "hamming" 512 400 nu (/ 80) k0.
Proof.
  intros nu H. destruct (nearest_bin 256 nu ltac:(lia) ltac:(lra)) as (k0 & Hk & Hd). change (2 * 256)%nat with 512%nat in Hd.
  assert (E512 : INR 512 = 512) by (rewrite INR_IZR; reflexivity). assert (E400 : INR 400 = 400) by (rewrite INR_IZR; reflexivity).
  rewrite E512 in Hd. exists k0. split; [exact Hk|]. unfold tone_seen. rewrite E512, E400, hamming_sum, E400 by lia.
  set (delta := Rabs (nu - INR k0 / 512)) in *. assert (P : 0 <= delta) by apply Rabs_pos. split; [lra|].
  pose proof pi_low as PL. pose proof PI_4 as PU. pose proof (edge_16 nu H) as EG.
  assert (S1 : 0.03925 <= sin (PI * / 80)) by (eapply Rle_trans; [|apply (sin_low (PI * / 80) 0.039265); lra]; lra).
  assert (S2 : 0.339 <= cos (PI * delta * (400 - 1))).
  { rewrite <- sin_shift. eapply Rle_trans; [|apply (sin_low _ 0.3466)]; [lra| |]; nra. }
  assert (R1 : 2 / sin (PI * / 80) <= 2 / 0.03925) by (apply Rmult_le_compat_l; [lra|]; apply Rinv_le_contravar; lra).
  assert (R2 : 4 / edge_distance nu <= 4 / 0.195) by (apply Rmult_le_compat_l; [lra|]; apply Rinv_le_contravar; lra).
  nra.
Qed.

(** ** Spectrograms *)
Lemma tone_far : forall wt n L A nu phi k d, (1 <= L <= n)%nat -> 0 < nu < / 2 -> (k <= n / 2)%nat -> 0 < d -> d <= Rabs (nu - INR k / INR n) ->
  spec_mag n L (fun t => spec_window wt L t * tone A nu phi t) k <= Rabs A * (/ sin (PI * d) + / edge_distance nu).
Proof.
  intros wt n L A nu phi k d HL Hnu Hk Hd Far. pose proof (bin_half n k ltac:(lia) Hk) as B.
  destruct (sin_image nu _ Hnu B) as (I1 & I0). destruct (sin_far d (nu - INR k / INR n) Hd Far) as (F1 & F0); [apply Rabs_le; lra|].
  assert (N1 : sin (PI * (nu - INR k / INR n)) <> 0) by (intros Z; rewrite Z, Rabs_R0 in F1; lra).
  eapply Rle_trans; [apply (tone_leak wt n L A nu phi HL k N1 ltac:(lra))|]. apply Rmult_le_compat_l; [apply Rabs_pos|].
  apply Rplus_le_compat; apply Rinv_le_contravar; [assumption|assumption|assumption|rewrite Rabs_pos_eq; lra].
Qed.
Lemma frame_of_tone : forall a coeff L hop A nu phi i t, s_pre_emph a = false ->
  frame_of a coeff L hop (tone A nu phi) i t = spec_window (win_type (window_of a)) L t * tone A nu (2 * PI * nu * INR (i * hop) + phi) t.
Proof.
  intros a coeff L hop A nu phi i t Hp. unfold frame_of, spec_frame, spec_pre. rewrite Hp. unfold tone. do 2 f_equal. rewrite plus_INR. f_equal. ring.
Qed.
Lemma spectrogram_tone : forall (E : Env) s a N L hop n B A nu phi,
  @well_framed E a N L hop -> s_pre_emph a = false -> (Z.of_nat L <= s_nfft a)%Z -> (0 < n)%nat ->
  @spectro_bank E s a = Ok (fmat n (S (half (s_nfft a))) B) -> 0 < nu < / 2 ->
  exists P Q, @spectrogram E s (fvec N (tone A nu phi)) a = Ok (fmat (frame_count N L hop) n P, fmat (frame_count N L hop) (S (half (s_nfft a))) Q) /\
  forall i d, (i < frame_count N L hop)%nat -> 0 < d ->
    (forall k, (k <= half (s_nfft a))%nat -> d <= Rabs (nu - INR k / IZR (s_nfft a)) -> 0 <= Q i k <= Rabs A * (/ sin (PI * d) + / edge_distance nu)) /\
    (forall j, (j < n)%nat -> (forall k, (k <= half (s_nfft a))%nat -> 0 <= B j k /\ (B j k <> 0 -> d <= Rabs (nu - INR k / IZR (s_nfft a)))) ->
       0 <= P i j <= bigsum (S (half (s_nfft a))) (B j) * (Rabs A * (/ sin (PI * d) + / edge_distance nu)) ^ 2 / IZR (s_nfft a)).
Proof.
  intros E s a N L hop n B A nu phi HW Hp HL Hn HB Hnu. assert (L1 : (1 <= L)%nat) by (destruct HW as (_ & _ & _ & _ & HH & _); lia).
  set (m := Z.to_nat (s_nfft a)). assert (Em : IZR (s_nfft a) = INR m) by (unfold m; rewrite INR_IZR, Z2Nat.id by lia; reflexivity).
  assert (Eh : half (s_nfft a) = (m / 2)%nat) by (unfold half, m; rewrite <- (Z2Nat.id (s_nfft a)) at 1 by lia; change 2%Z with (Z.of_nat 2); rewrite <- Nat2Z.inj_div, Nat2Z.id; reflexivity).
  pose proof (spectrogram_fvec s a N L hop n B (tone A nu phi) HW ltac:(lia) Hn HB) as ES.
  do 2 eexists. split; [exact ES|]. cbv beta. fold m. rewrite Em, Eh. clear ES.
  intros i d Hi Hd.
  assert (MG : forall k, (k <= m / 2)%nat -> d <= Rabs (nu - INR k / INR m) ->
    0 <= spec_mag m L (frame_of a (spectro_coeff s a) L hop (tone A nu phi) i) k <= Rabs A * (/ sin (PI * d) + / edge_distance nu)).
  { intros k Hk Far. split; [apply sqrt_pos|]. eapply Rle_trans; [right|apply (tone_far (win_type (window_of a)) m L A nu (2 * PI * nu * INR (i * hop) + phi) k d); try assumption; lia].
    unfold spec_mag, spec_sq, spec_re, spec_im. f_equal. f_equal; f_equal; apply bigsum_ext; intros t _; rewrite frame_of_tone by assumption; reflexivity. }
  split; [exact MG|]. intros j Hj HBj. set (g := frame_of a (spectro_coeff s a) L hop (tone A nu phi) i) in *.
  set (c := Rabs A * (/ sin (PI * d) + / edge_distance nu)) in *. assert (Pm : 0 < INR m) by (apply lt_0_INR; unfold m; lia).
  assert (T : forall k, (k < S (m / 2))%nat -> 0 <= spec_power m L g k * B j k <= B j k * (c ^ 2 / INR m)).
  { intros k Hk. destruct (HBj k ltac:(lia)) as (B0 & Bf). destruct (Req_dec (B j k) 0) as [->|NZ]; [lra|].
    specialize (MG k ltac:(lia) (Bf NZ)). assert (SQ : spec_power m L g k = (spec_mag m L g k) ^ 2 / INR m).
    { unfold spec_power, spec_mag. rewrite pow2_sqrt; [reflexivity|]. apply spec_sq_nonneg. }
    assert (S2 : 0 <= (spec_mag m L g k) ^ 2 <= c ^ 2) by (split; [apply pow2_ge_0|apply pow_incr; exact MG]).
    assert (PI' : 0 < / INR m) by (apply Rinv_0_lt_compat; assumption).
    rewrite SQ. unfold Rdiv. rewrite (Rmult_comm (B j k)). split; [|apply Rmult_le_compat_r; [assumption|]; apply Rmult_le_compat_r; lra].
    apply Rmult_le_pos; [apply Rmult_le_pos; lra|assumption]. }
  split; [apply bigsum_nonneg; intros; apply T; assumption|].
  unfold Rdiv. rewrite Rmult_assoc, <- bigsum_scal_r. apply bigsum_le. intros k Hk. apply T. assumption.
Qed.
Lemma dominant_tone_value : forall `{Env} N A nu phi fs wl wh wt L hop n d k0, cut_config fs wl wh wt N L hop -> (L <= n)%nat -> A <> 0 ->
  0 < nu < / 2 -> 0 < d -> (k0 <= n / 2)%nat -> tone_seen wt n L nu d k0 ->
  exists v, get_dominant_frequencies (fvec N (tone A nu phi)) fs None (Z.of_nat n) wl wh wt false = Ok (fvec (frame_count N L hop) v) /\
  let r := INR n / INR (S (n / 2)) in
  forall i, (i < frame_count N L hop)%nat ->
  (nu + d <= / 4 -> Rabs (v i - r * (nu * IZR fs)) <= r * (d * IZR fs) + / 2000) /\
  (/ 4 + / (2 * INR n) <= nu - d -> Rabs (v i - (r * (nu * IZR fs) - IZR fs)) <= r * (d * IZR fs) + / 2000 /\
     ((Z.of_nat (S (n / 2)) < 2000 * fs)%Z -> v i < 0)).
Proof.
  intros E N A nu phi fs wl wh wt L hop n d k0 HC Hn HA Hnu Hd Hk0 HS.
  destruct (dominant_tone N A nu phi fs wl wh wt L hop n d k0 HC Hn HA Hnu Hd Hk0 HS) as (k & v & Ev & H).
  exists v. split; [exact Ev|]. intros r i Hi. destruct (H i Hi) as (H1 & H2 & H3).
  assert (1 <= L)%nat by (unfold cut_config in HC; lia). apply (reported_tone n (k i) fs nu d (v i)); try assumption; [lia|apply HC].
Qed.
Lemma default_tone : forall `{Env} N A f phi, cut_config 16000 0.025 0.010 "hamming" N 400 160 -> A <> 0 ->
  (1000 <= f <= 3800 -> exists v,
     get_dominant_frequencies (fvec N (tone A (f / 16000) phi)) 16000 None 512 0.025 0.010 "hamming" false = Ok (fvec (frame_count N 400 160) v) /\
     forall i, (i < frame_count N 400 160)%nat -> Rabs (v i - 512 / 257 * f) <= 400) /\
  (4220 <= f <= 7000 ->
     get_dominant_frequencies (fvec N (tone A (f / 16000) phi)) 16000 None 512 0.025 0.010 "hamming" true = Ok []).
Proof.
  intros E N A f phi HC HA.
  assert (G : / 16 <= f / 16000 <= 7 / 16 -> exists v,
     get_dominant_frequencies (fvec N (tone A (f / 16000) phi)) 16000 None 512 0.025 0.010 "hamming" false = Ok (fvec (frame_count N 400 160) v) /\
     forall i, (i < frame_count N 400 160)%nat -> (f <= 3800 -> Rabs (v i - 512 / 257 * f) <= 400) /\ (4220 <= f -> v i < 0)).
  { intros Hf. destruct (default_seen (f / 16000) Hf) as (k0 & Hk0 & HS).
    destruct (dominant_tone_value N A (f / 16000) phi 16000 0.025 0.010 "hamming" 400 160 512 (/ 80) k0 HC ltac:(lia) HA ltac:(lra) ltac:(lra) Hk0 HS) as (v & H1 & H2).
    exists v. split; [exact H1|]. intros i Hi. destruct (H2 i Hi) as (K1 & K2).
    replace (INR 512) with 512 in * by (rewrite INR_IZR; reflexivity). replace (INR (S (512 / 2))) with 257 in * by (rewrite INR_IZR; reflexivity).
    split.
    - intros Hl. specialize (K1 ltac:(lra)). replace (f / 16000 * 16000) with f in K1 by field. lra.
    - intros Hh. apply K2; [lra|reflexivity]. }
  split; intros Hf; destruct (G ltac:(lra)) as (v & E1 & E2).
  - exists v. split; [exact E1|]. intros i Hi. apply E2; [exact Hi|lra].
  - rewrite only_positive_ok, E1. cbn [rmap]. f_equal. unfold fvec.
    assert (Hn : forall i, In i (seq 0 (frame_count N 400 160)) -> v i < 0) by (intros i Hi; apply in_seq in Hi; apply E2; [lia|lra]).
    induction (seq 0 (frame_count N 400 160)) as [|a l IH]; [reflexivity|]. cbn [map filter]. unfold fgeb at 1. cbn [fleb f0].
    rewrite Rleb_false by (apply Hn; left; reflexivity). apply IH. intros i Hi. apply Hn. right. exact Hi.
Qed.
