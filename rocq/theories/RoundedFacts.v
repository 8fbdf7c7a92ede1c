(** * Facts about rounded programs *)
From Coq Require Import Reals ZArith List Lia Lra Psatz.
From Flocq Require Import Core Relative.
From Verif Require Import Base SpecBase BigSum Binary64 Rounded SpecRounded.
Import ListNotations.
Local Open Scope R_scope.

(** ** the two roundings *)
Lemma rnd53_monotone : monotone rnd53.
Proof. intros x y H. apply round_le; [apply FLX_exp_valid; reflexivity|apply valid_rnd_N|exact H]. Qed.
Lemma rnd64_monotone : monotone rnd64.
Proof. intros x y H. apply round_le; [apply FLT_exp_valid; reflexivity|apply valid_rnd_N|exact H]. Qed.
Lemma rnd53_odd : odd rnd53.
Proof. intros x. unfold rnd53. apply round_NE_opp. Qed.
Lemma rnd64_odd : odd rnd64.
Proof. intros x. unfold rnd64. apply round_NE_opp. Qed.
Lemma odd_zero : forall r, odd r -> r 0 = 0.
Proof. intros r H. specialize (H 0). rewrite Ropp_0 in H. lra. Qed.
Lemma rnd53_accurate : accurate (/ 2 ^ 53) 0 rnd53.
Proof.
  split; [apply Rlt_le, Rinv_0_lt_compat, pow_lt; lra|]. split; [lra|]. intros x. rewrite Rplus_0_r.
  pose proof (relative_error_N_FLX radix2 53 ltac:(reflexivity) (fun x => negb (Z.even x)) x) as H.
  unfold rnd53. eapply Rle_trans; [exact H|]. apply Rmult_le_compat_r; [apply Rabs_pos|].
  right. change (bpow radix2 (- (53) + 1)) with (/ IZR (Zpower_pos 2 52)). simpl. lra.
Qed.
Lemma rnd64_accurate : accurate (/ 2 ^ 53) (bpow radix2 (-1075)) rnd64.
Proof.
  split; [apply Rlt_le, Rinv_0_lt_compat, pow_lt; lra|]. split; [apply bpow_ge_0|]. intros x.
  destruct (error_N_FLT radix2 (-1074) 53 ltac:(reflexivity) (fun x => negb (Z.even x)) x) as (e & n & He & Hn & _ & E).
  unfold rnd64. rewrite E. replace (x * (1 + e) + n - x) with (x * e + n) by ring.
  eapply Rle_trans; [apply Rabs_triang|]. rewrite Rabs_mult. apply Rplus_le_compat.
  - rewrite Rmult_comm. apply Rmult_le_compat_r; [apply Rabs_pos|]. eapply Rle_trans; [exact He|].
    right. unfold u_ro. change (bpow radix2 (- (53) + 1)) with (/ IZR (Zpower_pos 2 52)). simpl. lra.
  - eapply Rle_trans; [exact Hn|]. right. replace (-1075)%Z with (-1 + -1074)%Z by reflexivity. rewrite bpow_plus.
    change (bpow radix2 (-1)) with (/ 2). lra.
Qed.
(** multiples of a power of two *)
Lemma rnd53_scale : forall k x, rnd53 (bpow radix2 k * x) = bpow radix2 k * rnd53 x.
Proof.
  intros k x. destruct (Req_dec x 0) as [->|Hx].
  - rewrite Rmult_0_r. unfold rnd53. rewrite round_0 by apply valid_rnd_N. ring.
  - unfold rnd53, round, F2R, scaled_mantissa, cexp. cbn [Fnum Fexp].
    rewrite (Rmult_comm (bpow radix2 k) x), mag_mult_bpow by exact Hx. unfold FLX_exp.
    assert (E : x * bpow radix2 k * bpow radix2 (- (mag radix2 x + k - 53)) = x * bpow radix2 (- (mag radix2 x - 53))).
    { rewrite Rmult_assoc, <- bpow_plus. f_equal. f_equal. lia. }
    rewrite E. replace (mag radix2 x + k - 53)%Z with (mag radix2 x - 53 + k)%Z by lia. rewrite bpow_plus. ring.
Qed.
Lemma rnd64_normal : forall x, normal x -> rnd64 x = rnd53 x.
Proof.
  intros x [->|H].
  - unfold rnd64, rnd53. rewrite !round_0 by apply valid_rnd_N. reflexivity.
  - unfold rnd64, rnd53. apply round_FLT_FLX. exact H.
Qed.

(** ** programs *)
Section Run.
Context `{Env}.
Hypothesis Hodd : odd rnd.
Lemma lin_run_opp : forall x p, lin_run (fun i => - x i) p = - lin_run x p.
Proof.
  intros x p. induction p as [i| |p IHp q IHq|p IHp q IHq|c p IHp|c p IHp q IHq]; cbn [lin_run].
  - reflexivity.
  - ring.
  - rewrite IHp, IHq, <- Hodd. f_equal. ring.
  - rewrite IHp, IHq, <- Hodd. f_equal. ring.
  - rewrite IHp, <- Hodd. f_equal. ring.
  - rewrite IHp, IHq, <- Hodd. f_equal. ring.
Qed.
End Run.

Lemma lin_run_scale : forall k x p, @lin_run binary53 (fun i => bpow radix2 k * x i) p = bpow radix2 k * @lin_run binary53 x p.
Proof.
  intros k x p. induction p as [i| |p IHp q IHq|p IHp q IHq|c p IHp|c p IHp q IHq]; cbn [lin_run rnd binary53].
  - reflexivity.
  - ring.
  - rewrite IHp, IHq, <- rnd53_scale. f_equal. ring.
  - rewrite IHp, IHq, <- rnd53_scale. f_equal. ring.
  - rewrite IHp, <- rnd53_scale. f_equal. ring.
  - rewrite IHp, IHq, <- rnd53_scale. f_equal. ring.
Qed.

Lemma lin_run_normal : forall x p, normal_run x p -> @lin_run binary64 x p = @lin_run binary53 x p.
Proof.
  intros x p. induction p as [i| |p IHp q IHq|p IHp q IHq|c p IHp|c p IHp q IHq]; cbn [normal_run lin_run]; intros Hn; auto.
  - destruct Hn as (H1 & H2 & H3). rewrite IHp, IHq by assumption. apply rnd64_normal. exact H3.
  - destruct Hn as (H1 & H2 & H3). rewrite IHp, IHq by assumption. apply rnd64_normal. exact H3.
  - destruct Hn as (H1 & H3). rewrite IHp by assumption. apply rnd64_normal. exact H3.
  - destruct Hn as (H1 & H2 & H3). rewrite IHp, IHq by assumption. apply rnd64_normal. exact H3.
Qed.

Lemma lin_size_nonneg : forall x p, 0 <= lin_size x p.
Proof.
  intros x p. induction p as [i| |p IHp q IHq|p IHp q IHq|c p IHp|c p IHp q IHq]; cbn [lin_size]; try lra.
  - apply Rabs_pos.
  - apply Rmult_le_pos; [apply Rabs_pos|exact IHp].
  - pose proof (Rmult_le_pos _ _ (Rabs_pos c) IHp). lra.
Qed.
Lemma lin_amp_nonneg : forall p, 0 <= lin_amp p.
Proof.
  intros p. induction p as [i| |p IHp q IHq|p IHp q IHq|c p IHp|c p IHp q IHq]; cbn [lin_amp]; try lra.
  - pose proof (Rmult_le_pos _ _ (Rabs_pos c) IHp). lra.
  - pose proof (Rmult_le_pos _ _ (Rabs_pos c) IHp). lra.
Qed.
Lemma lin_exact_size : forall x p, Rabs (lin_exact x p) <= lin_size x p.
Proof.
  intros x p. induction p as [i| |p IHp q IHq|p IHp q IHq|c p IHp|c p IHp q IHq]; cbn [lin_size lin_exact].
  - lra.
  - rewrite Rabs_R0. lra.
  - eapply Rle_trans; [apply Rabs_triang|]. lra.
  - unfold Rminus. eapply Rle_trans; [apply Rabs_triang|]. rewrite Rabs_Ropp. lra.
  - rewrite Rabs_mult. apply Rmult_le_compat_l; [apply Rabs_pos|exact IHp].
  - eapply Rle_trans; [apply Rabs_triang|]. rewrite Rabs_mult.
    pose proof (Rmult_le_compat_l _ _ _ (Rabs_pos c) IHp). lra.
Qed.

Lemma pow_u_le : forall u n m, 0 <= u -> (n <= m)%nat -> (1 + u) ^ n <= (1 + u) ^ m.
Proof. intros. apply Rle_pow; [lra|assumption]. Qed.
Lemma pow_u_ge1 : forall u n, 0 <= u -> 1 <= (1 + u) ^ n.
Proof. intros. apply pow_R1_Rle. lra. Qed.

(** the error after one more rounding *)
Lemma round_step : forall r u eta v e s a d, accurate u eta r -> 0 <= s -> 0 <= a ->
  Rabs e <= s -> Rabs (v - e) <= ((1 + u) ^ d - 1) * s + (1 + u) ^ d * a * eta ->
  Rabs (r v - e) <= ((1 + u) ^ S d - 1) * s + (1 + u) ^ S d * (a + 1) * eta.
Proof.
  intros r u eta v e s a d (Hu & He & Hr) Hs Ha Hes Hv.
  pose proof (pow_u_ge1 u d Hu) as H1. set (P := (1 + u) ^ d) in *. cbn [pow].
  fold P.
  assert (Hv' : Rabs v <= P * s + P * a * eta).
  { replace v with (v - e + e) by ring. eapply Rle_trans; [apply Rabs_triang|]. lra. }
  replace (r v - e) with ((r v - v) + (v - e)) by ring. eapply Rle_trans; [apply Rabs_triang|].
  specialize (Hr v). pose proof (Rmult_le_compat_l u _ _ Hu Hv') as Hm.
  assert (eta <= (1 + u) * P * eta).
  { rewrite <- (Rmult_1_l eta) at 1. apply Rmult_le_compat_r; [exact He|].
    replace 1 with (1 * 1) by ring. apply Rmult_le_compat; lra. }
  replace (((1 + u) * P - 1) * s + (1 + u) * P * (a + 1) * eta)
    with (u * (P * s + P * a * eta) + ((P - 1) * s + P * a * eta) + (1 + u) * P * eta) by ring.
  lra.
Qed.

Lemma widen : forall u eta s a d d', 0 <= u -> 0 <= eta -> 0 <= s -> 0 <= a -> (d <= d')%nat ->
  ((1 + u) ^ d - 1) * s + (1 + u) ^ d * a * eta <= ((1 + u) ^ d' - 1) * s + (1 + u) ^ d' * a * eta.
Proof.
  intros. pose proof (pow_u_le u d d' H H3). rewrite !Rmult_assoc.
  assert (0 <= a * eta) by (apply Rmult_le_pos; assumption).
  apply Rplus_le_compat; apply Rmult_le_compat_r; lra.
Qed.

Theorem lin_error : forall (E : Env) u eta x p, accurate u eta (@rnd E) ->
  Rabs (@lin_run E x p - lin_exact x p)
  <= ((1 + u) ^ lin_depth p - 1) * lin_size x p + (1 + u) ^ lin_depth p * lin_amp p * eta.
Proof.
  intros E u eta x p Ha. pose proof Ha as (Hu & He & _).
  induction p as [i| |p IHp q IHq|p IHp q IHq|c p IHp|c p IHp q IHq]; cbn [lin_run lin_exact lin_size lin_depth lin_amp].
  - rewrite Rminus_diag_eq by reflexivity. rewrite Rabs_R0. cbn. lra.
  - rewrite Rminus_diag_eq by reflexivity. rewrite Rabs_R0. cbn. lra.
  - pose proof (lin_size_nonneg x p). pose proof (lin_size_nonneg x q). pose proof (lin_amp_nonneg p). pose proof (lin_amp_nonneg q).
    apply round_step; auto; try lra.
    + eapply Rle_trans; [apply Rabs_triang|]. pose proof (lin_exact_size x p). pose proof (lin_exact_size x q). lra.
    + replace (_ + _ - (_ + _)) with ((@lin_run E x p - lin_exact x p) + (@lin_run E x q - lin_exact x q)) by ring.
      eapply Rle_trans; [apply Rabs_triang|].
      pose proof (widen u eta (lin_size x p) (lin_amp p) _ (Nat.max (lin_depth p) (lin_depth q)) Hu He ltac:(assumption) ltac:(assumption) (Nat.le_max_l _ _)).
      pose proof (widen u eta (lin_size x q) (lin_amp q) _ (Nat.max (lin_depth p) (lin_depth q)) Hu He ltac:(assumption) ltac:(assumption) (Nat.le_max_r _ _)).
      lra.
  - pose proof (lin_size_nonneg x p). pose proof (lin_size_nonneg x q). pose proof (lin_amp_nonneg p). pose proof (lin_amp_nonneg q).
    apply round_step; auto; try lra.
    + unfold Rminus. eapply Rle_trans; [apply Rabs_triang|]. rewrite Rabs_Ropp. pose proof (lin_exact_size x p). pose proof (lin_exact_size x q). lra.
    + replace (_ - _ - (_ - _)) with ((@lin_run E x p - lin_exact x p) + - (@lin_run E x q - lin_exact x q)) by ring.
      eapply Rle_trans; [apply Rabs_triang|]. rewrite Rabs_Ropp.
      pose proof (widen u eta (lin_size x p) (lin_amp p) _ (Nat.max (lin_depth p) (lin_depth q)) Hu He ltac:(assumption) ltac:(assumption) (Nat.le_max_l _ _)).
      pose proof (widen u eta (lin_size x q) (lin_amp q) _ (Nat.max (lin_depth p) (lin_depth q)) Hu He ltac:(assumption) ltac:(assumption) (Nat.le_max_r _ _)).
      lra.
  - pose proof (lin_size_nonneg x p). pose proof (lin_amp_nonneg p). pose proof (Rabs_pos c).
    apply round_step; auto.
    + apply Rmult_le_pos; assumption.
    + apply Rmult_le_pos; assumption.
    + rewrite Rabs_mult. apply Rmult_le_compat_l; [assumption|apply lin_exact_size].
    + rewrite <- Rmult_minus_distr_l, Rabs_mult. eapply Rle_trans; [apply Rmult_le_compat_l; [assumption|exact IHp]|]. right. ring.
  - pose proof (lin_size_nonneg x p). pose proof (lin_size_nonneg x q). pose proof (lin_amp_nonneg p). pose proof (lin_amp_nonneg q).
    pose proof (Rabs_pos c).
    assert (0 <= Rabs c * lin_size x p) by (apply Rmult_le_pos; assumption).
    assert (0 <= Rabs c * lin_amp p) by (apply Rmult_le_pos; assumption).
    apply round_step; auto; try lra.
    + eapply Rle_trans; [apply Rabs_triang|]. rewrite Rabs_mult.
      pose proof (Rmult_le_compat_l _ _ _ (Rabs_pos c) (lin_exact_size x p)). pose proof (lin_exact_size x q). lra.
    + replace (_ + _ - (_ + _)) with (c * (@lin_run E x p - lin_exact x p) + (@lin_run E x q - lin_exact x q)) by ring.
      eapply Rle_trans; [apply Rabs_triang|]. rewrite Rabs_mult.
      pose proof (Rmult_le_compat_l _ _ _ (Rabs_pos c) IHp) as Hc.
      pose proof (widen u eta (Rabs c * lin_size x p) (Rabs c * lin_amp p) _ (Nat.max (lin_depth p) (lin_depth q)) Hu He ltac:(assumption) ltac:(assumption) (Nat.le_max_l _ _)).
      pose proof (widen u eta (lin_size x q) (lin_amp q) _ (Nat.max (lin_depth p) (lin_depth q)) Hu He ltac:(assumption) ltac:(assumption) (Nat.le_max_r _ _)).
      lra.
Qed.

(** ** programs without cancellation *)
Lemma additive_size : forall x p, additive p -> (forall i, 0 <= x i) -> lin_size x p = lin_exact x p.
Proof.
  intros x p Hp Hx. induction p as [i| |p IHp q IHq|p IHp q IHq|c p IHp|c p IHp q IHq]; cbn [additive lin_size lin_exact] in *.
  - apply Rabs_pos_eq. apply Hx.
  - reflexivity.
  - rewrite IHp, IHq by tauto. reflexivity.
  - contradiction.
  - rewrite IHp, Rabs_pos_eq by tauto. reflexivity.
  - rewrite IHp, IHq, Rabs_pos_eq by tauto. reflexivity.
Qed.
Lemma additive_exact_nonneg : forall x p, additive p -> (forall i, 0 <= x i) -> 0 <= lin_exact x p.
Proof. intros. rewrite <- additive_size by assumption. apply lin_size_nonneg. Qed.

Lemma additive_nonneg : forall (E : Env) x p, monotone (@rnd E) -> @rnd E 0 = 0 -> additive p -> (forall i, 0 <= x i) ->
  0 <= @lin_run E x p.
Proof.
  intros E x p Hm H0 Hp Hx.
  assert (Hr : forall v, 0 <= v -> 0 <= @rnd E v) by (intros v Hv; rewrite <- H0; apply Hm; exact Hv).
  induction p as [i| |p IHp q IHq|p IHp q IHq|c p IHp|c p IHp q IHq]; cbn [additive lin_run] in *.
  - apply Hx.
  - lra.
  - apply Hr. pose proof (IHp ltac:(tauto)). pose proof (IHq ltac:(tauto)). lra.
  - contradiction.
  - apply Hr. apply Rmult_le_pos; tauto.
  - apply Hr. pose proof (IHp ltac:(tauto)). pose proof (IHq ltac:(tauto)). pose proof (Rmult_le_pos c _ ltac:(tauto) H). lra.
Qed.

Lemma relative_bounds : forall r u v, accurate u 0 r -> u <= 1 -> 0 <= v -> (1 - u) * v <= r v <= (1 + u) * v.
Proof.
  intros r u v (Hu & _ & Hr) H1 Hv. specialize (Hr v). rewrite Rplus_0_r, (Rabs_pos_eq v Hv) in Hr.
  apply Rabs_le_inv in Hr. lra.
Qed.
Lemma bounds_step : forall r u v e d, accurate u 0 r -> u <= 1 -> 0 <= e ->
  (1 - u) ^ d * e <= v <= (1 + u) ^ d * e -> (1 - u) ^ S d * e <= r v <= (1 + u) ^ S d * e.
Proof.
  intros r u v e d Ha H1 He [Hl Hh]. pose proof Ha as (Hu & _ & _).
  assert (0 <= (1 - u) ^ d) by (apply pow_le; lra).
  assert (Hv : 0 <= v) by (eapply Rle_trans; [|exact Hl]; apply Rmult_le_pos; assumption).
  destruct (relative_bounds r u v Ha H1 Hv) as [Kl Kh]. cbn [pow]. split.
  - eapply Rle_trans; [|exact Kl]. rewrite Rmult_assoc. apply Rmult_le_compat_l; [lra|exact Hl].
  - eapply Rle_trans; [exact Kh|]. rewrite Rmult_assoc. apply Rmult_le_compat_l; [lra|exact Hh].
Qed.
Lemma bounds_widen : forall u e v d d', 0 <= u <= 1 -> 0 <= e -> (d <= d')%nat ->
  (1 - u) ^ d * e <= v <= (1 + u) ^ d * e -> (1 - u) ^ d' * e <= v <= (1 + u) ^ d' * e.
Proof.
  intros u e v d d' Hu He Hd [Hl Hh]. split.
  - eapply Rle_trans; [|exact Hl]. apply Rmult_le_compat_r; [exact He|].
    replace d' with (d + (d' - d))%nat by lia. rewrite pow_add.
    assert (0 <= (1 - u) ^ d) by (apply pow_le; lra).
    assert ((1 - u) ^ (d' - d) <= 1).
    { generalize (d' - d)%nat. intros m. induction m; cbn; [lra|].
      assert (0 <= (1 - u) ^ m) by (apply pow_le; lra). nra. }
    rewrite <- (Rmult_1_r ((1 - u) ^ d)) at 2. apply Rmult_le_compat_l; assumption.
  - eapply Rle_trans; [exact Hh|]. apply Rmult_le_compat_r; [exact He|]. apply pow_u_le; [lra|exact Hd].
Qed.

(** the result is off by at most one factor 1-u .. 1+u per rounding; the inputs may already be off
    by [d0] of them *)
Lemma additive_bounds : forall (E : Env) u x y p d0, accurate u 0 (@rnd E) -> u <= 1 -> additive p ->
  (forall i, 0 <= x i) -> (forall i, (1 - u) ^ d0 * x i <= y i <= (1 + u) ^ d0 * x i) ->
  (1 - u) ^ (lin_depth p + d0) * lin_exact x p <= @lin_run E y p <= (1 + u) ^ (lin_depth p + d0) * lin_exact x p.
Proof.
  intros E u x y p d0 Ha H1 Hp Hx Hy. pose proof Ha as (Hu & _ & _).
  assert (Hu' : 0 <= u <= 1) by lra.
  induction p as [i| |p IHp q IHq|p IHp q IHq|c p IHp|c p IHp q IHq]; cbn [additive lin_run lin_exact lin_depth Nat.add] in *.
  - apply Hy.
  - lra.
  - destruct Hp as [Hp Hq]. specialize (IHp Hp). specialize (IHq Hq).
    pose proof (additive_exact_nonneg x p Hp Hx). pose proof (additive_exact_nonneg x q Hq Hx).
    apply bounds_step; auto; [lra|].
    apply (bounds_widen u _ _ _ (Nat.max (lin_depth p) (lin_depth q) + d0)%nat) in IHp; [|lra|lra|lia].
    apply (bounds_widen u _ _ _ (Nat.max (lin_depth p) (lin_depth q) + d0)%nat) in IHq; [|lra|lra|lia].
    lra.
  - contradiction.
  - destruct Hp as [Hc Hp]. specialize (IHp Hp). pose proof (additive_exact_nonneg x p Hp Hx).
    apply bounds_step; auto; [apply Rmult_le_pos; lra|].
    destruct IHp as [Hl Hh]. split.
    + eapply Rle_trans; [|apply Rmult_le_compat_l; [exact Hc|exact Hl]]. right. ring.
    + eapply Rle_trans; [apply Rmult_le_compat_l; [exact Hc|exact Hh]|]. right. ring.
  - destruct Hp as (Hc & Hp & Hq). specialize (IHp Hp). specialize (IHq Hq).
    pose proof (additive_exact_nonneg x p Hp Hx). pose proof (additive_exact_nonneg x q Hq Hx).
    pose proof (Rmult_le_pos _ _ Hc H).
    apply bounds_step; auto; [lra|].
    apply (bounds_widen u _ _ _ (Nat.max (lin_depth p) (lin_depth q) + d0)%nat) in IHp; [|lra|lra|lia].
    apply (bounds_widen u _ _ _ (Nat.max (lin_depth p) (lin_depth q) + d0)%nat) in IHq; [|lra|lra|lia].
    destruct IHp as [Hl Hh]. pose proof (Rmult_le_compat_l c _ _ Hc Hl). pose proof (Rmult_le_compat_l c _ _ Hc Hh). lra.
Qed.
