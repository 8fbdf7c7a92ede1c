(** * Rounding errors of the triangular filter banks *)
From Coq Require Import Reals ZArith List String Bool Lia Lra Psatz.
From Flocq Require Import Core.
From Verif Require Import Base SpecBase SpecFilters SpecBanks MelBanksFacts Binary64 Rounded SpecRounded RoundedFacts RoundedBanks RoundedBanksFacts Binary64Facts.
Import ListNotations.
Local Open Scope R_scope.

(** ** moving the nodes of a triangle *)
Definition clip (x : R) : R := Rmax 0 (Rmin x 1).
Lemma clip_range : forall x, 0 <= clip x <= 1.
Proof. intros x. unfold clip, Rmax, Rmin. repeat destruct (Rle_dec _ _); lra. Qed.
Lemma clip_low : forall x, x <= 0 -> clip x = 0.
Proof. intros x H. unfold clip, Rmax, Rmin. repeat destruct (Rle_dec _ _); lra. Qed.
Lemma clip_mid : forall x, 0 <= x <= 1 -> clip x = x.
Proof. intros x H. unfold clip, Rmax, Rmin. repeat destruct (Rle_dec _ _); lra. Qed.
Lemma clip_high : forall x, 1 <= x -> clip x = 1.
Proof. intros x H. unfold clip, Rmax, Rmin. repeat destruct (Rle_dec _ _); lra. Qed.
Lemma quot_le : forall a b d, 0 < d -> a <= b * d -> a / d <= b.
Proof. intros a b d Hd H. apply Rmult_le_reg_r with d; [exact Hd|]. unfold Rdiv. rewrite Rmult_assoc, Rinv_l by lra. lra. Qed.
Lemma quot_ge : forall a b d, 0 < d -> b * d <= a -> b <= a / d.
Proof. intros a b d Hd H. apply Rmult_le_reg_r with d; [exact Hd|]. unfold Rdiv. rewrite Rmult_assoc, Rinv_l by lra. lra. Qed.
Lemma quot_back : forall a d, 0 < d -> a / d * d = a.
Proof. intros a d Hd. unfold Rdiv. rewrite Rmult_assoc, Rinv_l by lra. ring. Qed.

Lemma clip_quot : forall x d x' d' a b, 0 < d -> 0 < d' -> Rabs (x' - x) <= a -> Rabs (d' - d) <= b ->
  Rabs (clip (x' / d') - clip (x / d)) <= (a + b) / d.
Proof.
  intros x d x' d' a b Hd Hd' Hx Hb. apply Rabs_le_inv in Hx, Hb.
  pose proof (quot_back x d Hd) as Qx. pose proof (quot_back x' d' Hd') as Qx'.
  set (q := x / d) in *. set (q' := x' / d') in *. pose proof (clip_range q) as Cq.
  apply Rabs_le.
  destruct (Rle_dec q' 0) as [H0|H0]; [|destruct (Rle_dec q' 1) as [H1|H1]].
  - rewrite (clip_low q' H0). assert (q <= (a + b) / d).
    { apply quot_ge; [exact Hd|]. nra. }
    assert (0 <= (a + b) / d) by (apply quot_ge; [exact Hd|]; lra).
    destruct (Rle_dec q 0); [rewrite clip_low by assumption; lra|].
    destruct (Rle_dec q 1); [rewrite clip_mid by lra; lra|]. rewrite clip_high by lra. lra.
  - rewrite (clip_mid q') by lra.
    assert (q - q' <= (a + b) / d) by (apply quot_ge; [exact Hd|]; nra).
    assert (q' - q <= (a + b) / d) by (apply quot_ge; [exact Hd|]; nra).
    destruct (Rle_dec q 0); [rewrite clip_low by assumption; lra|].
    destruct (Rle_dec q 1); [rewrite clip_mid by lra; lra|]. rewrite clip_high by lra. lra.
  - rewrite (clip_high q') by lra. assert (1 - q <= (a + b) / d) by (apply quot_ge; [exact Hd|]; nra).
    assert (0 <= (a + b) / d) by (apply quot_ge; [exact Hd|]; lra).
    destruct (Rle_dec q 0); [rewrite clip_low by assumption; lra|].
    destruct (Rle_dec q 1); [rewrite clip_mid by lra; lra|]. rewrite clip_high by lra. lra.
Qed.

Lemma tri_clip : forall l c u f, l < c -> c < u ->
  spec_tri l c u f = Rmin (clip ((f - l) / (c - l))) (clip ((u - f) / (u - c))).
Proof.
  intros l c u f H1 H2. destruct (Rle_dec f c) as [H|H].
  - rewrite (clip_high ((u - f) / (u - c))) by (apply quot_ge; lra).
    destruct (Rle_dec f l) as [H3|H3].
    + rewrite tri_below, clip_low by (try assumption; apply quot_le; lra). unfold Rmin. destruct (Rle_dec _ _); lra.
    + rewrite tri_left by lra. rewrite clip_mid by (split; [apply quot_ge|apply quot_le]; lra).
      rewrite Rmin_left; [reflexivity|apply quot_le; lra].
  - rewrite (clip_high ((f - l) / (c - l))) by (apply quot_ge; lra).
    destruct (Rle_dec u f) as [H3|H3].
    + rewrite tri_above, clip_low by (try assumption; apply quot_le; lra). unfold Rmin. destruct (Rle_dec _ _); lra.
    + rewrite tri_right by lra. rewrite clip_mid by (split; [apply quot_ge|apply quot_le]; lra).
      rewrite Rmin_right; [reflexivity|apply quot_le; lra].
Qed.
Lemma Rmin_lip : forall a b a' b' e, Rabs (a' - a) <= e -> Rabs (b' - b) <= e -> Rabs (Rmin a' b' - Rmin a b) <= e.
Proof.
  intros a b a' b' e Ha Hb. apply Rabs_le_inv in Ha, Hb. apply Rabs_le. unfold Rmin. repeat destruct (Rle_dec _ _); lra.
Qed.

Lemma tri_perturb : forall l c u f l' c' u' f' d e, 0 < d -> d <= c - l -> d <= u - c -> 2 * e < d ->
  Rabs (l' - l) <= e -> Rabs (c' - c) <= e -> Rabs (u' - u) <= e -> Rabs (f' - f) <= e ->
  Rabs (spec_tri l' c' u' f' - spec_tri l c u f) <= 4 * e / d.
Proof.
  intros l c u f l' c' u' f' d e Hd H1 H2 He Hl Hc Hu Hf.
  apply Rabs_le_inv in Hl, Hc, Hu, Hf.
  rewrite !tri_clip by lra.
  assert (K : forall w, d <= w -> (2 * e + 2 * e) / w <= 4 * e / d).
  { intros w Hw. apply quot_le; [lra|]. pose proof (quot_back (4 * e) d Hd) as Q.
    assert (0 <= 4 * e / d) by (apply quot_ge; lra). set (q := 4 * e / d) in *. nra. }
  apply Rmin_lip.
  - eapply Rle_trans; [apply clip_quot with (a := 2 * e) (b := 2 * e)|apply K; lra]; try lra; apply Rabs_le; lra.
  - eapply Rle_trans; [apply clip_quot with (a := 2 * e) (b := 2 * e)|apply K; lra]; try lra; apply Rabs_le; lra.
Qed.

(** ** the computed triangle *)
Section Error.
Context {E : Env}.
Variables (u eta : R).
Hypothesis Hg : grid rnd.
Hypothesis Ha : accurate u eta rnd.
Lemma u_nonneg : 0 <= u.
Proof. exact (proj1 Ha). Qed.
Lemma eta_nonneg : 0 <= eta.
Proof. exact (proj1 (proj2 Ha)). Qed.

Lemma acc : forall x, Rabs (rnd x - x) <= u * Rabs x + eta.
Proof. exact (proj2 (proj2 Ha)). Qed.
Lemma acc1 : forall x, 0 <= x <= 1 -> Rabs (rnd x - x) <= u + eta.
Proof. pose proof u_nonneg as Hu. intros x Hx. eapply Rle_trans; [apply acc|]. rewrite Rabs_pos_eq by lra. nra. Qed.

Lemma quot_error : forall x d, 0 <= x <= d -> 0 < d -> 0 < rnd d ->
  Rabs (rnd (rnd x / rnd d) - x / d) <= 3 * u + eta + 2 * eta / d.
Proof.
  pose proof u_nonneg as Hu. pose proof eta_nonneg as He. intros x d Hx Hd Hr. pose proof (g_mono Hg x d ltac:(lra)) as Hm. pose proof (g_pos Hg x ltac:(lra)) as Hp.
  pose proof (acc x) as Ax. pose proof (acc d) as Ad. rewrite (Rabs_pos_eq x) in Ax by lra. rewrite (Rabs_pos_eq d) in Ad by lra.
  apply Rabs_le_inv in Ax, Ad.
  assert (Q1 : 0 <= rnd x / rnd d <= 1) by (split; [apply quot_ge|apply quot_le]; lra).
  pose proof (quot_back (rnd x) (rnd d) Hr) as B1. pose proof (quot_back x d Hd) as B2.
  pose proof (acc1 _ Q1) as A1. apply Rabs_le_inv in A1.
  pose proof (quot_back (2 * eta) d Hd) as B3.
  set (q := rnd x / rnd d) in *. set (p := x / d) in *. set (w := 2 * eta / d) in *.
  assert (q - p <= 2 * u + w).
  { apply Rmult_le_reg_r with d; [exact Hd|]. nra. }
  assert (p - q <= 2 * u + w).
  { apply Rmult_le_reg_r with d; [exact Hd|]. nra. }
  apply Rabs_le. lra.
Qed.

Lemma slope_error : forall l c w f d, rnd l = l -> rnd c = c -> rnd w = w -> rnd f = f ->
  0 < d -> d <= c - l -> d <= w - c ->
  exists v, slope_of l c w f = Fin v /\ 0 <= v <= 1 /\ Rabs (v - spec_tri l c w f) <= 3 * u + eta + 2 * eta / d.
Proof.
  pose proof u_nonneg as Hu. pose proof eta_nonneg as He. intros l c w f d Hl Hc Hw Hf Hd H1 H2.
  destruct (slope_value Hg l c w f Hl Hc Hw Hf ltac:(lra)) as [_ K].
  destruct (K ltac:(lra)) as (v & Ev & Hv & Zl & Zu & _ & Vl & Vr). exists v. do 2 (split; [assumption|]).
  assert (M : forall z, d <= z -> 2 * eta / z <= 2 * eta / d).
  { intros z Hz. apply quot_le; [lra|]. pose proof (quot_back (2 * eta) d Hd). assert (0 <= 2 * eta / d) by (apply quot_ge; lra).
    set (q := 2 * eta / d) in *. nra. }
  assert (P : 0 <= 2 * eta / d) by (apply quot_ge; lra).
  destruct (Rle_dec f l) as [A|A]; [|destruct (Rlt_dec f c) as [B|B]; [|destruct (Rle_dec f w) as [C|C]]].
  - rewrite (Zl A ltac:(lra)), tri_below by lra. rewrite Rminus_diag_eq, Rabs_R0 by reflexivity. lra.
  - rewrite (Vl ltac:(lra)), tri_left by lra.
    eapply Rle_trans; [apply quot_error; [lra|lra|apply (g_sub_pos Hg); auto; lra]|]. pose proof (M (c - l) H1). lra.
  - rewrite (Vr ltac:(lra)), tri_right by lra.
    eapply Rle_trans; [apply quot_error; [lra|lra|apply (g_sub_pos Hg); auto; lra]|]. pose proof (M (w - c) H2). lra.
  - rewrite (Zu ltac:(lra)), tri_above by lra. rewrite Rminus_diag_eq, Rabs_R0 by reflexivity. lra.
Qed.

Lemma factor_error : forall scale n j, In scale scale_names -> (j < n)%nat ->
  Rabs (factor_of scale n j - spec_scale scale n j) <= u + eta /\ 0 <= spec_scale scale n j <= 1.
Proof.
  pose proof u_nonneg as Hu. pose proof eta_nonneg as He. intros scale n j Hs Hj. unfold factor_of, spec_scale. assert (0 < INR n) by (apply lt_0_INR; lia).
  assert (K : forall i, (i <= n)%nat -> 0 <= INR i / INR n <= 1).
  { intros i Hi. apply le_INR in Hi. pose proof (pos_INR i). split; [apply quot_ge|apply quot_le]; lra. }
  destruct (String.eqb scale "ascendant"); [split; [apply acc1, K; lia|apply K; lia]|].
  destruct (String.eqb scale "descendant"); [split; [apply acc1, K; lia|apply K; lia]|].
  split; [|lra]. rewrite Rminus_diag_eq, Rabs_R0 by reflexivity. lra.
Qed.

(** ** points and columns *)
(** bound for the error of a point, for limits of size at most [H] and at most [N] steps *)
Definition point_err (u eta H : R) (N : nat) : R := ((1 + u) ^ 4 - 1) * (3 * H) + (1 + u) ^ 4 * ((INR N + 3) * eta).

Lemma program_error : forall low high H N n k, Rabs low <= H -> Rabs high <= H -> (1 <= n)%nat -> (k <= n)%nat -> (n <= N)%nat ->
  Rabs (rnd (low + rnd (INR k * rnd (/ INR n * rnd (high - low)))) - (low + INR k * ((high - low) / INR n)))
  <= point_err u eta H N.
Proof.
  pose proof u_nonneg as Hu. pose proof eta_nonneg as He. intros low high H N n k Hl Hh Hn Hk HN.
  pose (x := fun i : nat => match i with O => low | _ => high end).
  pose (p := Add (Load 0) (Scale (INR k) (Scale (/ INR n) (Sub (Load 1) (Load 0))))).
  pose proof (lin_error E u eta x p Ha) as K. cbn in K.
  assert (0 < INR n) by (apply lt_0_INR; lia).
  apply le_INR in Hk, HN. pose proof (pos_INR k). assert (0 < / INR n) by (apply Rinv_0_lt_compat; assumption).
  rewrite (Rabs_pos_eq (INR k)), (Rabs_pos_eq (/ INR n)) in K by lra.
  replace (low + INR k * ((high - low) / INR n)) with (low + INR k * (/ INR n * (high - low))) by (unfold Rdiv; ring).
  eapply Rle_trans; [exact K|]. unfold point_err.
  assert (Kn : 0 <= INR k * / INR n <= 1) by (split; [apply quot_ge|apply (quot_le (INR k))]; lra).
  pose proof (pow_u_ge1 u 4 Hu) as P4. cbn [pow] in P4 |- *. set (w := (1 + u) * ((1 + u) * ((1 + u) * ((1 + u) * 1)))) in *.
  pose proof (Rabs_pos low). pose proof (Rabs_pos high).
  apply Rplus_le_compat.
  - apply Rmult_le_compat_l; [lra|]. rewrite <- (Rmult_assoc (INR k)). nra.
  - rewrite Rmult_assoc. apply Rmult_le_compat_l; [lra|]. apply Rmult_le_compat_r; [exact He|].
    replace (INR k * (/ INR n * (0 + 0 + 1) + 1) + 1) with (INR k * / INR n + INR k + 1) by ring. lra.
Qed.

Lemma scale_point_error : forall lo hi H N n k, lo <= hi -> Rabs lo <= H -> Rabs hi <= H -> (k <= n + 1)%nat -> (n + 1 <= N)%nat ->
  Rabs (scale_point_of lo hi n k - (lo + INR k * ((hi - lo) / INR (n + 1)))) <= point_err u eta H N.
Proof.
  pose proof u_nonneg as Hu. pose proof eta_nonneg as He. intros lo hi H N n k Hle Hl Hh Hk HN. unfold scale_point_of.
  rewrite (Rabs_pos_eq (rnd (hi - lo))) by (apply (g_pos Hg); lra).
  replace (rnd (hi - lo) / INR (n + 1)) with (/ INR (n + 1) * rnd (hi - lo)) by (unfold Rdiv; ring).
  rewrite (Rmult_comm (rnd (/ INR (n + 1) * _))). apply program_error; auto; lia.
Qed.

Lemma linspace_error : forall low high H N h k, low <= high -> Rabs low <= H -> Rabs high <= H -> (k <= h)%nat -> (h <= N)%nat ->
  rnd low = low -> rnd (high - low) <> 0 -> (h <> 0%nat -> rnd (rnd (high - low) / INR h) <> 0) -> 
  Rabs (linspace_of low high h k - spec_col low high h k) <= point_err u eta H N.
Proof.
  pose proof u_nonneg as Hu. pose proof eta_nonneg as He. intros low high H N h k Hle Hl Hh Hk HN Hr Hd Hs.
  assert (P : 0 <= point_err u eta H N).
  { unfold point_err. pose proof (pow_u_ge1 u 4 Hu). pose proof (Rabs_pos low). pose proof (pos_INR N).
    assert (0 <= (INR N + 3) * eta) by (apply Rmult_le_pos; lra). apply Rplus_le_le_0_compat; apply Rmult_le_pos; lra. }
  unfold linspace_of, spec_col. destruct h as [|h].
  - replace k with O by lia. cbn [INR]. rewrite !Rmult_0_l, (g_0 Hg), !Rplus_0_r, Hr, Rminus_diag_eq, Rabs_R0 by reflexivity. exact P.
  - destruct (Nat.eqb k (S h)) eqn:Ek.
    + apply Nat.eqb_eq in Ek. subst k. assert (0 < INR (S h)) by (apply lt_0_INR; lia).
      replace (low + INR (S h) * ((high - low) / INR (S h))) with high by (field; lra).
      rewrite Rminus_diag_eq, Rabs_R0 by reflexivity. exact P.
    + destruct (Req_EM_T _ 0) as [Z|_]; [exfalso; apply (Hs ltac:(lia)); exact Z|].
      replace (rnd (high - low) / INR (S h)) with (/ INR (S h) * rnd (high - low)) by (unfold Rdiv; ring).
      apply program_error; auto; lia.
Qed.

Lemma grid_points : forall lo hi n k, rnd (scale_point_of lo hi n k) = scale_point_of lo hi n k.
Proof. intros. apply (g_idem Hg). Qed.

Lemma abs_tri : forall a b c x y, Rabs (a - b) <= x -> Rabs (b - c) <= y -> Rabs (a - c) <= x + y.
Proof. intros a b c x y H1 H2. apply Rabs_le_inv in H1, H2. apply Rabs_le. lra. Qed.

(** an entry from points and columns with error at most [e], nodes [d] apart *)
Lemma entry_error : forall (pt : nat -> R) l c w f low high n h scale j k d e,
  In scale scale_names -> (j < n)%nat ->
  rnd high = high -> (forall i, rnd (pt i) = pt i) -> 0 < d -> 4 * e < d -> d <= c - l -> d <= w - c ->
  Rabs (pt j - l) <= e -> Rabs (pt (j + 1)%nat - c) <= e -> Rabs (pt (j + 2)%nat - w) <= e ->
  Rabs (linspace_of low high h k - f) <= e ->
  exists v, bank_entry_of pt low high n h scale j k = Fin v /\ 0 <= v <= 1 /\
    Rabs (v - spec_scale scale n j * spec_tri l c w f) <= (4 * e + 4 * eta) / d + 5 * u + 3 * eta.
Proof.
  intros pt l c w f low high n h scale j k d e Hs Hj Hh Hr Hd H4 Hd1 Hd2 E1 E2 E3 E4.
  pose proof u_nonneg as Hu. pose proof eta_nonneg as He.
  pose proof (tri_perturb l c w f _ _ _ _ d e Hd Hd1 Hd2 ltac:(pose proof (Rle_trans _ _ _ (Rabs_pos _) E1); lra) E1 E2 E3 E4) as T.
  destruct (slope_error (pt j) (pt (j + 1)%nat) (pt (j + 2)%nat) (linspace_of low high h k) (d / 2)
              (Hr _) (Hr _) (Hr _) (linspace_grid Hg _ _ _ _ Hh) ltac:(lra)) as (v0 & Ev & Hv & D0).
  { apply Rabs_le_inv in E1, E2. lra. }
  { apply Rabs_le_inv in E2, E3. lra. }
  destruct (factor_error scale n j Hs Hj) as [F1 F2]. pose proof (factor_range Hg scale n j Hj) as F3.
  set (t' := spec_tri (pt j) (pt (j + 1)%nat) (pt (j + 2)%nat) (linspace_of low high h k)) in *. set (t := spec_tri l c w f) in *.
  replace (2 * eta / (d / 2)) with (4 * eta / d) in D0 by (field; lra).
  replace ((4 * e + 4 * eta) / d) with (4 * e / d + 4 * eta / d) by (field; lra).
  unfold bank_entry_of. rewrite Ev. cbn [prod_of]. eexists. split; [reflexivity|].
  set (s' := factor_of scale n j) in *. set (s := spec_scale scale n j) in *.
  assert (Hp : 0 <= v0 * s' <= 1) by nra. split; [apply (g_le1 Hg); exact Hp|].
  pose proof (acc1 _ Hp) as A1. pose proof (abs_tri _ _ _ _ _ D0 T) as A2.
  apply Rabs_le_inv in A1, A2, F1. set (b := 4 * e / d) in *. set (g := 4 * eta / d) in *.
  assert (B : 0 <= 3 * u + eta + g + b) by lra.
  assert (P1 : v0 * s' - s * t <= (u + eta) + (3 * u + eta + g + b)).
  { replace (v0 * s' - s * t) with (v0 * (s' - s) + s * (v0 - t)) by ring.
    assert (v0 * (s' - s) <= u + eta) by nra. assert (s * (v0 - t) <= 3 * u + eta + g + b) by nra. lra. }
  assert (P2 : s * t - v0 * s' <= (u + eta) + (3 * u + eta + g + b)).
  { replace (s * t - v0 * s') with (v0 * (s - s') + s * (t - v0)) by ring.
    assert (v0 * (s - s') <= u + eta) by nra. assert (s * (t - v0) <= 3 * u + eta + g + b) by nra. lra. }
  apply Rabs_le. lra.
Qed.

Lemma columns_error : forall low high H N h k, rnd low = low -> rnd high = high -> low < high -> Rabs low <= H -> Rabs high <= H ->
  (k <= h)%nat -> (h <= N)%nat -> 4 * point_err u eta H N < high - low ->
  Rabs (linspace_of low high h k - spec_col low high h k) <= point_err u eta H N.
Proof.
  intros low high H N h k Hl Hh Hlh Al Ah Hk HhN H4. pose proof u_nonneg as Hu. pose proof eta_nonneg as He.
  set (e := point_err u eta H N) in *.
  assert (HN : INR h <= INR N) by (apply le_INR; lia).
  assert (Hp4 : 1 + 4 * u <= (1 + u) ^ 4) by nra.
  assert (HH : 0 < H) by (apply Rabs_le_inv in Al, Ah; lra).
  assert (e1 : 4 * u * (3 * H) <= e /\ (INR N + 3) * eta <= e).
  { unfold e, point_err. pose proof (pos_INR N).
    assert (0 <= (INR N + 3) * eta) by (apply Rmult_le_pos; lra).
    assert (4 * u * (3 * H) <= ((1 + u) ^ 4 - 1) * (3 * H)) by (apply Rmult_le_compat_r; lra).
    assert (0 <= 4 * u * (3 * H)) by (apply Rmult_le_pos; lra).
    set (m := (INR N + 3) * eta) in *. set (q := (1 + u) ^ 4) in *. split; nra. }
  destruct e1 as [e1 e2].
  assert (Hu4 : u <= 1 / 4).
  { apply Rabs_le_inv in Al, Ah. apply Rnot_lt_le. intros Hc. nra. }
  assert (Hst : rnd (high - low) <> 0).
  { intros Z. apply (g_sep Hg) in Z; auto. lra. }
  assert (Hstep : h <> 0%nat -> rnd (rnd (high - low) / INR h) <> 0).
  { intros Hh0 Z. assert (Ph : 1 <= INR h) by (replace 1 with (INR 1) by reflexivity; apply le_INR; lia).
    pose proof (acc (high - low)) as A1. pose proof (acc (rnd (high - low) / INR h)) as A2. rewrite Z in A2.
    pose proof (g_pos Hg (high - low) ltac:(lra)) as Pr.
    assert (HD0 : 0 < high - low) by lra.
    set (D := high - low) in *. set (D' := rnd D) in *. rewrite (Rabs_pos_eq D) in A1 by lra. apply Rabs_le_inv in A1.
    pose proof (quot_back D' (INR h) ltac:(lra)) as B. assert (0 <= D' / INR h) by (apply quot_ge; lra).
    set (q := D' / INR h) in *. rewrite Rminus_0_l, Rabs_Ropp, (Rabs_pos_eq q) in A2 by assumption.
    assert (Q : 3 / 4 * q <= eta) by nra.
    assert (D1 : 3 / 4 * D - eta <= D') by nra.
    assert (D2 : D' <= 4 / 3 * (INR h * eta)) by nra.
    assert (M : INR h * eta <= INR N * eta) by (apply Rmult_le_compat_r; assumption).
    pose proof (pos_INR N). assert (0 <= INR N * eta) by (apply Rmult_le_pos; assumption). lra. }
  apply linspace_error; auto; lra.
Qed.

Lemma linear_error : forall low high H n h scale j k, rnd low = low -> rnd high = high -> low < high ->
  Rabs low <= H -> Rabs high <= H -> In scale scale_names -> (j < n)%nat -> (k <= h)%nat ->
  let d := (high - low) / INR (n + 1) in
  let e := point_err u eta H (Nat.max (n + 1) h) in
  4 * e < d ->
  exists v, linear_entry_of low high n h scale j k = Fin v /\ 0 <= v <= 1 /\
    Rabs (v - spec_bank lin_scale low high n h scale j k) <= (4 * e + 4 * eta) / d + 5 * u + 3 * eta.
Proof.
  intros low high H n h scale j k Hl Hh Hlh Al Ah Hs Hj Hk d e H4.
  assert (Hn : 1 <= INR (n + 1)) by (replace 1 with (INR 1) by reflexivity; apply le_INR; lia).
  assert (Hd : 0 < d) by (apply Rdiv_lt_0_compat; lra).
  assert (HD : d <= high - low) by (apply quot_le; nra).
  assert (Hpt : forall i, (i <= n + 1)%nat -> Rabs (linear_point_of low high n i - spec_point lin_scale low high n i) <= e).
  { intros i Hi. unfold linear_point_of, spec_point, spec_level. cbn [lin_scale fwd bwd]. apply scale_point_error; auto; [lra|lia]. }
  assert (Hgap : forall i, spec_point lin_scale low high n (i + 1) - spec_point lin_scale low high n i = d).
  { intros i. unfold spec_point, spec_level, d. cbn [lin_scale fwd bwd]. rewrite (plus_INR i 1). cbn [INR]. ring. }
  destruct (entry_error (linear_point_of low high n) (spec_point lin_scale low high n j) (spec_point lin_scale low high n (j + 1))
              (spec_point lin_scale low high n (j + 2)) (spec_col low high h k) low high n h scale j k d e) as (v & Ev & Hv & Er); auto.
  - intros i. apply grid_points.
  - rewrite Hgap. lra.
  - replace (j + 2)%nat with (j + 1 + 1)%nat by lia. rewrite Hgap. lra.
  - apply Hpt. lia.
  - apply Hpt. lia.
  - apply Hpt. lia.
  - apply columns_error; auto; [lia|]. fold e. lra.
  - exists v. split; [unfold linear_entry_of; rewrite Ev; cbn [fabs]; rewrite Rabs_pos_eq by lra; reflexivity|]. split; assumption.
Qed.
End Error.

(** ** binary64 *)
Lemma eta64 : 0 <= bpow radix2 (-1075) <= / 2 ^ 100.
Proof.
  split; [apply bpow_ge_0|]. apply Rle_trans with (bpow radix2 (-100)); [apply bpow_le; lia|].
  change (bpow radix2 (-100)) with (/ IZR (Zpower_pos 2 100)). rewrite (pow_IZR 2 100). right. reflexivity.
Qed.
Lemma linear_error64 : forall low high n h scale j k, rnd64 low = low -> rnd64 high = high -> 0 <= low < high -> 1 <= high ->
  INR (n + 1) <= 2 ^ 30 -> INR h <= 2 ^ 30 -> In scale scale_names -> (j < n)%nat -> (k <= h)%nat ->
  let b := high / 2 ^ 47 / ((high - low) / INR (n + 1)) in b <= 1 ->
  exists v, @linear_entry_of binary64 low high n h scale j k = Fin v /\ 0 <= v <= 1 /\
    Rabs (v - spec_bank lin_scale low high n h scale j k) <= b + / 2 ^ 50.
Proof.
  intros low high n h scale j k Hl Hh Hlh H1 Hn Hk' Hs Hj Hk b Hb.
  assert (Hn1 : 1 <= INR (n + 1)) by (replace 1 with (INR 1) by reflexivity; apply le_INR; lia).
  set (d := (high - low) / INR (n + 1)) in *.
  assert (Hd : 0 < d) by (apply Rdiv_lt_0_compat; lra).
  assert (Hbd : high / 2 ^ 47 <= d).
  { unfold b in Hb. pose proof (quot_back (high / 2 ^ 47) d Hd). set (q := high / 2 ^ 47 / d) in *. nra. }
  destruct eta64 as [T0 T1]. set (eta := bpow radix2 (-1075)) in *.
  set (N := Nat.max (n + 1) h).
  assert (HN : 0 <= INR N <= 2 ^ 30) by (split; [apply pos_INR|unfold N; apply Nat.max_case; assumption]).
  assert (Ee : 4 * point_err (/ 2 ^ 53) eta high N + 4 * eta <= high / 2 ^ 47 /\ 4 * point_err (/ 2 ^ 53) eta high N < high / 2 ^ 47).
  { unfold point_err. set (w := (1 + / 2 ^ 53) ^ 4).
    assert (Hw : 1 <= w <= 1 + 5 * / 2 ^ 53) by (unfold w; lra).
    assert (Hm : (INR N + 3) * eta <= (2 ^ 30 + 3) * / 2 ^ 100) by (apply Rmult_le_compat; lra).
    assert (0 <= (INR N + 3) * eta) by (apply Rmult_le_pos; lra).
    set (m := (INR N + 3) * eta) in *.
    assert (W1 : (w - 1) * (3 * high) <= 5 * / 2 ^ 53 * (3 * high)) by (apply Rmult_le_compat_r; lra).
    assert (W2 : w * m <= 2 * ((2 ^ 30 + 3) * / 2 ^ 100)) by (apply Rmult_le_compat; lra).
    lra. }
  destruct (@linear_error binary64 (/ 2 ^ 53) eta rnd64_grid rnd64_accurate low high high n h scale j k Hl Hh ltac:(lra)
              ltac:(rewrite Rabs_pos_eq; lra) ltac:(rewrite Rabs_pos_eq; lra) Hs Hj Hk) as (v & Ev & Hv & Er).
  { fold d N. lra. }
  exists v. split; [exact Ev|]. split; [exact Hv|]. eapply Rle_trans; [exact Er|]. fold d N.
  assert ((4 * point_err (/ 2 ^ 53) eta high N + 4 * eta) / d <= b).
  { unfold b. apply Rmult_le_compat_r; [apply Rlt_le, Rinv_0_lt_compat, Hd|lra]. }
  lra.
Qed.

(** ** bands of two neighbouring numbers *)
Lemma rnd64_bpow : forall k, (-1074 <= k)%Z -> rnd64 (bpow radix2 k) = bpow radix2 k.
Proof.
  intros k Hk. unfold rnd64. apply round_generic; [apply valid_rnd_N|]. apply generic_format_bpow. unfold FLT_exp. lia.
Qed.
Lemma near_one : forall x, 0 <= x <= / 2 ^ 54 -> rnd64 (1 + x) = 1.
Proof.
  intros x [H0 H1]. transitivity (IZR 4503599627370496 * bpow radix2 (1 - 53)).
  - apply rnd64_eval.
    + change (bpow radix2 (1 - 1)) with 1. change (bpow radix2 1) with 2. lra.
    + lia.
    + change (bpow radix2 (53 - 1)) with (IZR 4503599627370496). apply Rabs_lt. lra.
  - change (bpow radix2 (1 - 53)) with (/ IZR 4503599627370496). lra.
Qed.
Lemma narrow_nan : forall n h scale, (7 <= n)%nat -> rnd64 (1 + / 2 ^ 52) = 1 + / 2 ^ 52 /\
  @linear_entry_of binary64 1 (1 + / 2 ^ 52) n h scale 0 0 = NaN.
Proof.
  intros n h scale Hn.
  assert (E52 : / 2 ^ 52 = bpow radix2 (-52)) by (change (bpow radix2 (-52)) with (/ IZR 4503599627370496); lra).
  assert (E55 : / 2 ^ 55 = bpow radix2 (-55)) by (change (bpow radix2 (-55)) with (/ IZR 36028797018963968); lra).
  assert (E54 : / 2 ^ 54 = bpow radix2 (-54)) by (change (bpow radix2 (-54)) with (/ IZR 18014398509481984); lra).
  assert (Hh : rnd64 (1 + / 2 ^ 52) = 1 + / 2 ^ 52).
  { transitivity (IZR 4503599627370497 * bpow radix2 (1 - 53)).
    - apply rnd64_eval.
      + change (bpow radix2 (1 - 1)) with 1. change (bpow radix2 1) with 2. lra.
      + lia.
      + change (bpow radix2 (53 - 1)) with (IZR 4503599627370496). apply Rabs_lt. lra.
    - change (bpow radix2 (1 - 53)) with (/ IZR 4503599627370496). lra. }
  split; [exact Hh|].
  assert (P : forall i, (i <= 2)%nat -> @linear_point_of binary64 1 (1 + / 2 ^ 52) n i = 1).
  { intros i Hi. unfold linear_point_of, scale_point_of. cbn [rnd binary64]. apply near_one.
    replace (1 + / 2 ^ 52 - 1) with (/ 2 ^ 52) by ring.
    rewrite E52 at 1 2. rewrite rnd64_bpow, <- E52 by lia. rewrite Rabs_pos_eq by lra.
    assert (Hn8 : 8 <= INR (n + 1)) by (replace 8 with (INR 8) by (cbn; lra); apply le_INR; lia).
    assert (D : 0 <= / 2 ^ 52 / INR (n + 1) <= / 2 ^ 55) by (split; [apply quot_ge|apply quot_le]; lra).
    assert (Hi2 : 0 <= INR i <= 2) by (split; [apply pos_INR|replace 2 with (INR 2) by reflexivity; apply le_INR; lia]).
    assert (D' : 0 <= rnd64 (/ 2 ^ 52 / INR (n + 1)) <= / 2 ^ 55).
    { split; [apply (@g_pos binary64 rnd64_grid), D|]. rewrite E55, <- (rnd64_bpow (-55)), <- E55 by lia. apply rnd64_monotone, D. }
    set (q := rnd64 (/ 2 ^ 52 / INR (n + 1))) in *. split; [apply (@g_pos binary64 rnd64_grid); nra|].
    rewrite E54, <- (rnd64_bpow (-54)), <- E54 by lia. apply rnd64_monotone. nra. }
  unfold linear_entry_of.
  assert (G : forall k, @rnd binary64 (@linear_point_of binary64 1 (1 + / 2 ^ 52) n k) = @linear_point_of binary64 1 (1 + / 2 ^ 52) n k).
  { intros k. apply (@g_idem binary64 rnd64_grid). }
  destruct (@bank_entry_value binary64 rnd64_grid (@linear_point_of binary64 1 (1 + / 2 ^ 52) n) 1 (1 + / 2 ^ 52) n h scale 0 0) as (_ & K & _).
  - lia.
  - exact Hh.
  - exact G.
  - intros. apply (@point_mono binary64 rnd64_grid). assumption.
  - rewrite K; [reflexivity|]. rewrite !P by lia. split; [|reflexivity].
    unfold linspace_of. cbn [rnd binary64].
    assert (Z : forall x, rnd64 (1 + rnd64 (0 * x)) = 1).
    { intros x. rewrite Rmult_0_l, (@g_0 binary64 rnd64_grid : rnd64 0 = 0). apply near_one. lra. }
    destruct h as [|h]; [apply Z|]. cbn [Nat.eqb]. destruct (Req_EM_T _ 0); [|apply Z].
    unfold Rdiv at 1. cbn [INR]. rewrite Rmult_0_l, (@g_0 binary64 rnd64_grid : rnd64 0 = 0). apply Z.
Qed.
