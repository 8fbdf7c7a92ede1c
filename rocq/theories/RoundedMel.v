(** * Rounding errors of the mel conversions and of the mel filter bank *)
From Coq Require Import Reals ZArith List String Bool Lia Lra Psatz.
From Flocq Require Import Core.
From Verif Require Import Base SpecBase SpecFilters SpecBanks MelBanksFacts Binary64 Rounded SpecRounded RoundedFacts RoundedWindows RoundedBanks RoundedBanksFacts RoundedBanksError.
Import ListNotations.
Local Open Scope R_scope.

Lemma ln10_pos : 0 < ln 10.
Proof. rewrite <- ln_1. apply ln_increasing; lra. Qed.
Lemma log10_mul : forall x, 0 < x -> Rpower 10 (ln x / ln 10) = x.
Proof. intros x Hx. unfold Rpower. pose proof ln10_pos. replace (ln x / ln 10 * ln 10) with (ln x) by (field; lra). apply exp_ln, Hx. Qed.

Section Mel.
Context {E : Env}.
Variables (u v : R) (log10f pow10f : R -> R).
Hypothesis Hg : grid rnd.
Hypothesis Ha : accurate u 0 rnd.
Hypothesis Hu1 : u < 1.
Hypothesis HL : log10_within v log10f.
Hypothesis HP : pow10_within v pow10f.
Hypothesis Hv1 : v <= 1.

Lemma mu : 0 <= u.
Proof. exact (proj1 Ha). Qed.
Lemma mv : 0 <= v.
Proof. exact (proj1 HL). Qed.
Lemma rel : forall x, 0 <= x -> (1 - u) * x <= rnd x <= (1 + u) * x.
Proof. intros x Hx. apply relative_bounds; auto. lra. Qed.

(** the argument of the logarithm *)
Lemma log_arg : forall b f, 0 < b -> 0 <= f -> let x := 1 + f / b in let x1 := rnd (1 + rnd (f / b)) in
  1 <= x1 /\ (1 - u) ^ 2 * x <= x1 <= (1 + u) ^ 2 * x.
Proof.
  intros b f Hb Hf x x1. pose proof mu as Hu. assert (Q : 0 <= f / b) by (apply quot_ge; lra).
  destruct (rel _ Q) as [R1 R2]. assert (P : 0 <= rnd (f / b)) by (apply (g_pos Hg), Q).
  assert (P1 : 0 <= 1 + rnd (f / b)) by lra.
  destruct (rel _ P1) as [R3 R4]. fold x1 in R3, R4. split.
  - unfold x1. rewrite <- (g_1 Hg) at 1. apply (g_mono Hg). lra.
  - set (q := f / b) in *. set (r := rnd q) in *. unfold x. split.
    + apply Rle_trans with ((1 - u) * (1 + r)); [|exact R3]. assert (K : (1 - u) * (1 + q) <= 1 + r) by nra.
      replace ((1 - u) ^ 2 * (1 + q)) with ((1 - u) * ((1 - u) * (1 + q))) by ring. apply Rmult_le_compat_l; lra.
    + apply Rle_trans with ((1 + u) * (1 + r)); [exact R4|]. assert (K : 1 + r <= (1 + u) * (1 + q)) by nra.
      replace ((1 + u) ^ 2 * (1 + q)) with ((1 + u) * ((1 + u) * (1 + q))) by ring. apply Rmult_le_compat_l; lra.
Qed.

(** ** mel2hz after an error in the exponent *)
Lemma pow_error : forall b z0 z dl, 0 < b -> 0 <= z0 -> 0 <= z -> Rabs (z - z0) <= dl ->
  Rabs (rnd (b * rnd (pow10f z - 1)) - b * (Rpower 10 z0 - 1))
  <= ((1 + u) ^ 2 * (1 + v) * exp (dl * ln 10) - 1) * (b * Rpower 10 z0).
Proof.
  intros b z0 z dl Hb H0 Hz Hd. pose proof mu as Hu. pose proof mv as Hv. pose proof ln10_pos as L10.
  pose proof (proj2 HP z Hz) as A. apply Rabs_le_inv in A, Hd.
  set (p := Rpower 10 z0). set (s := exp (dl * ln 10)).
  assert (Pp : 0 < p) by apply exp_pos. assert (P1 : 1 <= p).
  { unfold p, Rpower. rewrite <- exp_0 at 1. destruct (Rle_lt_or_eq_dec 0 z0 H0) as [K|K]; [apply Rlt_le, exp_increasing; nra|rewrite <- K, Rmult_0_l; lra]. }
  assert (Hs : 1 <= s).
  { unfold s. assert (0 <= dl * ln 10) by nra. pose proof (exp_ineq1_le (dl * ln 10)). lra. }
  assert (Mx : forall x y, x <= y -> exp x <= exp y).
  { intros x y [K|K]; [apply Rlt_le, exp_increasing, K|rewrite K; lra]. }
  assert (U : Rpower 10 z <= p * s).
  { unfold p, s, Rpower. rewrite <- exp_plus. apply Mx. nra. }
  assert (D : p * / s <= Rpower 10 z).
  { unfold p, s, Rpower. rewrite <- exp_Ropp, <- exp_plus. apply Mx. nra. }
  assert (Is : 0 < / s) by (apply Rinv_0_lt_compat; lra). assert (Ss : s * / s = 1) by (apply Rinv_r; lra).
  assert (I2 : 2 - s <= / s) by nra.
  set (X := pow10f z) in *. set (Z := Rpower 10 z) in *.
  assert (X1 : X <= (1 + v) * (p * s)) by nra.
  assert (X2 : (1 - v) * (p * / s) <= X) by nra.
  set (r := (1 + v) * s - 1).
  assert (Hr : 0 <= r) by (unfold r; nra).
  assert (X3 : Rabs (X - p) <= r * p).
  { apply Rabs_le. split; [|unfold r; nra].
    assert (K : 1 - r <= (1 - v) * / s) by (unfold r; nra). nra. }
  apply Rabs_le_inv in X3.
  pose proof (proj2 (proj2 Ha) (X - 1)) as A1. rewrite Rplus_0_r in A1.
  pose proof (proj2 (proj2 Ha) (b * rnd (X - 1))) as A2. rewrite Rplus_0_r, Rabs_mult, (Rabs_pos_eq b) in A2 by lra.
  set (w := rnd (X - 1)) in *.
  assert (W : Rabs (X - 1) <= p - 1 + r * p) by (apply Rabs_le; lra).
  set (aw := Rabs (X - 1)) in *. assert (Haw : 0 <= aw) by apply Rabs_pos.
  assert (Ww : Rabs w <= (1 + u) * aw).
  { replace w with ((w - (X - 1)) + (X - 1)) by ring. eapply Rle_trans; [apply Rabs_triang|]. fold aw. lra. }
  assert (T : Rabs (rnd (b * w) - b * (X - 1)) <= ((1 + u) ^ 2 - 1) * (b * aw)).
  { replace (rnd (b * w) - b * (X - 1)) with ((rnd (b * w) - b * w) + b * (w - (X - 1))) by ring.
    eapply Rle_trans; [apply Rabs_triang|]. rewrite (Rabs_mult b), (Rabs_pos_eq b) by lra.
    assert (u * (b * Rabs w) <= u * (b * ((1 + u) * aw))) by (apply Rmult_le_compat_l; [lra|]; apply Rmult_le_compat_l; lra).
    assert (b * Rabs (w - (X - 1)) <= b * (u * aw)) by (apply Rmult_le_compat_l; lra). nra. }
  apply Rabs_le_inv in T.
  assert (B1 : b * aw <= b * (p - 1 + r * p)) by (apply Rmult_le_compat_l; lra).
  assert (B2 : Rabs (b * (X - p)) <= b * (r * p)).
  { rewrite Rabs_mult, (Rabs_pos_eq b) by lra. apply Rmult_le_compat_l; [lra|]. apply Rabs_le. lra. }
  apply Rabs_le_inv in B2.
  assert (C2 : 0 <= (1 + u) ^ 2 - 1) by nra.
  set (g := (1 + u) ^ 2) in *.
  assert (T2 : (g - 1) * (b * aw) <= (g - 1) * (b * (p - 1 + r * p))) by (apply Rmult_le_compat_l; assumption).
  assert (F : (g - 1) * (b * (p - 1 + r * p)) + b * (r * p) <= (g * (1 + v) * s - 1) * (b * p)).
  { replace ((g * (1 + v) * s - 1) * (b * p)) with ((g * (1 + r) - 1) * (b * p)) by (unfold r; ring).
    assert (0 <= (g - 1) * b) by (apply Rmult_le_pos; lra). nra. }
  apply Rabs_le. replace (rnd (b * w) - b * (p - 1)) with ((rnd (b * w) - b * (X - 1)) + b * (X - p)) by ring. lra.
Qed.

(** ** the round trip *)
Lemma roundtrip_error : forall a b f, 0 < a -> 0 < b -> 0 <= f ->
  let t := (1 + v) * (1 + u) ^ 2 - 1 in
  Rabs (mel2hz_of pow10f a b (hz2mel_of log10f a b f) - f)
  <= ((1 + u) ^ 4 * (1 + v) * exp (t * ln ((1 + u) ^ 2 * (1 + f / b))) - 1) * (b + f).
Proof.
  intros a b f Hapos Hb Hf t. pose proof mu as Hu. pose proof mv as Hv. pose proof ln10_pos as L10.
  destruct (log_arg b f Hb Hf) as (X1 & X2 & X3). set (x := 1 + f / b) in *. set (x1 := rnd (1 + rnd (f / b))) in *.
  assert (Lx : 0 <= ln x1).
  { rewrite <- ln_1. destruct X1 as [X1|X1]; [apply Rlt_le, ln_increasing; lra|rewrite <- X1; lra]. }
  set (lam := ln x1 / ln 10).
  assert (Hlam : 0 <= lam) by (apply quot_ge; lra).
  pose proof (proj2 HL x1 X1) as A. fold lam in A. apply Rabs_le_inv in A. set (y := log10f x1) in *.
  assert (Hy : 0 <= y) by nra.
  destruct (rel (a * y) ltac:(nra)) as [R1 R2].
  assert (Hm : 0 <= hz2mel_of log10f a b f) by (unfold hz2mel_of; apply (g_pos Hg); fold x1; fold y; nra).
  unfold mel2hz_of, hz2mel_of in *. fold x1 y in Hm |- *. set (m := rnd (a * y)) in *.
  assert (Qm : 0 <= m / a) by (apply quot_ge; lra).
  destruct (rel (m / a) Qm) as [R3 R4]. set (z := rnd (m / a)) in *. pose proof (quot_back m a Hapos) as Bm. set (q := m / a) in *.
  assert (Hz : 0 <= z) by (apply (g_pos Hg), Qm).
  assert (Q1 : (1 - u) * y <= q) by (apply Rmult_le_reg_r with a; [exact Hapos|]; nra).
  assert (Q2 : q <= (1 + u) * y) by (apply Rmult_le_reg_r with a; [exact Hapos|]; nra).
  assert (Z1 : (1 - u) ^ 2 * y <= z) by nra.
  assert (Z2 : z <= (1 + u) ^ 2 * y) by nra.
  assert (Dz : Rabs (z - lam) <= t * lam).
  { apply Rabs_le. unfold t. split.
    - assert ((1 - u) ^ 2 * ((1 - v) * lam) <= z).
      { apply Rle_trans with ((1 - u) ^ 2 * y); [|exact Z1]. apply Rmult_le_compat_l; [nra|lra]. }
      assert (K : 2 - (1 + v) * (1 + u) ^ 2 <= (1 - u) ^ 2 * (1 - v)) by nra. nra.
    - assert (z <= (1 + u) ^ 2 * ((1 + v) * lam)).
      { apply Rle_trans with ((1 + u) ^ 2 * y); [exact Z2|]. apply Rmult_le_compat_l; [nra|lra]. }
      lra. }
  pose proof (pow_error b lam z (t * lam) Hb Hlam Hz Dz) as K. fold lam in K. unfold lam in K.
  rewrite (log10_mul x1) in K by lra. fold lam in K.
  replace (t * lam * ln 10) with (t * ln x1) in K by (unfold lam; field; lra).
  assert (Ht : 0 <= t) by (unfold t; nra).
  assert (Ls : ln x1 <= ln ((1 + u) ^ 2 * x)).
  { destruct X3 as [X3|X3]; [apply Rlt_le, ln_increasing; lra|rewrite X3; lra]. }
  assert (Se : exp (t * ln x1) <= exp (t * ln ((1 + u) ^ 2 * x))).
  { assert (K1 : t * ln x1 <= t * ln ((1 + u) ^ 2 * x)) by (apply Rmult_le_compat_l; assumption).
    destruct K1 as [K1|K1]; [apply Rlt_le, exp_increasing, K1|rewrite K1; lra]. }
  set (s := exp (t * ln ((1 + u) ^ 2 * x))) in *. set (s1 := exp (t * ln x1)) in *.
  assert (S1 : 1 <= s1) by (unfold s1; pose proof (exp_ineq1_le (t * ln x1)); assert (0 <= t * ln x1) by nra; lra).
  apply Rabs_le_inv in K.
  assert (Bx : b * x = b + f) by (unfold x; field; lra).
  set (g := (1 + u) ^ 2) in *. assert (G1 : 1 <= g) by (unfold g; nra).
  assert (G2 : 2 - g <= (1 - u) ^ 2) by (unfold g; nra).
  assert (P1 : Rabs (b * (x1 - 1) - f) <= (g - 1) * (b + f)).
  { apply Rabs_le. rewrite <- Bx. replace f with (b * x - b) at 1 2 by lra. nra. }
  apply Rabs_le_inv in P1.
  assert (P2 : (g * (1 + v) * s1 - 1) * (b * x1) <= (g * (1 + v) * s - 1) * (g * (b + f))).
  { assert (W1 : g <= g * (1 + v)) by nra. assert (W2 : g * (1 + v) <= g * (1 + v) * s1) by nra.
    assert (W3 : g * (1 + v) * s1 <= g * (1 + v) * s) by nra.
    apply Rmult_le_compat; [lra|nra|lra|]. rewrite <- Bx. nra. }
  replace ((1 + u) ^ 4) with (g * g) by (unfold g; ring).
  assert (F : (g - 1) * (b + f) + (g * (1 + v) * s - 1) * (g * (b + f)) <= (g * g * (1 + v) * s - 1) * (b + f)) by nra.
  apply Rabs_le. lra.
Qed.

(** ** the points of the mel bank *)
Definition mel_scale (a b : R) : fscale :=
  mkScale (fun f => a * (ln (1 + f / b) / ln 10)) (fun m => b * (Rpower 10 (m / a) - 1)).
(** error of log10 (1 + f/b) caused by the rounding of its argument *)
Definition kap : R := - (2 * ln (1 - u)) / ln 10.
(** error of hz2mel, of a level, of the exponent; all divided by a; [lam] is log10 (1 + f/b) *)
Definition hz_err (lam : R) : R := kap + ((1 + u) * (1 + v) - 1) * (lam + kap).
Definition level_err (lam : R) : R := ((1 + u) ^ 4 - 1) * (3 * (lam + hz_err lam)) + hz_err lam.
Definition expo_err (lam : R) : R := u * (lam + level_err lam) + level_err lam.

Lemma kap_nonneg : 0 <= kap.
Proof.
  pose proof mu. pose proof ln10_pos. unfold kap. apply quot_ge; [assumption|]. rewrite Rmult_0_l.
  assert (ln (1 - u) <= 0) by (rewrite <- ln_1; destruct (Req_dec u 0) as [->|]; [rewrite Rminus_0_r; lra|apply Rlt_le, ln_increasing; lra]). lra.
Qed.
Lemma log10_mono : forall x y, 0 < x -> x <= y -> ln x / ln 10 <= ln y / ln 10.
Proof.
  intros x y Hx Hy. pose proof ln10_pos. apply Rmult_le_compat_r; [apply Rlt_le, Rinv_0_lt_compat; assumption|].
  destruct Hy as [Hy|Hy]; [apply Rlt_le, ln_increasing; lra|rewrite Hy; lra].
Qed.
Lemma log10_nonneg : forall x, 1 <= x -> 0 <= ln x / ln 10.
Proof. intros x Hx. pose proof (log10_mono 1 x ltac:(lra) Hx) as K. rewrite ln_1 in K. unfold Rdiv in K at 1. lra. Qed.
Lemma log10_times : forall x y, 0 < x -> 0 < y -> ln (x * y) / ln 10 = ln x / ln 10 + ln y / ln 10.
Proof. intros x y Hx Hy. rewrite ln_mult by assumption. pose proof ln10_pos. field. lra. Qed.

Lemma log_arg_error : forall b f, 0 < b -> 0 <= f ->
  Rabs (ln (rnd (1 + rnd (f / b))) / ln 10 - ln (1 + f / b) / ln 10) <= kap.
Proof.
  intros b f Hb Hf. pose proof mu as Hu. pose proof ln10_pos as L10.
  destruct (log_arg b f Hb Hf) as (X1 & X2 & X3).
  assert (Q : 0 <= f / b) by (apply quot_ge; lra). set (x := 1 + f / b) in *. set (x1 := rnd (1 + rnd (f / b))) in *.
  assert (Hx : 1 <= x) by (unfold x; lra).
  assert (K1 : ln ((1 - u) ^ 2) / ln 10 = - kap).
  { unfold kap. cbn [pow]. rewrite Rmult_1_r, ln_mult by lra. field. lra. }
  assert (P : 0 < (1 - u) ^ 2) by (apply pow_lt; lra).
  assert (D : ln x / ln 10 - kap <= ln x1 / ln 10).
  { pose proof (log10_mono ((1 - u) ^ 2 * x) x1 ltac:(apply Rmult_lt_0_compat; lra) X2) as M.
    rewrite log10_times, K1 in M by lra. lra. }
  assert (X4 : (1 - u) ^ 2 * x1 <= x).
  { assert ((1 - u) ^ 2 * (1 + u) ^ 2 <= 1).
    { replace ((1 - u) ^ 2 * (1 + u) ^ 2) with ((1 - u * u) * (1 - u * u)) by ring. assert (0 <= u * u <= 1) by nra. nra. }
    assert ((1 - u) ^ 2 * x1 <= (1 - u) ^ 2 * ((1 + u) ^ 2 * x)) by (apply Rmult_le_compat_l; lra). nra. }
  assert (U : ln x1 / ln 10 - kap <= ln x / ln 10).
  { pose proof (log10_mono ((1 - u) ^ 2 * x1) x ltac:(apply Rmult_lt_0_compat; lra) X4) as M.
    rewrite log10_times, K1 in M by lra. lra. }
  apply Rabs_le. lra.
Qed.

Lemma hz2mel_error : forall a b f, 0 < a -> 0 < b -> 0 <= f ->
  let lam := ln (1 + f / b) / ln 10 in
  0 <= hz2mel_of log10f a b f /\ Rabs (hz2mel_of log10f a b f - a * lam) <= a * hz_err lam.
Proof.
  intros a b f Hapos Hb Hf lam. pose proof mu as Hu. pose proof mv as Hv. pose proof kap_nonneg as Hk.
  destruct (log_arg b f Hb Hf) as (X1 & _ & _). pose proof (log_arg_error b f Hb Hf) as Le. fold lam in Le.
  set (x1 := rnd (1 + rnd (f / b))) in *. pose proof (log10_nonneg x1 X1) as Hl.
  pose proof (proj2 HL x1 X1) as A. set (lam1 := ln x1 / ln 10) in *. apply Rabs_le_inv in A, Le.
  unfold hz2mel_of. fold x1. set (y := log10f x1) in *. assert (Hy : 0 <= y) by nra.
  destruct (rel (a * y) ltac:(nra)) as [R1 R2]. split; [apply (g_pos Hg); nra|].
  assert (Y1 : (1 - u) * (1 - v) * lam1 <= rnd (a * y) / a).
  { apply quot_ge; [exact Hapos|]. apply Rle_trans with ((1 - u) * (a * y)); [|exact R1].
    replace ((1 - u) * (1 - v) * lam1 * a) with ((1 - u) * (a * ((1 - v) * lam1))) by ring.
    apply Rmult_le_compat_l; [lra|]. apply Rmult_le_compat_l; lra. }
  assert (Y2 : rnd (a * y) / a <= (1 + u) * (1 + v) * lam1).
  { apply quot_le; [exact Hapos|]. apply Rle_trans with ((1 + u) * (a * y)); [exact R2|].
    replace ((1 + u) * (1 + v) * lam1 * a) with ((1 + u) * (a * ((1 + v) * lam1))) by ring.
    apply Rmult_le_compat_l; [lra|]. apply Rmult_le_compat_l; lra. }
  pose proof (quot_back (rnd (a * y)) a Hapos) as B. set (m := rnd (a * y) / a) in *. rewrite <- B.
  replace (m * a - a * lam) with (a * (m - lam)) by ring. rewrite Rabs_mult, (Rabs_pos_eq a) by lra. apply Rmult_le_compat_l; [lra|].
  unfold hz_err. set (c := (1 + u) * (1 + v) - 1). assert (Hc : 0 <= c) by (unfold c; nra).
  assert (C2 : 1 - c <= (1 - u) * (1 - v)) by (unfold c; nra).
  assert (c * lam1 <= c * (lam + kap)) by (apply Rmult_le_compat_l; lra).
  apply Rabs_le. split.
  - assert ((1 - c) * lam1 <= m) by nra. lra.
  - assert (m <= (1 + c) * lam1) by (unfold c; lra). lra.
Qed.

Lemma hz_err_mono : forall x y, x <= y -> hz_err x <= hz_err y.
Proof. intros x y H. pose proof mu. pose proof mv. unfold hz_err. assert (0 <= (1 + u) * (1 + v) - 1) by nra. nra. Qed.

Hypothesis Hmono : forall x y, 1 <= x -> x <= y -> log10f x <= log10f y.
Lemma hz2mel_mono : forall a b f g, 0 < a -> 0 < b -> 0 <= f -> f <= g -> hz2mel_of log10f a b f <= hz2mel_of log10f a b g.
Proof.
  intros a b f g Hapos Hb Hf Hfg. unfold hz2mel_of. apply (g_mono Hg), Rmult_le_compat_l; [lra|].
  destruct (log_arg b f Hb Hf) as (X1 & _). apply Hmono; [exact X1|]. apply (g_mono Hg), Rplus_le_compat_l, (g_mono Hg).
  apply Rmult_le_compat_r; [apply Rlt_le, Rinv_0_lt_compat, Hb|exact Hfg].
Qed.

Lemma level_error : forall a b low high n k, 0 < a -> 0 < b -> 0 <= low -> low <= high -> (k <= n + 1)%nat ->
  let lam := ln (1 + high / b) / ln 10 in
  let m := scale_point_of (hz2mel_of log10f a b low) (hz2mel_of log10f a b high) n k in
  0 <= m /\ Rabs (m - spec_level (mel_scale a b) low high n k) <= a * level_err lam /\
  0 <= spec_level (mel_scale a b) low high n k <= a * lam.
Proof.
  intros a b low high n k Hapos Hb Hl Hh Hk lam m. pose proof mu as Hu. pose proof mv as Hv.
  destruct (hz2mel_error a b low Hapos Hb Hl) as [N1 E1]. destruct (hz2mel_error a b high Hapos Hb ltac:(lra)) as [N2 E2].
  cbv zeta in E1, E2. fold lam in E2. pose proof (hz2mel_mono a b low high Hapos Hb Hl Hh) as Mo.
  set (lo := hz2mel_of log10f a b low) in *. set (hi := hz2mel_of log10f a b high) in *.
  assert (Q : 0 <= low / b) by (apply quot_ge; lra).
  assert (Q2 : low / b <= high / b) by (apply Rmult_le_compat_r; [apply Rlt_le, Rinv_0_lt_compat, Hb|exact Hh]).
  pose proof (log10_nonneg (1 + low / b) ltac:(lra)) as L0. pose proof (log10_mono (1 + low / b) (1 + high / b) ltac:(lra) ltac:(lra)) as L1.
  fold lam in L1. set (lam0 := ln (1 + low / b) / ln 10) in *.
  pose proof (hz_err_mono lam0 lam L1) as Em.
  assert (E1' : Rabs (lo - a * lam0) <= a * hz_err lam) by (eapply Rle_trans; [exact E1|apply Rmult_le_compat_l; lra]).
  apply Rabs_le_inv in E1', E2.
  assert (Hn : 0 < INR (n + 1)) by (apply lt_0_INR; lia).
  assert (Kn : 0 <= INR k / INR (n + 1) <= 1).
  { apply le_INR in Hk. pose proof (pos_INR k). split; [apply quot_ge|apply quot_le]; lra. }
  set (h := hz_err lam) in *.
  assert (Hi : hi <= a * (lam + h)) by lra.
  pose proof (scale_point_error u 0 Hg Ha lo hi (a * (lam + h)) (n + 1) n k Mo ltac:(rewrite Rabs_pos_eq; lra) ltac:(rewrite Rabs_pos_eq; lra) Hk ltac:(lia)) as S.
  fold m in S. unfold point_err in S. rewrite !Rmult_0_r, Rplus_0_r in S. apply Rabs_le_inv in S.
  assert (Cv : forall x y, x + INR k * ((y - x) / INR (n + 1)) = (1 - INR k / INR (n + 1)) * x + INR k / INR (n + 1) * y).
  { intros x y. field. lra. }
  rewrite Cv in S. unfold spec_level. cbn [mel_scale fwd]. fold lam lam0. rewrite Cv. set (q := INR k / INR (n + 1)) in *.
  split; [|split].
  - unfold m, scale_point_of. apply (g_pos Hg), Rplus_le_le_0_compat; [exact N1|]. apply (g_pos Hg), Rmult_le_pos; [|apply pos_INR].
    apply (g_pos Hg). apply quot_ge; [exact Hn|]. rewrite Rmult_0_l. apply Rabs_pos.
  - unfold level_err. fold h.
    assert (D1 : (1 - q) * (lo - a * lam0) <= (1 - q) * (a * h)) by (apply Rmult_le_compat_l; lra).
    assert (D2 : q * (hi - a * lam) <= q * (a * h)) by (apply Rmult_le_compat_l; lra).
    assert (D3 : (1 - q) * (- (a * h)) <= (1 - q) * (lo - a * lam0)) by (apply Rmult_le_compat_l; lra).
    assert (D4 : q * (- (a * h)) <= q * (hi - a * lam)) by (apply Rmult_le_compat_l; lra).
    apply Rabs_le. split; nra.
  - assert (0 <= a * lam0 <= a * lam) by (split; [apply Rmult_le_pos; lra|apply Rmult_le_compat_l; lra]). split; nra.
Qed.

Lemma mel_point_error : forall a b low high n k, 0 < a -> 0 < b -> 0 <= low -> low <= high -> (k <= n + 1)%nat ->
  let lam := ln (1 + high / b) / ln 10 in
  Rabs (mel_point_of log10f pow10f a b low high n k - spec_point (mel_scale a b) low high n k)
  <= ((1 + u) ^ 2 * (1 + v) * exp (expo_err lam * ln 10) - 1) * (b + high).
Proof.
  intros a b low high n k Hapos Hb Hl Hh Hk lam. pose proof mu as Hu. pose proof mv as Hv. pose proof ln10_pos as L10.
  destruct (level_error a b low high n k Hapos Hb Hl Hh Hk) as (M0 & M1 & M2). cbv zeta in M1, M2. fold lam in M1, M2.
  unfold mel_point_of, spec_point. cbn [mel_scale bwd]. set (m := scale_point_of _ _ n k) in *. set (s := spec_level _ low high n k) in *.
  apply Rabs_le_inv in M1.
  assert (Z0 : 0 <= s / a <= lam) by (split; [apply quot_ge|apply quot_le]; lra).
  assert (Qm : 0 <= m / a) by (apply quot_ge; lra).
  destruct (rel (m / a) Qm) as [R1 R2].
  assert (Dm : Rabs (m / a - s / a) <= level_err lam).
  { apply Rabs_le. replace (m / a - s / a) with ((m - s) / a) by (field; lra). split; [apply quot_ge|apply quot_le]; lra. }
  apply Rabs_le_inv in Dm.
  assert (Dz : Rabs (rnd (m / a) - s / a) <= expo_err lam).
  { unfold expo_err. set (q := m / a) in *. assert (u * q <= u * (lam + level_err lam)) by (apply Rmult_le_compat_l; lra). apply Rabs_le. lra. }
  pose proof (pow_error b (s / a) (rnd (m / a)) _ Hb (proj1 Z0) (g_pos Hg _ Qm) Dz) as K.
  unfold mel2hz_of. eapply Rle_trans; [exact K|]. apply Rmult_le_compat_l.
  - assert (0 <= expo_err lam * ln 10) by (apply Rmult_le_pos; [eapply Rle_trans; [apply Rabs_pos|exact Dz]|lra]).
    pose proof (exp_ineq1_le (expo_err lam * ln 10)). set (w := exp _) in *. assert (1 <= (1 + u) ^ 2) by nra.
    assert (1 <= (1 + u) ^ 2 * (1 + v)) by nra. nra.
  - assert (P : Rpower 10 (s / a) <= 1 + high / b).
    { assert (Hx : 0 < 1 + high / b) by (assert (0 <= high / b) by (apply quot_ge; lra); lra).
      rewrite <- (log10_mul (1 + high / b) Hx). fold lam. unfold Rpower.
      destruct (proj2 Z0) as [K1|K1]; [apply Rlt_le, exp_increasing; nra|rewrite K1; lra]. }
    replace (b + high) with (b * (1 + high / b)) by (field; lra). apply Rmult_le_compat_l; lra.
Qed.
End Mel.

(** ** numbers: 53 bits, library functions within 8 units of rounding, frequencies up to 100 kHz *)
Lemma exp_small : forall x, 0 <= x <= / 1000 -> exp x <= 1 + 1.01 * x.
Proof.
  intros x Hx. pose proof (exp_ineq1_le (- x)) as K. rewrite exp_Ropp in K. pose proof (exp_pos x) as P.
  assert (exp x * (1 + - x) <= 1).
  { apply Rle_trans with (exp x * / exp x); [apply Rmult_le_compat_l; lra|]. rewrite Rinv_r; lra. }
  nra.
Qed.
Lemma ln10_le3 : 2 <= ln 10 <= 3.
Proof.
  split.
  - rewrite <- (ln_exp 2). apply Rlt_le, ln_increasing; [apply exp_pos|].
    replace 2 with (1 + 1) by ring. rewrite exp_plus. pose proof exp_le_3. pose proof (exp_pos 1). nra.
  - rewrite <- (ln_exp 3). apply Rlt_le, ln_increasing; [lra|].
    replace 3 with (/ 2 + / 2 + (/ 2 + / 2) + (/ 2 + / 2)) by lra. rewrite !exp_plus.
    assert (K : / 2 <> 0) by lra. pose proof (exp_ineq1 (/ 2) K). set (w := exp (/ 2)) in *.
    assert (9 / 4 < w * w) by nra. set (q := w * w) in *. assert (81 / 16 < q * q) by nra. nra.
Qed.
Lemma lam_le3 : forall b f, 625 <= b -> 0 <= f <= 100000 -> 0 <= ln (1 + f / b) / ln 10 <= 3.
Proof.
  intros b f Hb Hf. assert (Q : 0 <= f / b <= 999) by (split; [apply quot_ge|apply quot_le]; lra).
  split; [apply log10_nonneg; lra|]. eapply Rle_trans; [apply (log10_mono (1 + f / b) (10 * (10 * 10))); lra|].
  rewrite !ln_mult by lra. pose proof ln10_pos. right. field. lra.
Qed.

Section Numbers.
Context {E : Env}.
Variables (log10f pow10f : R -> R).
Hypothesis Hg : grid rnd.
Hypothesis Ha : accurate (/ 2 ^ 53) 0 rnd.
Hypothesis HL : log10_within (/ 2 ^ 50) log10f.
Hypothesis HP : pow10_within (/ 2 ^ 50) pow10f.

Lemma roundtrip_numbers : forall a b f, 0 < a -> 625 <= b -> 0 <= f <= 100000 ->
  Rabs (mel2hz_of pow10f a b (hz2mel_of log10f a b f) - f) <= (b + f) / 2 ^ 46.
Proof.
  intros a b f Hapos Hb Hf.
  pose proof (roundtrip_error (/ 2 ^ 53) (/ 2 ^ 50) log10f pow10f Hg Ha ltac:(lra) HL HP ltac:(lra) a b f Hapos ltac:(lra) ltac:(lra)) as K.
  cbv zeta in K. eapply Rle_trans; [exact K|].
  replace ((b + f) / 2 ^ 46) with (/ 2 ^ 46 * (b + f)) by (unfold Rdiv; ring). apply Rmult_le_compat_r; [lra|].
  set (t := (1 + / 2 ^ 50) * (1 + / 2 ^ 53) ^ 2 - 1). assert (Ht : 0 <= t <= 11 * / 2 ^ 53) by (unfold t; lra).
  assert (Q : 0 <= f / b <= 200) by (split; [apply quot_ge|apply quot_le]; lra).
  set (x := (1 + / 2 ^ 53) ^ 2 * (1 + f / b)). assert (Hx : 1 <= x <= 10 * (10 * 10)) by (unfold x; split; nra).
  assert (L : 0 <= ln x <= 9).
  { split; [rewrite <- ln_1; destruct (proj1 Hx) as [Z|Z]; [apply Rlt_le, ln_increasing; lra|rewrite <- Z; lra]|].
    apply Rle_trans with (ln (10 * (10 * 10))); [destruct (proj2 Hx) as [Z|Z]; [apply Rlt_le, ln_increasing; lra|rewrite Z; lra]|].
    rewrite !ln_mult by lra. pose proof ln10_le3. lra. }
  assert (T : 0 <= t * ln x <= 99 * / 2 ^ 53) by nra.
  pose proof (exp_small (t * ln x) ltac:(lra)) as X. pose proof (exp_pos (t * ln x)). set (w := exp (t * ln x)) in *.
  assert (W : w <= 1 + 100 * / 2 ^ 53) by lra.
  set (c := (1 + / 2 ^ 53) ^ 4 * (1 + / 2 ^ 50)). assert (C : 1 <= c <= 1 + 13 * / 2 ^ 53) by (unfold c; lra).
  assert (c * w <= (1 + 13 * / 2 ^ 53) * (1 + 100 * / 2 ^ 53)) by (apply Rmult_le_compat; lra). lra.
Qed.

Hypothesis Hmono : forall x y, 1 <= x -> x <= y -> log10f x <= log10f y.
Lemma mel_point_numbers : forall a b low high n k, 0 < a -> 625 <= b -> 0 <= low -> low <= high -> high <= 100000 -> (k <= n + 1)%nat ->
  Rabs (mel_point_of log10f pow10f a b low high n k - spec_point (mel_scale a b) low high n k) <= (b + high) / 2 ^ 45.
Proof.
  intros a b low high n k Hapos Hb Hl Hlh Hh Hk.
  pose proof (mel_point_error (/ 2 ^ 53) (/ 2 ^ 50) log10f pow10f Hg Ha ltac:(lra) HL HP ltac:(lra) Hmono a b low high n k Hapos ltac:(lra) Hl Hlh Hk) as K.
  cbv zeta in K. eapply Rle_trans; [exact K|].
  replace ((b + high) / 2 ^ 45) with (/ 2 ^ 45 * (b + high)) by (unfold Rdiv; ring). apply Rmult_le_compat_r; [lra|].
  pose proof (lam_le3 b high Hb ltac:(lra)) as Lam. set (lam := ln (1 + high / b) / ln 10) in *.
  pose proof ln10_le3 as L10. set (u := / 2 ^ 53) in *. assert (Hu : u = / 9007199254740992) by (unfold u; lra).
  assert (Hk2 : 0 <= kap u <= 1.01 * u).
  { split; [apply (kap_nonneg u Ha); lra|]. unfold kap. apply quot_le; [lra|].
    assert (Ln : - ln (1 - u) <= 1.005 * u).
    { rewrite <- ln_Rinv by lra. rewrite <- (ln_exp (1.005 * u)).
      assert (Z : / (1 - u) <= exp (1.005 * u)).
      { apply Rle_trans with (1 + 1.005 * u); [|apply exp_ineq1_le]. apply Rmult_le_reg_l with (1 - u); [lra|]. rewrite Rinv_r by lra. nra. }
      assert (0 < / (1 - u)) by (apply Rinv_0_lt_compat; lra).
      destruct Z as [Z|Z]; [apply Rlt_le, ln_increasing; lra|rewrite Z; lra]. }
    nra. }
  assert (Hz : 0 <= hz_err u (/ 2 ^ 50) lam <= 29 * u).
  { unfold hz_err. set (c := (1 + u) * (1 + / 2 ^ 50) - 1). assert (C : 0 <= c <= 9.01 * u) by (unfold c; rewrite Hu; lra).
    set (kp := kap u) in *. assert (0 <= c * (lam + kp) <= 9.01 * u * 3.01) by (split; [apply Rmult_le_pos; lra|apply Rmult_le_compat; lra]). lra. }
  assert (He : 0 <= level_err u (/ 2 ^ 50) lam <= 66 * u).
  { unfold level_err. set (hz := hz_err _ _ _) in *. set (c := (1 + u) ^ 4 - 1). assert (C : 0 <= c <= 4.01 * u) by (unfold c; rewrite Hu; lra).
    assert (0 <= c * (3 * (lam + hz)) <= 4.01 * u * 9.1) by (split; [apply Rmult_le_pos; lra|apply Rmult_le_compat; lra]). lra. }
  assert (Hx : 0 <= expo_err u (/ 2 ^ 50) lam <= 70 * u).
  { unfold expo_err. set (le := level_err _ _ _) in *. assert (0 <= u * (lam + le) <= u * 3.01) by (split; [apply Rmult_le_pos; lra|apply Rmult_le_compat_l; lra]). lra. }
  set (x := expo_err _ _ _) in *. assert (T : 0 <= x * ln 10 <= 70 * u * 3) by (split; [apply Rmult_le_pos; lra|apply Rmult_le_compat; lra]).
  pose proof (exp_small (x * ln 10) ltac:(lra)) as X. pose proof (exp_pos (x * ln 10)). set (w := exp (x * ln 10)) in *.
  assert (W : w <= 1 + 214 * u) by lra.
  set (c := (1 + u) ^ 2 * (1 + / 2 ^ 50)). assert (C : 1 <= c <= 1 + 11 * u) by (unfold c; rewrite Hu; lra).
  assert (c * w <= (1 + 11 * u) * (1 + 214 * u)) by (apply Rmult_le_compat; lra).
  assert ((1 + 11 * u) * (1 + 214 * u) <= 1 + 226 * u) by (rewrite Hu; lra). lra.
Qed.

Lemma mel_numbers : forall a b low high n h scale j k d, 0 < a -> 625 <= b -> rnd low = low -> rnd high = high ->
  0 <= low -> low < high -> high <= 100000 -> In scale scale_names -> (j < n)%nat -> (k <= h)%nat ->
  (forall i, (i <= n)%nat -> d <= spec_point (mel_scale a b) low high n (i + 1) - spec_point (mel_scale a b) low high n i) ->
  d <= high - low ->
  let e := (b + high) / 2 ^ 45 in 4 * e < d ->
  exists v, mel_entry_of log10f pow10f a b low high n h scale j k = Fin v /\ 0 <= v <= 1 /\
    Rabs (v - spec_bank (mel_scale a b) low high n h scale j k) <= 4 * e / d + 5 / 2 ^ 53.
Proof.
  intros a b low high n h scale j k d Hapos Hb Hl Hh H0 Hlh H5 Hs Hj Hk Hgap Hdw e H4.
  assert (Hd : 0 < d) by (unfold e in H4; lra).
  destruct (entry_error (/ 2 ^ 53) 0 Hg Ha (mel_point_of log10f pow10f a b low high n) (spec_point (mel_scale a b) low high n j)
     (spec_point (mel_scale a b) low high n (j + 1)) (spec_point (mel_scale a b) low high n (j + 2)) (spec_col low high h k)
     low high n h scale j k d e) as (v & Ev & Hv & Er); auto.
  - intros i. apply (g_idem Hg).
  - apply Hgap. lia.
  - replace (j + 2)%nat with (j + 1 + 1)%nat by lia. apply Hgap. lia.
  - apply mel_point_numbers; auto; try lra; lia.
  - apply mel_point_numbers; auto; try lra; lia.
  - apply mel_point_numbers; auto; try lra; lia.
  - assert (P : point_err (/ 2 ^ 53) 0 high h <= e).
    { unfold point_err, e. rewrite !Rmult_0_r, Rplus_0_r. set (c := (1 + / 2 ^ 53) ^ 4 - 1). assert (0 <= c <= 5 * / 2 ^ 53) by (unfold c; lra).
      assert (c * (3 * high) <= 5 * / 2 ^ 53 * (3 * high)) by (apply Rmult_le_compat_r; lra). lra. }
    eapply Rle_trans; [apply (columns_error (/ 2 ^ 53) 0 Hg Ha low high high h h k)|exact P]; auto; try lra; rewrite Rabs_pos_eq; lra.
  - exists v. split; [exact Ev|]. split; [exact Hv|]. unfold spec_bank. eapply Rle_trans; [exact Er|].
    replace ((4 * e + 4 * 0) / d) with (4 * e / d) by (f_equal; ring). lra.
Qed.
End Numbers.

(** ** frequencies that disappear *)
Lemma tiny_lost : forall log10f pow10f a b f, log10f 1 = 0 -> pow10f 0 = 1 -> 0 < b -> 0 <= f <= b / 2 ^ 54 ->
  @mel2hz_of binary64 pow10f a b (@hz2mel_of binary64 log10f a b f) = 0.
Proof.
  intros log10f pow10f a b f HL HP Hb Hf. unfold mel2hz_of, hz2mel_of. cbn [rnd binary64].
  assert (Z : rnd64 0 = 0) by exact (@g_0 binary64 rnd64_grid).
  assert (E54 : / 2 ^ 54 = bpow radix2 (-54)) by (change (bpow radix2 (-54)) with (/ IZR 18014398509481984); lra).
  rewrite (near_one (rnd64 (f / b))).
  - rewrite HL, Rmult_0_r, Z. unfold Rdiv at 1. rewrite Rmult_0_l, Z, HP, Rminus_diag_eq, Z, Rmult_0_r by reflexivity. exact Z.
  - split; [apply (@g_pos binary64 rnd64_grid), quot_ge; lra|].
    rewrite E54, <- (rnd64_bpow (-54)), <- E54 by lia. apply rnd64_monotone, quot_le; lra.
Qed.

(** ** the two approaches; exact arithmetic *)
Lemma constants_scale : forall approach a b s, mel_constants approach = Some (a, b) -> spec_mel_scale approach s ->
  s = mel_scale a b /\ 0 < a /\ 625 <= b.
Proof.
  intros approach a b s Hc [[-> ->]|[-> ->]]; cbn in Hc; injection Hc as <- <-.
  - split; [reflexivity|]. lra.
  - split; [reflexivity|]. lra.
Qed.

Lemma exact_accurate : accurate 0 0 (@rnd exact_env).
Proof. split; [lra|]. split; [lra|]. intros x. cbn. rewrite Rminus_diag_eq, Rabs_R0 by reflexivity. lra. Qed.
Lemma abs_zero : forall x y, Rabs (x - y) <= 0 -> x = y.
Proof. intros x y H. apply Rabs_le_inv in H. lra. Qed.
Lemma linear_exact : forall low high n h scale j k, low < high -> In scale scale_names -> (j < n)%nat -> (k <= h)%nat ->
  @linear_entry_of exact_env low high n h scale j k = Fin (spec_bank lin_scale low high n h scale j k).
Proof.
  intros low high n h scale j k Hlh Hs Hj Hk.
  assert (Hn : 0 < INR (n + 1)) by (apply lt_0_INR; lia).
  destruct (@linear_error exact_env 0 0 exact_grid exact_accurate low high (Rmax (Rabs low) (Rabs high)) n h scale j k eq_refl eq_refl Hlh
              (Rmax_l _ _) (Rmax_r _ _) Hs Hj Hk) as (v & Ev & _ & Er).
  - unfold point_err. replace (4 * _) with 0 by ring. apply Rdiv_lt_0_compat; lra.
  - rewrite Ev. f_equal. apply abs_zero. eapply Rle_trans; [exact Er|]. unfold point_err. right. field. lra.
Qed.
Lemma mel_exact : forall approach a b s low high n h scale j k, mel_constants approach = Some (a, b) -> spec_mel_scale approach s ->
  0 <= low < high -> In scale scale_names -> (j < n)%nat -> (k <= h)%nat ->
  @mel_entry_of exact_env (fun x => ln x / ln 10) (Rpower 10) a b low high n h scale j k = Fin (spec_bank s low high n h scale j k).
Proof.
  intros approach a b s low high n h scale j k Hc Hsp Hlh Hs Hj Hk.
  destruct (constants_scale approach a b s Hc Hsp) as (Es & Ha & Hb).
  assert (Hn : 0 < INR (n + 1)) by (apply lt_0_INR; lia).
  assert (P : forall i, @mel_point_of exact_env (fun x => ln x / ln 10) (Rpower 10) a b low high n i = spec_point s low high n i).
  { intros i. subst s. unfold mel_point_of, mel2hz_of, hz2mel_of, scale_point_of, spec_point, spec_level. cbn [rnd exact_env mel_scale fwd bwd].
    rewrite Rabs_pos_eq; [do 3 f_equal; f_equal; ring|].
    assert (Q : low / b <= high / b) by (apply Rmult_le_compat_r; [apply Rlt_le, Rinv_0_lt_compat; lra|lra]).
    assert (0 <= low / b) by (apply quot_ge; lra).
    pose proof (log10_mono (1 + low / b) (1 + high / b) ltac:(lra) ltac:(lra)). nra. }
  pose proof (mel_point_incr approach s low high n) as Hinc.
  set (d := Rmin (spec_point s low high n (j + 1) - spec_point s low high n j) (spec_point s low high n (j + 2) - spec_point s low high n (j + 1))).
  assert (I1 : spec_point s low high n j < spec_point s low high n (j + 1)) by (replace (j + 1)%nat with (S j) by lia; apply Hinc; auto).
  assert (I2 : spec_point s low high n (j + 1) < spec_point s low high n (j + 2)) by (replace (j + 2)%nat with (S (j + 1)) by lia; apply Hinc; auto).
  assert (Hd : 0 < d) by (unfold d; apply Rmin_pos; lra).
  assert (Hz : forall i, Rabs (@mel_point_of exact_env (fun x => ln x / ln 10) (Rpower 10) a b low high n i - spec_point s low high n i) <= 0).
  { intros i. rewrite P, Rminus_diag_eq, Rabs_R0 by reflexivity. lra. }
  destruct (@entry_error exact_env 0 0 exact_grid exact_accurate (@mel_point_of exact_env (fun x => ln x / ln 10) (Rpower 10) a b low high n)
     (spec_point s low high n j) (spec_point s low high n (j + 1)) (spec_point s low high n (j + 2)) (spec_col low high h k)
     low high n h scale j k d 0) as (v & Ev & Hv & Er); auto.
  - lra.
  - apply Rmin_l.
  - apply Rmin_r.
  - eapply Rle_trans; [apply (@columns_error exact_env 0 0 exact_grid exact_accurate low high (Rmax (Rabs low) (Rabs high)) h h k)|];
      auto; try (apply Rmax_l); try (apply Rmax_r); try lra; unfold point_err; try (right; ring). replace (4 * _) with 0 by ring. lra.
  - unfold mel_entry_of. rewrite Ev. f_equal. apply abs_zero. eapply Rle_trans; [exact Er|]. right. field. lra.
Qed.

(** ** correctly rounded library functions *)
Lemma log10_53 : log10_within (/ 2 ^ 50) (fun x => rnd53 (ln x / ln 10)).
Proof.
  split; [lra|]. intros x Hx. pose proof (proj2 (proj2 rnd53_accurate) (ln x / ln 10)) as K.
  pose proof (log10_nonneg x Hx). rewrite Rplus_0_r, (Rabs_pos_eq (ln x / ln 10)) in K by assumption.
  eapply Rle_trans; [exact K|]. apply Rmult_le_compat_r; [assumption|lra].
Qed.
Lemma pow10_53 : pow10_within (/ 2 ^ 50) (fun x => rnd53 (Rpower 10 x)).
Proof.
  split; [lra|]. intros x Hx. pose proof (proj2 (proj2 rnd53_accurate) (Rpower 10 x)) as K.
  assert (P : 0 < Rpower 10 x) by apply exp_pos. rewrite Rplus_0_r, (Rabs_pos_eq (Rpower 10 x)) in K by lra.
  eapply Rle_trans; [exact K|]. apply Rmult_le_compat_r; [lra|lra].
Qed.
Lemma log10_53_mono : forall x y, 1 <= x -> x <= y -> rnd53 (ln x / ln 10) <= rnd53 (ln y / ln 10).
Proof. intros x y Hx Hy. apply rnd53_monotone, log10_mono; lra. Qed.
Lemma int53 : forall m, (Z.abs m < 2 ^ 53)%Z -> rnd53 (IZR m) = IZR m.
Proof.
  intros m Hm. rewrite <- rnd64_normal; [apply rnd64_int, Hm|]. destruct (Z.eq_dec m 0) as [->|H0]; [left; reflexivity|right].
  apply Rle_trans with 1; [change 1 with (bpow radix2 0); apply bpow_le; lia|]. rewrite <- abs_IZR. apply IZR_le. lia.
Qed.
