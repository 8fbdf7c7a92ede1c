(** * Rounding errors of the Bark conversion of Zwicker *)
From Coq Require Import Reals ZArith List String Bool Lia Lra Psatz.
From Verif Require Import Base Binary64 Converters ConvertersFacts Rounded SpecRounded RoundedFacts RoundedBanks RoundedBanksFacts RoundedMel RoundedScales SpecRoundedScales RoundedScalesFacts.
Local Open Scope R_scope.

Section Zwicker.
Context {E : Env}.
Variables (u v : R) (lf pf : R -> R).
Hypothesis Ha : accurate u 0 rnd.
Hypothesis Hu : u < 1.
Hypothesis HL : log10_near v lf.
Hypothesis HP : pow10_near v pf.
Hypothesis Hv : v <= 1.

Lemma zu : 0 <= u. Proof. exact (proj1 Ha). Qed.
Lemma zv : 0 <= v. Proof. exact (proj1 HL). Qed.
(** one rounding: a number near b * x, with |x| <= M *)
Lemma step_near : forall b x y D M, 0 < b -> Rabs x <= M -> Rabs (y - b * x) <= b * (D - M) -> Rabs (rnd y - b * x) <= b * ((1 + u) * D - M).
Proof.
  intros b x y D M Hb Hx Hy. pose proof zu as U. pose proof (proj2 (proj2 Ha) y) as K. rewrite Rplus_0_r in K.
  assert (Y : Rabs y <= b * D). { replace y with (b * x + (y - b * x)) by ring. eapply Rle_trans; [apply Rabs_triang|]. rewrite Rabs_mult, (Rabs_pos_eq b) by lra. assert (b * Rabs x <= b * M) by (apply Rmult_le_compat_l; lra). lra. }
  assert (u * Rabs y <= u * (b * D)) by (apply Rmult_le_compat_l; lra).
  replace (rnd y - b * x) with ((rnd y - y) + (y - b * x)) by ring. eapply Rle_trans; [apply Rabs_triang|]. lra.
Qed.
Lemma step_one : forall x y D M, Rabs x <= M -> Rabs (y - x) <= D - M -> Rabs (rnd y - x) <= (1 + u) * D - M.
Proof. intros x y D M Hx Hy. pose proof (step_near 1 x y D M Rlt_0_1 Hx) as K. rewrite !Rmult_1_l in K. apply K, Hy. Qed.
(** a rounded argument of the logarithm *)
Lemma log_rounded : forall x, 0 < x -> 0 < rnd x /\ Rabs (ln (rnd x) / ln 10 - ln x / ln 10) <= - ln (1 - u) / ln 10.
Proof.
  intros x Hx. pose proof zu as U. pose proof ln10_pos as T. pose proof (relative_bounds rnd u x Ha ltac:(lra) ltac:(lra)) as B.
  assert (P1 : 0 < (1 - u) * x) by (apply Rmult_lt_0_compat; lra). assert (P : 0 < rnd x) by lra. split; [exact P|].
  assert (L1 : ln (1 - u) + ln x <= ln (rnd x)). { rewrite <- ln_mult by lra. destruct (proj1 B) as [K|K]; [left; apply ln_increasing; lra|rewrite K; lra]. }
  assert (L2 : ln (rnd x) <= ln (1 + u) + ln x). { rewrite <- ln_mult by lra. destruct (proj2 B) as [K|K]; [left; apply ln_increasing; lra|rewrite K; lra]. }
  assert (L3 : ln (1 + u) + ln (1 - u) <= 0).
  { rewrite <- ln_mult by lra. rewrite <- ln_1. destruct U as [U|U]; [left; apply ln_increasing; nra|rewrite <- U; right; f_equal; ring]. }
  replace (ln (rnd x) / ln 10 - ln x / ln 10) with ((ln (rnd x) - ln x) / ln 10) by (field; lra). unfold Rdiv. rewrite Rabs_mult, (Rabs_pos_eq (/ ln 10)) by (left; apply Rinv_0_lt_compat, T).
  apply Rmult_le_compat_r; [left; apply Rinv_0_lt_compat, T|]. apply Rabs_le. lra.
Qed.
Definition zw_range (f : R) : R := 3 + Rabs (ln (f / 1000) / ln 10).
Definition zw_slip (f : R) : R := (1 + u) ^ 5 * (1 + v) * (zw_range f + - ln (1 - u) / ln 10) - zw_range f.

Lemma exponent_near : forall a b f, 0 < b -> Rabs a <= 3 * b -> 0 < f ->
  Rabs (rnd (rnd (rnd (hz2zwicker_of lf a b f - a) / b) + 3) - (ln (f / 1000) / ln 10 + 3)) <= zw_slip f.
Proof.
  intros a b f Hb Hab Hf. unfold hz2zwicker_of, zw_slip. pose proof zu as U. pose proof zv as V. assert (X : 0 < f / 1000) by lra.
  destruct (log_rounded _ X) as [X1 K1]. set (x1 := rnd (f / 1000)) in *. set (k := - ln (1 - u) / ln 10) in *. set (L := ln (f / 1000) / ln 10) in *. set (M := zw_range f).
  assert (HM : Rabs L + 3 = M) by (unfold M, zw_range; fold L; ring). pose proof (Rabs_pos L) as PL.
  pose proof (proj2 HL x1 X1) as K2. set (l1 := ln x1 / ln 10) in *.
  assert (A1 : Rabs l1 <= M + k). { replace l1 with (L + (l1 - L)) by ring. eapply Rle_trans; [apply Rabs_triang|]. lra. }
  assert (N1 : Rabs (lf x1 - L) <= (1 + v) * (M + k) - M).
  { replace (lf x1 - L) with ((lf x1 - l1) + (l1 - L)) by ring. eapply Rle_trans; [apply Rabs_triang|]. assert (v * Rabs l1 <= v * (M + k)) by (apply Rmult_le_compat_l; lra). lra. }
  set (D := (1 + v) * (M + k)) in *.
  assert (N2 : Rabs (rnd (b * lf x1) - b * L) <= b * ((1 + u) * D - M)).
  { apply step_near; [exact Hb|lra|]. replace (b * lf x1 - b * L) with (b * (lf x1 - L)) by ring. rewrite Rabs_mult, (Rabs_pos_eq b) by lra. apply Rmult_le_compat_l; lra. }
  set (z1 := rnd (b * lf x1)) in *.
  assert (AB : Rabs (a / b + L) <= M).
  { eapply Rle_trans; [apply Rabs_triang|]. unfold Rdiv at 1. rewrite Rabs_mult, (Rabs_pos_eq (/ b)) by (left; apply Rinv_0_lt_compat, Hb).
    assert (Rabs a * / b <= 3). { apply Rmult_le_reg_r with b; [exact Hb|]. rewrite Rmult_assoc, Rinv_l, Rmult_1_r by lra. lra. } lra. }
  assert (BAB : b * (a / b + L) = a + b * L) by (field; lra).
  assert (N3 : Rabs (rnd (a + z1) - b * (a / b + L)) <= b * ((1 + u) * ((1 + u) * D) - M)).
  { apply step_near; auto. rewrite BAB. replace (a + z1 - (a + b * L)) with (z1 - b * L) by ring. exact N2. }
  set (z := rnd (a + z1)) in *.
  assert (N4 : Rabs (rnd (z - a) - b * L) <= b * ((1 + u) * ((1 + u) * ((1 + u) * D)) - M)).
  { apply step_near; [exact Hb|lra|]. replace (z - a - b * L) with (z - b * (a / b + L)) by (rewrite BAB; ring). exact N3. }
  set (d := rnd (z - a)) in *. set (D4 := (1 + u) * ((1 + u) * ((1 + u) * D))) in *.
  assert (N5 : Rabs (rnd (d / b) - L) <= (1 + u) * D4 - M).
  { apply step_one; [lra|]. replace (d / b - L) with ((d - b * L) * / b) by (field; lra). rewrite Rabs_mult, (Rabs_pos_eq (/ b)) by (left; apply Rinv_0_lt_compat, Hb).
    apply Rmult_le_reg_r with b; [exact Hb|]. rewrite Rmult_assoc, Rinv_l, Rmult_1_r by lra. lra. }
  set (q := rnd (d / b)) in *.
  assert (N6 : Rabs (rnd (q + 3) - (L + 3)) <= (1 + u) * ((1 + u) * D4) - M).
  { apply step_one; [eapply Rle_trans; [apply Rabs_triang|]; rewrite (Rabs_pos_eq 3) by lra; lra|]. replace (q + 3 - (L + 3)) with (q - L) by ring. exact N5. }
  replace ((1 + u) ^ 5 * (1 + v) * (M + k) - M) with ((1 + u) * ((1 + u) * D4) - M) by (unfold D4, D; ring). exact N6.
Qed.
Lemma zwicker_roundtrip : forall a b f, 0 < b -> Rabs a <= 3 * b -> 0 < f ->
  Rabs (zwicker2hz_of pf a b (hz2zwicker_of lf a b f) - f) <= ((1 + v) * exp (ln 10 * zw_slip f) - 1) * f.
Proof.
  intros a b f Hb Hab Hf. pose proof (exponent_near a b f Hb Hab Hf) as K. unfold zwicker2hz_of. set (s := rnd (rnd (rnd (hz2zwicker_of lf a b f - a) / b) + 3)) in *.
  pose proof ln10_pos as T. pose proof zv as V. assert (S0 : 0 <= zw_slip f) by (eapply Rle_trans; [apply Rabs_pos|exact K]). set (dl := zw_slip f) in *. set (L := ln (f / 1000) / ln 10) in *.
  assert (F : Rpower 10 (L + 3) = f). { rewrite Rpower_plus. unfold L. rewrite log10_mul by lra. replace 3 with (INR 3) by (simpl; ring). rewrite Rpower_pow by lra. simpl. field. }
  assert (G : Rpower 10 s = f * exp (ln 10 * (s - (L + 3)))). { rewrite <- F at 1. unfold Rpower. rewrite <- exp_plus. f_equal. ring. }
  pose proof (proj2 HP s) as Q. rewrite G in Q. assert (B : - dl <= s - (L + 3) <= dl) by (revert K; unfold Rabs; destruct (Rcase_abs _); lra).
  assert (X0 : 0 <= ln 10 * dl) by (apply Rmult_le_pos; lra). destruct (unit_exp (ln 10 * dl) X0) as (Y1 & Y2 & Y3).
  assert (E1 : exp (- (ln 10 * dl)) <= exp (ln 10 * (s - (L + 3)))) by (apply exp_up; nra). assert (E2 : exp (ln 10 * (s - (L + 3))) <= exp (ln 10 * dl)) by (apply exp_up; nra).
  set (w := exp (ln 10 * (s - (L + 3)))) in *. set (p := exp (ln 10 * dl)) in *. set (m := exp (- (ln 10 * dl))) in *.
  assert (R1 : (1 - v) * (f * w) <= pf s <= (1 + v) * (f * w)) by (revert Q; unfold Rabs; destruct (Rcase_abs _); lra).
  apply (both_sides ((1 + v) * p) ((1 - v) * m)); [lra|nra|apply Rmult_le_pos; lra| | |reflexivity].
  - replace (2 - (1 + v) * p) with (2 - (1 + v) * p) by ring. apply two_minus; lra.
  - assert (m * f <= f * w) by (rewrite (Rmult_comm f); apply Rmult_le_compat_r; lra). assert (f * w <= p * f) by (rewrite (Rmult_comm f); apply Rmult_le_compat_r; lra).
    assert ((1 - v) * (m * f) <= (1 - v) * (f * w)) by (apply Rmult_le_compat_l; lra). assert ((1 + v) * (f * w) <= (1 + v) * (p * f)) by (apply Rmult_le_compat_l; lra). lra.
Qed.
End Zwicker.

Lemma log10_range : forall f, 10 <= f <= 100000 -> Rabs (ln (f / 1000) / ln 10) <= 2.
Proof.
  intros f Hf. pose proof ln10_pos as T. assert (P2 : ln 100 / ln 10 = 2). { replace 100 with (10 ^ 2) by ring. rewrite <- Rpower_pow by lra. unfold Rpower. rewrite ln_exp. simpl. field. lra. }
  assert (P3 : ln (/ 100) / ln 10 = - 2) by (rewrite ln_Rinv by lra; unfold Rdiv in *; lra).
  apply Rabs_le. rewrite <- P3 at 1. rewrite <- P2. split; apply log10_mono; lra.
Qed.
Lemma zwicker_numbers : forall (E : Env) lf pf a b f, accurate (/ 2 ^ 53) 0 (@rnd E) -> log10_near (/ 2 ^ 50) lf -> pow10_near (/ 2 ^ 50) pf ->
  0 < b -> Rabs a <= 3 * b -> 10 <= f <= 100000 -> Rabs (zwicker2hz_of pf a b (hz2zwicker_of lf a b f) - f) <= f / 2 ^ 45.
Proof.
  intros E lf pf a b f Ha HL HP Hb Hab Hf. eapply Rle_trans; [apply (zwicker_roundtrip (/ 2 ^ 53) (/ 2 ^ 50) lf pf Ha ltac:(lra) HL HP ltac:(lra)); auto; lra|].
  replace (f / 2 ^ 45) with (/ 2 ^ 45 * f) by (unfold Rdiv; ring). apply Rmult_le_compat_r; [lra|]. unfold zw_slip, zw_range.
  pose proof (log10_range f Hf) as L2. pose proof (Rabs_pos (ln (f / 1000) / ln 10)) as L0. pose proof ln10_le3 as T. set (M := 3 + Rabs (ln (f / 1000) / ln 10)) in *.
  set (c := (1 + / 2 ^ 53) ^ 5 * (1 + / 2 ^ 50)). assert (C : 1 <= c <= 1 + 14 * / 2 ^ 53) by (unfold c; lra).
  assert (K : 0 <= - ln (1 - / 2 ^ 53) <= 2 * / 2 ^ 53).
  { split; [assert (ln (1 - / 2 ^ 53) <= ln 1) by (left; apply ln_increasing; lra); rewrite ln_1 in *; lra|]. rewrite <- ln_Rinv by lra.
    rewrite <- (ln_exp (2 * / 2 ^ 53)). left. apply ln_increasing; [apply Rinv_0_lt_compat; lra|]. eapply Rlt_le_trans; [|apply exp_ineq1_le].
    apply Rmult_lt_reg_l with (1 - / 2 ^ 53); [lra|]. rewrite Rinv_r by lra. lra. }
  set (k := - ln (1 - / 2 ^ 53)) in *. replace (ln 10 * (c * (M + k / ln 10) - M)) with (ln 10 * ((c - 1) * M) + c * k) by (field; lra).
  assert (HM : 3 <= M <= 5) by (unfold M; lra). clearbody M c k.
  assert (X1 : 0 <= (c - 1) * M <= 14 * / 2 ^ 53 * 5) by (split; [apply Rmult_le_pos; lra|apply Rmult_le_compat; lra]).
  assert (X2 : 0 <= ln 10 * ((c - 1) * M) <= 3 * (14 * / 2 ^ 53 * 5)) by (split; [apply Rmult_le_pos; lra|apply Rmult_le_compat; lra]).
  assert (X3 : 0 <= c * k <= 3 * / 2 ^ 53). { split; [apply Rmult_le_pos; lra|]. apply Rle_trans with (1.5 * (2 * / 2 ^ 53)); [apply Rmult_le_compat; lra|lra]. }
  set (x := ln 10 * ((c - 1) * M) + c * k) in *. assert (X : 0 <= x <= 213 * / 2 ^ 53) by (unfold x; lra).
  pose proof (exp_small x ltac:(lra)) as W. pose proof (exp_pos x). assert ((1 + / 2 ^ 50) * exp x <= (1 + / 2 ^ 50) * (1 + 1.01 * (213 * / 2 ^ 53))) by (apply Rmult_le_compat_l; lra). lra.
Qed.
Lemma zwicker_up : forall (E : Env) u lf a b f g, monotone (@rnd E) -> accurate u 0 (@rnd E) -> u < 1 -> (forall x y, 0 < x -> x <= y -> lf x <= lf y) -> 0 < b -> 0 < f <= g ->
  hz2zwicker_of lf a b f <= hz2zwicker_of lf a b g.
Proof.
  intros E u lf a b f g Hm Ha Hu HL Hb Hfg. unfold hz2zwicker_of. apply Hm. apply Rplus_le_compat_l. apply Hm. apply Rmult_le_compat_l; [lra|].
  apply HL; [|apply Hm; lra]. pose proof (relative_bounds rnd u (f / 1000) Ha ltac:(lra) ltac:(lra)) as B. assert (0 < (1 - u) * (f / 1000)) by (apply Rmult_lt_0_compat; lra). lra.
Qed.
Lemma zwicker_back_up : forall (E : Env) pf a b y z, monotone (@rnd E) -> (forall x y, x <= y -> pf x <= pf y) -> 0 < b -> y <= z -> zwicker2hz_of pf a b y <= zwicker2hz_of pf a b z.
Proof.
  intros E pf a b y z Hm HP Hb Hyz. unfold zwicker2hz_of. apply HP, Hm. apply Rplus_le_compat_r, Hm. apply Rmult_le_compat_r; [left; apply Rinv_0_lt_compat, Hb|]. apply Hm. lra.
Qed.
Lemma zwicker_exact : (forall f, 0 < f -> hz2bark (Fin f) "Zwicker" = Fin (@hz2zwicker_of exact_env (fun x => ln x / ln 10) 8.7 14.2 f)) /\
  forall z, bark2hz (Fin z) "Zwicker" = Fin (@zwicker2hz_of exact_env (Rpower 10) 8.7 14.2 z).
Proof. split; [intros f Hf; rewrite hz2bark_Zwicker by exact Hf; reflexivity|intros z; rewrite bark2hz_Zwicker; reflexivity]. Qed.
Lemma log10_near_53 : log10_near (/ 2 ^ 50) (fun x => rnd53 (ln x / ln 10)).
Proof.
  split; [lra|]. intros x Hx. pose proof (proj2 (proj2 rnd53_accurate) (ln x / ln 10)) as K. rewrite Rplus_0_r in K. eapply Rle_trans; [exact K|]. apply Rmult_le_compat_r; [apply Rabs_pos|lra].
Qed.
Lemma pow10_near_53 : pow10_near (/ 2 ^ 50) (fun x => rnd53 (Rpower 10 x)).
Proof.
  split; [lra|]. intros x. pose proof (proj2 (proj2 rnd53_accurate) (Rpower 10 x)) as K. assert (P : 0 < Rpower 10 x) by apply exp_pos.
  rewrite Rplus_0_r, (Rabs_pos_eq (Rpower 10 x)) in K by lra. eapply Rle_trans; [exact K|]. apply Rmult_le_compat_r; lra.
Qed.
