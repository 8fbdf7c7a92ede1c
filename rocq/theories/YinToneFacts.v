(** * Proofs for C171: the pitch of pure tones *)
From Coq Require Import Reals ZArith List String Bool Lia Lra Psatz.
From Flocq Require Import Core.Raux Core.Round_NE Core.Generic_fmt Core.Zaux.
From Verif Require Import Base BaseFacts SpecBase SpecMat BigSum MatFacts SpecYin Yin YinFacts SpecTone ToneFacts.
Import ListNotations.
Local Open Scope R_scope.

Lemma pi_high : PI < 3.1416.
Proof.
  pose proof (PI_2_3_7_ineq 2) as (_ & H). unfold sum_f_R0, tg_alt, PI_2_3_7_tg, Ratan_seq in H. cbn in H. lra.
Qed.
Lemma cos_arith_sum : forall th psi m,
  2 * sin th * bigsum m (fun j => cos (2 * th * INR j + psi)) = sin (2 * th * INR m - th + psi) - sin (psi - th).
Proof.
  intros th psi m. induction m as [|m IH].
  - cbn [bigsum INR]. replace (2 * th * 0 - th + psi) with (psi - th) by ring. ring.
  - cbn [bigsum]. rewrite Rmult_plus_distr_l, IH, S_INR.
    replace (2 * th * (INR m + 1) - th + psi) with ((2 * th * INR m + psi) + th) by ring.
    replace (2 * th * INR m - th + psi) with ((2 * th * INR m + psi) - th) by ring. rewrite sin_plus, sin_minus. ring.
Qed.
Lemma sin_diff : forall x y, sin x - sin y = 2 * cos ((x + y) / 2) * sin ((x - y) / 2).
Proof. intros x y. rewrite form4. field. Qed.

Lemma Rltb_lt : forall x y, Rltb x y = true -> x < y.
Proof. intros x y. unfold Rltb. destruct (Rlt_dec x y); [trivial|discriminate]. Qed.

Lemma pi_le : forall a b, a <= b -> PI * a <= PI * b.
Proof. intros a b H. apply Rmult_le_compat_l; [pose proof PI_RGT_0; lra|exact H]. Qed.
Lemma pi_lt : forall a b, a < b -> PI * a < PI * b.
Proof. intros a b H. apply Rmult_lt_compat_l; [apply PI_RGT_0|exact H]. Qed.
Lemma fall_trig : forall nu u, 0 < nu <= 0.1444 -> nu <= u < / 6 -> 3 * nu <= sin (PI * nu) ->
  0 < sin (PI * u) /\ 0 <= sin (PI * u - PI * nu) <= sin (PI * u) * (1 - 5 * nu).
Proof.
  intros nu u N U S1. pose proof (pi_lt 0 nu ltac:(lra)) as A1. pose proof (pi_le nu u ltac:(lra)) as A2. pose proof (pi_lt u (/ 6) ltac:(lra)) as A3. rewrite Rmult_0_r in A1.
  pose proof PI_RGT_0 as HP.
  assert (SU : 0 < sin (PI * u) <= / 2).
  { split; [apply sin_gt_0; lra|]. replace (/ 2) with (sin (PI / 6)) by (rewrite sin_PI6; lra). apply sin_incr_1; lra. }
  assert (CU : 0.865 <= cos (PI * u)).
  { apply Rle_trans with (cos (PI / 6)); [rewrite cos_PI6|apply cos_decr_1; lra]. assert (1.73 <= sqrt 3) by (rewrite <- (sqrt_pow2 1.73) by lra; apply sqrt_le_1_alt; lra). lra. }
  split; [lra|]. split; [apply sin_ge_0; lra|]. rewrite sin_minus. pose proof (COS_bound (PI * nu)) as C1.
  assert (sin (PI * u) * cos (PI * nu) <= sin (PI * u) * 1) by (apply Rmult_le_compat_l; lra).
  assert (0.865 * (3 * nu) <= cos (PI * u) * sin (PI * nu)) by (apply Rmult_le_compat; lra).
  assert (sin (PI * u) * (5 * nu) <= / 2 * (5 * nu)) by (apply Rmult_le_compat_r; lra). lra.
Qed.
Lemma rise_trig : forall nu u, 0 < nu <= 0.1444 -> 0 <= u < nu -> 0.89 <= cos (PI * nu) -> 3 * (sin (PI * u)) ^ 2 <= (sin (PI * u + PI * nu)) ^ 2.
Proof.
  intros nu u N U C1. pose proof (pi_le 0 u ltac:(lra)) as A1. pose proof (pi_lt u nu ltac:(lra)) as A2. pose proof (pi_le nu 0.1444 ltac:(lra)) as A3. rewrite Rmult_0_r in A1.
  pose proof PI_RGT_0 as HP.
  assert (SU : 0 <= sin (PI * u) <= sin (PI * nu)) by (split; [apply sin_ge_0; lra|apply sin_incr_1; lra]).
  assert (CU : cos (PI * nu) <= cos (PI * u)) by (apply cos_decr_1; lra).
  assert (R : 1.78 * sin (PI * u) <= sin (PI * u + PI * nu)).
  { rewrite sin_plus. assert (0.89 * sin (PI * u) <= cos (PI * u) * sin (PI * nu)) by (apply Rmult_le_compat; lra).
    assert (sin (PI * u) * 0.89 <= sin (PI * u) * cos (PI * nu)) by (apply Rmult_le_compat_l; lra). lra. }
  apply Rle_trans with ((1.78 * sin (PI * u)) ^ 2); [|apply pow_incr; lra]. pose proof (pow2_ge_0 (sin (PI * u))). lra.
Qed.
Lemma fall_factor : forall nu, 0 < nu <= 0.1444 -> (1 - 5 * nu) * ((1 + 0.26 * nu) * (1 + 1.2 * nu)) < 1.
Proof.
  intros nu N. assert (0 < nu * nu) by (apply Rmult_lt_0_compat; lra). assert (0 < nu * nu * nu) by (apply Rmult_lt_0_compat; lra). lra.
Qed.

Section Tone.
Variables (A nu phi thr : R) (w : nat).
Hypothesis HA : A <> 0.
Hypothesis Hnu : 0 < nu.
Hypothesis Hth : 12 * nu ^ 2 <= thr <= / 4.
Let kap := / sin (2 * PI * nu).
Hypothesis Hw : 4 * thr * (INR w + kap) + 3 / (2 * nu) + kap <= INR w.
Let f := tone A nu phi.
Let d := yin_d w f.
Let s (t : nat) := sin (PI * nu * INR t) ^ 2.
Let gam := cos (2 * PI * nu * (INR w - 1) + 2 * phi).
Let g (t : nat) := INR w - INR t - gam * sin (2 * PI * nu * (INR w - INR t)) / sin (2 * PI * nu).
Let P := / nu.

Lemma nu_small : nu <= 0.1444.
Proof. destruct (Rle_lt_dec nu 0.1444) as [|K]; [assumption|]. exfalso. assert (0.1444 * 0.1444 < nu * nu) by (apply Rmult_le_0_lt_compat; lra). lra. Qed.
Lemma taylor : forall c x, 0 <= x -> x <= c -> c <= 1 -> x * (1 - c ^ 2 / 6) <= sin x.
Proof.
  intros c x H0 H1 H2. pose proof PI2_1. eapply Rle_trans; [|apply (sin_low x x); lra].
  assert (x ^ 2 <= c ^ 2) by (apply pow_incr; lra). assert (x * x ^ 2 <= x * c ^ 2) by (apply Rmult_le_compat_l; assumption). nra.
Qed.
Lemma sin1 : 3 * nu <= sin (PI * nu).
Proof.
  pose proof nu_small as N. pose proof pi_low. pose proof pi_high. eapply Rle_trans; [|apply (taylor 0.4537)]; [|nra|nra|lra].
  apply Rle_trans with (3.1415 * nu * (1 - 0.4537 ^ 2 / 6)); [lra|]. apply Rmult_le_compat_r; [lra|]. nra.
Qed.
Lemma sin2 : 5 * nu <= sin (2 * PI * nu).
Proof.
  pose proof nu_small as N. pose proof pi_low. pose proof pi_high. eapply Rle_trans; [|apply (taylor 0.9074)]; [|nra|nra|lra].
  apply Rle_trans with (2 * 3.1415 * nu * (1 - 0.9074 ^ 2 / 6)); [lra|]. apply Rmult_le_compat_r; [lra|]. nra.
Qed.
Lemma cos1 : 0.89 <= cos (PI * nu) <= 1.
Proof.
  split; [|apply COS_bound]. pose proof nu_small as N. pose proof pi_high. pose proof PI_RGT_0.
  replace (PI * nu) with (2 * (PI * nu / 2)) by field. rewrite cos_2a_sin.
  assert (0 <= sin (PI * nu / 2) <= PI * nu / 2).
  { split; [apply sin_ge_0; nra|]. left. apply sin_lt_x. nra. }
  assert (PI * nu / 2 <= 0.2269) by nra. assert (sin (PI * nu / 2) * sin (PI * nu / 2) <= 0.2269 * 0.2269) by (apply Rmult_le_compat; lra). lra.
Qed.
Lemma kap_bounds : 0 < kap <= P / 5.
Proof.
  pose proof sin2 as S2. split; [apply Rinv_0_lt_compat; lra|]. unfold kap, P. apply Rle_trans with (/ (5 * nu)); [apply Rinv_le_contravar; lra|].
  right. field. lra.
Qed.
Lemma P_facts : 0 < P /\ nu * P = 1 /\ 6.9 <= P /\ 12 <= P / 2 + 72 * nu.
Proof.
  pose proof nu_small as N. assert (E : nu * P = 1) by (unfold P; field; lra). assert (0 < P) by (apply Rinv_0_lt_compat; assumption).
  split; [assumption|]. split; [assumption|]. split; [nra|].
  assert (0 <= (P - 12) ^ 2) by apply pow2_ge_0. assert (0 <= (P - 12) ^ 2 * nu) by (apply Rmult_le_pos; lra).
  replace ((P - 12) ^ 2 * nu) with (P * (nu * P) - 24 * (nu * P) + 144 * nu) in * by ring. rewrite E in *. lra.
Qed.
Lemma w_room : P * 3 / 2 + kap + 4 * thr * (INR w + kap) <= INR w /\ 72 * nu <= 4 * thr * (INR w + kap).
Proof.
  pose proof kap_bounds as K. pose proof P_facts as (P0 & PE & P1 & P2). replace (3 / (2 * nu)) with (P * 3 / 2) in Hw by (unfold P; field; lra).
  split; [lra|]. assert (PW : 0 <= 4 * thr * (INR w + kap)) by (pose proof (pos_INR w); apply Rmult_le_pos; nra).
  assert (W1 : P * 3 / 2 <= INR w + kap) by lra.
  apply Rle_trans with (4 * (12 * nu ^ 2) * (P * 3 / 2)).
  - replace (4 * (12 * nu ^ 2) * (P * 3 / 2)) with (72 * nu * (nu * P)) by field. rewrite PE. lra.
  - apply Rmult_le_compat; [nra|lra|nra|lra].
Qed.
(** ** The difference function *)
Lemma tone_d : forall t, (t <= w)%nat -> d t = 2 * A ^ 2 * s t * g t.
Proof.
  intros t Ht. unfold d, yin_d, f, tone, s, g, gam. set (th := 2 * PI * nu). pose proof sin2 as S2. fold th in S2.
  set (psi := 2 * phi + th * INR t).
  transitivity (bigsum (w - t) (fun j => 2 * A ^ 2 * sin (PI * nu * INR t) ^ 2 * (1 - cos (2 * th * INR j + psi)))).
  - apply bigsum_ext. intros j Hj. rewrite plus_INR. replace (th * (INR j + INR t) + phi) with ((th * INR j + phi) + th * INR t) by ring.
    replace (th * INR t) with (2 * (PI * nu * INR t)) by (unfold th; ring). set (b := PI * nu * INR t). set (a := th * INR j + phi).
    replace (2 * th * INR j + psi) with (2 * (a + b)) by (unfold a, b, psi, th; ring).
    replace (cos a) with (cos ((a + b) - b)) by (f_equal; ring). replace (cos (a + 2 * b)) with (cos ((a + b) + b)) by (f_equal; ring).
    generalize (a + b). intros e. rewrite cos_minus, cos_plus, cos_2a_sin. ring.
  - rewrite bigsum_scal, bigsum_minus, bigsum_const, minus_INR by assumption. f_equal.
    pose proof (cos_arith_sum th psi (w - t)) as C. rewrite sin_diff in C. rewrite minus_INR in C by assumption.
    replace ((2 * th * (INR w - INR t) - th + psi + (psi - th)) / 2) with (th * (INR w - 1) + 2 * phi) in C by (unfold psi; field).
    replace ((2 * th * (INR w - INR t) - th + psi - (psi - th)) / 2) with (th * (INR w - INR t)) in C by field.
    set (B := bigsum _ _) in *. assert (E : B = cos (th * (INR w - 1) + 2 * phi) * sin (th * (INR w - INR t)) / sin th).
    { apply Rmult_eq_reg_l with (2 * sin th); [|lra]. rewrite C. field. lra. }
    rewrite E. ring.
Qed.
Lemma g_bounds : forall t, INR w - INR t - kap <= g t <= INR w - INR t + kap.
Proof.
  intros t. unfold g. pose proof kap_bounds as (K & _). assert (B : Rabs (gam * sin (2 * PI * nu * (INR w - INR t)) / sin (2 * PI * nu)) <= kap).
  { unfold Rdiv. rewrite !Rabs_mult. fold kap. rewrite (Rabs_pos_eq kap) by lra. rewrite <- (Rmult_1_l kap) at 2. apply Rmult_le_compat_r; [lra|].
    rewrite <- (Rmult_1_l 1). apply Rmult_le_compat; try apply Rabs_pos; apply Rabs_le; [apply COS_bound|apply SIN_bound]. }
  apply Rabs_le_inv in B. lra.
Qed.
Lemma g_step : forall t, g t - 2.13 <= g (S t) <= g t + 0.13.
Proof.
  intros t. unfold g. rewrite S_INR. set (th := 2 * PI * nu). set (m := INR w - INR t). replace (INR w - (INR t + 1)) with (m - 1) by (unfold m; ring).
  pose proof sin2 as S2. fold th in S2. pose proof cos1 as C. pose proof sin1 as S1.
  assert (E : sin (th * m) - sin (th * (m - 1)) = 2 * cos (th * (m - / 2)) * sin (PI * nu)).
  { rewrite sin_diff. replace ((th * m + th * (m - 1)) / 2) with (th * (m - / 2)) by field. replace ((th * m - th * (m - 1)) / 2) with (PI * nu) by (unfold th; field). reflexivity. }
  assert (E2 : sin th = 2 * sin (PI * nu) * cos (PI * nu)) by (unfold th; rewrite Rmult_assoc, sin_2a; reflexivity).
  assert (D : gam * sin (th * m) / sin th - gam * sin (th * (m - 1)) / sin th = gam * cos (th * (m - / 2)) * / cos (PI * nu)).
  { replace (gam * sin (th * m) / sin th - gam * sin (th * (m - 1)) / sin th) with (gam * (sin (th * m) - sin (th * (m - 1))) / sin th) by (field; lra).
    rewrite E, E2. field. split; lra. }
  assert (B : Rabs (gam * cos (th * (m - / 2)) * / cos (PI * nu)) <= 1.13).
  { rewrite !Rabs_mult. assert (I : 0 <= / cos (PI * nu) <= 1.13).
    { split; [left; apply Rinv_0_lt_compat; lra|]. apply Rle_trans with (/ 0.89); [apply Rinv_le_contravar; lra|lra]. }
    rewrite (Rabs_pos_eq (/ _)) by lra. apply Rle_trans with (1 * 1 * 1.13); [|lra].
    apply Rmult_le_compat; [apply Rmult_le_pos; apply Rabs_pos|lra| |lra].
    apply Rmult_le_compat; try apply Rabs_pos; apply Rabs_le; apply COS_bound. }
  apply Rabs_le_inv in B. lra.
Qed.
Lemma s_range : forall t, 0 <= s t <= 1.
Proof.
  intros t. unfold s. split; [apply pow2_ge_0|]. pose proof (SIN_bound (PI * nu * INR t)) as B. rewrite <- Rsqr_pow2. replace 1 with (1 ^ 2) by ring. rewrite <- Rsqr_pow2.
  apply neg_pos_Rsqr_le; lra.
Qed.
Lemma A2 : 0 < 2 * A ^ 2.
Proof. assert (0 < A ^ 2) by (rewrite <- Rsqr_pow2; apply Rsqr_pos_lt; assumption). lra. Qed.
(** lags up to a period and a half *)
Lemma lag_room : forall t, INR t <= P + 2 -> (S t <= w)%nat /\ 12 - 2 + 0 <= INR w - INR t - kap.
Proof.
  intros t Ht. pose proof w_room as (W1 & W2). pose proof P_facts as (P0 & PE & P1 & P2). pose proof kap_bounds as K. split; [|lra].
  apply INR_le. rewrite S_INR. lra.
Qed.
Lemma d_up : forall t, INR t <= P + 2 -> 0 <= d t <= 2 * A ^ 2 * s t * (INR w - INR t + kap) /\ 2 * A ^ 2 * s t * (INR w - INR t - kap) <= d t.
Proof.
  intros t Ht. destruct (lag_room t Ht) as (L1 & L2). rewrite tone_d by lia. pose proof A2. pose proof (s_range t) as S. pose proof (g_bounds t) as G.
  assert (0 <= 2 * A ^ 2 * s t) by (apply Rmult_le_pos; lra).
  split; [split|]; [apply Rmult_le_pos; lra|apply Rmult_le_compat_l; lra|apply Rmult_le_compat_l; lra].
Qed.
Lemma s_early : forall t u, (u <= t)%nat -> nu * INR t <= 5 / 6 -> s u <= 4 * s t.
Proof.
  intros t u Hu Ht. pose proof PI_RGT_0 as HP. apply le_INR in Hu. pose proof (pos_INR u) as U. pose proof (s_range u) as SU. pose proof (s_range t) as ST.
  destruct (Rle_lt_dec (nu * INR t) (/ 2)) as [K|K].
  - assert (sin (PI * nu * INR u) <= sin (PI * nu * INR t)).
    { assert (nu * INR u <= nu * INR t) by (apply Rmult_le_compat_l; lra). assert (0 <= nu * INR u) by (apply Rmult_le_pos; lra).
      apply sin_incr_1; rewrite ?Rmult_assoc; nra. }
    assert (0 <= sin (PI * nu * INR u)) by (apply sin_ge_0; rewrite ?Rmult_assoc; [apply Rmult_le_pos; [lra|apply Rmult_le_pos; lra]|]; assert (nu * INR u <= nu * INR t) by (apply Rmult_le_compat_l; lra); nra).
    assert (s u <= s t) by (unfold s; apply pow_incr; lra). lra.
  - assert (/ 2 <= sin (PI * nu * INR t)).
    { replace (/ 2) with (sin (PI / 6)) by (rewrite sin_PI6; lra). rewrite <- (sin_PI_x (PI * nu * INR t)), Rmult_assoc. apply sin_incr_1; nra. }
    assert (/ 4 <= s t) by (unfold s; replace (/ 4) with ((/ 2) ^ 2) by lra; apply pow_incr; lra). lra.
Qed.
Lemma yin_sum_up : forall t b, (forall u, (1 <= u <= t)%nat -> d u <= b) -> yin_sum d t <= INR t * b.
Proof. intros t b H. unfold yin_sum. rewrite <- bigsum_const. apply bigsum_le. intros i Hi. apply H. lia. Qed.
Lemma early : forall t, nu * INR t <= 5 / 6 -> thr * yin_sum d t <= d t * INR t.
Proof.
  intros t Ht. pose proof P_facts as (P0 & PE & P1 & P2). pose proof kap_bounds as K. pose proof w_room as (W1 & W2). pose proof A2 as PA.
  assert (LT : INR t <= P) by (apply Rmult_le_reg_l with nu; [assumption|]; rewrite PE; lra).
  assert (H : yin_sum d t <= INR t * (2 * A ^ 2 * (4 * s t) * (INR w + kap))).
  { apply yin_sum_up. intros u Hu. assert (LU : INR u <= INR t) by (apply le_INR; lia). pose proof (pos_INR u).
    destruct (d_up u ltac:(lra)) as ((_ & D) & _). eapply Rle_trans; [exact D|]. pose proof (s_early t u ltac:(lia) Ht). pose proof (s_range u).
    assert (L : 0 <= INR w - INR u + kap) by lra.
    apply Rmult_le_compat; [apply Rmult_le_pos; lra|exact L|apply Rmult_le_compat_l; lra|lra]. }
  destruct (d_up t ltac:(lra)) as (_ & D). pose proof (s_range t) as ST. pose proof (pos_INR t) as T0.
  assert (T1 : thr * yin_sum d t <= thr * (INR t * (2 * A ^ 2 * (4 * s t) * (INR w + kap)))) by (apply Rmult_le_compat_l; nra).
  assert (T2 : 2 * A ^ 2 * s t * (4 * thr * (INR w + kap)) <= 2 * A ^ 2 * s t * (INR w - INR t - kap)) by (apply Rmult_le_compat_l; [apply Rmult_le_pos; lra|lra]).
  assert (T3 : INR t * (2 * A ^ 2 * s t * (4 * thr * (INR w + kap))) <= INR t * d t) by (apply Rmult_le_compat_l; lra).
  nra.
Qed.
Lemma s_sum : forall t, 4 * sin (PI * nu) * bigsum t (fun u => s (S u)) = 2 * INR t * sin (PI * nu) + sin (PI * nu) - sin (PI * nu * (2 * INR t + 1)).
Proof.
  intros t. set (a := PI * nu). pose proof (cos_arith_sum a (2 * a) t) as C.
  rewrite (bigsum_ext t (fun u => s (S u)) (fun u => / 2 - / 2 * cos (2 * a * INR u + 2 * a))).
  - rewrite bigsum_minus, bigsum_const, bigsum_scal. set (B := bigsum _ _) in *.
    replace (2 * a * INR t - a + 2 * a) with (a * (2 * INR t + 1)) in C by ring. replace (2 * a - a) with a in C by ring. lra.
  - intros u _. unfold s. fold a. rewrite S_INR. replace (2 * a * INR u + 2 * a) with (2 * (a * (INR u + 1))) by ring. rewrite cos_2a_sin. field.
Qed.
Lemma near_P : forall t, Rabs (INR t - P) <= / 2 -> s t <= 2.4675 * nu ^ 2 /\ INR t / 2 - / 4 <= bigsum t (fun u => s (S u)).
Proof.
  intros t Ht. apply Rabs_le_inv in Ht. pose proof P_facts as (P0 & PE & P1 & P2). pose proof PI_RGT_0 as HP. pose proof pi_high as PH. pose proof nu_small as NS. pose proof sin1 as S1.
  set (e := INR t - P) in *. assert (ET : INR t = P + e) by (unfold e; ring).
  assert (E1 : PI * nu * INR t = PI * nu * e + PI) by (rewrite ET; replace (PI * nu * (P + e)) with (PI * nu * e + PI * (nu * P)) by ring; rewrite PE; ring).
  assert (NE : - (nu / 2) <= nu * e <= nu / 2) by nra. split.
  - unfold s. rewrite E1, neg_sin.
    assert (B : Rabs (- sin (PI * nu * e)) <= PI * nu / 2).
    { rewrite Rabs_Ropp. rewrite Rmult_assoc. destruct (Rle_lt_dec 0 (nu * e)) as [K|K].
      - rewrite Rabs_pos_eq by (apply sin_ge_0; nra). destruct (Req_dec (nu * e) 0) as [->|NZ]; [rewrite Rmult_0_r, sin_0; nra|]. left. eapply Rlt_le_trans; [apply sin_lt_x; nra|nra].
      - replace (PI * (nu * e)) with (- (PI * - (nu * e))) by ring. rewrite sin_neg, Rabs_Ropp. rewrite Rabs_pos_eq by (apply sin_ge_0; nra). left. eapply Rlt_le_trans; [apply sin_lt_x; nra|nra]. }
    rewrite <- (pow2_abs (- sin _)). eapply Rle_trans; [apply pow_incr; split; [apply Rabs_pos|exact B]|].
    replace ((PI * nu / 2) ^ 2) with (PI * PI / 4 * nu ^ 2) by field. apply Rmult_le_compat_r; [apply pow2_ge_0|]. nra.
  - pose proof (s_sum t) as S. assert (E2 : PI * nu * (2 * INR t + 1) = PI * nu * (1 + 2 * e) + 2 * INR 1 * PI).
    { rewrite ET. cbn [INR]. replace (PI * nu * (2 * (P + e) + 1)) with (PI * nu * (1 + 2 * e) + 2 * PI * (nu * P)) by ring. rewrite PE. ring. }
    rewrite E2, sin_period in S.
    assert (B : sin (PI * nu * (1 + 2 * e)) <= 2 * sin (PI * nu)).
    { apply Rle_trans with (sin (2 * (PI * nu))).
      - apply sin_incr_1; rewrite ?Rmult_assoc; nra.
      - rewrite sin_2a. pose proof (COS_bound (PI * nu)). nra. }
    apply Rmult_le_reg_l with (4 * sin (PI * nu)); [lra|]. rewrite S. nra.
Qed.
Lemma detect : forall t, Rabs (INR t - P) <= / 2 -> d t * INR t < thr * yin_sum d t.
Proof.
  intros t Ht. destruct (near_P t Ht) as (S1 & S2). apply Rabs_le_inv in Ht. pose proof P_facts as (P0 & PE & P1 & P2). pose proof kap_bounds as K.
  pose proof w_room as (W1 & W2). pose proof A2 as PA. set (B := bigsum t (fun u => s (S u))) in *.
  set (m := INR w - INR t). assert (M : 2 * kap <= m - kap) by (unfold m; lra).
  destruct (d_up t ltac:(lra)) as ((_ & D) & _). fold m in D. pose proof (s_range t) as ST.
  assert (Y : 2 * A ^ 2 * (m - kap) * B <= yin_sum d t).
  { unfold B, yin_sum. rewrite <- bigsum_scal. apply bigsum_le. intros u Hu. assert (LU : INR (S u) <= INR t) by (apply le_INR; lia).
    destruct (d_up (S u) ltac:(lra)) as (_ & DU). eapply Rle_trans; [|exact DU]. pose proof (s_range (S u)).
    replace (2 * A ^ 2 * (m - kap) * s (S u)) with (2 * A ^ 2 * s (S u) * (m - kap)) by ring. apply Rmult_le_compat_l; [apply Rmult_le_pos; lra|]. unfold m. lra. }
  apply Rle_lt_trans with (2 * A ^ 2 * (2.4675 * nu ^ 2) * (2 * (m - kap)) * INR t).
  - apply Rmult_le_compat_r; [lra|]. eapply Rle_trans; [exact D|]. apply Rmult_le_compat; [apply Rmult_le_pos; lra|lra|apply Rmult_le_compat_l; lra|lra].
  - apply Rlt_le_trans with (12 * nu ^ 2 * (2 * A ^ 2 * (m - kap) * (INR t / 2 - / 4))).
    + assert (Q : 0 < 2 * A ^ 2 * nu ^ 2 * (m - kap)) by (apply Rmult_lt_0_compat; [apply Rmult_lt_0_compat; [lra|apply pow_lt; assumption]|lra]).
      replace (2 * A ^ 2 * (2.4675 * nu ^ 2) * (2 * (m - kap)) * INR t) with (2 * A ^ 2 * nu ^ 2 * (m - kap) * (4.935 * INR t)) by lra.
      replace (12 * nu ^ 2 * (2 * A ^ 2 * (m - kap) * (INR t / 2 - / 4))) with (2 * A ^ 2 * nu ^ 2 * (m - kap) * (6 * INR t - 3)) by field.
      apply Rmult_lt_compat_l; lra.
    + assert (Q : 0 <= 2 * A ^ 2 * (m - kap)) by (apply Rmult_le_pos; lra). pose proof (pow2_ge_0 nu).
      apply Rmult_le_compat; [lra|apply Rmult_le_pos; lra|lra|]. eapply Rle_trans; [|exact Y]. apply Rmult_le_compat_l; lra.
Qed.
Lemma yin_sum_S : forall t, yin_sum d (S t) = yin_sum d t + d (S t).
Proof. reflexivity. Qed.
Lemma sum_pos : forall t, (1 <= t)%nat -> INR t <= P + 2 -> 0 < yin_sum d t.
Proof.
  intros t H1 Ht. destruct t as [|t]; [lia|]. unfold yin_sum. pose proof P_facts as (P0 & PE & P1 & P2). rewrite S_INR in Ht.
  assert (N : forall u, (u < S t)%nat -> 0 <= d (S u)).
  { intros u Hu. apply d_up. assert (LU : INR (S u) <= INR (S t)) by (apply le_INR; lia). rewrite !S_INR in *. lra. }
  assert (D1 : 0 < d 1).
  { pose proof (pos_INR t). destruct (d_up 1) as (_ & D); [cbn [INR]; lra|]. eapply Rlt_le_trans; [|exact D]. destruct (lag_room 1) as (_ & L); [cbn [INR]; lra|].
    pose proof A2. pose proof sin1 as S1. apply Rmult_lt_0_compat; [|lra]. apply Rmult_lt_0_compat; [assumption|]. unfold s. cbn [INR]. rewrite Rmult_1_r. apply pow_lt. lra. }
  clear Ht H1. induction t as [|t IH]; [cbn [bigsum]; lra|]. cbn [bigsum] in *.
  pose proof (N (S t) ltac:(lia)). specialize (IH (fun u Hu => N u ltac:(lia))). cbn [bigsum] in IH. lra.
Qed.
Lemma fall : forall t, 5 / 6 < nu * INR t -> nu * INR t <= 1 - nu -> d (S t) * INR (S t) < d t * INR t.
Proof.
  intros t H1 H2. pose proof P_facts as (P0 & PE & P1 & P2). pose proof nu_small as NS. pose proof PI_RGT_0 as HP. pose proof A2 as PA. pose proof w_room as (W1 & W2).
  assert (LT : INR t <= P - 1) by (apply Rmult_le_reg_l with nu; [assumption|]; lra).
  destruct (lag_room t ltac:(lra)) as (L1 & L2). destruct (lag_room (S t)) as (L3 & _); [rewrite S_INR; lra|].
  rewrite (tone_d t), (tone_d (S t)) by lia. pose proof (g_bounds t) as G. pose proof (g_step t) as GS. pose proof kap_bounds as K.
  set (u := 1 - nu * INR t). assert (U : nu <= u < / 6) by (unfold u; lra).
  assert (ES : s t = sin (PI * u) ^ 2) by (unfold s, u; rewrite <- (sin_PI_x (PI * nu * INR t)); do 2 f_equal; ring).
  assert (ES2 : s (S t) = sin (PI * u - PI * nu) ^ 2) by (unfold s, u; rewrite S_INR, <- (sin_PI_x (PI * nu * (INR t + 1))); do 2 f_equal; ring).
  pose proof sin1 as S1. destruct (fall_trig nu u ltac:(lra) U S1) as (SU & R).
  assert (SS : s (S t) <= s t * (1 - 5 * nu)).
  { rewrite ES, ES2. apply Rle_trans with ((sin (PI * u) * (1 - 5 * nu)) ^ 2); [apply pow_incr; exact R|].
    replace ((sin (PI * u) * (1 - 5 * nu)) ^ 2) with (sin (PI * u) ^ 2 * (1 - 5 * nu) * (1 - 5 * nu)) by ring.
    rewrite <- (Rmult_1_r (sin (PI * u) ^ 2 * (1 - 5 * nu))) at 2. apply Rmult_le_compat_l; [|lra]. apply Rmult_le_pos; [apply pow2_ge_0|lra]. }
  assert (S0 : 0 < s t) by (rewrite ES; apply pow_lt; lra).
  assert (GP : P / 2 <= g t) by lra. assert (NG : / 2 <= nu * g t) by (apply Rle_trans with (nu * (P / 2)); [lra|apply Rmult_le_compat_l; lra]).
  assert (GG : 0 <= g (S t) <= g t * (1 + 0.26 * nu)) by (split; lra).
  assert (TT : 0 <= INR (S t) <= INR t * (1 + 1.2 * nu)) by (rewrite S_INR; pose proof (pos_INR t); split; nra).
  assert (T0 : 0 < INR t) by (pose proof (pos_INR t) as Z; destruct Z as [Z|Z]; [exact Z|rewrite <- Z in H1; lra]).
  pose proof (s_range (S t)) as S2.
  assert (Q : s (S t) * (g (S t) * INR (S t)) <= s t * (1 - 5 * nu) * (g t * (1 + 0.26 * nu) * (INR t * (1 + 1.2 * nu)))).
  { apply Rmult_le_compat; [lra|apply Rmult_le_pos; lra|exact SS|]. apply Rmult_le_compat; lra. }
  assert (Q2 : (1 - 5 * nu) * ((1 + 0.26 * nu) * (1 + 1.2 * nu)) < 1) by (apply fall_factor; lra).
  assert (B : 0 < s t * (g t * INR t)) by (apply Rmult_lt_0_compat; [exact S0|apply Rmult_lt_0_compat; lra]).
  replace (s t * (1 - 5 * nu) * (g t * (1 + 0.26 * nu) * (INR t * (1 + 1.2 * nu)))) with (s t * (g t * INR t) * ((1 - 5 * nu) * ((1 + 0.26 * nu) * (1 + 1.2 * nu)))) in Q by ring.
  rewrite !Rmult_assoc. apply Rmult_lt_compat_l; [lra|]. apply Rmult_lt_compat_l; [rewrite <- (Rmult_1_l (A ^ 2)); lra|]. nra.
Qed.
Lemma rise : forall t, 1 <= nu * INR t -> nu * INR t < 1 + nu -> d t <= d (S t).
Proof.
  intros t H1 H2. pose proof P_facts as (P0 & PE & P1 & P2). pose proof nu_small as NS. pose proof PI_RGT_0 as HP. pose proof A2 as PA. pose proof w_room as (W1 & W2).
  assert (LT : INR t <= P + 1) by (apply Rmult_le_reg_l with nu; [assumption|]; lra).
  destruct (lag_room t ltac:(lra)) as (L1 & L2). destruct (lag_room (S t)) as (L3 & _); [rewrite S_INR; lra|].
  rewrite (tone_d t), (tone_d (S t)) by lia. pose proof (g_bounds t) as G. pose proof (g_step t) as GS. pose proof kap_bounds as K.
  set (u := nu * INR t - 1). assert (U : 0 <= u < nu) by (unfold u; lra).
  assert (ES : s t = sin (PI * u) ^ 2).
  { unfold s, u. replace (PI * nu * INR t) with (PI * (nu * INR t - 1) + PI) by ring. rewrite neg_sin. ring. }
  assert (ES2 : s (S t) = sin (PI * u + PI * nu) ^ 2).
  { unfold s, u. rewrite S_INR. replace (PI * nu * (INR t + 1)) with (PI * (nu * INR t - 1) + PI * nu + PI) by ring. rewrite neg_sin. ring. }
  assert (SS : 3 * s t <= s (S t)) by (rewrite ES, ES2; apply rise_trig; [lra|exact U|apply cos1]).
  pose proof (s_range t) as ST. rewrite !Rmult_assoc. apply Rmult_le_compat_l; [lra|]. apply Rmult_le_compat_l; [lra|].
  assert (GG : 0 <= g t <= 3 * g (S t)) by lra. apply Rle_trans with (s t * (3 * g (S t))); [apply Rmult_le_compat_l; lra|].
  replace (s t * (3 * g (S t))) with (3 * s t * g (S t)) by ring. apply Rmult_le_compat_r; lra.
Qed.
(** ** The search *)
Let c := yin_c d.
Lemma c_val : forall t, (1 <= t)%nat -> INR t <= P + 2 -> c t = Fin (d t * INR t / yin_sum d t).
Proof.
  intros t H1 Ht. unfold c, yin_c. destruct (Nat.eqb_spec t 0); [lia|]. pose proof (sum_pos t H1 Ht). destruct (Req_EM_T (yin_sum d t) 0); [lra|reflexivity].
Qed.
Lemma c_early : forall t, nu * INR t <= 5 / 6 -> fltb (c t) (Fin thr) = false.
Proof.
  intros t Ht. pose proof P_facts as (P0 & PE & P1 & P2). destruct (Nat.eq_dec t 0) as [->|NZ]; [unfold c, yin_c; cbn; apply Rltb_false; lra|].
  assert (LT : INR t <= P) by (apply Rmult_le_reg_l with nu; [assumption|]; lra). rewrite c_val by (lia || lra). cbn [fltb]. apply Rltb_false.
  pose proof (sum_pos t ltac:(lia) ltac:(lra)) as SP. pose proof (early t Ht) as E. apply Rmult_le_reg_r with (yin_sum d t); [exact SP|].
  unfold Rdiv. rewrite Rmult_assoc, Rinv_l by lra. lra.
Qed.
Lemma c_detect : forall t, Rabs (INR t - P) <= / 2 -> fltb (c t) (Fin thr) = true.
Proof.
  intros t Ht. pose proof (detect t Ht) as E. apply Rabs_le_inv in Ht. pose proof P_facts as (P0 & PE & P1 & P2).
  assert (T1 : (1 <= t)%nat) by (destruct t; [cbn [INR] in Ht; lra|lia]).
  rewrite c_val by (assumption || lra). cbn [fltb]. apply Rltb_true. pose proof (sum_pos t T1 ltac:(lra)) as SP. apply Rmult_lt_reg_r with (yin_sum d t); [exact SP|].
  unfold Rdiv. rewrite Rmult_assoc, Rinv_l by lra. lra.
Qed.
Lemma c_fall : forall t, 5 / 6 < nu * INR t -> nu * INR t <= 1 - nu -> fltb (c (S t)) (c t) = true.
Proof.
  intros t H1 H2. pose proof (fall t H1 H2) as E. pose proof P_facts as (P0 & PE & P1 & P2).
  assert (LT : INR t <= P - 1) by (apply Rmult_le_reg_l with nu; [assumption|]; lra).
  assert (T1 : (1 <= t)%nat) by (destruct t; [cbn [INR] in H1; lra|lia]).
  rewrite c_val, c_val by (try lia; rewrite ?S_INR; lra). cbn [fltb]. apply Rltb_true.
  pose proof (sum_pos t T1 ltac:(lra)) as SP. rewrite yin_sum_S. assert (D1 : 0 <= d (S t)) by (apply d_up; rewrite S_INR; lra).
  assert (D0 : 0 <= d t) by (apply d_up; lra). pose proof (pos_INR t). pose proof (pos_INR (S t)).
  apply Rle_lt_trans with (d (S t) * INR (S t) / yin_sum d t).
  - apply Rmult_le_compat_l; [apply Rmult_le_pos; lra|]. apply Rinv_le_contravar; lra.
  - apply Rmult_lt_compat_r; [apply Rinv_0_lt_compat; lra|exact E].
Qed.
Lemma c_rise : forall t, 1 <= nu * INR t -> nu * INR t < 1 + nu -> fltb (c t) (Fin thr) = true -> fltb (c (S t)) (c t) = false.
Proof.
  intros t H1 H2 Hc. pose proof (rise t H1 H2) as E. pose proof P_facts as (P0 & PE & P1 & P2).
  assert (LT : INR t <= P + 1) by (apply Rmult_le_reg_l with nu; [assumption|]; lra).
  assert (T1 : (1 <= t)%nat) by (destruct t; [cbn [INR] in H1; lra|lia]).
  rewrite c_val in Hc by (assumption || lra). rewrite c_val, c_val by (try lia; rewrite ?S_INR; lra). cbn [fltb] in *. apply Rltb_lt in Hc. apply Rltb_false.
  pose proof (sum_pos t T1 ltac:(lra)) as SP. rewrite yin_sum_S. set (D := yin_sum d t) in *. assert (D0 : 0 <= d t) by (apply d_up; lra).
  assert (K : d t * INR t <= D).
  { replace (d t * INR t) with (d t * INR t / D * D) by (field; lra). apply Rle_trans with (1 * D); [apply Rmult_le_compat_r; lra|lra]. }
  apply Rmult_le_reg_r with D; [exact SP|]. unfold Rdiv at 1. rewrite Rmult_assoc, Rinv_l, Rmult_1_r by lra.
  apply Rmult_le_reg_r with (D + d (S t)); [lra|]. replace (d (S t) * INR (S t) / (D + d (S t)) * D * (D + d (S t))) with (d (S t) * INR (S t) * D) by (field; lra).
  rewrite S_INR. pose proof (pos_INR t) as T0. assert (d t * INR t * D <= d (S t) * INR t * D) by (apply Rmult_le_compat_r; [lra|]; apply Rmult_le_compat_r; lra).
  assert (d t * INR t * d (S t) <= D * d (S t)) by (apply Rmult_le_compat_r; lra). lra.
Qed.
Lemma tone_lag : forall lo hi b p, INR lo <= P - / 2 -> P + / 2 < INR hi -> yin_lag c lo hi thr b p ->
  Rabs (INR p - P) < 1 /\ (1 <= p)%nat /\ exists h, c p = Fin h /\ 0 <= h < thr.
Proof.
  intros lo hi b p Hlo Hhi ((L1 & L2) & L3 & L4 & L5 & L6 & L7). pose proof P_facts as (P0 & PE & P1 & P2).
  assert (Est : exists t, Rabs (INR t - P) <= / 2).
  { pose proof (Znearest_half (fun z => negb (Z.even z)) P) as Hz. set (z := ZnearestE P) in *. fold z in Hz. exists (Z.to_nat z).
    assert (0 <= z)%Z by (apply Rabs_le_inv in Hz; assert (-1 < z)%Z by (apply lt_IZR; lra); lia).
    rewrite INR_IZR, Z2Nat.id by assumption. rewrite Rabs_minus_sym. exact Hz. }
  destruct Est as (ts & Hts). pose proof (c_detect ts Hts) as Cts. apply Rabs_le_inv in Hts.
  assert (T1 : (lo <= ts)%nat) by (apply INR_le; lra). assert (T2 : (ts < hi)%nat) by (apply INR_lt; lra).
  assert (B1 : (b <= ts)%nat).
  { destruct (Nat.le_gt_cases b ts) as [|Gt]; [assumption|]. rewrite L5 in Cts by lia. discriminate. }
  assert (B2 : 5 / 6 < nu * INR b).
  { destruct (Rle_lt_dec (nu * INR b) (5 / 6)) as [K|]; [|assumption]. rewrite (c_early b K) in L4. discriminate. }
  assert (I : forall t, (b <= t <= p)%nat -> fltb (c t) (Fin thr) = true /\ 5 / 6 < nu * INR t < 1 + nu).
  { intros t. induction t as [|t IH]; intros Ht.
    - assert (b = 0%nat) by lia. subst b. cbn [INR] in B2. lra.
    - destruct (Nat.eq_dec b (S t)) as [<-|NE].
      + split; [assumption|]. split; [assumption|]. apply le_INR in B1. replace (1 + nu) with (nu * (P + 1)) by lra. apply Rmult_lt_compat_l; lra.
      + destruct (IH ltac:(lia)) as (I1 & I2 & I3). specialize (L6 t ltac:(lia)). rewrite S_INR.
        destruct (Rle_lt_dec 1 (nu * INR t)) as [K|K]; [rewrite (c_rise t K I3 I1) in L6; discriminate|].
        split; [|lra]. assert (LT : INR t <= P + 1) by (apply Rmult_le_reg_l with nu; lra).
        assert (b1 : (1 <= t)%nat) by (destruct t; [cbn [INR] in I2; lra|lia]).
        rewrite (c_val (S t)) by (try lia; rewrite S_INR; lra). rewrite (c_val t b1 ltac:(lra)) in L6, I1. rewrite (c_val (S t)) in L6 by (try lia; rewrite S_INR; lra).
        cbn [fltb] in *. apply Rltb_lt in L6, I1. apply Rltb_true. lra. }
  destruct (I p ltac:(lia)) as (I1 & I2 & I3).
  assert (UP : INR p < P + 1) by (apply Rmult_lt_reg_l with nu; lra).
  assert (p1 : (1 <= p)%nat) by (destruct p; [cbn [INR] in I2; lra|lia]).
  split; [|split; [exact p1|]].
  - apply Rabs_def1; [lra|]. destruct (Nat.le_gt_cases hi (S p)) as [K|K].
    + assert (J : (ts <= p)%nat) by lia. apply le_INR in J. lra.
    + specialize (L7 K). destruct (Rle_lt_dec (nu * INR p) (1 - nu)) as [Q|Q]; [rewrite (c_fall p I2 Q) in L7; discriminate|].
      assert (P - 1 < INR p) by (apply Rmult_lt_reg_l with nu; lra). lra.
  - pose proof (c_val p p1 ltac:(lra)) as CP. rewrite CP in *. eexists. split; [reflexivity|]. cbn [fltb] in I1. apply Rltb_lt in I1. split; [|exact I1].
    pose proof (sum_pos p p1 ltac:(lra)). apply Rmult_le_pos; [|left; apply Rinv_0_lt_compat; assumption]. apply Rmult_le_pos; [apply d_up; lra|apply pos_INR].
Qed.
Lemma tone_voiced : forall lo hi, INR lo <= P - / 2 -> P + / 2 < INR hi -> ~ yin_unvoiced c lo hi thr.
Proof.
  intros lo hi Hlo Hhi H. pose proof P_facts as (P0 & PE & P1 & P2).
  pose proof (Znearest_half (fun z => negb (Z.even z)) P) as Hz. set (z := ZnearestE P) in *. fold z in Hz.
  assert (0 <= z)%Z by (apply Rabs_le_inv in Hz; assert (-1 < z)%Z by (apply lt_IZR; lra); lia).
  assert (Hts : Rabs (INR (Z.to_nat z) - P) <= / 2) by (rewrite INR_IZR, Z2Nat.id by assumption; rewrite Rabs_minus_sym; exact Hz).
  pose proof (c_detect _ Hts) as C. apply Rabs_le_inv in Hts. rewrite (H (Z.to_nat z)) in C; [discriminate|]. split; [apply INR_le; lra|apply INR_lt; lra].
Qed.
End Tone.

(** ** The call *)
Lemma yin_tone : forall `{Env} N A nu phi fs wl wh low high th L hop lo T,
  yin_config fs wl wh low high L hop lo T -> (S T <= L)%nat -> A <> 0 -> 0 < nu -> 12 * nu ^ 2 <= th <= / 4 ->
  4 * th * (INR L + / sin (2 * PI * nu)) + 3 / (2 * nu) + / sin (2 * PI * nu) <= INR L ->
  INR lo <= / nu - / 2 -> / nu + / 2 < INR (S T) ->
  let n := yin_frames N L hop in
  exists P H a, compute_yin (fvec N (tone A nu phi)) fs wl wh low high th
    = Ok (fvec n P, fvec n H, map a (seq 0 n), fvec n (fun i => INR (i * hop) / IZR fs)) /\
  forall i, (i < n)%nat -> (exists p, P i = IZR fs / INR p /\ Rabs (INR p - / nu) < 1 /\ (1 <= p)%nat) /\ 0 <= H i < th.
Proof.
  intros E N A nu phi fs wl wh low high th L hop lo T HC HT HA Hnu Hth HW Hlo Hhi n.
  destruct (compute_yin_ok N (tone A nu phi) fs wl wh low high th L hop lo T HC HT) as (P & H & a & EQ & HH). fold n in EQ, HH.
  assert (K : forall i, (i < n)%nat -> exists p h, P i = Fin (IZR fs / INR p) /\ Rabs (INR p - / nu) < 1 /\ (1 <= p)%nat /\ H i = Fin h /\ 0 <= h < th).
  { intros i Hi. destruct (HH i Hi) as (_ & D).
    assert (EX : yin_d L (yin_x hop (tone A nu phi) i) = yin_d L (tone A nu (2 * PI * nu * INR (i * hop) + phi))).
    { unfold yin_d. replace (yin_x hop (tone A nu phi) i) with (tone A nu (2 * PI * nu * INR (i * hop) + phi)); [reflexivity|].
      apply FunctionalExtensionality.functional_extensionality. intros t. unfold yin_x, tone. rewrite plus_INR. do 2 f_equal. ring. }
    rewrite EX in D. clear EX. set (ph := 2 * PI * nu * INR (i * hop) + phi) in *.
    pose proof (fun b p => tone_lag A nu ph th L HA Hnu Hth HW lo (S T) b p Hlo Hhi) as TL. pose proof (tone_voiced A nu ph th L HA Hnu Hth HW lo (S T) Hlo Hhi) as TV.
    destruct D as [(b & p & Y & p1 & EP & EH)|([U|(b & Y)] & _)].
    - destruct (TL b p Y) as (T1 & _ & h & E1 & E2). exists p, h. rewrite EP, EH. repeat split; try assumption; lra.
    - contradiction.
    - destruct (TL b 0%nat Y) as (_ & Z & _). lia. }
  set (pv := fun v => match v with Fin r => r | _ => 0 end).
  exists (fun i => pv (P i)), (fun i => pv (H i)), a. split.
  - rewrite EQ. do 2 f_equal. f_equal. f_equal; unfold fvec; apply map_ext_in; intros i Hi; apply in_seq in Hi; destruct (K i ltac:(lia)) as (p & h & E1 & _ & _ & E2 & _); rewrite ?E1, ?E2; reflexivity.
  - intros i Hi. destruct (K i Hi) as (p & h & -> & K1 & K2 & -> & K3). cbn [pv]. split; [exists p|]; auto.
Qed.
Lemma yin_tone_default : forall `{Env} N A f phi, yin_config 16000 0.03 0.015 50 3000 480 240 5 319 -> A <> 0 -> 100 <= f <= 1400 ->
  let n := yin_frames N 480 240 in
  exists P H a, compute_yin (fvec N (tone A (f / 16000) phi)) 16000 0.03 0.015 50 3000 0.1
    = Ok (fvec n P, fvec n H, map a (seq 0 n), fvec n (fun i => INR (i * 240) / 16000)) /\
  forall i, (i < n)%nat -> (exists p, P i = 16000 / INR p /\ Rabs (INR p - 16000 / f) < 1 /\ (1 <= p)%nat) /\ 0 <= H i < 0.1.
Proof.
  intros E N A f phi HC HA Hf n. set (nu := f / 16000). assert (Hn : 0.00625 <= nu <= 0.0875) by (unfold nu; lra).
  assert (EP : / nu = 16000 / f) by (unfold nu; field; lra).
  assert (B : 12 * nu ^ 2 <= 0.1 <= / 4) by (assert (nu * nu <= 0.0875 * 0.0875) by (apply Rmult_le_compat; lra); lra).
  pose proof (sin2 nu 0.1 ltac:(lra) B) as S2. assert (K : / sin (2 * PI * nu) <= / (5 * nu)) by (apply Rinv_le_contravar; lra).
  assert (I : / 0.0875 <= / nu <= 160) by (split; [apply Rinv_le_contravar; lra|replace 160 with (/ 0.00625) by lra; apply Rinv_le_contravar; lra]).
  assert (K5 : / (5 * nu) = / nu / 5) by (field; lra). rewrite K5 in K. assert (E480 : INR 480 = 480) by (rewrite INR_IZR; reflexivity).
  assert (E320 : INR 320 = 320) by (rewrite INR_IZR; reflexivity).
  assert (G1 : 4 * 0.1 * (INR 480 + / sin (2 * PI * nu)) + 3 / (2 * nu) + / sin (2 * PI * nu) <= INR 480).
  { rewrite E480. replace (3 / (2 * nu)) with (3 / 2 * / nu) by (field; lra). lra. }
  assert (G2 : INR 5 <= / nu - / 2) by (cbn [INR]; lra). assert (G3 : / nu + / 2 < INR 320) by (rewrite E320; lra).
  rewrite <- EP. apply (yin_tone N A nu phi 16000 0.03 0.015 50 3000 0.1 480 240 5 319 HC ltac:(lia) HA ltac:(lra) B G1 G2 G3).
Qed.
