(** * Proofs for C172: tones in noise *)
From Coq Require Import Reals ZArith List String Bool Lia Lra Psatz.
From Flocq Require Import Core.Raux Core.Round_NE Core.Generic_fmt Core.Zaux.
From Coquelicot Require Import Complex.
From Verif Require Import Base BaseFacts SpecBase SpecMat Preprocessing WindowFacts SpecFeatures BigSum MatFacts SpecSpectral Dominant DominantFacts SpecYin Yin YinFacts SpecNoise NoiseFacts SpecTone ToneFacts YinToneFacts.
Import ListNotations.
Local Open Scope R_scope.

(** ** Differences of a noisy signal *)
Lemma noise_up : forall a b l, 0 < l -> (a + b) ^ 2 <= (1 + l) * a ^ 2 + (1 + / l) * b ^ 2.
Proof.
  intros a b l Hl. assert (0 <= (l * a - b) ^ 2 * / l) by (apply Rmult_le_pos; [apply pow2_ge_0|left; apply Rinv_0_lt_compat; assumption]).
  replace ((l * a - b) ^ 2 * / l) with (l * a ^ 2 - 2 * a * b + / l * b ^ 2) in * by (field; lra). lra.
Qed.
Lemma noise_down : forall a b l, 0 < l -> (1 - l) * a ^ 2 - (/ l - 1) * b ^ 2 <= (a + b) ^ 2.
Proof.
  intros a b l Hl. assert (0 <= (l * a + b) ^ 2 * / l) by (apply Rmult_le_pos; [apply pow2_ge_0|left; apply Rinv_0_lt_compat; assumption]).
  replace ((l * a + b) ^ 2 * / l) with (l * a ^ 2 + 2 * a * b + / l * b ^ 2) in * by (field; lra). lra.
Qed.
Section Noise.
Variables (f x : nat -> R) (eps : R) (w : nat).
Hypothesis Hx : forall t, Rabs (x t - f t) <= eps.
Lemma noise_b : forall j t, (x j - x (j + t)%nat - (f j - f (j + t)%nat)) ^ 2 <= 4 * eps ^ 2.
Proof.
  intros j t. pose proof (Hx j) as H1. pose proof (Hx (j + t)) as H2. apply Rabs_le_inv in H1, H2.
  replace (4 * eps ^ 2) with ((2 * eps) ^ 2) by ring. rewrite <- !Rsqr_pow2. apply neg_pos_Rsqr_le; lra.
Qed.
Lemma yin_d_up : forall t l, 0 < l -> (t <= w)%nat -> yin_d w x t <= (1 + l) * yin_d w f t + (1 + / l) * (4 * eps ^ 2 * (INR w - INR t)).
Proof.
  intros t l Hl Ht. unfold yin_d. rewrite <- minus_INR by assumption.
  apply Rle_trans with (bigsum (w - t) (fun j => (1 + l) * (f j - f (j + t)%nat) ^ 2 + (1 + / l) * (4 * eps ^ 2))).
  - apply bigsum_le. intros j _. replace (x j - x (j + t)%nat) with ((f j - f (j + t)%nat) + (x j - x (j + t)%nat - (f j - f (j + t)%nat))) by ring.
    eapply Rle_trans; [apply (noise_up _ _ l Hl)|]. apply Rplus_le_compat_l, Rmult_le_compat_l; [assert (0 < / l) by (apply Rinv_0_lt_compat; assumption); lra|apply noise_b].
  - rewrite bigsum_plus, bigsum_scal, bigsum_const. right. ring.
Qed.
Lemma yin_d_down : forall t l, 0 < l <= 1 -> (t <= w)%nat -> (1 - l) * yin_d w f t - (/ l - 1) * (4 * eps ^ 2 * (INR w - INR t)) <= yin_d w x t.
Proof.
  intros t l Hl Ht. unfold yin_d. rewrite <- minus_INR by assumption.
  apply Rle_trans with (bigsum (w - t) (fun j => (1 - l) * (f j - f (j + t)%nat) ^ 2 - (/ l - 1) * (4 * eps ^ 2))).
  - rewrite bigsum_minus, bigsum_scal, bigsum_const. right. ring.
  - apply bigsum_le. intros j _. replace (x j - x (j + t)%nat) with ((f j - f (j + t)%nat) + (x j - x (j + t)%nat - (f j - f (j + t)%nat))) by ring.
    eapply Rle_trans; [|apply (noise_down _ _ l (proj1 Hl))]. assert (1 <= / l) by (rewrite <- Rinv_1; apply Rinv_le_contravar; lra).
    assert (K : (/ l - 1) * (x j - x (j + t)%nat - (f j - f (j + t)%nat)) ^ 2 <= (/ l - 1) * (4 * eps ^ 2)) by (apply Rmult_le_compat_l; [lra|apply noise_b]). lra.
Qed.
End Noise.

Section NoisyTone.
Variables (A nu phi thr eps : R) (x : nat -> R) (w lo : nat).
Hypothesis HA : A <> 0.
Hypothesis Hnu : 0 < nu.
Hypothesis Hth : 100 * nu ^ 2 <= thr <= / 7.
Let kap := / sin (2 * PI * nu).
Hypothesis Hw : 7 * thr * (INR w + kap) + 2 / nu + kap <= INR w.
Let f := tone A nu phi.
Hypothesis Hx : forall t, Rabs (x t - f t) <= eps.
Hypothesis He1 : 60 * eps ^ 2 <= thr * A ^ 2.
Hypothesis Hlo : nu * INR lo <= / 2.
Hypothesis He2 : 10 * eps <= Rabs A * Rmin (sin (PI * nu * INR lo)) (/ 2).
Hypothesis Hlo1 : (1 <= lo)%nat.
Let d := yin_d w f.
Let D := yin_d w x.
Let s (t : nat) := sin (PI * nu * INR t) ^ 2.
Let P := / nu.

Lemma eps_pos : 0 <= eps.
Proof. pose proof (Hx 0) as H. pose proof (Rabs_pos (x 0%nat - f 0%nat)). lra. Qed.
Lemma hth' : 12 * nu ^ 2 <= thr <= / 4.
Proof. pose proof (pow2_ge_0 nu). lra. Qed.
Lemma hw' : 4 * thr * (INR w + kap) + 3 / (2 * nu) + kap <= INR w.
Proof.
  pose proof (kap_bounds nu thr Hnu hth') as (K & _). fold kap in K. pose proof (pos_INR w). pose proof (pow2_ge_0 nu).
  assert (0 <= thr * (INR w + kap)) by (apply Rmult_le_pos; lra). assert (0 < / nu) by (apply Rinv_0_lt_compat; assumption).
  replace (3 / (2 * nu)) with (3 / 2 * / nu) by (field; lra). unfold Rdiv in Hw. lra.
Qed.
Lemma nu_tiny : nu <= 0.0378.
Proof. destruct (Rle_lt_dec nu 0.0378) as [|K]; [assumption|]. exfalso. assert (0.0378 * 0.0378 < nu * nu) by (apply Rmult_le_0_lt_compat; lra). lra. Qed.
Lemma P_big : 0 < P /\ nu * P = 1 /\ 26 <= P.
Proof.
  pose proof nu_tiny as N. assert (E : nu * P = 1) by (unfold P; field; lra). assert (0 < P) by (apply Rinv_0_lt_compat; assumption).
  split; [assumption|]. split; [assumption|]. nra.
Qed.
Lemma room : forall t, INR t <= P * 3 / 2 -> (S t <= w)%nat /\ 7 * thr * (INR w + kap) <= INR w - INR t - kap /\ 0 < kap <= P / 5 /\ P / 2 <= INR w - INR t - kap /\ 0 < thr.
Proof.
  intros t Ht. pose proof (kap_bounds nu thr Hnu hth') as K. fold kap P in K. pose proof P_big as (P0 & PE & P1).
  replace (2 / nu) with (2 * P) in Hw by (unfold P; field; lra).
  assert (T0 : 0 < thr) by (pose proof (pow_lt nu 2 Hnu); lra). pose proof (pos_INR w).
  assert (W0 : 0 < 7 * thr * (INR w + kap)) by (apply Rmult_lt_0_compat; lra).
  split; [|repeat split; lra]. cut (t < w)%nat; [lia|]. apply INR_lt. lra.
Qed.
Lemma s01 : forall t, 0 <= s t <= 1.
Proof. intros t. apply (s_range nu). Qed.
(** lags where the tone differs from itself *)
Definition clear_lag (t : nat) : Prop := (lo <= t)%nat /\ (nu * INR t <= 5 / 6 \/ 7 / 6 <= nu * INR t <= 3 / 2).
Lemma s_clear : forall t u, clear_lag t -> (u <= t)%nat -> s u <= 4 * s t.
Proof.
  intros t u (H0 & [H|H]) Hu; [apply (s_early nu Hnu t u Hu H)|]. pose proof (s01 u). pose proof PI_RGT_0 as HP.
  assert (S : / 4 <= s t); [|lra]. unfold s. assert (H2 : / 2 <= - sin (PI * nu * INR t)).
  { rewrite <- neg_sin. replace (PI * nu * INR t + PI) with (PI * (nu * INR t - 1) + 2 * INR 1 * PI) by (cbn [INR]; ring). rewrite sin_period.
    replace (/ 2) with (sin (PI / 6)) by (rewrite sin_PI6; lra). pose proof (pi_le (/ 6) (nu * INR t - 1) ltac:(lra)). pose proof (pi_le (nu * INR t - 1) (/ 2) ltac:(lra)). apply sin_incr_1; lra. }
  replace (/ 4) with ((/ 2) ^ 2) by lra. replace (sin (PI * nu * INR t) ^ 2) with ((- sin (PI * nu * INR t)) ^ 2) by ring. apply pow_incr. lra.
Qed.
Lemma s_noise : forall t, clear_lag t -> 100 * eps ^ 2 <= A ^ 2 * s t.
Proof.
  intros t Ht. pose proof PI_RGT_0 as HP. assert (K : (Rmin (sin (PI * nu * INR lo)) (/ 2)) ^ 2 <= s t).
  { assert (L0 : 0 <= nu * INR lo) by (apply Rmult_le_pos; [lra|apply pos_INR]).
    assert (SL : 0 <= sin (PI * nu * INR lo)) by (rewrite Rmult_assoc; pose proof (pi_le 0 _ L0); pose proof (pi_le _ _ Hlo); apply sin_ge_0; lra).
    assert (M0 : 0 <= Rmin (sin (PI * nu * INR lo)) (/ 2)) by (apply Rmin_glb; lra).
    destruct Ht as (H0 & [H|H]).
    - destruct (Rle_lt_dec (nu * INR t) (/ 2)) as [Q|Q].
      + unfold s. apply pow_incr. split; [exact M0|]. eapply Rle_trans; [apply Rmin_l|]. apply le_INR in H0. assert (nu * INR lo <= nu * INR t) by (apply Rmult_le_compat_l; lra).
        rewrite !Rmult_assoc. pose proof (pi_le 0 _ L0). pose proof (pi_le _ _ Q). pose proof (pi_le (nu * INR lo) (nu * INR t) ltac:(lra)). apply sin_incr_1; lra.
      + apply Rle_trans with ((/ 2) ^ 2); [apply pow_incr; split; [exact M0|apply Rmin_r]|]. unfold s. apply pow_incr. split; [lra|].
        replace (/ 2) with (sin (PI / 6)) by (rewrite sin_PI6; lra). rewrite <- (sin_PI_x (PI * nu * INR t)), Rmult_assoc.
        pose proof (pi_lt _ _ Q). pose proof (pi_le _ _ H). apply sin_incr_1; lra.
    - apply Rle_trans with ((/ 2) ^ 2); [apply pow_incr; split; [exact M0|apply Rmin_r]|].
      assert (H2 : / 2 <= - sin (PI * nu * INR t)).
      { rewrite <- neg_sin. replace (PI * nu * INR t + PI) with (PI * (nu * INR t - 1) + 2 * INR 1 * PI) by (cbn [INR]; ring). rewrite sin_period.
        replace (/ 2) with (sin (PI / 6)) by (rewrite sin_PI6; lra). pose proof (pi_le (/ 6) (nu * INR t - 1) ltac:(lra)). pose proof (pi_le (nu * INR t - 1) (/ 2) ltac:(lra)). apply sin_incr_1; lra. }
      unfold s. replace (sin (PI * nu * INR t) ^ 2) with ((- sin (PI * nu * INR t)) ^ 2) by ring. apply pow_incr. lra. }
  pose proof eps_pos as E0. assert (J : (10 * eps) ^ 2 <= (Rabs A * Rmin (sin (PI * nu * INR lo)) (/ 2)) ^ 2) by (apply pow_incr; lra).
  rewrite Rpow_mult_distr, (Rpow_mult_distr (Rabs A)), pow2_abs in J. apply Rle_trans with (A ^ 2 * (Rmin (sin (PI * nu * INR lo)) (/ 2)) ^ 2); [lra|]. apply Rmult_le_compat_l; [apply pow2_ge_0|exact K].
Qed.
Lemma d_two : forall t, INR t <= P * 3 / 2 -> 0 <= d t <= 2 * A ^ 2 * s t * (INR w - INR t + kap) /\ 2 * A ^ 2 * s t * (INR w - INR t - kap) <= d t.
Proof.
  intros t Ht. destruct (room t Ht) as (L1 & L2 & K & R2 & T0). unfold d. unfold f. rewrite (tone_d A nu phi thr w Hnu hth') by lia.
  pose proof (A2 A HA) as PA. pose proof (s01 t) as S. pose proof (g_bounds nu phi thr w Hnu hth' t) as G. fold kap in G. fold (s t).
  assert (0 <= 2 * A ^ 2 * s t) by (apply Rmult_le_pos; lra). pose proof (pos_INR w). assert (0 <= 7 * thr * (INR w + kap)) by (apply Rmult_le_pos; lra).
  split; [split|]; [apply Rmult_le_pos; lra|apply Rmult_le_compat_l; lra|apply Rmult_le_compat_l; lra].
Qed.
Lemma noisy_clear : forall t, clear_lag t -> thr * yin_sum D t <= D t * INR t.
Proof.
  intros t Ht. assert (N3 : nu * INR t <= 3 / 2) by (destruct Ht as (_ & [H|H]); lra). pose proof P_big as (P0 & PE & P1).
  assert (LT : INR t <= P * 3 / 2) by (apply Rmult_le_reg_l with nu; lra). destruct (room t LT) as (L1 & L2 & K & R2 & T0).
  pose proof (s_noise t Ht) as SN. pose proof (s01 t) as S0. pose proof (pow2_ge_0 eps) as E0. pose proof (pow2_ge_0 A) as A0. pose proof (pos_INR t) as Tt. pose proof (pos_INR w) as Tw.
  set (B := A ^ 2 * s t) in *. assert (B0 : 0 <= B) by (apply Rmult_le_pos; lra).
  assert (UP : forall u, (1 <= u <= t)%nat -> D u <= 9.2 * B * (INR w + kap)).
  { intros u Hu. assert (LU : INR u <= INR t) by (apply le_INR; lia). pose proof (pos_INR u) as U0. destruct (d_two u ltac:(lra)) as ((_ & DU) & _).
    pose proof (yin_d_up f x eps w Hx u 0.07 ltac:(lra) ltac:(lia)) as Y. fold D d in Y. pose proof (s_clear t u Ht ltac:(lia)) as SU. pose proof (s01 u) as S1.
    assert (Q1 : 2 * A ^ 2 * s u * (INR w - INR u + kap) <= 8 * B * (INR w + kap)).
    { apply Rmult_le_compat; [apply Rmult_le_pos; lra|lra| |lra]. unfold B. assert (A ^ 2 * s u <= A ^ 2 * (4 * s t)) by (apply Rmult_le_compat_l; lra). lra. }
    assert (Q2 : 4 * eps ^ 2 * (INR w - INR u) <= 0.04 * B * (INR w + kap)) by (apply Rmult_le_compat; lra).
    assert (Q3 : 0 <= B * (INR w + kap)) by (apply Rmult_le_pos; lra).
    replace (1 + / 0.07) with (107 / 7) in Y by lra. lra. }
  assert (YS : yin_sum D t <= INR t * (9.2 * B * (INR w + kap))).
  { unfold yin_sum. rewrite <- bigsum_const. apply bigsum_le. intros u Hu. apply UP. lia. }
  assert (LOW : 9.2 * B * (thr * (INR w + kap)) <= D t).
  { destruct (d_two t LT) as (_ & DT). pose proof (yin_d_down f x eps w Hx t 0.17 ltac:(lra) ltac:(lia)) as Y. fold D d in Y.
    set (M := INR w - INR t - kap) in *. assert (KM : kap <= 0.4 * M) by lra.
    assert (BM : 0 <= B * M) by (apply Rmult_le_pos; lra).
    assert (Q2 : 4 * eps ^ 2 * (INR w - INR t) <= 0.04 * B * (1.4 * M)) by (apply Rmult_le_compat; try lra; unfold M in *; lra).
    assert (Q3 : B * (7 * thr * (INR w + kap)) <= B * M) by (apply Rmult_le_compat_l; lra).
    replace (2 * A ^ 2 * s t * M) with (2 * (B * M)) in DT by (unfold B; ring). lra. }
  apply Rle_trans with (thr * (INR t * (9.2 * B * (INR w + kap)))); [apply Rmult_le_compat_l; lra|].
  replace (thr * (INR t * (9.2 * B * (INR w + kap)))) with (9.2 * B * (thr * (INR w + kap)) * INR t) by ring. apply Rmult_le_compat_r; lra.
Qed.
Lemma noisy_detect : forall t, Rabs (INR t - P) <= / 2 -> D t * INR t < thr * yin_sum D t.
Proof.
  intros t Ht. destruct (near_P nu thr Hnu hth' t Ht) as (S1 & S2). fold (s t) in S1. apply Rabs_le_inv in Ht. pose proof P_big as (P0 & PE & P1).
  assert (LT : INR t <= P * 3 / 2) by lra. destruct (room t LT) as (L1 & L2 & K & R2 & T0).
  set (B := bigsum t (fun u => sin (PI * nu * INR (S u)) ^ 2)) in *. set (M := INR w - INR t - kap) in *.
  pose proof (pow2_ge_0 eps) as E0. pose proof (pow2_ge_0 A) as A0. pose proof (A2 A HA) as PA. pose proof (pow_lt nu 2 Hnu) as N0.
  assert (KM : kap <= 0.4 * M) by lra. assert (M0 : 0 < M) by lra. pose proof (pos_INR w) as W0.
  assert (WM : thr * INR w <= M / 7) by nra.
  assert (UP : D t <= A ^ 2 * M * (17.8 * nu ^ 2) + 11.2 * (eps ^ 2 * M)).
  { destruct (d_two t LT) as ((_ & DT) & _). pose proof (yin_d_up f x eps w Hx t 1 ltac:(lra) ltac:(lia)) as Y. fold D d in Y. pose proof (s01 t) as ST.
    assert (Q1 : 2 * A ^ 2 * s t * (INR w - INR t + kap) <= 2 * A ^ 2 * (2.4675 * nu ^ 2) * (1.8 * M)).
    { apply Rmult_le_compat; [apply Rmult_le_pos; lra|unfold M in *; lra|apply Rmult_le_compat_l; lra|unfold M in *; lra]. }
    assert (Q2 : eps ^ 2 * (INR w - INR t) <= eps ^ 2 * (1.4 * M)) by (apply Rmult_le_compat_l; unfold M in *; lra).
    replace (2 * A ^ 2 * (2.4675 * nu ^ 2) * (1.8 * M)) with (8.883 * (A ^ 2 * M * nu ^ 2)) in Q1 by lra.
    assert (0 <= A ^ 2 * M * nu ^ 2) by (apply Rmult_le_pos; [apply Rmult_le_pos; lra|lra]). rewrite Rinv_1 in Y. lra. }
  assert (LOW : A ^ 2 * M * B - INR t * (4 * eps ^ 2 * INR w) <= yin_sum D t).
  { unfold B, yin_sum. rewrite <- bigsum_scal, <- bigsum_const, <- bigsum_minus. apply bigsum_le. intros u Hu. assert (LU : INR (S u) <= INR t) by (apply le_INR; lia). pose proof (pos_INR (S u)) as U0.
    destruct (room (S u) ltac:(lra)) as (L3 & _). destruct (d_two (S u) ltac:(lra)) as (_ & DU). pose proof (yin_d_down f x eps w Hx (S u) (/ 2) ltac:(lra) ltac:(lia)) as Y. fold D d in Y.
    fold (s (S u)). pose proof (s01 (S u)) as SS.
    assert (Q1 : 2 * A ^ 2 * s (S u) * M <= 2 * A ^ 2 * s (S u) * (INR w - INR (S u) - kap)) by (apply Rmult_le_compat_l; [apply Rmult_le_pos; lra|unfold M; lra]).
    assert (Q2 : eps ^ 2 * (INR w - INR (S u)) <= eps ^ 2 * INR w) by (apply Rmult_le_compat_l; lra). rewrite Rinv_inv in Y by lra. lra. }
  set (T := INR t) in *.
  assert (B1 : A ^ 2 * M * (T / 2 - / 4) <= A ^ 2 * M * B) by (apply Rmult_le_compat_l; [apply Rmult_le_pos; lra|exact S2]).
  assert (AM : 0 < A ^ 2 * M) by (apply Rmult_lt_0_compat; lra).
  (* everything against thr * A^2 * M * T *)
  set (Z := thr * (A ^ 2 * M) * T). assert (Z0 : 0 < Z) by (apply Rmult_lt_0_compat; [apply Rmult_lt_0_compat; lra|lra]).
  assert (Z1 : A ^ 2 * M * (17.8 * nu ^ 2) * T <= 0.178 * Z).
  { unfold Z. replace (A ^ 2 * M * (17.8 * nu ^ 2) * T) with (A ^ 2 * M * T * (17.8 * nu ^ 2)) by ring. replace (0.178 * (thr * (A ^ 2 * M) * T)) with (A ^ 2 * M * T * (0.178 * thr)) by ring.
    apply Rmult_le_compat_l; [apply Rmult_le_pos; [lra|lra]|lra]. }
  assert (Z2 : 60 * (eps ^ 2 * M * T) <= Z).
  { unfold Z. replace (60 * (eps ^ 2 * M * T)) with (M * T * (60 * eps ^ 2)) by ring. replace (thr * (A ^ 2 * M) * T) with (M * T * (thr * A ^ 2)) by ring.
    apply Rmult_le_compat_l; [apply Rmult_le_pos; [lra|lra]|lra]. }
  assert (Z3 : thr * (T * (4 * eps ^ 2 * INR w)) <= 4 / 7 * (eps ^ 2 * M * T)).
  { replace (thr * (T * (4 * eps ^ 2 * INR w))) with (4 * (eps ^ 2 * T) * (thr * INR w)) by ring. replace (4 / 7 * (eps ^ 2 * M * T)) with (4 * (eps ^ 2 * T) * (M / 7)) by field.
    apply Rmult_le_compat_l; [|exact WM]. apply Rmult_le_pos; [lra|]. apply Rmult_le_pos; [lra|lra]. }
  assert (Z4 : 0.49 * Z <= thr * (A ^ 2 * M * (T / 2 - / 4))).
  { unfold Z. replace (0.49 * (thr * (A ^ 2 * M) * T)) with (thr * (A ^ 2 * M * (0.49 * T))) by ring. apply Rmult_le_compat_l; [lra|]. apply Rmult_le_compat_l; [lra|]. lra. }
  assert (U2 : D t * T <= (A ^ 2 * M * (17.8 * nu ^ 2) + 11.2 * (eps ^ 2 * M)) * T) by (apply Rmult_le_compat_r; [lra|exact UP]).
  assert (V2 : thr * (A ^ 2 * M * (T / 2 - / 4) - T * (4 * eps ^ 2 * INR w)) <= thr * yin_sum D t) by (apply Rmult_le_compat_l; lra).
  lra.
Qed.
(** ** The search *)
Let c := yin_c D.
Lemma D_nonneg : forall t, 0 <= D t.
Proof. intros t. apply bigsum_nonneg. intros. apply pow2_ge_0. Qed.
Lemma c_cases : forall t, c t = NaN \/ exists r, c t = Fin r.
Proof. intros t. unfold c, yin_c. destruct (Nat.eqb t 0); [right; eauto|]. destruct (Req_EM_T (yin_sum D t) 0); eauto. Qed.
Lemma c_clear : forall t, clear_lag t -> fltb (c t) (Fin thr) = false.
Proof.
  intros t Ht. unfold c, yin_c. destruct (Nat.eqb_spec t 0) as [->|NZ]; [destruct Ht; lia|]. destruct (Req_EM_T (yin_sum D t) 0) as [|N]; [reflexivity|].
  cbn [fltb]. apply Rltb_false. pose proof (noisy_clear t Ht) as Q. assert (S0 : 0 <= yin_sum D t) by (apply bigsum_nonneg; intros; apply D_nonneg).
  apply Rmult_le_reg_r with (yin_sum D t); [lra|]. unfold Rdiv. rewrite Rmult_assoc, Rinv_l by exact N. lra.
Qed.
Lemma c_near : forall t, Rabs (INR t - P) <= / 2 -> fltb (c t) (Fin thr) = true.
Proof.
  intros t Ht. pose proof (noisy_detect t Ht) as Q. apply Rabs_le_inv in Ht. pose proof P_big as (P0 & PE & P1). destruct (room t ltac:(lra)) as (_ & _ & _ & _ & T0).
  assert (Z : 0 <= D t * INR t) by (apply Rmult_le_pos; [apply D_nonneg|apply pos_INR]).
  assert (S0 : 0 < yin_sum D t) by (apply Rmult_lt_reg_l with thr; lra).
  unfold c, yin_c. destruct (Nat.eqb_spec t 0) as [->|NZ]; [cbn [INR] in Ht; lra|]. destruct (Req_EM_T (yin_sum D t) 0) as [|N]; [lra|].
  cbn [fltb]. apply Rltb_true. apply Rmult_lt_reg_r with (yin_sum D t); [lra|]. unfold Rdiv. rewrite Rmult_assoc, Rinv_l by lra. lra.
Qed.
Lemma nearest_lag : exists t, Rabs (INR t - P) <= / 2.
Proof.
  pose proof P_big as (P0 & PE & P1). pose proof (Znearest_half (fun z => negb (Z.even z)) P) as Hz. set (z := ZnearestE P) in *. fold z in Hz. exists (Z.to_nat z).
  assert (0 <= z)%Z by (apply Rabs_le_inv in Hz; assert (-1 < z)%Z by (apply lt_IZR; lra); lia).
  rewrite INR_IZR, Z2Nat.id by assumption. rewrite Rabs_minus_sym. exact Hz.
Qed.
Lemma noisy_lag : forall hi b p, P + / 2 < INR hi -> yin_lag c lo hi thr b p ->
  Rabs (INR p - P) < P / 6 /\ (1 <= p)%nat /\ exists h, c p = Fin h /\ 0 <= h < thr.
Proof.
  intros hi b p Hhi ((L1 & L2) & L3 & L4 & L5 & L6 & L7). pose proof P_big as (P0 & PE & P1). pose proof nu_tiny as NT.
  destruct nearest_lag as (ts & Hts). pose proof (c_near ts Hts) as Cts. apply Rabs_le_inv in Hts.
  assert (T1 : (lo <= ts)%nat) by (apply INR_le; apply Rmult_le_reg_l with nu; [exact Hnu|]; apply Rle_trans with (nu * (P - / 2)); [lra|apply Rmult_le_compat_l; lra]).
  assert (T2 : (ts < hi)%nat) by (apply INR_lt; lra).
  assert (B1 : (b <= ts)%nat).
  { destruct (Nat.le_gt_cases b ts) as [|Gt]; [assumption|]. rewrite L5 in Cts by lia. discriminate. }
  assert (B3 : nu * INR b <= 1 + nu / 2) by (apply le_INR in B1; apply Rle_trans with (nu * (P + / 2)); [apply Rmult_le_compat_l; lra|lra]).
  assert (I : forall t, (b <= t <= p)%nat -> fltb (c t) (Fin thr) = true /\ 5 / 6 < nu * INR t < 7 / 6).
  { intros t. induction t as [|t IH]; intros Ht.
    - assert (b = 0%nat) by lia. subst b. assert (lo = 0%nat) by lia. lia.
    - assert (Cl : fltb (c (S t)) (Fin thr) = true /\ nu * INR (S t) <= 3 / 2).
      { destruct (Nat.eq_dec b (S t)) as [<-|NE]; [split; [assumption|lra]|]. destruct (IH ltac:(lia)) as (I1 & I2 & I3). specialize (L6 t ltac:(lia)).
        rewrite S_INR. split; [|lra]. destruct (c_cases t) as [Ct|(r & Ct)]; rewrite Ct in *; [discriminate|].
        destruct (c_cases (S t)) as [Cs|(r' & Cs)]; rewrite Cs in *; [discriminate|]. cbn [fltb] in *. apply Rltb_lt in L6, I1. apply Rltb_true. lra. }
      destruct Cl as (C1 & C2). split; [exact C1|]. assert (LT : (lo <= S t)%nat) by lia.
      destruct (Rle_lt_dec (nu * INR (S t)) (5 / 6)) as [Q|Q]; [rewrite (c_clear (S t)) in C1; [discriminate|split; [exact LT|left; exact Q]]|].
      destruct (Rle_lt_dec (7 / 6) (nu * INR (S t))) as [Q2|Q2]; [rewrite (c_clear (S t)) in C1; [discriminate|split; [exact LT|right; lra]]|]. lra. }
  destruct (I p ltac:(lia)) as (I1 & I2 & I3). split; [|split; [lia|]].
  - apply Rabs_def1; apply Rmult_lt_reg_l with nu; lra.
  - destruct (c_cases p) as [Cp|(r & Cp)]; rewrite Cp in I1; [discriminate|]. exists r. split; [exact Cp|]. cbn [fltb] in I1. apply Rltb_lt in I1. split; [|exact I1].
    destruct (yin_c_range D p r D_nonneg Cp) as (R1 & _). lra.
Qed.
Lemma noisy_voiced : forall hi, P + / 2 < INR hi -> ~ yin_unvoiced c lo hi thr.
Proof.
  intros hi Hhi H. pose proof P_big as (P0 & PE & P1). pose proof nu_tiny as NT. destruct nearest_lag as (ts & Hts). pose proof (c_near ts Hts) as C. apply Rabs_le_inv in Hts.
  rewrite (H ts) in C; [discriminate|]. split; [|apply INR_lt; lra]. apply INR_le; apply Rmult_le_reg_l with nu; [exact Hnu|]; apply Rle_trans with (nu * (P - / 2)); [lra|apply Rmult_le_compat_l; lra].
Qed.
End NoisyTone.

(** ** The calls *)
Lemma yin_noisy : forall `{Env} N A nu phi eps x fs wl wh low high th L hop lo T,
  yin_config fs wl wh low high L hop lo T -> (S T <= L)%nat -> A <> 0 -> 0 < nu -> apart N eps (tone A nu phi) x -> 0 <= eps ->
  100 * nu ^ 2 <= th <= / 7 -> 7 * th * (INR L + / sin (2 * PI * nu)) + 2 / nu + / sin (2 * PI * nu) <= INR L ->
  60 * eps ^ 2 <= th * A ^ 2 -> 10 * eps <= Rabs A * Rmin (sin (PI * nu * INR lo)) (/ 2) ->
  (1 <= lo)%nat -> nu * INR lo <= / 2 -> / nu + / 2 < INR (S T) ->
  let n := yin_frames N L hop in
  exists P H a, compute_yin (fvec N x) fs wl wh low high th
    = Ok (fvec n P, fvec n H, map a (seq 0 n), fvec n (fun i => INR (i * hop) / IZR fs)) /\
  forall i, (i < n)%nat -> (exists p, P i = IZR fs / INR p /\ Rabs (INR p - / nu) < / nu / 6 /\ (1 <= p)%nat) /\ 0 <= H i < th.
Proof.
  intros E N A nu phi eps x0 fs wl wh low high th L hop lo T HC HT HA Hnu Hx0 He0 Hth HW He1 He2 Hl1 Hl2 Hhi n.
  set (x := fun t => if Nat.ltb t N then x0 t else tone A nu phi t).
  assert (EX : fvec N x0 = fvec N x) by (apply fvec_ext; intros t Ht; unfold x; destruct (Nat.ltb_spec t N); [reflexivity|lia]).
  assert (Hx : forall t, Rabs (x t - tone A nu phi t) <= eps).
  { intros t. unfold x. destruct (Nat.ltb_spec t N); [apply Hx0; assumption|]. unfold Rminus. rewrite Rplus_opp_r, Rabs_R0. exact He0. }
  rewrite EX. clearbody x. clear EX Hx0.
  destruct (compute_yin_ok N x fs wl wh low high th L hop lo T HC HT) as (P & H & a & EQ & HH). fold n in EQ, HH.
  assert (K : forall i, (i < n)%nat -> exists p h, P i = Fin (IZR fs / INR p) /\ Rabs (INR p - / nu) < / nu / 6 /\ (1 <= p)%nat /\ H i = Fin h /\ 0 <= h < th).
  { intros i Hi. destruct (HH i Hi) as (_ & D). set (ph := 2 * PI * nu * INR (i * hop) + phi) in *.
    assert (HX : forall t, Rabs (yin_x hop x i t - tone A nu ph t) <= eps).
    { intros t. replace (tone A nu ph t) with (tone A nu phi (i * hop + t)); [apply Hx|]. unfold tone, ph. rewrite plus_INR. do 2 f_equal. ring. }
    pose proof (fun b p => noisy_lag A nu ph th eps (yin_x hop x i) L lo HA Hnu Hth HW HX He1 Hl2 He2 Hl1 (S T) b p Hhi) as TL.
    pose proof (noisy_voiced A nu ph th eps (yin_x hop x i) L lo HA Hnu Hth HW HX He1 Hl2 Hl1 (S T) Hhi) as TV.
    destruct D as [(b & p & Y & p1 & EP & EH)|([U|(b & Y)] & _)].
    - destruct (TL b p Y) as (T1 & _ & h & E1 & E2). exists p, h. rewrite EP, EH. repeat split; try assumption; lra.
    - contradiction.
    - destruct (TL b 0%nat Y) as (_ & Z & _). lia. }
  set (pv := fun v => match v with Fin r => r | _ => 0 end).
  exists (fun i => pv (P i)), (fun i => pv (H i)), a. split.
  - rewrite EQ. do 2 f_equal. f_equal. f_equal; unfold fvec; apply map_ext_in; intros i Hi; apply in_seq in Hi; destruct (K i ltac:(lia)) as (p & h & E1 & _ & _ & E2 & _); rewrite ?E1, ?E2; reflexivity.
  - intros i Hi. destruct (K i Hi) as (p & h & -> & K1 & K2 & -> & K3). cbn [pv]. split; [exists p|]; auto.
Qed.

Lemma spec_mag_plus' : forall n L f g k, spec_mag n L g k <= spec_mag n L f k + spec_mag n L (fun t => g t - f t) k.
Proof.
  intros n L f g k. unfold spec_mag, spec_sq.
  assert (E1 : forall f', spec_re n L f' k ^ 2 + spec_im n L f' k ^ 2 = Cmod (spec_re n L f' k, spec_im n L f' k) ^ 2).
  { intros. unfold Cmod. cbn [fst snd]. rewrite pow2_sqrt; [reflexivity|]. apply Rplus_le_le_0_compat; apply pow2_ge_0. }
  rewrite !E1, !sqrt_pow2 by apply Cmod_ge_0.
  replace (spec_re n L g k, spec_im n L g k) with (Cplus (spec_re n L f k, spec_im n L f k) (spec_re n L (fun t => g t - f t) k, spec_im n L (fun t => g t - f t) k)).
  2:{ unfold Cplus. cbn [fst snd]. rewrite <- spec_re_minus, <- spec_im_minus. f_equal; ring. }
  apply Cmod_triangle.
Qed.
Lemma spec_mag_plus : forall n L f g k, spec_mag n L g k <= spec_mag n L f k + l1 n L (fun t => g t - f t).
Proof. intros n L f g k. eapply Rle_trans; [apply (spec_mag_plus' n L f g k)|]. apply Rplus_le_compat_l. apply spec_mag_le. Qed.
Lemma noisy_mag : forall wt n L f x eps k, (1 <= L <= n)%nat -> (forall t, (t < L)%nat -> Rabs (x t - f t) <= eps) ->
  Rabs (spec_mag n L (fun t => spec_window wt L t * x t) k - spec_mag n L (fun t => spec_window wt L t * f t) k) <= eps * bigsum L (spec_window wt L).
Proof.
  intros wt n L f x eps k HL Hx.
  assert (K : forall a b, (forall t, (t < L)%nat -> Rabs (a t - b t) <= eps) ->
    spec_mag n L (fun t => spec_window wt L t * a t) k <= spec_mag n L (fun t => spec_window wt L t * b t) k + eps * bigsum L (spec_window wt L)).
  { intros a b Hab. eapply Rle_trans; [apply spec_mag_plus|]. apply Rplus_le_compat_l. unfold l1. rewrite Nat.min_l by lia. rewrite <- bigsum_scal. apply bigsum_le. intros t Ht.
    replace (spec_window wt L t * a t - spec_window wt L t * b t) with (spec_window wt L t * (a t - b t)) by ring.
    rewrite Rabs_mult, Rmult_comm, (Rabs_pos_eq (spec_window wt L t)) by (apply spec_window_bounds; lia). apply Rmult_le_compat_r; [apply spec_window_bounds; lia|apply Hab, Ht]. }
  pose proof (K x f Hx) as K1. assert (Hx' : forall t, (t < L)%nat -> Rabs (f t - x t) <= eps) by (intros t Ht; rewrite Rabs_minus_sym; apply Hx, Ht).
  pose proof (K f x Hx'). apply Rabs_le. lra.
Qed.
Lemma noisy_argmax : forall wt n L A nu phi eps x d k0 k, (1 <= L <= n)%nat -> A <> 0 -> 0 < nu < / 2 -> 0 < d -> (k0 <= n / 2)%nat ->
  (forall t, (t < L)%nat -> Rabs (x t - tone A nu phi t) <= eps) -> tone_seen_in_noise wt n L nu d (eps / Rabs A) k0 ->
  is_argmax (S (n / 2)) (spec_power n L (fun t => spec_window wt L t * x t)) k -> Rabs (nu - INR k / INR n) < d.
Proof.
  intros wt n L A nu phi eps x d k0 k HL HA Hnu Hd Hk0 Hx (S1 & S2) (Hk & Hmax & _).
  destruct (Rle_lt_dec d (Rabs (nu - INR k / INR n))) as [Far|]; [exfalso|assumption].
  specialize (Hmax k0 ltac:(lia)). assert (Pn : 0 < INR n) by (apply lt_0_INR; lia).
  assert (MM : spec_mag n L (fun t => spec_window wt L t * x t) k0 <= spec_mag n L (fun t => spec_window wt L t * x t) k).
  { apply sqrt_le_1_alt. unfold spec_power in Hmax. apply Rmult_le_reg_r with (/ INR n); [apply Rinv_0_lt_compat; assumption|]. exact Hmax. }
  pose proof PI_RGT_0 as HP. pose proof (bin_half n k0 ltac:(lia) Hk0) as B0. destruct (sin_image nu _ Hnu B0) as (I2 & I0).
  pose proof (tone_far wt n L A nu phi k d HL Hnu ltac:(lia) Hd Far) as X1.
  assert (LO := tone_main wt n L A nu phi HL k0). specialize (LO ltac:(rewrite Rmult_assoc; rewrite <- (Rmult_1_r PI) at 2; apply Rmult_le_compat_l; lra) ltac:(lra)).
  assert (R3 : 2 / Rabs (sin (PI * (nu + INR k0 / INR n))) <= 2 / edge_distance nu)
    by (apply Rmult_le_compat_l; [lra|]; apply Rinv_le_contravar; [assumption|rewrite Rabs_pos_eq; lra]).
  assert (PA : 0 < Rabs A) by (apply Rabs_pos_lt; assumption).
  set (T := cos (PI * Rabs (nu - INR k0 / INR n) * (INR L - 1)) * bigsum L (spec_window wt L)) in *.
  assert (X2 : Rabs A / 2 * (T - 2 / edge_distance nu) <= spec_mag n L (fun t => spec_window wt L t * tone A nu phi t) k0) by (eapply Rle_trans; [|exact LO]; apply Rmult_le_compat_l; lra).
  pose proof (noisy_mag wt n L (tone A nu phi) x eps k HL Hx) as N1. pose proof (noisy_mag wt n L (tone A nu phi) x eps k0 HL Hx) as N2. apply Rabs_le_inv in N1, N2.
  set (W := bigsum L (spec_window wt L)) in *.
  assert (X3 : Rabs A / 2 * (2 / sin (PI * d) + 4 / edge_distance nu + 4 * (eps / Rabs A) * W) < Rabs A / 2 * T) by (apply Rmult_lt_compat_l; lra).
  replace (Rabs A / 2 * (2 / sin (PI * d) + 4 / edge_distance nu + 4 * (eps / Rabs A) * W)) with (Rabs A * (/ sin (PI * d) + / edge_distance nu) + Rabs A / 2 * (2 / edge_distance nu) + 2 * (eps * W)) in X3.
  2:{ unfold Rdiv. set (u := / sin (PI * d)). set (v := / edge_distance nu). field. lra. }
  lra.
Qed.
Lemma dominant_noisy : forall `{Env} N A nu phi eps x fs wl wh wt L hop n d k0, cut_config fs wl wh wt N L hop -> (L <= n)%nat -> A <> 0 ->
  0 < nu < / 2 -> 0 < d -> (k0 <= n / 2)%nat -> apart N eps (tone A nu phi) x -> tone_seen_in_noise wt n L nu d (eps / Rabs A) k0 ->
  exists k v, get_dominant_frequencies (fvec N x) fs None (Z.of_nat n) wl wh wt false = Ok (fvec (frame_count N L hop) v) /\
  forall i, (i < frame_count N L hop)%nat -> (k i <= n / 2)%nat /\ Rabs (nu - INR (k i) / INR n) < d /\
    near_milli (signed_bin (S (n / 2)) (k i) * IZR fs / INR (S (n / 2))) (v i).
Proof.
  intros E N A nu phi eps x fs wl wh wt L hop n d k0 HC Hn HA Hnu Hd Hk0 Hx HS.
  assert (HL : (1 <= L)%nat) by (unfold cut_config in HC; lia).
  destruct (get_dominant_raw N x fs wl wh wt L hop n HC ltac:(lia)) as (k & Hk & Ek).
  exists k, (fun i => freq3 n fs (k i)). split; [exact Ek|]. intros i Hi. pose proof (Hk i Hi) as AM.
  split; [destruct AM; lia|]. split; [|apply freq3_range; [apply HC|apply AM]].
  refine (noisy_argmax wt n L A nu (2 * PI * nu * INR (i * hop) + phi) eps (fun t => x (i * hop + t)%nat) d k0 (k i) ltac:(lia) HA Hnu Hd Hk0 _ HS AM).
  intros t Ht. replace (tone A nu (2 * PI * nu * INR (i * hop) + phi) t) with (tone A nu phi (i * hop + t)).
  - apply Hx. unfold cut_config in HC. apply (frame_in N L); lia.
  - unfold tone. rewrite plus_INR. do 2 f_equal. ring.
Qed.
Lemma dominant_noisy_value : forall `{Env} N A nu phi eps x fs wl wh wt L hop n d k0, cut_config fs wl wh wt N L hop -> (L <= n)%nat -> A <> 0 ->
  0 < nu < / 2 -> 0 < d -> (k0 <= n / 2)%nat -> apart N eps (tone A nu phi) x -> tone_seen_in_noise wt n L nu d (eps / Rabs A) k0 ->
  exists v, get_dominant_frequencies (fvec N x) fs None (Z.of_nat n) wl wh wt false = Ok (fvec (frame_count N L hop) v) /\
  let r := INR n / INR (S (n / 2)) in
  forall i, (i < frame_count N L hop)%nat ->
  (nu + d <= / 4 -> Rabs (v i - r * (nu * IZR fs)) <= r * (d * IZR fs) + / 2000) /\
  (/ 4 + / (2 * INR n) <= nu - d -> Rabs (v i - (r * (nu * IZR fs) - IZR fs)) <= r * (d * IZR fs) + / 2000 /\
     ((Z.of_nat (S (n / 2)) < 2000 * fs)%Z -> v i < 0)).
Proof.
  intros E N A nu phi eps x fs wl wh wt L hop n d k0 HC Hn HA Hnu Hd Hk0 Hx HS.
  destruct (dominant_noisy N A nu phi eps x fs wl wh wt L hop n d k0 HC Hn HA Hnu Hd Hk0 Hx HS) as (k & v & Ev & H).
  exists v. split; [exact Ev|]. intros r i Hi. destruct (H i Hi) as (H1 & H2 & H3).
  assert (1 <= L)%nat by (unfold cut_config in HC; lia). apply (reported_tone n (k i) fs nu d (v i)); try assumption; [lia|apply HC].
Qed.

(** ** Default arguments *)
Lemma default_seen_noise : forall nu eta, / 16 <= nu <= 7 / 16 -> eta <= / 40 -> exists k0, (k0 <= 512 / 2)%nat /\ tone_seen_in_noise "hamming" 512 400 nu (/ 40) eta k0.
Proof.
  intros nu eta H He. destruct (nearest_bin 256 nu ltac:(lia) ltac:(lra)) as (k0 & Hk & Hd). change (2 * 256)%nat with 512%nat in Hd.
  assert (E512 : INR 512 = 512) by (rewrite INR_IZR; reflexivity). assert (E400 : INR 400 = 400) by (rewrite INR_IZR; reflexivity).
  rewrite E512 in Hd. exists k0. split; [exact Hk|]. unfold tone_seen_in_noise. rewrite E512, E400, hamming_sum, E400 by lia.
  set (delta := Rabs (nu - INR k0 / 512)) in *. assert (P : 0 <= delta) by apply Rabs_pos. split; [lra|].
  pose proof pi_low as PL. pose proof PI_4 as PU. pose proof (edge_16 nu H) as EG.
  assert (S1 : 0.0783 <= sin (PI * / 40)) by (eapply Rle_trans; [|apply (sin_low (PI * / 40) 0.0785); lra]; lra).
  assert (S2 : 0.339 <= cos (PI * delta * (400 - 1))).
  { rewrite <- sin_shift. eapply Rle_trans; [|apply (sin_low _ 0.3466)]; [lra| |]; nra. }
  assert (R1 : 2 / sin (PI * / 40) <= 2 / 0.0783) by (apply Rmult_le_compat_l; [lra|]; apply Rinv_le_contravar; lra).
  assert (R2 : 4 / edge_distance nu <= 4 / 0.195) by (apply Rmult_le_compat_l; [lra|]; apply Rinv_le_contravar; lra).
  set (C := cos (PI * delta * (400 - 1))) in *. lra.
Qed.
Lemma dominant_noisy_default : forall `{Env} N A f phi x, cut_config 16000 0.025 0.010 "hamming" N 400 160 -> A <> 0 -> 1000 <= f <= 3600 ->
  apart N (Rabs A / 40) (tone A (f / 16000) phi) x -> exists v,
  get_dominant_frequencies (fvec N x) 16000 None 512 0.025 0.010 "hamming" false = Ok (fvec (frame_count N 400 160) v) /\
  forall i, (i < frame_count N 400 160)%nat -> Rabs (v i - 512 / 257 * f) <= 800.
Proof.
  intros E N A f phi x HC HA Hf Hx. assert (PA : 0 < Rabs A) by (apply Rabs_pos_lt; assumption).
  destruct (default_seen_noise (f / 16000) (Rabs A / 40 / Rabs A) ltac:(lra)) as (k0 & Hk0 & HS); [right; field; lra|].
  destruct (dominant_noisy_value N A (f / 16000) phi (Rabs A / 40) x 16000 0.025 0.010 "hamming" 400 160 512 (/ 40) k0 HC ltac:(lia) HA ltac:(lra) ltac:(lra) Hk0 Hx HS) as (v & H1 & H2).
  exists v. split; [exact H1|]. intros i Hi. destruct (H2 i Hi) as (K1 & _).
  replace (INR 512) with 512 in * by (rewrite INR_IZR; reflexivity). replace (INR (S (512 / 2))) with 257 in * by (rewrite INR_IZR; reflexivity).
  specialize (K1 ltac:(lra)). replace (f / 16000 * 16000) with f in K1 by field. lra.
Qed.
Lemma yin_noisy_default : forall `{Env} N A f phi x, yin_config 16000 0.03 0.015 50 3000 480 240 5 319 -> A <> 0 -> 265 <= f <= 500 ->
  apart N (Rabs A / 40) (tone A (f / 16000) phi) x ->
  let n := yin_frames N 480 240 in
  exists P H a, compute_yin (fvec N x) 16000 0.03 0.015 50 3000 0.1
    = Ok (fvec n P, fvec n H, map a (seq 0 n), fvec n (fun i => INR (i * 240) / 16000)) /\
  forall i, (i < n)%nat -> (exists p, P i = 16000 / INR p /\ Rabs (INR p - 16000 / f) < 16000 / f / 6 /\ (1 <= p)%nat) /\ 0 <= H i < 0.1.
Proof.
  intros E N A f phi x HC HA Hf Hx n. set (nu := f / 16000) in *. assert (Hn : 0.01656 <= nu <= 0.03125) by (unfold nu; lra).
  assert (EP : / nu = 16000 / f) by (unfold nu; field; lra).
  assert (NN : nu * nu <= 0.03125 * 0.03125) by (apply Rmult_le_compat; lra).
  assert (B : 12 * nu ^ 2 <= 0.1 <= / 4) by lra. assert (B2 : 100 * nu ^ 2 <= 0.1 <= / 7) by lra.
  pose proof (sin2 nu 0.1 ltac:(lra) B) as S2. assert (K : / sin (2 * PI * nu) <= / (5 * nu)) by (apply Rinv_le_contravar; lra).
  assert (I : / 0.03125 <= / nu <= / 0.01656) by (split; apply Rinv_le_contravar; lra).
  assert (K5 : / (5 * nu) = / nu / 5) by (field; lra). rewrite K5 in K. assert (E480 : INR 480 = 480) by (rewrite INR_IZR; reflexivity).
  assert (E320 : INR 320 = 320) by (rewrite INR_IZR; reflexivity). assert (E5 : INR 5 = 5) by (rewrite INR_IZR; reflexivity).
  assert (G1 : 7 * 0.1 * (INR 480 + / sin (2 * PI * nu)) + 2 / nu + / sin (2 * PI * nu) <= INR 480).
  { rewrite E480. replace (2 / nu) with (2 * / nu) by (field; lra). lra. }
  assert (PA : 0 < Rabs A) by (apply Rabs_pos_lt; assumption). assert (EA : Rabs A ^ 2 = A ^ 2) by apply pow2_abs.
  assert (P2 : 0 < Rabs A ^ 2) by (apply pow_lt; assumption).
  assert (G2 : 60 * (Rabs A / 40) ^ 2 <= 0.1 * A ^ 2) by (rewrite <- EA; lra).
  assert (S5 : / 4 <= sin (PI * nu * INR 5)).
  { rewrite E5. pose proof pi_low. pose proof pi_high. eapply Rle_trans; [|apply (sin_low _ 0.26)]; nra. }
  assert (G3 : 10 * (Rabs A / 40) <= Rabs A * Rmin (sin (PI * nu * INR 5)) (/ 2)).
  { replace (10 * (Rabs A / 40)) with (Rabs A * / 4) by field. apply Rmult_le_compat_l; [lra|]. apply Rmin_glb; lra. }
  assert (G4 : nu * INR 5 <= / 2) by (rewrite E5; lra). assert (G5 : / nu + / 2 < INR 320) by (rewrite E320; lra).
  rewrite <- EP. apply (yin_noisy N A nu phi (Rabs A / 40) x 16000 0.03 0.015 50 3000 0.1 480 240 5 319 HC ltac:(lia) HA ltac:(lra) Hx ltac:(lra) B2 G1 G2 G3 ltac:(lia) G4 G5).
Qed.
