(** * Proofs for C189: plp and rplp of similar, faint and loud recordings *)
From Coq Require Import Reals ZArith List String Bool Lia Lra Psatz.
From Verif Require Import Base BaseFacts SpecBase BigSum SpecMat MatFacts SpecFilters FiltersFacts SpecBanks SpecFeatures SpecInvariance Preprocessing Features Extractors FeaturesFacts FeaturesMore FeaturesLaws
  SpecRplp Rplp RplpNames SpecLpc LpcTheory LpcLaws RplpFacts RplpLaws SpecLevinson LevinsonFacts PredictorFacts SpecNoise NoiseFacts SpecLoud LoudFacts RoundedRastaFacts.
Import ListNotations.
Local Open Scope R_scope.

(** ** the inverse transform *)
Lemma length_near : forall u v u2 v2, sqrt (u2 ^ 2 + v2 ^ 2) <= sqrt (u ^ 2 + v ^ 2) + (Rabs (u2 - u) + Rabs (v2 - v)).
Proof.
  intros u v u2 v2. set (s := sqrt (u ^ 2 + v ^ 2)). assert (S0 : 0 <= s) by apply sqrt_pos.
  assert (SS : s * s = u ^ 2 + v ^ 2) by (apply sqrt_sqrt; pose proof (pow2_ge_0 u); pose proof (pow2_ge_0 v); lra).
  pose proof (Rabs_pos (u2 - u)) as P. pose proof (Rabs_pos (v2 - v)) as Q.
  assert (U : Rabs u <= s). { unfold s. rewrite <- sqrt_Rsqr_abs. apply sqrt_le_1_alt. unfold Rsqr. pose proof (pow2_ge_0 v). lra. }
  assert (V : Rabs v <= s). { unfold s. rewrite <- sqrt_Rsqr_abs. apply sqrt_le_1_alt. unfold Rsqr. pose proof (pow2_ge_0 u). lra. }
  rewrite <- (sqrt_pow2 (s + (Rabs (u2 - u) + Rabs (v2 - v)))) by lra. apply sqrt_le_1_alt.
  assert (K : forall w w2, w2 ^ 2 <= w ^ 2 + 2 * Rabs w * Rabs (w2 - w) + Rabs (w2 - w) ^ 2).
  { intros w w2. rewrite pow2_abs. replace (w2 ^ 2) with (w ^ 2 + 2 * (w * (w2 - w)) + (w2 - w) ^ 2) by ring.
    pose proof (Rle_abs (w * (w2 - w))) as A. rewrite Rabs_mult in A. lra. }
  pose proof (K u u2) as K1. pose proof (K v v2) as K2. set (p := Rabs (u2 - u)) in *. set (q := Rabs (v2 - v)) in *.
  assert (A1 : Rabs u * p <= s * p) by (apply Rmult_le_compat_r; assumption). assert (A2 : Rabs v * q <= s * q) by (apply Rmult_le_compat_r; assumption).
  assert (A3 : 0 <= p * q) by (apply Rmult_le_pos; assumption). lra.
Qed.
Lemma sum_near : forall c l l2 d w, 0 <= d -> (forall j, (j < c)%nat -> Rabs (l2 j - l j) <= d) -> (forall j, Rabs (w j) <= 1) ->
  Rabs (bigsum c (fun j => l2 j * w j) - bigsum c (fun j => l j * w j)) <= INR c * d.
Proof.
  intros c l l2 d w D0 H W. rewrite <- bigsum_minus. eapply Rle_trans; [apply bigsum_Rabs|]. rewrite <- (bigsum_const c d). apply bigsum_le. intros j Hj.
  replace (l2 j * w j - l j * w j) with ((l2 j - l j) * w j) by ring. rewrite Rabs_mult. rewrite <- (Rmult_1_r d). apply Rmult_le_compat; try apply Rabs_pos; [apply H; exact Hj|apply W].
Qed.
Lemma inverse_up : forall n c l l2 d t, (0 < n)%nat -> 0 <= d -> (forall j, (j < c)%nat -> Rabs (l2 j - l j) <= d) ->
  spec_inverse n c l2 t <= spec_inverse n c l t + 2 * INR c * d.
Proof.
  intros n c l l2 d t Hn D0 H. unfold spec_inverse.
  assert (N1 : 1 <= INR n) by (change 1 with (INR 1); apply le_INR; lia). set (m := Nat.min c n).
  assert (Hm : INR m <= INR c) by (apply le_INR; unfold m; lia).
  pose proof (sum_near m l l2 d (fun j => cos (2 * PI * INR (j * t) / INR n)) D0 ltac:(intros; apply H; unfold m in *; lia) ltac:(intros; apply Rabs_le, COS_bound)) as C.
  pose proof (sum_near m l l2 d (fun j => sin (2 * PI * INR (j * t) / INR n)) D0 ltac:(intros; apply H; unfold m in *; lia) ltac:(intros; apply Rabs_le, SIN_bound)) as S.
  cbv beta in C, S. pose proof (length_near (bigsum m (fun j => l j * cos (2 * PI * INR (j * t) / INR n))) (bigsum m (fun j => l j * sin (2 * PI * INR (j * t) / INR n)))
    (bigsum m (fun j => l2 j * cos (2 * PI * INR (j * t) / INR n))) (bigsum m (fun j => l2 j * sin (2 * PI * INR (j * t) / INR n)))) as B.
  match type of B with ?q2 <= ?q + _ => set (s2 := q2) in *; set (s := q) in * end.
  assert (B2 : s2 <= s + 2 * INR c * d) by (assert (INR m * d <= INR c * d) by (apply Rmult_le_compat_r; assumption); lra).
  assert (X0 : 0 <= 2 * INR c * d) by (apply Rmult_le_pos; [pose proof (pos_INR c); lra|exact D0]).
  apply Rle_trans with ((s + 2 * INR c * d) / INR n); [apply Rmult_le_compat_r; [left; apply Rinv_0_lt_compat; lra|exact B2]|].
  unfold Rdiv at 1. rewrite Rmult_plus_distr_r. apply Rplus_le_compat_l. rewrite <- (Rmult_1_r (2 * INR c * d)) at 2. apply Rmult_le_compat_l; [exact X0|].
  rewrite <- Rinv_1. apply Rinv_le_contravar; lra.
Qed.
Lemma inverse_near : forall n c l l2 d t, (0 < n)%nat -> 0 <= d -> (forall j, (j < c)%nat -> Rabs (l2 j - l j) <= d) ->
  Rabs (spec_inverse n c l2 t - spec_inverse n c l t) <= 2 * INR c * d.
Proof.
  intros n c l l2 d t Hn D0 H. pose proof (inverse_up n c l l2 d t Hn D0 H) as A.
  assert (H' : forall j, (j < c)%nat -> Rabs (l j - l2 j) <= d) by (intros; rewrite Rabs_minus_sym; apply H; assumption).
  pose proof (inverse_up n c l2 l d t Hn D0 H') as B. apply Rabs_le. lra.
Qed.

(** ** predictors of similar sequences *)
Lemma predictor_near : forall L p f eps, sounding L f -> 0 < eps -> exists d, 0 < d /\ forall g, (forall t, (t < L)%nat -> Rabs (g t - f t) <= d) ->
  sounding L g /\ forall a b, normal_equations L p f a -> normal_equations L p g b -> forall k, (k <= p)%nat -> Rabs (b k - a k) < eps.
Proof.
  intros L p f eps Hf He. destruct (floor_exists L f Hf p) as (s & S0 & HS). destruct Hf as (t0 & Ht0 & Hn0).
  set (M := bigsum L (fun t => Rabs (f t))). assert (M0 : 0 <= M) by (apply bigsum_nonneg; intros; apply Rabs_pos).
  assert (HM : forall t, (t < L)%nat -> Rabs (f t) <= M) by (intros t Ht; apply (bigsum_ge_term L (fun t => Rabs (f t)) t); [intros; apply Rabs_pos|exact Ht]).
  set (K := (INR p + 1) * (INR L * (2 * M + 1)) * 2 ^ p / s).
  assert (K0 : 0 <= K). { unfold K. apply Rmult_le_pos; [|left; apply Rinv_0_lt_compat, S0]. apply Rmult_le_pos; [|apply pow_le; lra]. pose proof (pos_INR p). pose proof (pos_INR L). apply Rmult_le_pos; [lra|apply Rmult_le_pos; lra]. }
  assert (F0 : 0 < Rabs (f t0)) by (apply Rabs_pos_lt; exact Hn0).
  set (d := Rmin 1 (Rmin (Rabs (f t0) / 2) (eps / (K + 1) / 2))).
  assert (E0 : 0 < eps / (K + 1) / 2) by (apply Rmult_lt_0_compat; [apply Rdiv_lt_0_compat; lra|lra]).
  assert (D0 : 0 < d) by (unfold d; repeat apply Rmin_glb_lt; lra).
  assert (D1 : d <= 1) by apply Rmin_l. assert (D2 : d <= Rabs (f t0) / 2) by (eapply Rle_trans; [apply Rmin_r|apply Rmin_l]).
  assert (D3 : d <= eps / (K + 1) / 2) by (eapply Rle_trans; [apply Rmin_r|apply Rmin_r]).
  assert (D4 : K * d < eps). { apply Rle_lt_trans with ((K + 1) * (eps / (K + 1) / 2)); [apply Rmult_le_compat; lra|]. replace ((K + 1) * (eps / (K + 1) / 2)) with (eps / 2) by (field; lra). lra. }
  exists d. split; [exact D0|]. intros g Hg.
  assert (HG : sounding L g). { exists t0. split; [exact Ht0|]. intros Z. pose proof (Hg t0 Ht0) as G. rewrite Z, Rminus_0_l, Rabs_Ropp in G. lra. }
  split; [exact HG|]. intros a b Ha Hb k Hk.
  pose proof (normal_change L p f g a b M d s ltac:(lra) HM Hg Ha Hb HG S0 HS) as B.
  assert (B2 : (b k - a k) ^ 2 <= (K * d) ^ 2).
  { eapply Rle_trans; [apply (bigsum_ge_term (S p) (fun k => (b k - a k) ^ 2) k); [intros; apply pow2_ge_0|lia]|]. eapply Rle_trans; [exact B|]. unfold change_loss.
    set (z := INR L * d * (2 * M + d) * 2 ^ p / s). pose proof (pos_INR p) as P0. pose proof (pos_INR L) as L0.
    assert (Z0 : 0 <= z). { unfold z. apply Rmult_le_pos; [|left; apply Rinv_0_lt_compat, S0]. apply Rmult_le_pos; [|apply pow_le; lra]. apply Rmult_le_pos; [apply Rmult_le_pos; lra|lra]. }
    apply Rle_trans with (((INR p + 1) * z) ^ 2).
    - replace (((INR p + 1) * z) ^ 2) with ((INR p + 1) ^ 2 * z ^ 2) by ring. apply Rmult_le_compat_r; [apply pow2_ge_0|]. nra.
    - apply pow_incr. split; [apply Rmult_le_pos; lra|]. unfold z, K. replace ((INR p + 1) * (INR L * (2 * M + 1)) * 2 ^ p / s * d) with ((INR p + 1) * (INR L * d * (2 * M + 1) * 2 ^ p / s)) by (field; lra).
      apply Rmult_le_compat_l; [lra|]. apply Rmult_le_compat_r; [left; apply Rinv_0_lt_compat, S0|]. apply Rmult_le_compat_r; [apply pow_le; lra|]. apply Rmult_le_compat_l; [apply Rmult_le_pos; lra|lra]. }
  apply Rle_lt_trans with (K * d); [|exact D4]. apply Rsqr_incr_0_var; [|apply Rmult_le_pos; lra]. rewrite <- Rsqr_abs. unfold Rsqr. cbn [pow] in B2. lra.
Qed.
Lemma coded_near : forall a b m e, 0 <= e -> (1 <= m)%nat -> (forall k, (k <= m)%nat -> Rabs (b k - a k) <= e) -> Rabs (coded_cepstrum b m - coded_cepstrum a m) <= INR m * e.
Proof.
  intros a b m e He Hm H. unfold coded_cepstrum.
  replace (b m + bigsum (m - 1) (fun k => INR (S k) / INR m * b (m - S k)%nat) - (a m + bigsum (m - 1) (fun k => INR (S k) / INR m * a (m - S k)%nat)))
    with ((b m - a m) + bigsum (m - 1) (fun k => INR (S k) / INR m * (b (m - S k)%nat - a (m - S k)%nat))).
  - eapply Rle_trans; [apply Rabs_triang|]. replace (INR m) with (1 + INR (m - 1)) by (rewrite minus_INR by exact Hm; simpl; ring).
    rewrite Rmult_plus_distr_r, Rmult_1_l. apply Rplus_le_compat; [apply H; lia|]. eapply Rle_trans; [apply bigsum_Rabs|].
    rewrite <- (bigsum_const (m - 1) e). apply bigsum_le. intros k Hk. rewrite Rabs_mult. rewrite <- (Rmult_1_l e). apply Rmult_le_compat; try apply Rabs_pos; [|apply H; lia].
    assert (Q : 0 < 1 + INR (m - 1)) by (pose proof (pos_INR (m - 1)); lra).
    assert (Q2 : INR (S k) <= 1 + INR (m - 1)) by (rewrite S_INR; assert (INR k <= INR (m - 1)) by (apply le_INR; lia); lra).
    rewrite Rabs_pos_eq by (apply Rmult_le_pos; [apply pos_INR|left; apply Rinv_0_lt_compat, Q]).
    apply Rmult_le_reg_r with (1 + INR (m - 1)); [exact Q|]. unfold Rdiv. rewrite Rmult_assoc, Rinv_l by lra. lra.
  - rewrite (bigsum_ext (m - 1) _ (fun k => INR (S k) / INR m * b (m - S k)%nat - INR (S k) / INR m * a (m - S k)%nat)) by (intros; ring). rewrite bigsum_minus. ring.
Qed.
(** cepstra of loudnesses that are close *)
Lemma cepstra_near : forall n c l p eps, (0 < n)%nat -> sounding n (spec_inverse n c l) -> 0 < eps -> exists d, 0 < d /\ forall l2, (forall j, (j < c)%nat -> Rabs (l2 j - l j) <= d) ->
  sounding n (spec_inverse n c l2) /\ forall a b, normal_equations n p (spec_inverse n c l) a -> normal_equations n p (spec_inverse n c l2) b ->
  forall m, (1 <= m <= p)%nat -> Rabs (coded_cepstrum b m - coded_cepstrum a m) < eps.
Proof.
  intros n c l p eps Hn Hs He. pose proof (pos_INR p) as P0. pose proof (pos_INR c) as C0.
  assert (E0 : 0 < eps / (INR p + 1)) by (apply Rdiv_lt_0_compat; lra).
  destruct (predictor_near n p (spec_inverse n c l) _ Hs E0) as (d & D0 & HD).
  exists (d / (2 * INR c + 1)). assert (D1 : 0 < d / (2 * INR c + 1)) by (apply Rdiv_lt_0_compat; lra). split; [exact D1|]. intros l2 H.
  destruct (HD (spec_inverse n c l2)) as (G1 & G2).
  { intros t _. eapply Rle_trans; [apply (inverse_near n c l l2 _ t Hn ltac:(apply Rlt_le; exact D1) H)|].
    apply Rle_trans with ((2 * INR c + 1) * (d / (2 * INR c + 1))); [apply Rmult_le_compat_r; lra|]. right. field. lra. }
  split; [exact G1|]. intros a b Ha Hb m Hm. specialize (G2 a b Ha Hb).
  eapply Rle_lt_trans; [apply (coded_near a b m (eps / (INR p + 1)) ltac:(lra) ltac:(lia))|].
  - intros k Hk. left. apply G2. lia.
  - apply Rle_lt_trans with (INR p * (eps / (INR p + 1))); [apply Rmult_le_compat_r; [lra|apply le_INR; lia]|].
    apply Rlt_le_trans with ((INR p + 1) * (eps / (INR p + 1))); [apply Rmult_lt_compat_r; lra|]. right. field. lra.
Qed.

(** ** the loudness law is continuous *)
Definition lawR (v : R) : R := (v ^ 2 + kA) * v ^ 4 / ((v ^ 2 + kB) * (v ^ 2 + kC) * (v ^ 6 + kD)).
Lemma even_pos : forall v, 0 <= v ^ 2 /\ 0 <= v ^ 4 /\ 0 <= v ^ 6.
Proof. intros v. replace (v ^ 4) with ((v ^ 2) ^ 2) by ring. replace (v ^ 6) with ((v ^ 3) ^ 2) by ring. repeat split; apply pow2_ge_0. Qed.
Lemma lawR_nonneg : forall v, 0 <= lawR v.
Proof.
  intros v. destruct (even_pos v) as (A & B & C). unfold lawR. unfold kA, kB, kC, kD. apply Rmult_le_pos; [apply Rmult_le_pos; lra|]. left. apply Rinv_0_lt_compat. repeat apply Rmult_lt_0_compat; lra.
Qed.
Lemma loudness_lawR : forall v, spec_loudness v = spec_root (1 / 3) (lawR v).
Proof.
  intros v. unfold spec_loudness, lawR, kA, kB, kC, kD. replace (56.8 * 10 ^ 6) with 56800000 by lra. replace (6.3 * 10 ^ 6) with 6300000 by lra. replace (0.38 * 10 ^ 9) with 380000000 by lra.
  replace (9.58 * 10 ^ 26) with 958000000000000000000000000 by lra. reflexivity.
Qed.
Lemma lawR_continuous : forall v, continuity_pt lawR v.
Proof.
  intros v. destruct (even_pos v) as (A & B & C). apply derivable_continuous_pt. unfold lawR, kA, kB, kC, kD. reg.
  repeat apply Rmult_integral_contrapositive_currified; lra.
Qed.
Lemma near_of_continuous : forall f v eps, continuity_pt f v -> 0 < eps -> exists d, 0 < d /\ forall u, Rabs (u - v) <= d -> Rabs (f u - f v) < eps.
Proof.
  intros f v eps H He. destruct (H eps He) as (d & D0 & HD). exists (d / 2). split; [lra|]. intros u Hu.
  destruct (Req_dec v u) as [->|N]; [unfold Rminus; rewrite Rplus_opp_r, Rabs_R0; exact He|]. apply HD. split; [split; [exact I|exact N]|]. cbn. unfold R_dist. lra.
Qed.
Lemma root_near : forall u v, 0 <= u -> 0 <= v -> Rabs (spec_root (1 / 3) u - spec_root (1 / 3) v) <= spec_root (1 / 3) (Rabs (u - v)).
Proof.
  assert (K : forall u v, 0 <= u -> u <= v -> spec_root (1 / 3) v - spec_root (1 / 3) u <= spec_root (1 / 3) (v - u) /\ 0 <= spec_root (1 / 3) v - spec_root (1 / 3) u).
  { intros u v Hu H. pose proof (root_plus (1 / 3) u (v - u) ltac:(lra) Hu ltac:(lra)) as P. replace (u + (v - u)) with v in P by ring. pose proof (root_mono (1 / 3) u v ltac:(lra) ltac:(lra)). lra. }
  intros u v Hu Hv. destruct (Rle_lt_dec u v) as [H|H].
  - destruct (K u v Hu H). rewrite (Rabs_minus_sym u v), (Rabs_pos_eq (v - u)) by lra. rewrite Rabs_minus_sym, Rabs_pos_eq by lra. lra.
  - destruct (K v u Hv ltac:(lra)). rewrite (Rabs_pos_eq (u - v)) by lra. rewrite Rabs_pos_eq by lra. lra.
Qed.
Lemma root_cube : forall e, 0 < e -> spec_root (1 / 3) (e ^ 3) = e.
Proof.
  intros e He. assert (P : 0 < e ^ 3) by (apply pow_lt; exact He). unfold spec_root. destruct (Req_EM_T (e ^ 3) 0); [lra|]. unfold Rpower. rewrite ln_cube by exact He. replace (1 / 3 * (3 * ln e)) with (ln e) by lra. apply exp_ln, He.
Qed.
Lemma loudness_near : forall v eps, 0 < eps -> exists d, 0 < d /\ forall u, Rabs (u - v) <= d -> Rabs (spec_loudness u - spec_loudness v) <= eps.
Proof.
  intros v eps He. assert (P : 0 < eps ^ 3) by (apply pow_lt; exact He). destruct (near_of_continuous lawR v _ (lawR_continuous v) P) as (d & D0 & HD). exists d. split; [exact D0|]. intros u Hu.
  rewrite !loudness_lawR. eapply Rle_trans; [apply root_near; apply lawR_nonneg|]. rewrite <- (root_cube eps He). apply root_mono; [lra|]. split; [apply Rabs_pos|left; apply HD; exact Hu].
Qed.

(** ** energies *)
Lemma energy_near : forall a N L hop n B x eps, (0 < hop)%nat -> (1 <= L <= N)%nat -> (1 <= s_nfft a)%Z -> (forall j k, (j < n)%nat -> (k <= half (s_nfft a))%nat -> 0 <= B j k) -> 0 < eps ->
  exists d, 0 < d /\ forall y, apart N d x y -> forall i j, (i < frame_count N L hop)%nat -> (j < n)%nat -> Rabs (channel_energy a L hop B y i j - channel_energy a L hop B x i j) <= eps.
Proof.
  intros a N L hop n B x eps Hh HL Hn HB He.
  set (b := bigsum n (fun j => bigsum (S (half (s_nfft a))) (fun k => Rabs (B j k)))).
  assert (B0 : 0 <= b) by (apply bigsum_nonneg; intros; apply bigsum_nonneg; intros; apply Rabs_pos).
  assert (Hb : forall j k, (j < n)%nat -> (k <= half (s_nfft a))%nat -> 0 <= B j k <= b).
  { intros j k Hj Hk. split; [apply HB; assumption|]. eapply Rle_trans; [apply Rle_abs|]. eapply Rle_trans; [|apply (bigsum_ge_term n (fun j => bigsum (S (half (s_nfft a))) (fun k => Rabs (B j k))) j); [intros; apply bigsum_nonneg; intros; apply Rabs_pos|exact Hj]].
    apply (bigsum_ge_term (S (half (s_nfft a))) (fun k => Rabs (B j k)) k); [intros; apply Rabs_pos|lia]. }
  set (en := channel_energy a L hop B).
  assert (EP : forall y i j, (j < n)%nat -> 0 <= en y i j) by (intros; apply spec_band_nonneg; [lia|intros; apply HB; assumption]).
  set (q := bigsum (frame_count N L hop) (fun i => bigsum n (fun j => sqrt (en x i j)))).
  assert (Q0 : 0 <= q) by (apply bigsum_nonneg; intros; apply bigsum_nonneg; intros; apply sqrt_pos).
  assert (Hq : forall i j, (i < frame_count N L hop)%nat -> (j < n)%nat -> sqrt (en x i j) <= q).
  { intros i j Hi Hj. eapply Rle_trans; [|apply (bigsum_ge_term _ (fun i => bigsum n (fun j => sqrt (en x i j))) i); [intros; apply bigsum_nonneg; intros; apply sqrt_pos|exact Hi]].
    apply (bigsum_ge_term n (fun j => sqrt (en x i j)) j); [intros; apply sqrt_pos|exact Hj]. }
  set (c := sqrt (b * INR L) * (if s_pre_emph a then 1 + Rabs (s_coeff a) else 1)).
  assert (C0 : 0 <= c). { unfold c. apply Rmult_le_pos; [apply sqrt_pos|]. pose proof (Rabs_pos (s_coeff a)). destruct (s_pre_emph a); lra. }
  set (r := Rmin 1 (eps / (2 * q + 1))). assert (R0 : 0 < r) by (apply Rmin_glb_lt; [lra|apply Rdiv_lt_0_compat; lra]).
  assert (R1 : r * (2 * q + 1) <= eps). { apply Rle_trans with (eps / (2 * q + 1) * (2 * q + 1)); [apply Rmult_le_compat_r; [lra|apply Rmin_r]|]. right. field. lra. }
  exists (r / (c + 1)). assert (D0 : 0 < r / (c + 1)) by (apply Rdiv_lt_0_compat; lra). split; [exact D0|]. intros y Hy i j Hi Hj.
  pose proof (band_apart a (s_coeff a) N L hop (s_nfft a) b (B j) x y _ i Hh HL Hn ltac:(intros; apply Hb; assumption) Hy Hi) as G.
  fold (channel_energy a L hop B y i j) in G. fold (channel_energy a L hop B x i j) in G. fold en in G |- *. unfold noise_level in G. rewrite <- Rmult_assoc in G. fold c in G.
  assert (CR : c * (r / (c + 1)) <= r). { replace r with ((c + 1) * (r / (c + 1))) at 2 by (field; lra). apply Rmult_le_compat_r; lra. }
  set (s2 := sqrt (en y i j)) in *. set (s := sqrt (en x i j)) in *.
  replace (en y i j) with (s2 * s2) by (apply sqrt_sqrt, EP, Hj). replace (en x i j) with (s * s) by (apply sqrt_sqrt, EP, Hj).
  replace (s2 * s2 - s * s) with ((s2 - s) * (2 * s + (s2 - s))) by ring. rewrite Rabs_mult.
  assert (S0 : 0 <= s) by apply sqrt_pos. specialize (Hq i j Hi Hj). fold s in Hq. assert (RL : r <= 1) by apply Rmin_l.
  eapply Rle_trans; [|exact R1]. apply Rmult_le_compat; try apply Rabs_pos; [lra|]. eapply Rle_trans; [apply Rabs_triang|]. rewrite (Rabs_pos_eq (2 * s)) by lra. lra.
Qed.
(** ** the two ways of reading the energies *)
Lemma rasta_near : forall c w eps, (forall j, (j < c)%nat -> 0 < w j) -> 0 < eps -> exists d, 0 < d /\ forall v, (forall j, (j < c)%nat -> Rabs (v j - w j) <= d) ->
  (forall j, (j < c)%nat -> 0 < v j) /\ forall j, (j < c)%nat -> Rabs (spec_auditory true v j - spec_auditory true w j) <= eps.
Proof.
  intros c w eps HW He.
  destruct (finite_min (fun j s => forall u, Rabs (u - spec_rasta (fun k => ln (w k)) j) <= s -> Rabs (exp u - exp (spec_rasta (fun k => ln (w k)) j)) <= eps)) with (n := c) as (s & S0 & HS).
  { intros j s s' Hs H u Hu. apply H. lra. }
  { intros j Hj. destruct (near_of_continuous exp (spec_rasta (fun k => ln (w k)) j) eps) as (d & D0 & HD); [apply derivable_continuous_pt, derivable_pt_exp|exact He|].
    exists d. split; [exact D0|]. intros u Hu. left. apply HD, Hu. }
  destruct (finite_min (fun j d => d <= w j / 2 /\ forall u, Rabs (u - w j) <= d -> Rabs (ln u - ln (w j)) <= s / 10)) with (n := c) as (d & D0 & HD).
  { intros j d d' Hd (H1 & H2). split; [lra|]. intros u Hu. apply H2. lra. }
  { intros j Hj. specialize (HW j Hj). destruct (near_of_continuous ln (w j) (s / 10)) as (d & D0 & HD); [apply derivable_continuous_pt; exists (/ w j); apply derivable_pt_lim_ln, HW|lra|].
    exists (Rmin d (w j / 2)). split; [apply Rmin_glb_lt; lra|]. split; [apply Rmin_r|]. intros u Hu. left. apply HD. eapply Rle_trans; [exact Hu|apply Rmin_l]. }
  exists d. split; [exact D0|]. intros v Hv. split.
  - intros j Hj. specialize (Hv j Hj). specialize (HW j Hj). destruct (HD j Hj) as (H1 & _). revert Hv. unfold Rabs. destruct (Rcase_abs _); lra.
  - intros j Hj. unfold spec_auditory. apply HS; [exact Hj|].
    replace (spec_rasta (fun k => ln (v k)) j - spec_rasta (fun k => ln (w k)) j) with (spec_rasta (fun i => 1 * ln (v i) + -1 * ln (w i)) j) by (rewrite (spec_rasta_linear (fun k => ln (v k)) (fun k => ln (w k)) 1 (-1)); ring).
    replace s with (10 * (s / 10)) by lra. apply (spec_rasta_bound _ (s / 10) c); [lra| |exact Hj]. intros t Ht.
    replace (1 * ln (v t) + -1 * ln (w t)) with (ln (v t) - ln (w t)) by ring. apply (HD t Ht), Hv, Ht.
Qed.

(** ** changes of level *)
Lemma exp_apart : forall q de, Rabs q <= de -> Rabs (exp q - 1) <= exp de - 1.
Proof.
  intros q de H. assert (D0 : 0 <= de) by (eapply Rle_trans; [apply Rabs_pos|exact H]).
  assert (M : forall u v, u <= v -> exp u <= exp v) by (intros u v [H1| ->]; [left; apply exp_increasing, H1|lra]).
  assert (E2 : exp de * exp (- de) = 1) by (rewrite <- exp_plus, Rplus_opp_r; apply exp_0). pose proof (exp_pos de). pose proof (exp_pos (- de)).
  assert (E3 : 2 <= exp de + exp (- de)). { pose proof (pow2_ge_0 (exp de - exp (- de))) as P. replace ((exp de - exp (- de)) ^ 2) with ((exp de + exp (- de)) ^ 2 - 4 * (exp de * exp (- de))) in P by ring. rewrite E2 in P.
    apply Rnot_lt_le. intros G. assert ((exp de + exp (- de)) ^ 2 < 4); [|lra]. replace 4 with (2 * 2) by ring. cbn [pow]. rewrite Rmult_1_r. apply Rmult_le_0_lt_compat; lra. }
  assert (Q : - de <= q <= de) by (revert H; unfold Rabs; destruct (Rcase_abs q); lra). pose proof (M q de ltac:(lra)). pose proof (M (- de) q ltac:(lra)). apply Rabs_le. lra.
Qed.
Lemma inverse_scale : forall n c l K t, 0 < K -> spec_inverse n c (fun j => K * l j) t = K * spec_inverse n c l t.
Proof.
  intros n c l K t HK. unfold spec_inverse. rewrite (bigsum_ext _ _ (fun j => K * (l j * cos (2 * PI * INR (j * t) / INR n)))) by (intros; ring).
  rewrite (bigsum_ext _ (fun j => K * l j * sin _) (fun j => K * (l j * sin (2 * PI * INR (j * t) / INR n)))) by (intros; ring). rewrite !bigsum_scal.
  match goal with |- sqrt ((K * ?u) ^ 2 + (K * ?v) ^ 2) / _ = _ => replace ((K * u) ^ 2 + (K * v) ^ 2) with (K ^ 2 * (u ^ 2 + v ^ 2)) by ring end.
  rewrite sqrt_mult_alt by apply pow2_ge_0. rewrite sqrt_pow2 by lra. unfold Rdiv. ring.
Qed.

Section plp.
Context `{Env}.
Variables (a : sargs) (N L hop n : nat) (B : nat -> nat -> R).
Hypotheses (Hw : well_framed a N L hop) (Hn : (1 <= s_nfft a)%Z) (Hn0 : (0 < n)%nat)
  (HB : spectro_bank Bark a = Ok (fmat n (S (half (s_nfft a))) B)) (HP : forall j k, (j < n)%nat -> (k <= half (s_nfft a))%nat -> 0 <= B j k).
Let nfft := Z.to_nat (s_nfft a).
Let fc := frame_count N L hop.
Let en := channel_energy a L hop B.

Lemma en_nonneg : forall x i j, (j < n)%nat -> 0 <= en x i j.
Proof. intros. apply spec_band_nonneg; [lia|intros; apply HP; assumption]. Qed.

Lemma near_main : forall x p r li no eps, (1 <= p)%nat -> (Z.of_nat (S p) <= s_nfilts a)%Z -> no_post li no -> rasta_ok a N L hop n B r x ->
  (forall i, (i < fc)%nat -> heard a n (spec_auditory r (en x i))) -> 0 < eps ->
  exists C d, rastaplp (fvec N x) a (Z.of_nat (S p)) r li no = Ok (fmat fc (S p) C) /\ 0 < d /\ forall y, apart N d x y ->
    exists C2, rastaplp (fvec N y) a (Z.of_nat (S p)) r li no = Ok (fmat fc (S p) C2) /\ forall i m, (i < fc)%nat -> (1 <= m <= p)%nat -> Rabs (C2 i m - C i m) < eps.
Proof.
  intros x p r li no eps Hp Ho Hno Hr Hh He. assert (Hnf : (0 < nfft)%nat) by (unfold nfft; lia).
  destruct (rastaplp_value a N L hop n B Hw Hn Hn0 HB x p r li no Hp Ho Hr Hno Hh) as (A & HA & EA).
  set (lo := fun z i j => spec_loudness (spec_auditory r (en z i) j)).
  destruct (finite_min (fun i d => forall l2, (forall j, (j < n)%nat -> Rabs (l2 j - lo x i j) <= d) -> sounding nfft (spec_inverse nfft n l2) /\ forall a0 b, normal_equations nfft p (spec_inverse nfft n (lo x i)) a0 -> normal_equations nfft p (spec_inverse nfft n l2) b ->
     forall m, (1 <= m <= p)%nat -> Rabs (coded_cepstrum b m - coded_cepstrum a0 m) < eps)) with (n := fc) as (d1 & D1 & HD1).
  { intros i s s' Hs H0 l2 Hl. apply H0. intros j Hj. specialize (Hl j Hj). lra. }
  { intros i Hi. apply cepstra_near; [exact Hnf| |exact He]. exact (proj2 (sounding_iff a N L hop n B Hn Hn0 r x i) (Hh i Hi)). }
  destruct (finite_min (fun i s => forall j, (j < n)%nat -> forall u, Rabs (u - spec_auditory r (en x i) j) <= s -> Rabs (spec_loudness u - lo x i j) <= d1)) with (n := fc) as (d2 & D2 & HD2).
  { intros i s s' Hs H0 j Hj u Hu. apply H0; [exact Hj|lra]. }
  { intros i Hi. apply finite_min.
    - intros j s s' Hs H0 u Hu. apply H0. lra.
    - intros j Hj. apply loudness_near, D1. }
  destruct (finite_min (fun i s => forall v, (forall j, (j < n)%nat -> Rabs (v j - en x i j) <= s) -> (r = true -> forall j, (j < n)%nat -> 0 < v j) /\ forall j, (j < n)%nat -> Rabs (spec_auditory r v j - spec_auditory r (en x i) j) <= d2)) with (n := fc) as (d3 & D3 & HD3).
  { intros i s s' Hs H0 v Hv. apply H0. intros j Hj. specialize (Hv j Hj). lra. }
  { intros i Hi. destruct r.
    - destruct (rasta_near n (en x i) d2) as (d & D0 & HD); [intros j Hj; apply (proj2 Hr); assumption|exact D2|]. exists d. split; [exact D0|]. intros v Hv. destruct (HD v Hv). split; auto.
    - exists d2. split; [exact D2|]. intros v Hv. split; [discriminate|exact Hv]. }
  pose proof Hw as (_ & _ & _ & Hh1 & HL & _).
  destruct (energy_near a N L hop n B x d3 Hh1 HL Hn HP D3) as (d & D0 & HD).
  do 2 eexists. split; [exact EA|]. split; [exact D0|]. intros y Hy.
  assert (Hl : forall i, (i < fc)%nat -> forall j, (j < n)%nat -> Rabs (lo y i j - lo x i j) <= d1).
  { intros i Hi j Hj. apply HD2; [exact Hi|exact Hj|]. apply (HD3 i Hi); [|exact Hj]. intros k Hk. apply HD; assumption. }
  assert (Hry : rasta_ok a N L hop n B r y).
  { destruct r; [|exact I]. split; [exact (proj1 Hr)|]. intros i j Hi Hj. apply (proj1 (HD3 i Hi (en y i) ltac:(intros; apply HD; assumption)) eq_refl j Hj). }
  assert (Hhy : forall i, (i < fc)%nat -> heard a n (spec_auditory r (en y i))).
  { intros i Hi. apply (sounding_iff a N L hop n B Hn Hn0 r y i). apply (HD1 i Hi (lo y i) (Hl i Hi)). }
  destruct (rastaplp_value a N L hop n B Hw Hn Hn0 HB y p r li no Hp Ho Hry Hno Hhy) as (A2 & HA2 & EA2).
  eexists. split; [exact EA2|]. intros i m Hi Hm. cbv beta. destruct (Nat.eqb_spec m 0); [lia|].
  apply (proj2 (HD1 i Hi (lo y i) (Hl i Hi))); [apply HA, Hi|apply HA2, Hi|exact Hm].
Qed.

Lemma bounded_main : forall x p r li no C, (1 <= p)%nat -> (Z.of_nat (S p) <= s_nfilts a)%Z -> no_post li no -> rasta_ok a N L hop n B r x ->
  (forall i, (i < fc)%nat -> heard a n (spec_auditory r (en x i))) ->
  rastaplp (fvec N x) a (Z.of_nat (S p)) r li no = Ok (fmat fc (S p) C) -> forall i m, (i < fc)%nat -> (1 <= m <= p)%nat -> Rabs (C i m) <= 2 ^ p - 1.
Proof.
  intros x p r li no C Hp Ho Hno Hr Hh EC i m Hi Hm. destruct (rastaplp_value a N L hop n B Hw Hn Hn0 HB x p r li no Hp Ho Hr Hno Hh) as (A & HA & EA).
  rewrite EA in EC. assert (OI : forall (T : Type) (u v : T), Ok u = Ok v -> u = v) by (intros; congruence). apply OI in EC. rename EC into G.
  pose proof (fmat_inj _ _ _ _ G i m Hi ltac:(lia)) as G2. cbv beta in G2. rewrite <- G2. destruct (Nat.eqb_spec m 0); [lia|].
  apply (coded_bound p); [|exact Hm]. intros j Hj. apply (normal_binomial nfft p (plp_sequence a r L hop n B x i)); [|apply HA, Hi|exact Hj]. apply (sounding_iff a N L hop n B Hn Hn0); apply Hh, Hi.
Qed.

Lemma level_main : forall x p e off li no, (1 <= p)%nat -> (Z.of_nat (S p) <= s_nfilts a)%Z -> no_post li no ->
  (forall i, (i < fc)%nat -> heard a n (en x i)) ->
  exists A, (forall i, (i < fc)%nat -> normal_equations nfft p (spec_inverse nfft n (fun j => spec_root e (en x i j))) (A i)) /\ forall eps, 0 < eps -> exists de, 0 < de /\ forall g, g <> 0 ->
    (forall i j, (i < fc)%nat -> (j < n)%nat -> 0 < en x i j -> Rabs (ln (spec_loudness (g ^ 2 * en x i j)) - (e * ln (g ^ 2 * en x i j) + off)) <= de) ->
    exists C, plp (fvec N (fun t => g * x t)) a (Z.of_nat (S p)) li no = Ok (fmat fc (S p) C) /\ forall i m, (i < fc)%nat -> (1 <= m <= p)%nat -> Rabs (C i m - coded_cepstrum (A i) m) < eps.
Proof.
  intros x p e off li no Hp Ho Hno Hh. assert (Hnf : (0 < nfft)%nat) by (unfold nfft; lia).
  set (l := fun i j => spec_root e (en x i j)).
  assert (L0 : forall i j, 0 <= l i j) by (intros; apply spec_root_nonneg).
  assert (LZ : forall i j, en x i j = 0 -> l i j = 0) by (intros i j E; unfold l, spec_root; rewrite E; destruct (Req_EM_T 0 0); lra).
  assert (LP : forall i j, 0 < en x i j -> l i j = exp (e * ln (en x i j))) by (intros i j E; unfold l, spec_root; destruct (Req_EM_T (en x i j) 0); [lra|reflexivity]).
  assert (HS : forall i, (i < fc)%nat -> sounding nfft (spec_inverse nfft n (l i))).
  { intros i Hi. destruct (Hh i Hi) as (j & Hj & Hj2 & Hj3). exists 0%nat. split; [exact Hnf|]. fold nfft in Hj2.
    pose proof (inverse_0 a n (l i) Hnf (L0 i)) as I0. fold nfft in I0. rewrite I0. apply Rgt_not_eq. apply Rdiv_lt_0_compat; [|apply lt_0_INR, Hnf].
    apply (bigsum_pos _ _ j); [intros; apply L0|lia|]. pose proof (en_nonneg x i j Hj). rewrite LP by lra. apply exp_pos. }
  destruct (finite_choice (nat -> R) (fun _ => 0) (fun i A => normal_equations nfft p (spec_inverse nfft n (l i)) A) fc) as [A HA].
  { intros i Hi. destruct (levinson nfft (spec_inverse nfft n (l i)) (HS i Hi) p) as (b & Hb & _). exists b. exact Hb. }
  exists A. split; [exact HA|]. intros eps He.
  destruct (finite_min (fun i d => forall l2, (forall j, (j < n)%nat -> Rabs (l2 j - l i j) <= d) -> sounding nfft (spec_inverse nfft n l2) /\ forall a0 b, normal_equations nfft p (spec_inverse nfft n (l i)) a0 -> normal_equations nfft p (spec_inverse nfft n l2) b ->
     forall m, (1 <= m <= p)%nat -> Rabs (coded_cepstrum b m - coded_cepstrum a0 m) < eps)) with (n := fc) as (d1 & D1 & HD1).
  { intros i s s' Hs H0 l2 Hl. apply H0. intros j Hj. specialize (Hl j Hj). lra. }
  { intros i Hi. apply cepstra_near; [exact Hnf|apply HS, Hi|exact He]. }
  set (q := bigsum fc (fun i => bigsum n (fun j => l i j))).
  assert (Q0 : 0 <= q) by (apply bigsum_nonneg; intros; apply bigsum_nonneg; intros; apply L0).
  assert (Hq : forall i j, (i < fc)%nat -> (j < n)%nat -> l i j <= q).
  { intros i j Hi Hj. eapply Rle_trans; [|apply (bigsum_ge_term _ (fun i => bigsum n (fun j => l i j)) i); [intros; apply bigsum_nonneg; intros; apply L0|exact Hi]].
    apply (bigsum_ge_term n (fun j => l i j) j); [intros; apply L0|exact Hj]. }
  assert (X0 : 0 < d1 / (q + 1)) by (apply Rdiv_lt_0_compat; lra).
  exists (ln (1 + d1 / (q + 1))). split; [rewrite <- ln_1; apply ln_increasing; lra|]. intros g Hg HL.
  assert (G2 : 0 < g ^ 2) by (rewrite <- Rsqr_pow2; apply Rsqr_pos_lt; exact Hg).
  set (K := exp (e * ln (g ^ 2) + off)). assert (K0 : 0 < K) by apply exp_pos.
  set (l2 := fun i j => / K * spec_loudness (g ^ 2 * en x i j)).
  assert (Hl2 : forall i, (i < fc)%nat -> forall j, (j < n)%nat -> Rabs (l2 i j - l i j) <= d1).
  { intros i Hi j Hj. destruct (Req_dec (en x i j) 0) as [E|E].
    - unfold l2. rewrite (LZ i j E), E, Rmult_0_r, loudness_0, Rmult_0_r, Rminus_0_r, Rabs_R0. lra.
    - pose proof (en_nonneg x i j Hj) as E1. assert (E2 : 0 < en x i j) by lra. specialize (HL i j Hi Hj E2). apply exp_apart in HL. rewrite exp_ln in HL by lra.
      destruct (loudness_law (g ^ 2 * en x i j)) as (_ & LPs); [apply Rmult_lt_0_compat; assumption|].
      assert (EE : l2 i j - l i j = l i j * (exp (ln (spec_loudness (g ^ 2 * en x i j)) - (e * ln (g ^ 2 * en x i j) + off)) - 1)).
      { unfold l2. rewrite LP by exact E2. set (ls := spec_loudness (g ^ 2 * en x i j)) in *. rewrite ln_mult by assumption.
        replace (ln ls - (e * (ln (g ^ 2) + ln (en x i j)) + off)) with (ln ls + (- (e * ln (g ^ 2) + off) + - (e * ln (en x i j)))) by ring. rewrite !exp_plus, !exp_Ropp, exp_ln by exact LPs. fold K.
        field. split; [pose proof (exp_pos (e * ln (en x i j))); lra|lra]. }
      rewrite EE, Rabs_mult, (Rabs_pos_eq (l i j)) by apply L0. specialize (Hq i j Hi Hj).
      apply Rle_trans with (q * (d1 / (q + 1))); [apply Rmult_le_compat; [apply L0|apply Rabs_pos|exact Hq|lra]|].
      apply Rle_trans with ((q + 1) * (d1 / (q + 1))); [apply Rmult_le_compat_r; lra|]. right. field. lra. }
  assert (ES : forall i t, plp_sequence a false L hop n B (fun t => g * x t) i t = K * spec_inverse nfft n (l2 i) t).
  { intros i t. unfold plp_sequence. fold nfft. rewrite <- inverse_scale by exact K0. apply spec_inverse_ext. intros j Hj. unfold spec_auditory, l2. rewrite energy_gain. fold en. field. lra. }
  assert (Hhy : forall i, (i < fc)%nat -> heard a n (spec_auditory false (en (fun t => g * x t) i))).
  { intros i Hi. apply (sounding_iff a N L hop n B Hn Hn0 false (fun t => g * x t) i). apply (sounding_gain nfft (spec_inverse nfft n (l2 i)) _ K); [lra|intros; apply ES|]. apply (HD1 i Hi (l2 i) (Hl2 i Hi)). }
  destruct (rastaplp_value a N L hop n B Hw Hn Hn0 HB (fun t => g * x t) p false li no Hp Ho I Hno Hhy) as (A2 & HA2 & EA2).
  eexists. split; [exact EA2|]. intros i m Hi Hm. cbv beta. destruct (Nat.eqb_spec m 0); [lia|].
  apply (proj2 (HD1 i Hi (l2 i) (Hl2 i Hi))); [apply HA, Hi| |exact Hm].
  apply (normal_gain nfft p (plp_sequence a false L hop n B (fun t => g * x t) i) _ (/ K)); [apply Rinv_neq_0_compat; lra| |apply HA2, Hi]. intros t. rewrite ES. field. lra.
Qed.

Lemma faint_main : forall x p li no, (1 <= p)%nat -> (Z.of_nat (S p) <= s_nfilts a)%Z -> no_post li no -> (forall i, (i < fc)%nat -> heard a n (en x i)) ->
  exists A, (forall i, (i < fc)%nat -> normal_equations nfft p (spec_inverse nfft n (fun j => spec_root (4 / 3) (en x i j))) (A i)) /\ forall eps, 0 < eps -> exists g0, 0 < g0 /\ forall g, 0 < Rabs g <= g0 ->
    exists C, plp (fvec N (fun t => g * x t)) a (Z.of_nat (S p)) li no = Ok (fmat fc (S p) C) /\ forall i m, (i < fc)%nat -> (1 <= m <= p)%nat -> Rabs (C i m - coded_cepstrum (A i) m) < eps.
Proof.
  intros x p li no Hp Ho Hno Hh. destruct (level_main x p (4 / 3) faint_offset li no Hp Ho Hno Hh) as (A & HA & HE). exists A. split; [exact HA|]. intros eps He. destruct (HE eps He) as (de & D0 & HD).
  set (W := 1 + bigsum fc (fun i => bigsum n (fun j => Rabs (en x i j)))).
  assert (W1 : 1 <= W). { unfold W. assert (0 <= bigsum fc (fun i => bigsum n (fun j => Rabs (en x i j)))) by (apply bigsum_nonneg; intros; apply bigsum_nonneg; intros; apply Rabs_pos). lra. }
  assert (HW : forall i j, (i < fc)%nat -> (j < n)%nat -> en x i j <= W).
  { intros i j Hi Hj. apply Rle_trans with (bigsum fc (fun i => bigsum n (fun j => Rabs (en x i j)))); [|unfold W; lra]. eapply Rle_trans; [|apply (bigsum_ge_term _ (fun i => bigsum n (fun j => Rabs (en x i j))) i); [intros; apply bigsum_nonneg; intros; apply Rabs_pos|exact Hi]].
    eapply Rle_trans; [apply Rle_abs|]. apply (bigsum_ge_term n (fun j => Rabs (en x i j)) j); [intros; apply Rabs_pos|exact Hj]. }
  set (s := Rmin 1 de). assert (S0 : 0 < s) by (apply Rmin_glb_lt; lra). assert (S1 : s <= 1) by apply Rmin_l. assert (S2 : s <= de) by apply Rmin_r.
  assert (T0 : 0 < s / W) by (apply Rdiv_lt_0_compat; lra). assert (T1 : s / W <= 1) by (apply Rmult_le_reg_r with W; [lra|]; unfold Rdiv; rewrite Rmult_assoc, Rinv_l by lra; lra).
  exists (s / W). split; [exact T0|]. intros g (Hg0 & Hg). assert (GN : g <> 0) by (intros ->; rewrite Rabs_R0 in Hg0; lra). apply HD; [exact GN|]. intros i j Hi Hj E.
  assert (G2 : 0 < g ^ 2) by (rewrite <- Rsqr_pow2; apply Rsqr_pos_lt, GN).
  assert (G3 : g ^ 2 <= s / W). { rewrite <- pow2_abs. replace (Rabs g ^ 2) with (Rabs g * Rabs g) by ring. replace (s / W) with (s / W * 1) by ring. apply Rmult_le_compat; lra. }
  assert (G4 : g ^ 2 * en x i j <= s). { apply Rle_trans with (s / W * W); [apply Rmult_le_compat; try lra; apply HW; assumption|]. right. field. lra. }
  eapply Rle_trans; [apply (loudness_faint _ s); split; [apply Rmult_lt_0_compat; assumption|exact G4]|]. eapply Rle_trans; [apply faint_small; lra|exact S2].
Qed.

Lemma loud_main : forall x p li no, (1 <= p)%nat -> (Z.of_nat (S p) <= s_nfilts a)%Z -> no_post li no -> (forall i, (i < fc)%nat -> heard a n (en x i)) ->
  exists A, (forall i, (i < fc)%nat -> normal_equations nfft p (spec_inverse nfft n (fun j => spec_root (- (4 / 3)) (en x i j))) (A i)) /\ forall eps, 0 < eps -> exists g0, 0 < g0 /\ forall g, g0 <= Rabs g ->
    exists C, plp (fvec N (fun t => g * x t)) a (Z.of_nat (S p)) li no = Ok (fmat fc (S p) C) /\ forall i m, (i < fc)%nat -> (1 <= m <= p)%nat -> Rabs (C i m - coded_cepstrum (A i) m) < eps.
Proof.
  intros x p li no Hp Ho Hno Hh. destruct (level_main x p (- (4 / 3)) 0 li no Hp Ho Hno Hh) as (A & HA & HE). exists A. split; [exact HA|]. intros eps He. destruct (HE eps He) as (de & D0 & HD).
  destruct (finite_min (fun i w => forall j, (j < n)%nat -> 0 < en x i j -> w <= en x i j)) with (n := fc) as (w & W0 & HW).
  { intros i s s' Hs H0 j Hj E. specialize (H0 j Hj E). lra. }
  { intros i Hi. apply finite_min.
    - intros j s s' Hs H0 E. specialize (H0 E). lra.
    - intros j Hj. destruct (Rle_lt_dec (en x i j) 0) as [E|E]; [exists 1; split; [lra|intros; lra]|exists (en x i j); split; [exact E|intros; lra]]. }
  set (T := 1 + 10 ^ 27 / de). assert (T1 : 1 <= T) by (unfold T; assert (0 < 10 ^ 27 / de) by (apply Rdiv_lt_0_compat; lra); lra).
  assert (T0 : 0 < T / w) by (apply Rdiv_lt_0_compat; lra).
  exists (1 + T / w). split; [lra|]. intros g Hg. assert (GN : g <> 0) by (intros ->; rewrite Rabs_R0 in Hg; lra). apply HD; [exact GN|]. intros i j Hi Hj E. rewrite Rplus_0_r.
  assert (G2 : 0 < g ^ 2) by (rewrite <- Rsqr_pow2; apply Rsqr_pos_lt, GN).
  assert (G3 : T / w <= g ^ 2). { rewrite <- pow2_abs. replace (Rabs g ^ 2) with (Rabs g * Rabs g) by ring. replace (T / w) with (T / w * 1) by ring. apply Rmult_le_compat; lra. }
  assert (G4 : T <= g ^ 2 * en x i j). { apply Rle_trans with (T / w * w); [right; field; lra|]. apply Rmult_le_compat; try lra. apply HW; assumption. }
  eapply Rle_trans; [apply (loudness_loud _ T); lra|]. eapply Rle_trans; [apply loud_small; exact T1|].
  apply Rmult_le_reg_r with T; [lra|]. replace (10 ^ 27 / T * T) with (10 ^ 27) by (field; lra). unfold T. rewrite Rmult_plus_distr_l. replace (de * (10 ^ 27 / de)) with (10 ^ 27) by (field; lra). lra.
Qed.
End plp.
