(** * Proofs for C186: loudness of quiet and of loud bands *)
From Coq Require Import Reals ZArith List String Bool Lia Lra Psatz.
From Verif Require Import Base BaseFacts SpecBase BigSum SpecMat MatFacts SpecBanks SpecFeatures SpecInvariance Preprocessing Features Extractors FeaturesFacts FeaturesMore FeaturesLaws DctFacts InvarianceLaws ContractFacts SpecLoud.
Import ListNotations.
Local Open Scope R_scope.

Definition kA : R := 56800000. Definition kB : R := 6300000. Definition kC : R := 380000000. Definition kD : R := 958000000000000000000000000.
(** the law before the cube root, in the square of the energy *)
Definition lawE (s : R) : R := (s + kA) * s ^ 2 / ((s + kB) * (s + kC) * (s ^ 3 + kD)).

Lemma law_pos : forall s, 0 < s -> 0 < lawE s.
Proof.
  intros s Hs. unfold lawE, kA, kB, kC, kD. assert (0 < s ^ 2) by (apply pow_lt; lra). assert (0 < s ^ 3) by (apply pow_lt; lra).
  apply Rdiv_lt_0_compat; repeat apply Rmult_lt_0_compat; lra.
Qed.
Lemma loudness_law : forall w, 0 < w -> spec_loudness w = Rpower (lawE (w ^ 2)) (1 / 3) /\ 0 < spec_loudness w.
Proof.
  intros w Hw. assert (Hs : 0 < w ^ 2) by (apply pow_lt; exact Hw). pose proof (law_pos _ Hs) as P.
  assert (E : spec_loudness w = Rpower (lawE (w ^ 2)) (1 / 3)).
  { unfold spec_loudness, spec_root. replace ((w ^ 2 + 56.8 * 10 ^ 6) * w ^ 4 / ((w ^ 2 + 6.3 * 10 ^ 6) * (w ^ 2 + 0.38 * 10 ^ 9) * (w ^ 6 + 9.58 * 10 ^ 26))) with (lawE (w ^ 2)).
    - destruct (Req_EM_T (lawE (w ^ 2)) 0); [lra|reflexivity].
    - unfold lawE, kA, kB, kC, kD. replace ((w ^ 2) ^ 2) with (w ^ 4) by ring. replace ((w ^ 2) ^ 3) with (w ^ 6) by ring.
      replace (56.8 * 10 ^ 6) with 56800000 by lra. replace (6.3 * 10 ^ 6) with 6300000 by lra. replace (0.38 * 10 ^ 9) with 380000000 by lra.
      replace (9.58 * 10 ^ 26) with 958000000000000000000000000 by lra. reflexivity. }
  split; [exact E|]. rewrite E. apply exp_pos.
Qed.
Lemma loudness_0 : spec_loudness 0 = 0.
Proof. unfold spec_loudness, spec_root. match goal with |- (if Req_EM_T ?u 0 then _ else _) = _ => destruct (Req_EM_T u 0) as [|N]; [reflexivity|exfalso; apply N; unfold Rdiv; ring] end. Qed.
Lemma frac_lt : forall a b c d, 0 < b -> 0 < d -> a * d < c * b -> a / b < c / d.
Proof.
  intros a b c d Hb Hd H. apply Rmult_lt_reg_r with (b * d); [apply Rmult_lt_0_compat; assumption|].
  replace (a / b * (b * d)) with (a * d) by (field; lra). replace (c / d * (b * d)) with (c * b) by (field; lra). exact H.
Qed.
Lemma frac_le : forall a b c d, 0 < b -> 0 < d -> a * d <= c * b -> a / b <= c / d.
Proof.
  intros a b c d Hb Hd H. apply Rmult_le_reg_r with (b * d); [apply Rmult_lt_0_compat; assumption|].
  replace (a / b * (b * d)) with (a * d) by (field; lra). replace (c / d * (b * d)) with (c * b) by (field; lra). exact H.
Qed.
(** the three factors of the law on the rising side *)
Lemma rise_1 : forall b s t, 0 < b -> 0 < s < t -> 0 < s / (s + b) < t / (t + b).
Proof. intros b s t Hb H. split; [apply Rdiv_lt_0_compat; lra|]. apply frac_lt; try lra. nra. Qed.
Lemma rise_2 : forall s t, 0 < s < t -> t <= 729000000 -> 0 < (s + kA) / (s ^ 3 + kD) <= (t + kA) / (t ^ 3 + kD).
Proof.
  intros s t H HT. assert (0 < s ^ 3) by (apply pow_lt; lra). assert (0 < t ^ 3) by (apply pow_lt; lra).
  split; [apply Rdiv_lt_0_compat; unfold kA, kD; lra|]. apply frac_le; [unfold kD; lra|unfold kD; lra|].
  assert (Q1 : s * t <= 729000000 * 729000000) by (apply Rmult_le_compat; lra).
  assert (Q2 : s * s <= 729000000 * 729000000) by (apply Rmult_le_compat; lra).
  assert (Q3 : t * t <= 729000000 * 729000000) by (apply Rmult_le_compat; lra).
  assert (Q4 : s * t * (s + t) <= 729000000 * 729000000 * (1458000000)) by (apply Rmult_le_compat; try lra; apply Rmult_le_pos; lra).
  assert (P : 0 <= (t - s) * (kD - s * t * (s + t) - kA * (s * s + s * t + t * t))).
  { apply Rmult_le_pos; [lra|]. unfold kD, kA. lra. }
  replace ((t + kA) * (s ^ 3 + kD)) with ((s + kA) * (t ^ 3 + kD) + (t - s) * (kD - s * t * (s + t) - kA * (s * s + s * t + t * t))) by ring. lra.
Qed.
Lemma law_rises : forall s t, 0 < s < t -> t <= 729000000 -> lawE s < lawE t.
Proof.
  intros s t H HT. pose proof (rise_1 kB s t ltac:(unfold kB; lra) H) as [B0 B1]. pose proof (rise_1 kC s t ltac:(unfold kC; lra) H) as [C0 C1]. pose proof (rise_2 s t H HT) as [D0 D1].
  assert (EE : forall u, 0 < u -> lawE u = u / (u + kB) * (u / (u + kC)) * ((u + kA) / (u ^ 3 + kD))).
  { intros u Hu. unfold lawE. assert (0 < u ^ 3) by (apply pow_lt; lra). unfold kA, kB, kC, kD. field. lra. }
  rewrite (EE s), (EE t) by lra.
  assert (S1 : s / (s + kB) * (s / (s + kC)) < t / (t + kB) * (t / (t + kC))) by (apply Rmult_gt_0_lt_compat; lra).
  assert (S0 : 0 < s / (s + kB) * (s / (s + kC))) by (apply Rmult_lt_0_compat; assumption).
  apply Rlt_le_trans with (t / (t + kB) * (t / (t + kC)) * ((s + kA) / (s ^ 3 + kD))); [apply Rmult_lt_compat_r; assumption|apply Rmult_le_compat_l; lra].
Qed.
(** the falling side *)
Lemma fall_1 : forall s t, 0 < s < t -> 0 < (t + kA) / ((t + kB) * (t + kC)) < (s + kA) / ((s + kB) * (s + kC)).
Proof.
  intros s t H. assert (P : forall u, 0 < u -> 0 < (u + kB) * (u + kC)) by (intros; apply Rmult_lt_0_compat; unfold kB, kC; lra).
  split; [apply Rdiv_lt_0_compat; [unfold kA; lra|apply P; lra]|]. apply frac_lt; try (apply P; lra).
  assert (0 < s * t) by (apply Rmult_lt_0_compat; lra).
  assert (Q : 0 < (t - s) * (s * t + kA * (s + t) + kA * (kB + kC) - kB * kC)) by (apply Rmult_lt_0_compat; [lra|unfold kA, kB, kC; lra]).
  replace ((s + kA) * ((t + kB) * (t + kC))) with ((t + kA) * ((s + kB) * (s + kC)) + (t - s) * (s * t + kA * (s + t) + kA * (kB + kC) - kB * kC)) by ring. lra.
Qed.
Lemma fall_2 : forall s t, 1246000000 <= s < t -> 0 < t ^ 2 / (t ^ 3 + kD) <= s ^ 2 / (s ^ 3 + kD).
Proof.
  intros s t H. assert (0 < s ^ 3) by (apply pow_lt; lra). assert (0 < t ^ 3) by (apply pow_lt; lra). assert (0 < t ^ 2) by (apply pow_lt; lra).
  split; [apply Rdiv_lt_0_compat; unfold kD; lra|]. apply frac_le; [unfold kD; lra|unfold kD; lra|].
  assert (A1 : s * s <= s * t) by (apply Rmult_le_compat_l; lra). assert (A0 : 1246000000 * 1246000000 <= s * s) by (apply Rmult_le_compat; lra).
  assert (A2 : 1246000000 * (s * s) <= s * (s * t)) by (apply Rmult_le_compat; try lra; nra).
  assert (Q : kD * (s + t) <= s * s * (t * t)).
  { assert (A3 : s * s * t <= s * s * (t * t) / 1246000000) by (assert (t * 1246000000 <= t * t) by (apply Rmult_le_compat_l; lra); assert (s * s * (t * 1246000000) <= s * s * (t * t)) by (apply Rmult_le_compat_l; nra); lra).
    assert (A4 : 2 * kD * t <= s * s * (t * t)).
    { apply Rle_trans with (1246000000 * 1246000000 * 1246000000 * t); [apply Rmult_le_compat_r; unfold kD; lra|].
      assert (1246000000 * 1246000000 * (1246000000 * t) <= s * s * (t * t)) by (apply Rmult_le_compat; try lra; apply Rmult_le_compat_r; lra). lra. }
    apply Rle_trans with (2 * kD * t); [|exact A4]. unfold kD. lra. }
  assert (P : 0 <= (t - s) * (s * s * (t * t) - kD * (s + t))) by (apply Rmult_le_pos; lra).
  replace (s ^ 2 * (t ^ 3 + kD)) with (t ^ 2 * (s ^ 3 + kD) + (t - s) * (s * s * (t * t) - kD * (s + t))) by ring. lra.
Qed.
Lemma law_falls : forall s t, 1246000000 <= s < t -> lawE t < lawE s.
Proof.
  intros s t H. pose proof (fall_1 s t ltac:(lra)) as [B0 B1]. pose proof (fall_2 s t H) as [D0 D1].
  assert (EE : forall u, 0 < u -> lawE u = (u + kA) / ((u + kB) * (u + kC)) * (u ^ 2 / (u ^ 3 + kD))).
  { intros u Hu. unfold lawE. assert (0 < u ^ 3) by (apply pow_lt; lra). unfold kA, kB, kC, kD. field. lra. }
  rewrite (EE s), (EE t) by lra.
  apply Rlt_le_trans with ((s + kA) / ((s + kB) * (s + kC)) * (t ^ 2 / (t ^ 3 + kD))); [apply Rmult_lt_compat_r; assumption|apply Rmult_le_compat_l; lra].
Qed.
Lemma cube_root_lt : forall u v, 0 < u < v -> Rpower u (1 / 3) < Rpower v (1 / 3).
Proof. intros u v H. unfold Rpower. apply exp_increasing. apply Rmult_lt_compat_l; [lra|]. apply ln_increasing; lra. Qed.
Lemma loudness_rises : forall v w, 0 <= v < w -> w <= 27000 -> spec_loudness v < spec_loudness w.
Proof.
  intros v w H HW. destruct (loudness_law w ltac:(lra)) as (Ew & Pw). destruct (Req_dec v 0) as [->|N]; [rewrite loudness_0; exact Pw|].
  destruct (loudness_law v ltac:(lra)) as (Ev & _). rewrite Ev, Ew. assert (0 < v ^ 2) by (apply pow_lt; lra). apply cube_root_lt. split; [apply law_pos; assumption|].
  apply law_rises; [split; [assumption|nra]|nra].
Qed.
Lemma loudness_falls : forall v w, 35300 <= v < w -> spec_loudness w < spec_loudness v.
Proof.
  intros v w H. destruct (loudness_law w ltac:(lra)) as (Ew & _). destruct (loudness_law v ltac:(lra)) as (Ev & _). rewrite Ev, Ew.
  assert (0 < w ^ 2) by (apply pow_lt; lra). apply cube_root_lt. split; [apply law_pos; assumption|]. apply law_falls. nra.
Qed.
(** logarithms *)
Lemma ln_1p : forall u, 0 <= u -> 0 <= ln (1 + u) <= u.
Proof.
  intros u Hu. split.
  - destruct (Req_dec u 0) as [->|N]; [rewrite Rplus_0_r, ln_1; lra|]. rewrite <- ln_1. left. apply ln_increasing; lra.
  - rewrite <- (ln_exp u) at 2. destruct (Req_dec u 0) as [->|N]; [rewrite exp_0, Rplus_0_r; lra|]. left. apply ln_increasing; [lra|]. apply exp_ineq1. lra.
Qed.
Lemma ln_plus : forall c s, 0 < c -> 0 < s -> ln (s + c) = ln c + ln (1 + s / c).
Proof. intros c s Hc Hs. rewrite <- ln_mult; [f_equal; field; lra|exact Hc|]. assert (0 < s / c) by (apply Rdiv_lt_0_compat; lra). lra. Qed.
Lemma ln_sq : forall w, 0 < w -> ln (w ^ 2) = 2 * ln w.
Proof. intros w Hw. replace (w ^ 2) with (w * w) by ring. rewrite ln_mult by assumption. ring. Qed.
Lemma ln_cube : forall w, 0 < w -> ln (w ^ 3) = 3 * ln w.
Proof. intros w Hw. replace (w ^ 3) with (w * (w * w)) by ring. rewrite !ln_mult; try assumption; [ring|]. apply Rmult_lt_0_compat; assumption. Qed.
Lemma law_ln : forall s, 0 < s -> ln (lawE s) = ln (s + kA) + 2 * ln s - ln (s + kB) - ln (s + kC) - ln (s ^ 3 + kD).
Proof.
  intros s Hs. assert (P3 : 0 < s ^ 3) by (apply pow_lt; lra). assert (P2 : 0 < s ^ 2) by (apply pow_lt; lra). unfold lawE.
  assert (0 < s + kA) by (unfold kA; lra). assert (0 < s + kB) by (unfold kB; lra). assert (0 < s + kC) by (unfold kC; lra). assert (0 < s ^ 3 + kD) by (unfold kD; lra).
  assert (0 < (s + kB) * (s + kC)) by (apply Rmult_lt_0_compat; assumption).
  unfold Rdiv. rewrite ln_mult; [|apply Rmult_lt_0_compat; assumption|apply Rinv_0_lt_compat, Rmult_lt_0_compat; assumption].
  rewrite ln_Rinv by (apply Rmult_lt_0_compat; assumption). rewrite !ln_mult by assumption. rewrite ln_sq by exact Hs. ring.
Qed.
Lemma loudness_ln : forall w, 0 < w -> ln (spec_loudness w) = ln (lawE (w ^ 2)) / 3.
Proof. intros w Hw. destruct (loudness_law w Hw) as (-> & _). unfold Rpower. rewrite ln_exp. lra. Qed.
Lemma ln_mono : forall u v, 0 < u -> u <= v -> ln u <= ln v.
Proof. intros u v Hu [H|H]; [left; apply ln_increasing; assumption|subst; lra]. Qed.
Lemma offset_ln : faint_offset = (ln kA - ln kB - ln kC - ln kD) / 3.
Proof.
  unfold faint_offset. replace (56.8 * 10 ^ 6) with kA by (unfold kA; lra). replace (6.3 * 10 ^ 6) with kB by (unfold kB; lra). replace (0.38 * 10 ^ 9) with kC by (unfold kC; lra). replace (9.58 * 10 ^ 26) with kD by (unfold kD; lra).
  assert (0 < kA) by (unfold kA; lra). assert (0 < kB) by (unfold kB; lra). assert (0 < kC) by (unfold kC; lra). assert (0 < kD) by (unfold kD; lra).
  assert (0 < kB * kC) by (apply Rmult_lt_0_compat; assumption). assert (0 < kB * kC * kD) by (apply Rmult_lt_0_compat; assumption).
  unfold Rdiv at 2. rewrite ln_mult, ln_Rinv, !ln_mult by (try apply Rinv_0_lt_compat; assumption). lra.
Qed.
Lemma slack_le : forall w W, 0 < w <= W -> faint_slack w <= faint_slack W.
Proof. intros w W H. unfold faint_slack. assert (w ^ 2 <= W ^ 2) by (apply pow_incr; lra). assert (w ^ 6 <= W ^ 6) by (apply pow_incr; lra). lra. Qed.
Lemma loudness_faint : forall w W, 0 < w <= W -> Rabs (ln (spec_loudness w) - (4 / 3 * ln w + faint_offset)) <= faint_slack W.
Proof.
  intros w W H. eapply Rle_trans; [|apply (slack_le w W H)]. rewrite loudness_ln by lra. assert (Hs : 0 < w ^ 2) by (apply pow_lt; lra). assert (P3 : 0 < (w ^ 2) ^ 3) by (apply pow_lt; lra). rewrite law_ln, ln_sq by lra.
  assert (0 < kA) by (unfold kA; lra). assert (0 < kB) by (unfold kB; lra). assert (0 < kC) by (unfold kC; lra). assert (0 < kD) by (unfold kD; lra).
  rewrite (ln_plus kA), (ln_plus kB), (ln_plus kC), (ln_plus kD) by assumption. rewrite offset_ln. unfold faint_slack.
  replace (6.3 * 10 ^ 6) with kB by (unfold kB; lra). replace (0.38 * 10 ^ 9) with kC by (unfold kC; lra). replace (9.58 * 10 ^ 26) with kD by (unfold kD; lra). replace (w ^ 6) with ((w ^ 2) ^ 3) by ring.
  assert (QA : 0 <= w ^ 2 / kA) by (left; apply Rdiv_lt_0_compat; assumption). assert (QB : 0 <= w ^ 2 / kB) by (left; apply Rdiv_lt_0_compat; assumption).
  assert (QC : 0 <= w ^ 2 / kC) by (left; apply Rdiv_lt_0_compat; assumption). assert (QD : 0 <= (w ^ 2) ^ 3 / kD) by (left; apply Rdiv_lt_0_compat; assumption).
  assert (AB : w ^ 2 / kA <= w ^ 2 / kB) by (apply Rmult_le_compat_l; [lra|apply Rinv_le_contravar; unfold kA, kB; lra]).
  pose proof (ln_1p _ QA). pose proof (ln_1p _ QB). pose proof (ln_1p _ QC). pose proof (ln_1p _ QD). pose proof (ln_mono (1 + w ^ 2 / kA) (1 + w ^ 2 / kB) ltac:(lra) ltac:(lra)).
  apply Rabs_le. lra.
Qed.
Lemma loud_slack_le : forall w W, 0 < W <= w -> loud_slack w <= loud_slack W.
Proof.
  intros w W H. unfold loud_slack. assert (P : forall k, 0 < k -> k / w ^ 2 <= k / W ^ 2 /\ k / w ^ 6 <= k / W ^ 6).
  { intros k Hk. split; (apply Rmult_le_compat_l; [lra|]; apply Rinv_le_contravar; [apply pow_lt; lra|apply pow_incr; lra]). }
  destruct (P (0.38 * 10 ^ 9) ltac:(lra)) as (A1 & _). destruct (P (9.58 * 10 ^ 26) ltac:(lra)) as (_ & A2). lra.
Qed.
Lemma loudness_loud : forall w W, 0 < W <= w -> Rabs (ln (spec_loudness w) - - (4 / 3) * ln w) <= loud_slack W.
Proof.
  intros w W H. eapply Rle_trans; [|apply (loud_slack_le w W H)]. rewrite loudness_ln by lra. assert (Hs : 0 < w ^ 2) by (apply pow_lt; lra). assert (P3 : 0 < (w ^ 2) ^ 3) by (apply pow_lt; lra). rewrite law_ln by lra.
  assert (0 < kA) by (unfold kA; lra). assert (0 < kB) by (unfold kB; lra). assert (0 < kC) by (unfold kC; lra). assert (0 < kD) by (unfold kD; lra).
  rewrite !(Rplus_comm (w ^ 2)), (Rplus_comm ((w ^ 2) ^ 3)). rewrite (ln_plus (w ^ 2) kA), (ln_plus (w ^ 2) kB), (ln_plus (w ^ 2) kC), (ln_plus ((w ^ 2) ^ 3) kD) by assumption. rewrite ln_cube, !ln_sq by lra. unfold loud_slack.
  replace (0.38 * 10 ^ 9) with kC by (unfold kC; lra). replace (9.58 * 10 ^ 26) with kD by (unfold kD; lra). replace (w ^ 6) with ((w ^ 2) ^ 3) by ring.
  assert (QA : 0 <= kA / w ^ 2) by (left; apply Rdiv_lt_0_compat; assumption). assert (QB : 0 <= kB / w ^ 2) by (left; apply Rdiv_lt_0_compat; assumption).
  assert (QC : 0 <= kC / w ^ 2) by (left; apply Rdiv_lt_0_compat; assumption). assert (QD : 0 <= kD / (w ^ 2) ^ 3) by (left; apply Rdiv_lt_0_compat; assumption).
  assert (AB : kB / w ^ 2 <= kA / w ^ 2) by (apply Rmult_le_compat_r; [left; apply Rinv_0_lt_compat; assumption|unfold kA, kB; lra]).
  assert (AC : kA / w ^ 2 <= kC / w ^ 2) by (apply Rmult_le_compat_r; [left; apply Rinv_0_lt_compat; assumption|unfold kA, kC; lra]).
  pose proof (ln_1p _ QA). pose proof (ln_1p _ QB). pose proof (ln_1p _ QC). pose proof (ln_1p _ QD). pose proof (ln_mono (1 + kB / w ^ 2) (1 + kA / w ^ 2) ltac:(lra) ltac:(lra)).
  apply Rabs_le. lra.
Qed.
(** ** rows of bfcc against rows of mfcc with the same bank *)
Section rows.
Context `{Env}.
Variables (a : sargs) (c : cargs) (N L hop n : nat) (B : nat -> nat -> R).
Hypotheses (Hw : well_framed a N L hop) (Hn : (1 <= s_nfft a)%Z) (Hn0 : (0 < n)%nat)
  (HB : extractor_bank Bfcc a = Ok (fmat n (S (half (s_nfft a))) B)) (HP : forall j k, (j < n)%nat -> (k <= half (s_nfft a))%nat -> 0 <= B j k)
  (Hpre : s_pre_emph a = false \/ s_coeff a = 0.97) (Hc : (0 <= c_num_ceps c <= s_nfilts a)%Z) (Ht : (1 <= c_dct_type c <= 4)%Z) (H1 : c_dct_type c = 1%Z -> (2 <= n)%nat)
  (Hu : c_use_energy c = false) (Hl : no_lifter c) (Hnm : no_normalisation c).
Let K := Nat.min (Z.to_nat (c_num_ceps c)) n.
Let band x i j := spec_band (half (s_nfft a)) (Z.to_nat (s_nfft a)) L (frame_of a (extractor_coeff Bfcc a) L hop x i) (B j).
Let a2 := with_fbanks a (fmat n (S (half (s_nfft a))) B).

Lemma same_frames : forall x i, frame_of a2 (extractor_coeff Mfcc a2) L hop x i = frame_of a (extractor_coeff Bfcc a) L hop x i.
Proof.
  intros x i. unfold frame_of, a2. change (window_of (with_fbanks a (fmat n (S (half (s_nfft a))) B))) with (window_of a). change (s_pre_emph (with_fbanks a (fmat n (S (half (s_nfft a))) B))) with (s_pre_emph a).
  change (extractor_coeff Mfcc (with_fbanks a (fmat n (S (half (s_nfft a))) B))) with (s_coeff a). change (extractor_coeff Bfcc a) with 0.97.
  destruct Hpre as [E|E]; rewrite E; reflexivity.
Qed.
Lemma bark_rows : forall x, exists y z, run Bfcc (fvec N x) a c = Ok (fmat (frame_count N L hop) K y) /\ mfcc (fvec N x) a2 c = Ok (fmat (frame_count N L hop) K z) /\
  (forall i k, y i k = spec_dct (c_dct_type c) n (fun j => spec_log (spec_loudness (band x i j))) k) /\ forall i k, z i k = spec_dct (c_dct_type c) n (fun j => spec_log (band x i j)) k.
Proof.
  intros x. do 2 eexists. split; [|split].
  - apply (run_fvec Bfcc a c N L hop n B x); auto; try lia; try congruence. intros. exact I.
  - apply (run_fvec Mfcc a2 c N L hop n B x); auto; try lia; try congruence.
    + intros i j Hi Hj. rewrite same_frames. cbn [compressible]. apply spec_band_nonneg; [change (s_nfft a2) with (s_nfft a); lia|]. intros k Hk. apply HP; auto.
    + exact (proj2 Hc).
  - split; intros i k; cbv zeta; rewrite Hu; cbn [andb]; [reflexivity|]. rewrite same_frames. reflexivity.
Qed.
Lemma law_rows : forall x al be ep i y z, 0 <= ep -> (be = 0 \/ c_dct_type c = 2%Z) ->
  (forall j, (j < n)%nat -> Rabs (spec_log (spec_loudness (band x i j)) - (al * spec_log (band x i j) + be)) <= ep) ->
  (forall k, y i k = spec_dct (c_dct_type c) n (fun j => spec_log (spec_loudness (band x i j))) k) -> (forall k, z i k = spec_dct (c_dct_type c) n (fun j => spec_log (band x i j)) k) ->
  sqdist K (y i) (fun k => al * z i k + (if Nat.eqb k 0 then be * sqrt (INR n) else 0)) <= INR n * ep ^ 2.
Proof.
  intros x al be ep i y z He Hbe HE Y Z.
  set (u := fun j => spec_log (spec_loudness (band x i j))). set (v := fun j => al * spec_log (band x i j) + 1 * be).
  apply Rle_trans with (sqdist n (spec_dct (c_dct_type c) n u) (spec_dct (c_dct_type c) n v)).
  - eapply Rle_trans; [|apply (sqdist_mono K n); unfold K; lia]. right. unfold sqdist. apply bigsum_ext. intros k Hk. unfold K in Hk. rewrite Y, Z. fold u. f_equal. f_equal.
    unfold v. rewrite (spec_dct_linear _ n al 1 (fun j => spec_log (band x i j)) (fun _ => be)). rewrite Rmult_1_l. f_equal.
    destruct Hbe as [->|E2]; [|rewrite E2, spec_dct2_const by lia; reflexivity].
    unfold spec_dct. rewrite (bigsum_zero n _ (fun t _ => Rmult_0_l _)). destruct (Nat.eqb k 0); ring.
  - rewrite dct_sqdist by auto. unfold sqdist. rewrite <- (bigsum_const n). apply bigsum_le. intros j Hj. specialize (HE j Hj). fold (u j) in HE. unfold v. rewrite Rmult_1_l.
    rewrite <- (pow2_abs (_ - _)). apply pow_incr. split; [apply Rabs_pos|exact HE].
Qed.
Lemma log_pos : forall v, 0 < v -> spec_log v = ln v.
Proof. intros v Hv. unfold spec_log. destruct (Req_EM_T v 0); [lra|reflexivity]. Qed.
Lemma faint_slack_pos : forall W, 0 <= faint_slack W.
Proof. intros W. unfold faint_slack. assert (0 <= W ^ 2) by apply pow2_ge_0. assert (0 <= W ^ 6) by (replace (W ^ 6) with ((W ^ 3) ^ 2) by ring; apply pow2_ge_0). lra. Qed.
Lemma loud_slack_pos : forall W, 0 < W -> 0 <= loud_slack W.
Proof. intros W HW. unfold loud_slack. assert (0 < 0.38 * 10 ^ 9 / W ^ 2) by (apply Rdiv_lt_0_compat; [lra|apply pow_lt; lra]). assert (0 < 9.58 * 10 ^ 26 / W ^ 6) by (apply Rdiv_lt_0_compat; [lra|apply pow_lt; lra]). lra. Qed.
Lemma bark_laws0 : forall x, exists y z, bfcc (fvec N x) a c = Ok (fmat (frame_count N L hop) K y) /\ mfcc (fvec N x) a2 c = Ok (fmat (frame_count N L hop) K z) /\
  (forall i k, z i k = spec_dct (c_dct_type c) n (fun j => spec_log (band x i j)) k) /\
  forall i W, (c_dct_type c = 2%Z -> (forall j, (j < n)%nat -> 0 < band x i j <= W) ->
      sqdist K (y i) (fun k => 4 / 3 * z i k + (if Nat.eqb k 0 then faint_offset * sqrt (INR n) else 0)) <= INR n * faint_slack W ^ 2) /\
    (0 < W -> (forall j, (j < n)%nat -> W <= band x i j) -> sqdist K (y i) (fun k => - (4 / 3) * z i k) <= INR n * loud_slack W ^ 2).
Proof.
  intros x. destruct (bark_rows x) as (y & z & Y & Z & EY & EZ). exists y, z. split; [exact Y|]. split; [exact Z|]. split; [exact EZ|]. intros i W. split.
  - intros H2 Hb. apply (law_rows x); auto; [apply faint_slack_pos|]. intros j Hj. specialize (Hb j Hj). rewrite !log_pos by (try apply loudness_law; lra). apply loudness_faint. exact Hb.
  - intros HW Hb. pose proof (law_rows x (- (4 / 3)) 0 (loud_slack W) i y z (loud_slack_pos W HW) (or_introl eq_refl)) as R.
    eapply Rle_trans; [right|apply R; auto].
    + unfold sqdist. apply bigsum_ext. intros k _. rewrite Rmult_0_l. destruct (Nat.eqb k 0); rewrite Rplus_0_r; reflexivity.
    + intros j Hj. specialize (Hb j Hj). rewrite !log_pos, Rplus_0_r by (try apply loudness_law; lra). apply loudness_loud. lra.
Qed.
Lemma bark_laws : forall x, exists y z, bfcc (fvec N x) a c = Ok (fmat (frame_count N L hop) K y) /\ mfcc (fvec N x) a2 c = Ok (fmat (frame_count N L hop) K z) /\
  forall i W, (c_dct_type c = 2%Z -> (forall j, (j < n)%nat -> 0 < band x i j <= W) ->
      sqdist K (y i) (fun k => 4 / 3 * z i k + (if Nat.eqb k 0 then faint_offset * sqrt (INR n) else 0)) <= INR n * faint_slack W ^ 2) /\
    (0 < W -> (forall j, (j < n)%nat -> W <= band x i j) -> sqdist K (y i) (fun k => - (4 / 3) * z i k) <= INR n * loud_slack W ^ 2).
Proof. intros x. destruct (bark_laws0 x) as (y & z & Y & Z & _ & R). exists y, z. split; [exact Y|]. split; [exact Z|exact R]. Qed.
(** *** the sign of a coefficient *)
Lemma sign_near : forall u v e, Rabs (u - v) <= e -> e < Rabs v -> 0 < u * v.
Proof.
  intros u v e H1' H2. assert (D : Rabs (u - v) < Rabs v) by lra. clear H1' H2.
  unfold Rabs in D. destruct (Rcase_abs (u - v)), (Rcase_abs v); try nra.
Qed.
Lemma one_entry : forall m u v k e, (k < m)%nat -> 0 <= e -> sqdist m u v <= INR n * e ^ 2 -> Rabs (u k - v k) <= sqrt (INR n) * e.
Proof.
  intros m u v k e Hk He D. assert (S1 : (u k - v k) ^ 2 <= sqdist m u v).
  { unfold sqdist. apply (bigsum_ge_term m (fun t => (u t - v t) ^ 2) k); [intros; apply pow2_ge_0|exact Hk]. }
  rewrite <- sqrt_Rsqr_abs. assert (0 <= sqrt (INR n) * e) by (apply Rmult_le_pos; [apply sqrt_pos|exact He]). rewrite <- (sqrt_pow2 (sqrt (INR n) * e)) by assumption. apply sqrt_le_1_alt.
  rewrite Rpow_mult_distr, pow2_sqrt by apply pos_INR. rewrite Rsqr_pow2. lra.
Qed.
Lemma lowest : forall (f : nat -> R) m, (forall j, (j < m)%nat -> 0 < f j) -> exists l, 0 < l /\ forall j, (j < m)%nat -> l <= f j.
Proof.
  induction m as [|m IH]; intros Hf; [exists 1; split; [lra|lia]|]. destruct IH as (l & L0 & L1); [auto with arith|]. specialize (Hf m ltac:(lia)).
  exists (Rmin l (f m)). split; [apply Rmin_glb_lt; assumption|]. intros j Hj. destruct (Nat.eq_dec j m) as [->|N0]; [apply Rmin_r|]. eapply Rle_trans; [apply Rmin_l|apply L1; lia].
Qed.
Lemma faint_small : forall W, 0 < W <= 1 -> faint_slack W <= W.
Proof.
  intros W HW. unfold faint_slack. assert (W ^ 2 <= W) by (replace (W ^ 2) with (W * W) by ring; rewrite <- (Rmult_1_r W) at 3; apply Rmult_le_compat_l; lra).
  assert (W ^ 5 <= 1) by (rewrite <- (pow1 5); apply pow_incr; lra). assert (W ^ 6 <= W) by (replace (W ^ 6) with (W * W ^ 5) by ring; rewrite <- (Rmult_1_r W) at 3; apply Rmult_le_compat_l; lra). lra.
Qed.
Lemma loud_small : forall W, 1 <= W -> loud_slack W <= 10 ^ 27 / W.
Proof.
  intros W HW. unfold loud_slack. assert (P : forall d, 1 <= d -> forall k, 0 <= k -> k / (W * d) <= k / W).
  { intros d Hd k Hk. apply Rmult_le_compat_l; [exact Hk|]. apply Rinv_le_contravar; [lra|]. rewrite <- (Rmult_1_r W) at 1. apply Rmult_le_compat_l; lra. }
  assert (1 <= W ^ 5) by (apply pow_R1_Rle; exact HW).
  pose proof (P W HW (0.38 * 10 ^ 9) ltac:(lra)) as A1. pose proof (P (W ^ 5) ltac:(assumption) (9.58 * 10 ^ 26) ltac:(lra)) as A2. replace (W * W) with (W ^ 2) in A1 by ring. replace (W * W ^ 5) with (W ^ 6) in A2 by ring.
  assert (0 < / W) by (apply Rinv_0_lt_compat; lra). unfold Rdiv in *. lra.
Qed.
Lemma bark_flip : forall x, exists z, mfcc (fvec N x) a2 c = Ok (fmat (frame_count N L hop) K z) /\
  forall i k, c_dct_type c = 2%Z -> (1 <= k < K)%nat -> (forall j, (j < n)%nat -> 0 < band x i j) -> z i k <> 0 ->
  exists g0 g1, 0 < g0 /\ 0 < g1 /\ forall g, exists y, bfcc (fvec N (fun t => g * x t)) a c = Ok (fmat (frame_count N L hop) K y) /\
    (0 < g <= g0 -> 0 < y i k * z i k) /\ (g1 <= g -> y i k * z i k < 0).
Proof.
  intros x. destruct (bark_rows x) as (y0 & z & _ & Z & _ & EZ). exists z. split; [exact Z|]. intros i k H2 Hk Hb Hz.
  destruct (lowest (band x i) n Hb) as (l & L0 & L1). set (P := bigsum n (band x i)).
  assert (PJ : forall j, (j < n)%nat -> band x i j <= P) by (intros j Hj; apply (bigsum_ge_term n (band x i) j); [intros t Ht'; left; apply Hb; exact Ht'|exact Hj]).
  assert (P0 : 0 < P) by (apply Rlt_le_trans with (band x i 0%nat); [apply Hb; exact Hn0|apply PJ; exact Hn0]).
  assert (Z0 : 0 < Rabs (z i k)) by (apply Rabs_pos_lt; exact Hz). set (r := sqrt (INR n) + 1). assert (R0 : 1 <= r) by (pose proof (sqrt_pos (INR n)); unfold r; lra).
  set (W0 := Rmin 1 (Rabs (z i k) / r)). assert (W0p : 0 < W0) by (apply Rmin_glb_lt; [lra|apply Rdiv_lt_0_compat; lra]).
  assert (W01 : W0 <= 1) by apply Rmin_l. assert (W02 : W0 <= Rabs (z i k) / r) by apply Rmin_r.
  set (W1 := 1 + 10 ^ 27 * r / Rabs (z i k)). assert (W1q : 0 < 10 ^ 27 * r / Rabs (z i k)) by (apply Rdiv_lt_0_compat; lra). assert (W1p : 1 <= W1) by (unfold W1; lra).
  exists (sqrt (W0 / P)), (sqrt (W1 / l)). split; [apply sqrt_lt_R0, Rdiv_lt_0_compat; lra|]. split; [apply sqrt_lt_R0, Rdiv_lt_0_compat; lra|].
  assert (S0 : sqrt (INR n) <= r) by (unfold r; lra). pose proof (sqrt_pos (INR n)) as S1.
  intros g. destruct (bark_laws0 (fun t => g * x t)) as (y & zg & Y & ZG & EG & LAW). exists y. split; [exact Y|].
  assert (BG : forall j, band (fun t => g * x t) i j = g ^ 2 * band x i j) by (intros j; apply spec_band_gain; intros; apply frame_of_gain).
  assert (SAME : 0 < g -> zg i k = z i k).
  { intros Hg. rewrite EG, EZ, H2. assert (0 < g ^ 2) by (apply pow_lt; exact Hg).
    rewrite (spec_dct_ext 2 n _ (fun j => 1 * spec_log (band x i j) + 1 * ln (g ^ 2))).
    - rewrite (spec_dct_linear 2 n 1 1 (fun j => spec_log (band x i j)) (fun _ => ln (g ^ 2))), spec_dct2_const by (unfold K in Hk; lia). destruct (Nat.eqb_spec k 0); [lia|]. ring.
    - intros j Hj. specialize (Hb j Hj). rewrite BG, !log_pos, ln_mult; try assumption; [ring|apply Rmult_lt_0_compat; assumption]. }
  split; intros Hg.
  - assert (G2 : g ^ 2 <= W0 / P) by (rewrite <- (pow2_sqrt (W0 / P)) by (left; apply Rdiv_lt_0_compat; lra); apply pow_incr; lra).
    assert (GP : g ^ 2 * P <= W0) by (apply Rle_trans with (W0 / P * P); [apply Rmult_le_compat_r; lra|right; field; lra]). assert (Gp : 0 < g ^ 2) by (apply pow_lt; lra).
    destruct (LAW i W0) as (Q & _). specialize (Q H2). 
    assert (D : sqdist K (y i) (fun k => 4 / 3 * zg i k + (if Nat.eqb k 0 then faint_offset * sqrt (INR n) else 0)) <= INR n * faint_slack W0 ^ 2).
    { apply Q. intros j Hj. rewrite BG. split; [apply Rmult_lt_0_compat; [exact Gp|apply Hb; exact Hj]|]. eapply Rle_trans; [|exact GP]. apply Rmult_le_compat_l; [lra|apply PJ; exact Hj]. }
    pose proof (one_entry K _ _ k _ ltac:(lia) (faint_slack_pos W0) D) as E. cbv beta in E. destruct (Nat.eqb_spec k 0); [lia|]. rewrite Rplus_0_r, SAME in E by lra.
    assert (F : sqrt (INR n) * faint_slack W0 <= Rabs (z i k)).
    { apply Rle_trans with (r * (Rabs (z i k) / r)); [|right; field; lra]. apply Rmult_le_compat; try assumption; [apply faint_slack_pos|]. eapply Rle_trans; [apply faint_small; lra|exact W02]. }
    assert (S : 0 < y i k * (4 / 3 * z i k)) by (apply (sign_near _ _ _ E); rewrite Rabs_mult, (Rabs_pos_eq (4 / 3)) by lra; lra). lra.
  - assert (W1l : 0 < W1 / l) by (apply Rdiv_lt_0_compat; lra). assert (g0p : 0 < sqrt (W1 / l)) by (apply sqrt_lt_R0; exact W1l).
    assert (G2 : W1 / l <= g ^ 2) by (rewrite <- (pow2_sqrt (W1 / l)) by lra; apply pow_incr; lra).
    assert (GP : W1 <= g ^ 2 * l) by (apply Rle_trans with (W1 / l * l); [right; field; lra|apply Rmult_le_compat_r; lra]).
    destruct (LAW i W1) as (_ & Q). 
    assert (D : sqdist K (y i) (fun k => - (4 / 3) * zg i k) <= INR n * loud_slack W1 ^ 2).
    { apply Q; [lra|]. intros j Hj. rewrite BG. eapply Rle_trans; [exact GP|]. apply Rmult_le_compat_l; [apply pow2_ge_0|apply L1; exact Hj]. }
    pose proof (one_entry K _ _ k _ ltac:(lia) (loud_slack_pos W1 ltac:(lra)) D) as E. cbv beta in E. rewrite SAME in E by lra.
    assert (F : sqrt (INR n) * loud_slack W1 <= Rabs (z i k)).
    { apply Rle_trans with (r * (10 ^ 27 / W1)); [apply Rmult_le_compat; try assumption; [apply loud_slack_pos; lra|apply loud_small; exact W1p]|].
      apply Rmult_le_reg_r with (W1 / Rabs (z i k)); [apply Rdiv_lt_0_compat; lra|]. replace (Rabs (z i k) * (W1 / Rabs (z i k))) with W1 by (field; lra).
      replace (r * (10 ^ 27 / W1) * (W1 / Rabs (z i k))) with (10 ^ 27 * r / Rabs (z i k)) by (field; lra). unfold W1. lra. }
    assert (S : 0 < y i k * (- (4 / 3) * z i k)) by (apply (sign_near _ _ _ E); rewrite Rabs_mult, (Rabs_left (- (4 / 3))) by lra; lra). lra.
Qed.
End rows.
