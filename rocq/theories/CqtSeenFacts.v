(** * Proofs for C185: the samples a row of the constant-Q transform sees *)
From Coq Require Import Reals ZArith List String Bool Lia Lra Psatz.
From Coquelicot Require Import Complex.
From Verif Require Import Base BaseFacts SpecBase BigSum SpecMat MatFacts Preprocessing PreprocessingFacts Features SpecFeatures Extractors FeaturesFacts SpecSpectral Cplx Cqt SpecCqt CqtFacts WindowFacts NoiseFacts SpecCqtSeen.
Import ListNotations.
Local Open Scope R_scope.

(** a row is at most the root of the mean power of the samples it sees *)
Lemma brown_small : forall wt fs f N s d, (1 <= N)%nat -> Cmod (brown_re wt fs f N s d, brown_im wt fs f N s d) <= sqrt (part_energy s N d / INR N).
Proof.
  intros wt fs f N s d HN. assert (P : 0 < INR N) by (apply lt_0_INR; lia).
  set (u := fun t => spec_window wt N t * d (s + t)%nat). set (z := fun t => Cmult (RtoC (u t)) (cis (- (2 * PI * f * INR t / IZR fs)))).
  assert (E : (brown_re wt fs f N s d, brown_im wt fs f N s d) = Cmult (RtoC (/ INR N)) (Cbig N z)).
  { unfold brown_re, brown_im, Cbig, z, Cmult, RtoC, cis. cbn [fst snd]. rewrite !Rmult_0_l, Rminus_0_r, Rplus_0_r. f_equal; f_equal; apply bigsum_ext; intros t _; rewrite ?cos_neg, ?sin_neg; unfold u; ring. }
  rewrite E, Cmod_mult, Cmod_R, Rabs_pos_eq by (left; apply Rinv_0_lt_compat; exact P).
  assert (B1 : Cmod (Cbig N z) <= bigsum N (fun t => Rabs (u t))).
  { eapply Rle_trans; [apply Cbig_mod|]. apply bigsum_le. intros t _. unfold z. rewrite Cmod_mult, Cmod_R. unfold cis, Cmod. cbn [fst snd].
    set (w := - (2 * PI * f * INR t / IZR fs)). replace (cos w ^ 2 + sin w ^ 2) with 1 by (rewrite <- (sin2_cos2 w); unfold Rsqr; ring). rewrite sqrt_1. lra. }
  assert (B2 : bigsum N (fun t => Rabs (u t)) ^ 2 <= INR N * part_energy s N d).
  { eapply Rle_trans; [apply sum_sq_cauchy|]. apply Rmult_le_compat_l; [lra|]. apply bigsum_le. intros t Ht. rewrite pow2_abs. unfold u. rewrite Rpow_mult_distr.
    pose proof (spec_window_bounds wt N t Ht) as W. assert (spec_window wt N t ^ 2 <= 1) by (rewrite <- (pow1 2); apply pow_incr; lra). pose proof (pow2_ge_0 (d (s + t)%nat)). 
    apply Rle_trans with (1 * d (s + t)%nat ^ 2); [apply Rmult_le_compat_r; assumption|lra]. }
  assert (Q : 0 <= bigsum N (fun t => Rabs (u t))) by (apply bigsum_nonneg; intros; apply Rabs_pos).
  apply Rle_trans with (/ INR N * bigsum N (fun t => Rabs (u t))); [apply Rmult_le_compat_l; [left; apply Rinv_0_lt_compat; exact P|exact B1]|].
  assert (Q2 : 0 <= / INR N * bigsum N (fun t => Rabs (u t))) by (apply Rmult_le_pos; [left; apply Rinv_0_lt_compat; exact P|exact Q]).
  rewrite <- (sqrt_pow2 _ Q2). apply sqrt_le_1_alt. rewrite Rpow_mult_distr. apply Rmult_le_reg_r with (INR N ^ 2); [apply pow_lt; exact P|].
  replace ((/ INR N) ^ 2 * bigsum N (fun t => Rabs (u t)) ^ 2 * INR N ^ 2) with (bigsum N (fun t => Rabs (u t)) ^ 2) by (field; lra).
  replace (part_energy s N d / INR N * INR N ^ 2) with (INR N * part_energy s N d) by (field; lra). exact B2.
Qed.
Lemma cqtC_small : forall thr n wt fs L d f N, (1 <= N <= n)%nat ->
  Cmod (cqtC thr n wt fs L d f N) <= sqrt (part_energy (middle n N) N (padded L d) / INR N) + Rmax 0 thr * sqrt (bigsum (Nat.min L n) (fun t => d t ^ 2)).
Proof.
  intros thr n wt fs L d f N HN. pose proof (cqtC_brown thr n wt fs L d f N HN) as B. pose proof (brown_small wt fs f N (middle n N) (padded L d) ltac:(lia)) as S1. unfold middle in *.
  set (b := (brown_re wt fs f N ((n - N) / 2) (padded L d), brown_im wt fs f N ((n - N) / 2) (padded L d)) : C) in *.
  pose proof (Cmod_triangle (Cminus (cqtC thr n wt fs L d f N) b) b) as T. replace (Cplus (Cminus (cqtC thr n wt fs L d f N) b) b) with (cqtC thr n wt fs L d f N) in T by ring. lra.
Qed.
Lemma cqtC_diff : forall thr n wt fs L x y f N,
  Cminus (cqtC thr n wt fs L y f N) (cqtC thr n wt fs L x f N) = cqtC thr n wt fs L (fun t => y t - x t) f N.
Proof.
  intros. rewrite (cqtC_ext thr n wt fs L (fun t => y t - x t) (fun t => 1 * y t + -1 * x t)) by (intros; ring). rewrite cqtC_linear.
  unfold Cminus, Cplus, Cmult, Copp, RtoC. cbn [fst snd]. f_equal; ring.
Qed.
Lemma cqt_near : forall `{Env} a N L hop n O B, cqt_ready a N L hop n O B ->
  exists b P len, cqt_rows (q_f0 a) (q_rate a) O B (q_fs a) (q_low a) (or_half (q_high a) (q_fs a)) n b P len /\
  forall x x2, exists re im re2 im2, cqt_spectrogram (fvec N x) a = Ok (cmat P (frame_count N L hop) re im) /\
    cqt_spectrogram (fvec N x2) a = Ok (cmat P (frame_count N L hop) re2 im2) /\
  forall p i, (p < P)%nat -> let d := frame_of (q_sargs a) (q_coeff a) L hop (fun t => x2 t - x t) i in
    spec_abs (re2 p i - re p i) (im2 p i - im p i)
    <= sqrt (part_energy (middle n (len p)) (len p) (padded L d) / INR (len p)) + Rmax 0 (q_threshold a) * sqrt (part_energy 0 (Nat.min L n) d).
Proof.
  intros E a N L hop n O B Hr. destruct (spectrogram_ok a N L hop n O B Hr) as (b & P & len & HR & HE).
  exists b, P, len. split; [exact HR|]. intros x x2. rewrite !HE, !cmat_emb. do 4 eexists. split; [reflexivity|]. split; [reflexivity|].
  intros p i Hp d. cbv beta. unfold spec_abs.
  set (u := cqtC _ _ _ _ _ (frame_of (q_sargs a) (q_coeff a) L hop x2 i) _ _). set (v := cqtC _ _ _ _ _ (frame_of (q_sargs a) (q_coeff a) L hop x i) _ _).
  change (Cmod (Cminus u v) <= sqrt (part_energy (middle n (len p)) (len p) (padded L d) / INR (len p)) + Rmax 0 (q_threshold a) * sqrt (part_energy 0 (Nat.min L n) d)).
  unfold u, v. rewrite cqtC_diff. rewrite (cqtC_ext _ _ _ _ _ _ d) by (intros t; apply frame_minus).
  apply cqtC_small. apply (rows_len _ _ _ _ _ _ _ _ _ _ _ p HR Hp).
Qed.
(** samples outside of the middle *)
Lemma cqt_blind : forall `{Env} a N L hop n O B, cqt_ready a N L hop n O B -> q_threshold a <= 0 ->
  exists b P len, cqt_rows (q_f0 a) (q_rate a) O B (q_fs a) (q_low a) (or_half (q_high a) (q_fs a)) n b P len /\
  forall x x2, exists re im re2 im2, cqt_spectrogram (fvec N x) a = Ok (cmat P (frame_count N L hop) re im) /\
    cqt_spectrogram (fvec N x2) a = Ok (cmat P (frame_count N L hop) re2 im2) /\
  forall p i, (p < P)%nat ->
    (forall t, (middle n (len p) <= t < middle n (len p) + len p)%nat -> (t < L)%nat ->
       x2 (i * hop + t)%nat = x (i * hop + t)%nat /\ (q_pre_emph a = true -> x2 (i * hop + t - 1)%nat = x (i * hop + t - 1)%nat)) ->
    re2 p i = re p i /\ im2 p i = im p i.
Proof.
  intros E a N L hop n O B Hr Ht. destruct (cqt_near a N L hop n O B Hr) as (b & P & len & HR & HE).
  exists b, P, len. split; [exact HR|]. intros x x2. destruct (HE x x2) as (re & im & re2 & im2 & E1 & E2 & B0). exists re, im, re2, im2. split; [exact E1|]. split; [exact E2|].
  intros p i Hp Hx. specialize (B0 p i Hp). cbv zeta in B0. rewrite (Rmax_left 0 (q_threshold a)), Rmult_0_l, Rplus_0_r in B0 by exact Ht.
  assert (Z : part_energy (middle n (len p)) (len p) (padded L (frame_of (q_sargs a) (q_coeff a) L hop (fun t => x2 t - x t) i)) = 0).
  { apply bigsum_zero. intros t Hl. unfold padded. destruct (Nat.ltb_spec (middle n (len p) + t) L) as [K|K]; [|ring].
    destruct (Hx (middle n (len p) + t)%nat ltac:(lia) K) as [X1 X2]. unfold frame_of, spec_frame, spec_pre. cbn [q_sargs s_pre_emph].
    destruct (q_pre_emph a).
    - specialize (X2 eq_refl). destruct (i * hop + (middle n (len p) + t))%nat as [|r]; [rewrite X1; ring|]. replace (S r - 1)%nat with r in X2 by lia. rewrite X1, X2. ring.
    - rewrite X1. ring. }
  rewrite Z in B0. unfold Rdiv in B0. rewrite Rmult_0_l, sqrt_0 in B0. unfold spec_abs in B0.
  assert (S0 : (re2 p i - re p i) ^ 2 + (im2 p i - im p i) ^ 2 = 0).
  { pose proof (sqrt_pos ((re2 p i - re p i) ^ 2 + (im2 p i - im p i) ^ 2)). apply sqrt_eq_0; [|lra]. apply Rplus_le_le_0_compat; apply pow2_ge_0. }
  pose proof (pow2_ge_0 (re2 p i - re p i)) as A1. pose proof (pow2_ge_0 (im2 p i - im p i)) as A2.
  assert (A3 : (re2 p i - re p i) ^ 2 = 0) by lra. assert (A4 : (im2 p i - im p i) ^ 2 = 0) by lra.
  apply Rsqr_0_uniq in A3 || (rewrite <- Rsqr_pow2 in A3, A4; apply Rsqr_0_uniq in A3, A4). split; lra.
Qed.
(** a sample between the middles of two frames *)
Lemma cqt_missed : forall `{Env} a N L hop n O B, cqt_ready a N L hop n O B -> q_threshold a <= 0 -> q_pre_emph a = false ->
  exists b P len, cqt_rows (q_f0 a) (q_rate a) O B (q_fs a) (q_low a) (or_half (q_high a) (q_fs a)) n b P len /\
  forall x g j, let at_ p := (j * hop + middle n (len p) + len p)%nat in
  forall p, (p < P)%nat -> (len p < hop)%nat -> exists re im re2 im2,
    cqt_spectrogram (fvec N x) a = Ok (cmat P (frame_count N L hop) re im) /\
    cqt_spectrogram (fvec N (fun t => if Nat.eqb t (at_ p) then g else x t)) a = Ok (cmat P (frame_count N L hop) re2 im2) /\
    forall i, re2 p i = re p i /\ im2 p i = im p i.
Proof.
  intros E a N L hop n O B Hr Ht Hpre. destruct (cqt_blind a N L hop n O B Hr Ht) as (b & P & len & HR & HE).
  exists b, P, len. split; [exact HR|]. intros x g j at_ p Hp Hl. destruct (HE x (fun t => if Nat.eqb t (at_ p) then g else x t)) as (re & im & re2 & im2 & E1 & E2 & B0).
  exists re, im, re2, im2. split; [exact E1|]. split; [exact E2|]. intros i. apply B0; [exact Hp|]. intros t Hm _. split; [|congruence].
  cbv beta. destruct (Nat.eqb_spec (i * hop + t) (at_ p)) as [K|K]; [exfalso|reflexivity]. unfold at_ in K.
  destruct (Nat.lt_trichotomy i j) as [C|[C|C]]; [assert (S i * hop <= j * hop)%nat by (apply Nat.mul_le_mono_r; lia)|subst i|assert (S j * hop <= i * hop)%nat by (apply Nat.mul_le_mono_r; lia)]; lia.
Qed.
