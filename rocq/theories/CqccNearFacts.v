(** * Proofs for C192: resampling and cqcc of similar recordings *)
From Coq Require Import Reals ZArith List String Bool Lia Lra Psatz.
From Flocq Require Import Core.Raux.
From Verif Require Import Base BaseFacts SpecBase BigSum SpecMat MatFacts Preprocessing PreprocessingFacts Features SpecFeatures Extractors FeaturesFacts DctFacts FeaturesPhase SpecSpectral Cplx Cqt SpecCqt CqtFacts NoiseFacts SpecNoise SpecCqtSeen CqtSeenFacts SpecCqccNear.
Import ListNotations.
Local Open Scope R_scope.

Definition at_end (n d : nat) : bool := (Nat.eqb d 0 || Nat.eqb d n)%bool.
Lemma cos_sum_to : forall n d, (0 < n)%nat -> (d <= n)%nat ->
  bigsum n (fun t => cos (2 * PI * INR t * INR d / INR n)) = if at_end n d then INR n else 0.
Proof.
  intros n d Hn Hd. assert (HN : 0 < INR n) by (apply lt_0_INR; auto). unfold at_end. destruct (Nat.eqb_spec d n) as [->|Hne].
  - rewrite orb_true_r, <- (Rmult_1_r (INR n)) at 1. apply bigsum_const'. intros t _.
    replace (2 * PI * INR t * INR n / INR n) with (IZR (2 * Z.of_nat t) * PI) by (rewrite mult_IZR, <- INR_IZR_INZ; field; lra). apply cos_even_PI.
  - pose proof (cos_phase_sum n (Z.of_nat d) 0 Hn ltac:(lia)) as K. rewrite cos_0 in K.
    rewrite (bigsum_ext n _ (fun t => cos (0 + 2 * PI * INR t * IZR (Z.of_nat d) / INR n))) by (intros; rewrite <- INR_IZR_INZ; f_equal; ring).
    rewrite K. destruct (Nat.eqb_spec d 0) as [->|H0]; [cbn; ring|]. destruct (Z.eqb_spec (Z.of_nat d) 0); [lia|]. reflexivity.
Qed.
Lemma sin_sum_nat : forall n d, (0 < n)%nat -> bigsum n (fun t => sin (2 * PI * INR t * INR d / INR n)) = 0.
Proof. intros n d Hn. rewrite <- (sin_sum n (Z.of_nat d) Hn). apply bigsum_ext. intros t _. rewrite <- INR_IZR_INZ. reflexivity. Qed.
Lemma pair_product : forall a b a' b' p q, (a * cos p + b * sin p) * (a' * cos q + b' * sin q)
  = (a * a' + b * b') / 2 * cos (p - q) + (b * a' - a * b') / 2 * sin (p - q) + (a * a' - b * b') / 2 * cos (p + q) + (b * a' + a * b') / 2 * sin (p + q).
Proof. intros. rewrite cos_minus, cos_plus, sin_minus, sin_plus. field. Qed.
(** one harmonic of k and one of l periods *)
Lemma pair_sum : forall n k l a b a' b', (0 < n)%nat -> (2 * k <= n)%nat -> (2 * l <= n)%nat ->
  bigsum n (fun t => (a * cos (2 * PI * INR t * INR k / INR n) + b * sin (2 * PI * INR t * INR k / INR n)) * (a' * cos (2 * PI * INR t * INR l / INR n) + b' * sin (2 * PI * INR t * INR l / INR n)))
  = if Nat.eqb l k then INR n / 2 * (a * a' + b * b' + (if at_end n (2 * k) then a * a' - b * b' else 0)) else 0.
Proof.
  intros n k l a b a' b' Hn Hk Hl. assert (HN : 0 < INR n) by (apply lt_0_INR; auto).
  assert (G : forall e, (e <= n)%nat -> (forall t, cos (2 * PI * INR t * INR k / INR n - 2 * PI * INR t * INR l / INR n) = cos (2 * PI * INR t * INR e / INR n)) ->
     (bigsum n (fun t => sin (2 * PI * INR t * INR k / INR n - 2 * PI * INR t * INR l / INR n)) = 0) ->
     bigsum n (fun t => (a * cos (2 * PI * INR t * INR k / INR n) + b * sin (2 * PI * INR t * INR k / INR n)) * (a' * cos (2 * PI * INR t * INR l / INR n) + b' * sin (2 * PI * INR t * INR l / INR n)))
     = (a * a' + b * b') / 2 * (if at_end n e then INR n else 0) + (a * a' - b * b') / 2 * (if at_end n (k + l) then INR n else 0)).
  { intros e He Hc Hs. rewrite (bigsum_ext n _ (fun t => (a * a' + b * b') / 2 * cos (2 * PI * INR t * INR e / INR n) + (b * a' - a * b') / 2 * sin (2 * PI * INR t * INR k / INR n - 2 * PI * INR t * INR l / INR n)
       + (a * a' - b * b') / 2 * cos (2 * PI * INR t * INR (k + l) / INR n) + (b * a' + a * b') / 2 * sin (2 * PI * INR t * INR (k + l) / INR n))).
    - rewrite !bigsum_plus, !bigsum_scal, Hs, !cos_sum_to, sin_sum_nat by lia. ring.
    - intros t _. rewrite pair_product, Hc. replace (2 * PI * INR t * INR k / INR n + 2 * PI * INR t * INR l / INR n) with (2 * PI * INR t * INR (k + l) / INR n) by (rewrite plus_INR; field; lra). reflexivity. }
  destruct (le_lt_dec l k) as [Hlk|Hlk].
  - rewrite (G (k - l)%nat); [|lia| |].
    + destruct (Nat.eqb_spec l k) as [->|Hne]; unfold at_end.
      * rewrite Nat.sub_diag. cbn [Nat.eqb orb]. replace (2 * k)%nat with (k + k)%nat by lia. destruct (_ || _)%bool; field.
      * destruct (Nat.eqb_spec (k - l) 0); [lia|]. destruct (Nat.eqb_spec (k - l) n); [lia|]. destruct (Nat.eqb_spec (k + l) 0); [lia|]. destruct (Nat.eqb_spec (k + l) n); [lia|]. cbn [orb]. ring.
    + intros t. f_equal. rewrite minus_INR by auto. field. lra.
    + rewrite <- (sin_sum_nat n (k - l) Hn). apply bigsum_ext. intros t _. f_equal. rewrite minus_INR by auto. field. lra.
  - rewrite (G (l - k)%nat); [|lia| |].
    + destruct (Nat.eqb_spec l k); [lia|]. unfold at_end.
      destruct (Nat.eqb_spec (l - k) 0); [lia|]. destruct (Nat.eqb_spec (l - k) n); [lia|]. destruct (Nat.eqb_spec (k + l) 0); [lia|]. destruct (Nat.eqb_spec (k + l) n); [lia|]. cbn [orb]. ring.
    + intros t. rewrite <- cos_neg. f_equal. rewrite minus_INR by lia. field. lra.
    + rewrite <- (Ropp_0), <- (sin_sum_nat n (l - k) Hn), <- bigsum_opp. apply bigsum_ext. intros t _. rewrite <- sin_neg. f_equal. rewrite minus_INR by lia. field. lra.
Qed.

Section Resample.
Variables (m num : nat) (x : nat -> R).
Hypothesis Hm : (0 < m)%nat.
Hypothesis Hn : (1 <= num)%nat.
Let h := S (Nat.min num m / 2).
Let A (k : nat) : R := bigsum m (fun s => x s * cos (2 * PI * INR (s * k) / INR m)).
Let B (k : nat) : R := bigsum m (fun s => x s * sin (2 * PI * INR (s * k) / INR m)).
Lemma resampled_bins : forall t, bigsum m (fun s => x s * resample_weight m num t s)
  = bigsum h (fun k => resample_bin m num k / INR m * A k * cos (2 * PI * INR t * INR k / INR num) + resample_bin m num k / INR m * B k * sin (2 * PI * INR t * INR k / INR num)).
Proof.
  intros t. assert (HX : 0 < INR m) by (apply lt_0_INR; auto). assert (HM : 0 < INR num) by (apply lt_0_INR; lia).
  rewrite (bigsum_ext m _ (fun s => bigsum h (fun k => resample_bin m num k / INR m * (x s * cos (2 * PI * INR (s * k) / INR m)) * cos (2 * PI * INR t * INR k / INR num)
      + resample_bin m num k / INR m * (x s * sin (2 * PI * INR (s * k) / INR m)) * sin (2 * PI * INR t * INR k / INR num)))).
  - rewrite bigsum_swap. apply bigsum_ext. intros k _. rewrite bigsum_plus. unfold A, B. rewrite !bigsum_scal_r, !bigsum_scal. reflexivity.
  - intros s _. rewrite rweight_bigsum. fold h. rewrite <- !bigsum_scal. apply bigsum_ext. intros k _.
    replace (2 * PI * INR k * (INR t / INR num - INR s / INR m)) with (2 * PI * INR t * INR k / INR num - 2 * PI * INR (s * k) / INR m) by (rewrite mult_INR; field; lra).
    rewrite cos_minus. field. lra.
Qed.
Let W (k : nat) : R := A k ^ 2 + B k ^ 2.
Lemma resampled_energy : bigsum num (fun t => bigsum m (fun s => x s * resample_weight m num t s) ^ 2)
  <= bigsum h (fun k => INR num * (resample_bin m num k / INR m) ^ 2 * (if at_end num (2 * k) then 1 else / 2) * W k).
Proof.
  assert (HX : 0 < INR m) by (apply lt_0_INR; auto). assert (HM : 0 < INR num) by (apply lt_0_INR; lia).
  set (g := fun k => resample_bin m num k / INR m).
  rewrite (bigsum_ext num _ (fun t => bigsum h (fun k => bigsum h (fun l =>
     (g k * A k * cos (2 * PI * INR t * INR k / INR num) + g k * B k * sin (2 * PI * INR t * INR k / INR num)) * (g l * A l * cos (2 * PI * INR t * INR l / INR num) + g l * B l * sin (2 * PI * INR t * INR l / INR num)))))).
  2:{ intros t _. rewrite resampled_bins. fold g. rewrite <- Rsqr_pow2. unfold Rsqr. apply bigsum_mult. }
  rewrite bigsum_swap. apply bigsum_le. intros k Hk. destruct (half_min num m k ltac:(lia) Hm Hk) as [Hk1 Hk2]. rewrite bigsum_swap.
  rewrite (bigsum_ext h _ (fun l => if Nat.eqb l k then INR num / 2 * (g k * A k * (g l * A l) + g k * B k * (g l * B l) + (if at_end num (2 * k) then g k * A k * (g l * A l) - g k * B k * (g l * B l) else 0)) else 0)).
  2:{ intros l Hl. destruct (half_min num m l ltac:(lia) Hm Hl) as [Hl1 Hl2]. apply pair_sum; auto; lia. }
  rewrite (bigsum_delta h k (fun l => INR num / 2 * (g k * A k * (g l * A l) + g k * B k * (g l * B l) + (if at_end num (2 * k) then g k * A k * (g l * A l) - g k * B k * (g l * B l) else 0)))) by exact Hk.
  unfold W. fold (g k). pose proof (pow2_ge_0 (g k * B k)). assert (0 <= INR num * (g k * B k) ^ 2) by (apply Rmult_le_pos; lra). destruct (at_end num (2 * k)); [nra|right; field].
Qed.
Lemma half_energy : bigsum (S (m / 2)) (fun k => bin_weight m k * W k) = INR m * bigsum m (fun s => x s ^ 2).
Proof.
  rewrite <- (parseval_half m m x Hm (le_n m)). apply bigsum_ext. intros k _. f_equal. unfold spec_mag. rewrite <- Rsqr_pow2, Rsqr_sqrt by apply spec_sq_nonneg.
  unfold spec_sq, spec_re, spec_im, W, A, B. rewrite Nat.min_id. f_equal. rewrite <- (Rsqr_pow2 (bigsum m (fun t => x t * - sin (2 * PI * INR (t * k) / INR m)))), Rsqr_neg, <- bigsum_opp, Rsqr_pow2. f_equal. apply bigsum_ext. intros. ring.
Qed.
Lemma bins_le : forall K, 0 <= K -> (forall k, (k < h)%nat -> resample_bin m num k ^ 2 * (if at_end num (2 * k) then 1 else / 2) <= K * bin_weight m k) ->
  bigsum num (fun t => bigsum m (fun s => x s * resample_weight m num t s) ^ 2) <= K * (INR num / INR m) * bigsum m (fun s => x s ^ 2).
Proof.
  intros K HK Hb. assert (HX : 0 < INR m) by (apply lt_0_INR; auto). assert (HM : 0 < INR num) by (apply lt_0_INR; lia). eapply Rle_trans; [apply resampled_energy|].
  assert (W0 : forall k, 0 <= W k) by (intros; unfold W; pose proof (pow2_ge_0 (A k)); pose proof (pow2_ge_0 (B k)); lra).
  assert (C : 0 < INR num / INR m ^ 2) by (apply Rmult_lt_0_compat; [exact HM|apply Rinv_0_lt_compat, pow_lt, HX]).
  replace (K * (INR num / INR m) * bigsum m (fun s => x s ^ 2)) with (INR num / INR m ^ 2 * (K * (INR m * bigsum m (fun s => x s ^ 2)))) by (field; lra). rewrite <- half_energy.
  apply Rle_trans with (INR num / INR m ^ 2 * (K * bigsum h (fun k => bin_weight m k * W k))).
  - rewrite <- !bigsum_scal. apply bigsum_le. intros k Hk.
    replace (INR num * (resample_bin m num k / INR m) ^ 2 * (if at_end num (2 * k) then 1 else / 2) * W k) with (INR num / INR m ^ 2 * (resample_bin m num k ^ 2 * (if at_end num (2 * k) then 1 else / 2) * W k)) by (field; lra).
    apply Rmult_le_compat_l; [lra|]. rewrite <- Rmult_assoc. apply Rmult_le_compat_r; [apply W0|apply Hb, Hk].
  - apply Rmult_le_compat_l; [lra|]. apply Rmult_le_compat_l; [exact HK|].
    assert (L : (h <= S (m / 2))%nat) by (unfold h; apply le_n_S, Nat.div_le_mono; lia). replace (S (m / 2)) with (h + (S (m / 2) - h))%nat by lia. rewrite bigsum_split.
    assert (0 <= bigsum (S (m / 2) - h) (fun i => bin_weight m (h + i) * W (h + i))); [|lra]. apply bigsum_nonneg. intros i _. apply Rmult_le_pos; [|apply W0]. unfold bin_weight. destruct (_ || _)%bool; lra.
Qed.
Lemma resample_norm : bigsum num (fun t => bigsum m (fun s => x s * resample_weight m num t s) ^ 2) <= 2 * (INR num / INR m) * bigsum m (fun s => x s ^ 2).
Proof.
  apply bins_le; [lra|]. intros k Hk. destruct (half_min num m k ltac:(lia) Hm Hk) as [K1 K2]. unfold resample_bin, at_end, bin_weight.
  destruct (Nat.eqb_spec k 0) as [->|Hk0]; [cbn [Nat.mul Nat.add Nat.eqb orb]; lra|]. destruct (Nat.eqb_spec (2 * k) 0); [lia|]. cbn [orb].
  destruct (Nat.eqb_spec (2 * k) (Nat.min num m)); destruct (Nat.ltb_spec num m); destruct (Nat.eqb_spec (2 * k) num); destruct (Nat.eqb_spec (2 * k) m); try lia; lra.
Qed.
Lemma resample_norm_one : (m <= num)%nat \/ Nat.odd num = true -> bigsum num (fun t => bigsum m (fun s => x s * resample_weight m num t s) ^ 2) <= INR num / INR m * bigsum m (fun s => x s ^ 2).
Proof.
  intros Hc. rewrite <- (Rmult_1_l (INR num / INR m)). apply bins_le; [lra|]. intros k Hk. destruct (half_min num m k ltac:(lia) Hm Hk) as [K1 K2]. unfold resample_bin, at_end, bin_weight.
  assert (Ho : (num < m)%nat -> (2 * k)%nat <> num). { intros Hlt E. destruct Hc as [Hc|Hc]; [lia|]. rewrite <- E in Hc. rewrite Nat.odd_mul in Hc. discriminate. }
  destruct (Nat.eqb_spec k 0) as [->|Hk0]; [cbn [Nat.mul Nat.add Nat.eqb orb]; lra|]. destruct (Nat.eqb_spec (2 * k) 0); [lia|]. cbn [orb].
  destruct (Nat.eqb_spec (2 * k) (Nat.min num m)); destruct (Nat.ltb_spec num m); destruct (Nat.eqb_spec (2 * k) num); destruct (Nat.eqb_spec (2 * k) m); try lia; lra.
Qed.
End Resample.
(** ** cqcc *)
Lemma resample_energy : forall m P y num, (0 < m)%nat -> (1 <= num)%nat -> exists z, resample (fmat m P y) (Z.of_nat num) = Ok (fmat num P z) /\
  forall j, bigsum num (fun t => z t j ^ 2) <= 2 * (INR num / INR m) * bigsum m (fun s => y s j ^ 2) /\
    ((m <= num)%nat \/ Nat.odd num = true -> bigsum num (fun t => z t j ^ 2) <= INR num / INR m * bigsum m (fun s => y s j ^ 2)).
Proof.
  intros m P y num Hm Hn. rewrite resample_fmat by auto. eexists. split; [reflexivity|]. intros j. cbv beta. split; [apply (resample_norm m num (fun s => y s j)); auto|apply (resample_norm_one m num (fun s => y s j)); auto].
Qed.
Lemma dct_part : forall type P K y, (1 <= type <= 4)%Z -> (type = 1%Z -> (2 <= P)%nat) -> (K <= P)%nat -> bigsum K (fun k => spec_dct type P y k ^ 2) <= bigsum P (fun p => y p ^ 2).
Proof.
  intros type P K y Ht H1 HK. rewrite (bigsum_ext P (fun p => y p ^ 2) (fun p => y p * y p)) by (intros; ring). rewrite <- (dct_inner type P y y Ht H1).
  rewrite <- (bigsum_ext P (fun k => spec_dct type P y k ^ 2)) by (intros; ring). pose proof (bigsum_split K (P - K) (fun k => spec_dct type P y k ^ 2)) as S2. replace (K + (P - K))%nat with P in S2 by lia. rewrite S2.
  assert (0 <= bigsum (P - K) (fun i => spec_dct type P y (K + i) ^ 2)) by (apply bigsum_nonneg; intros; apply pow2_ge_0). lra.
Qed.
Lemma cqcc_near : forall `{Env} sig sig2 a ratio c P m re im re2 im2 num, cqt_spectrogram sig a = Ok (cmat P m re im) -> cqt_spectrogram sig2 a = Ok (cmat P m re2 im2) ->
  (0 < P)%nat -> (0 < m)%nat -> Ztrunc (rnd (INR m * ratio)) = Z.of_nat num -> (1 <= num)%nat ->
  (1 <= c_dct_type c <= 4)%Z -> (c_dct_type c = 1%Z -> (2 <= P)%nat) -> (0 <= c_num_ceps c)%Z -> no_lifter c -> no_normalisation c ->
  let K := Nat.min (Z.to_nat (c_num_ceps c)) P in
  exists y y2, cqcc sig a ratio c = Ok (fmat num K y) /\ cqcc sig2 a ratio c = Ok (fmat num K y2) /\
    bigsum num (fun t => bigsum K (fun k => (y2 t k - y t k) ^ 2))
    <= 2 * (INR num / INR m) * bigsum m (fun i => bigsum P (fun p => (spec_log (re2 p i ^ 2 + im2 p i ^ 2) - spec_log (re p i ^ 2 + im p i ^ 2)) ^ 2)).
Proof.
  intros E sig sig2 a ratio c P m re im re2 im2 num Hq Hq2 HP Hm Hr Hn Ht Ht1 Hc Hl Hnm K. do 2 eexists.
  split; [apply (cqcc_of_cqt _ a ratio c P m re im num Hq); auto|]. split; [apply (cqcc_of_cqt _ a ratio c P m re2 im2 num Hq2); auto|]. fold K. cbv beta.
  set (d := fun s p => cqt_logs re2 im2 s p - cqt_logs re im s p).
  apply Rle_trans with (bigsum num (fun t => bigsum P (fun p => bigsum m (fun s => d s p * resample_weight m num t s) ^ 2))).
  - apply bigsum_le. intros t _. eapply Rle_trans; [|apply (dct_part (c_dct_type c) P K); auto; unfold K; lia]. right. apply bigsum_ext. intros k _. f_equal.
    transitivity (1 * spec_dct (c_dct_type c) P (fun p => bigsum m (fun s => cqt_logs re2 im2 s p * resample_weight m num t s)) k
      + -1 * spec_dct (c_dct_type c) P (fun p => bigsum m (fun s => cqt_logs re im s p * resample_weight m num t s)) k); [ring|].
    rewrite <- spec_dct_linear. apply spec_dct_ext. intros p _. rewrite <- !bigsum_scal, <- bigsum_plus. apply bigsum_ext. intros s _. unfold d. ring.
  - rewrite bigsum_swap, (bigsum_swap m P), <- bigsum_scal. apply bigsum_le. intros p _. exact (resample_norm m num (fun s => d s p) Hm Hn).
Qed.
(** ** logs of two complex numbers *)
Lemma spec_abs_triangle : forall a b c d, spec_abs (a + c) (b + d) <= spec_abs a b + spec_abs c d.
Proof.
  intros a b c d. unfold spec_abs. set (u := a ^ 2 + b ^ 2). set (v := c ^ 2 + d ^ 2).
  assert (U : 0 <= u) by (unfold u; pose proof (pow2_ge_0 a); pose proof (pow2_ge_0 b); lra). assert (V : 0 <= v) by (unfold v; pose proof (pow2_ge_0 c); pose proof (pow2_ge_0 d); lra).
  assert (C : a * c + b * d <= sqrt u * sqrt v).
  { rewrite <- sqrt_mult by auto. destruct (Rle_lt_dec (a * c + b * d) 0) as [H|H]; [pose proof (sqrt_pos (u * v)); lra|]. rewrite <- (sqrt_pow2 (a * c + b * d)) by lra. apply sqrt_le_1_alt.
    unfold u, v. pose proof (pow2_ge_0 (a * d - b * c)). nra. }
  pose proof (sqrt_pos u). pose proof (sqrt_pos v). rewrite <- (sqrt_pow2 (sqrt u + sqrt v)) by lra. apply sqrt_le_1_alt.
  assert (sqrt u ^ 2 = u) by (rewrite <- Rsqr_pow2; apply Rsqr_sqrt; auto). assert (sqrt v ^ 2 = v) by (rewrite <- Rsqr_pow2; apply Rsqr_sqrt; auto).
  unfold u, v in *. nra.
Qed.
Lemma log_near : forall a b c d th, 0 <= th < 1 -> 0 < spec_abs a b -> spec_abs (c - a) (d - b) <= th * spec_abs a b ->
  Rabs (spec_log (c ^ 2 + d ^ 2) - spec_log (a ^ 2 + b ^ 2)) <= - (2 * ln (1 - th)).
Proof.
  intros a b c d th Ht Hz Hd.
  pose proof (spec_abs_triangle a b (c - a) (d - b)) as T1. replace (a + (c - a)) with c in T1 by ring. replace (b + (d - b)) with d in T1 by ring.
  pose proof (spec_abs_triangle c d (a - c) (b - d)) as T2. replace (c + (a - c)) with a in T2 by ring. replace (d + (b - d)) with b in T2 by ring.
  replace (spec_abs (a - c) (b - d)) with (spec_abs (c - a) (d - b)) in T2 by (unfold spec_abs; f_equal; ring).
  assert (SQ : forall p q, p ^ 2 + q ^ 2 = spec_abs p q ^ 2). { intros p q. unfold spec_abs. rewrite <- (Rsqr_pow2 (sqrt _)), Rsqr_sqrt; [reflexivity|pose proof (pow2_ge_0 p); pose proof (pow2_ge_0 q); lra]. }
  rewrite !SQ. set (u := spec_abs a b) in *. set (v := spec_abs c d) in *. assert (Lo : (1 - th) * u <= v) by lra. assert (Hi : v <= (1 + th) * u) by lra.
  assert (P : 0 < (1 - th) * u) by (apply Rmult_lt_0_compat; lra). assert (V : 0 < v) by lra.
  assert (Lg : forall w, 0 < w -> spec_log (w ^ 2) = 2 * ln w).
  { intros w Hw. unfold spec_log. pose proof (pow_lt w 2 Hw). destruct (Req_EM_T (w ^ 2) 0); [lra|]. rewrite ln_pow by auto. simpl. lra. }
  rewrite !Lg by auto. assert (L1 : ln ((1 - th) * u) <= ln v) by (destruct Lo as [Lo|<-]; [left; apply ln_increasing; auto|right; auto]). rewrite ln_mult in L1 by lra.
  assert (H2 : v * (1 - th) <= u). { apply Rle_trans with ((1 + th) * u * (1 - th)); [apply Rmult_le_compat_r; lra|]. assert (0 <= u * th ^ 2) by (apply Rmult_le_pos; [lra|apply pow2_ge_0]). nra. }
  assert (P2 : 0 < v * (1 - th)) by (apply Rmult_lt_0_compat; lra).
  assert (L2 : ln (v * (1 - th)) <= ln u) by (destruct H2 as [H2|<-]; [left; apply ln_increasing; auto|right; auto]). rewrite ln_mult in L2 by lra.
  apply Rabs_le. lra.
Qed.
Lemma cqcc_close : forall `{Env} sig sig2 a ratio c P m re im re2 im2 num th, cqt_spectrogram sig a = Ok (cmat P m re im) -> cqt_spectrogram sig2 a = Ok (cmat P m re2 im2) ->
  (0 < P)%nat -> (0 < m)%nat -> Ztrunc (rnd (INR m * ratio)) = Z.of_nat num -> (1 <= num)%nat ->
  (1 <= c_dct_type c <= 4)%Z -> (c_dct_type c = 1%Z -> (2 <= P)%nat) -> (0 <= c_num_ceps c)%Z -> no_lifter c -> no_normalisation c ->
  0 <= th < 1 -> (forall p i, (p < P)%nat -> (i < m)%nat -> 0 < spec_abs (re p i) (im p i) /\ spec_abs (re2 p i - re p i) (im2 p i - im p i) <= th * spec_abs (re p i) (im p i)) ->
  let K := Nat.min (Z.to_nat (c_num_ceps c)) P in
  exists y y2, cqcc sig a ratio c = Ok (fmat num K y) /\ cqcc sig2 a ratio c = Ok (fmat num K y2) /\
    bigsum num (fun t => bigsum K (fun k => (y2 t k - y t k) ^ 2)) <= INR num * INR P * (8 * ln (1 - th) ^ 2).
Proof.
  intros E sig sig2 a ratio c P m re im re2 im2 num th Hq Hq2 HP Hm Hr Hn Ht Ht1 Hc Hl Hnm Hth Hz K.
  destruct (cqcc_near sig sig2 a ratio c P m re im re2 im2 num Hq Hq2 HP Hm Hr Hn Ht Ht1 Hc Hl Hnm) as (y & y2 & E1 & E2 & D). exists y, y2. split; [exact E1|]. split; [exact E2|].
  eapply Rle_trans; [exact D|]. assert (HX : 0 < INR m) by (apply lt_0_INR; auto). assert (HM : 0 < INR num) by (apply lt_0_INR; lia).
  replace (INR num * INR P * (8 * ln (1 - th) ^ 2)) with (2 * (INR num / INR m) * (INR m * (INR P * (4 * ln (1 - th) ^ 2)))) by (field; lra).
  apply Rmult_le_compat_l; [apply Rmult_le_pos; [lra|left; apply Rdiv_lt_0_compat; auto]|].
  rewrite <- (bigsum_const m). apply bigsum_le. intros i Hi.
  rewrite <- (bigsum_const P). apply bigsum_le. intros p Hp. destruct (Hz p i Hp Hi) as [Z1 Z2].
  pose proof (log_near _ _ _ _ th Hth Z1 Z2) as W. rewrite <- pow2_abs. replace (4 * ln (1 - th) ^ 2) with ((- (2 * ln (1 - th))) ^ 2) by ring. apply pow_incr. split; [apply Rabs_pos|exact W].
Qed.
Lemma part_energy_le : forall s n d q, 0 <= q -> (forall t, (t < n)%nat -> Rabs (d (s + t)%nat) <= q) -> part_energy s n d <= INR n * q ^ 2.
Proof.
  intros s n d q Hq Hd. unfold part_energy. rewrite <- (bigsum_const n). apply bigsum_le. intros t Ht. rewrite <- pow2_abs. apply pow_incr. split; [apply Rabs_pos|auto].
Qed.
Lemma cqt_apart : forall `{Env} a N L hop n O B, cqt_ready a N L hop n O B ->
  exists b P len, cqt_rows (q_f0 a) (q_rate a) O B (q_fs a) (q_low a) (or_half (q_high a) (q_fs a)) n b P len /\
  forall x x2 d, 0 <= d -> apart N d x x2 -> exists re im re2 im2, cqt_spectrogram (fvec N x) a = Ok (cmat P (frame_count N L hop) re im) /\
    cqt_spectrogram (fvec N x2) a = Ok (cmat P (frame_count N L hop) re2 im2) /\
  forall p i, (p < P)%nat -> (i < frame_count N L hop)%nat -> spec_abs (re2 p i - re p i) (im2 p i - im p i) <= cqt_reach (q_pre_emph a) (q_coeff a) (q_threshold a) L n d.
Proof.
  intros E a N L hop n O B Hr. destruct (cqt_near a N L hop n O B Hr) as (b & P & len & HR & HE). exists b, P, len. split; [exact HR|]. intros x x2 d Hd Hx.
  destruct (HE x x2) as (re & im & re2 & im2 & E1 & E2 & D). exists re, im, re2, im2. split; [exact E1|]. split; [exact E2|]. intros p i Hp Hi. specialize (D p i Hp). cbv zeta in D. eapply Rle_trans; [exact D|].
  set (q := (if q_pre_emph a then 1 + Rabs (q_coeff a) else 1) * d). set (z := frame_of (q_sargs a) (q_coeff a) L hop (fun t => x2 t - x t) i).
  assert (Q : 0 <= q). { unfold q. apply Rmult_le_pos; [|exact Hd]. pose proof (Rabs_pos (q_coeff a)). destruct (q_pre_emph a); lra. }
  assert (Hw : well_framed (q_sargs a) N L hop) by apply Hr.
  assert (Z : forall t, (t < L)%nat -> Rabs (z t) <= q). { intros t Ht'. apply (frame_small (q_sargs a) (q_coeff a) N L hop (fun t => x2 t - x t) i t d Hd); auto. apply (frame_in N L hop); auto; unfold well_framed in Hw; lia. }
  assert (HL : 0 < INR (len p)). { apply lt_0_INR. destruct HR as (_ & _ & _ & HU). destruct (HU p Hp). lia. }
  unfold cqt_reach. fold q. rewrite Rmult_plus_distr_l, Rmult_1_r. apply Rplus_le_compat.
  - rewrite <- (sqrt_pow2 q Q). apply sqrt_le_1_alt. apply Rmult_le_reg_r with (INR (len p)); [exact HL|]. unfold Rdiv. rewrite Rmult_assoc, Rinv_l, Rmult_1_r, (Rmult_comm (q ^ 2)) by lra.
    apply part_energy_le; [exact Q|]. intros t _. unfold padded. destruct (Nat.ltb_spec (middle n (len p) + t) L); [apply Z; auto|rewrite Rabs_R0; exact Q].
  - rewrite (Rmult_comm q), Rmult_assoc. apply Rmult_le_compat_l; [apply Rmax_l|]. rewrite <- (sqrt_pow2 q Q). rewrite <- sqrt_mult by (try apply pos_INR; apply pow2_ge_0). apply sqrt_le_1_alt.
    apply part_energy_le; [exact Q|]. intros t Ht'. apply Z. lia.
Qed.
Lemma cmat_inj : forall P m re im P' re' im', (0 < m)%nat -> cmat P m re im = cmat P' m re' im' -> P = P' /\ forall p i, (p < P)%nat -> (i < m)%nat -> re p i = re' p i /\ im p i = im' p i.
Proof.
  intros P m re im P' re' im' Hm E. assert (P' = P). { apply (f_equal (@List.length _)) in E. unfold cmat in E. rewrite !map_length, !seq_length in E. auto. }
  subst P'. split; [auto|]. intros p i Hp Hi. apply (f_equal (fun M => nth i (nth p M []) czero)) in E. unfold cmat, cvec in E.
  rewrite !(nth_map_seq _ _ P) in E by auto. rewrite !nth_map_seq in E by auto. injection E as -> ->. auto.
Qed.
Lemma cqcc_recordings : forall `{Env} a N L hop n O B x x2 d ratio c P re im num th, cqt_ready a N L hop n O B -> 0 <= d -> apart N d x x2 ->
  cqt_spectrogram (fvec N x) a = Ok (cmat P (frame_count N L hop) re im) ->
  Ztrunc (rnd (INR (frame_count N L hop) * ratio)) = Z.of_nat num -> (1 <= num)%nat ->
  (1 <= c_dct_type c <= 4)%Z -> (c_dct_type c = 1%Z -> (2 <= P)%nat) -> (0 <= c_num_ceps c)%Z -> no_lifter c -> no_normalisation c ->
  0 <= th < 1 -> (forall p i, (p < P)%nat -> (i < frame_count N L hop)%nat -> 0 < spec_abs (re p i) (im p i) /\ cqt_reach (q_pre_emph a) (q_coeff a) (q_threshold a) L n d <= th * spec_abs (re p i) (im p i)) ->
  let K := Nat.min (Z.to_nat (c_num_ceps c)) P in
  exists y y2, cqcc (fvec N x) a ratio c = Ok (fmat num K y) /\ cqcc (fvec N x2) a ratio c = Ok (fmat num K y2) /\
    bigsum num (fun t => bigsum K (fun k => (y2 t k - y t k) ^ 2)) <= INR num * INR P * (8 * ln (1 - th) ^ 2).
Proof.
  intros E a N L hop n O B x x2 d ratio c P re im num th Hr Hd Hx Hq Hnum Hn Ht Ht1 Hc Hl Hnm Hth Hz K. pose proof (frame_count_pos N L hop) as Hm.
  destruct (cqt_apart a N L hop n O B Hr) as (b & P' & len & HR & HE). destruct (HE x x2 d Hd Hx) as (re' & im' & re2 & im2 & E1 & E2 & D). rewrite Hq in E1. apply Ok_inj in E1.
  destruct (cmat_inj _ _ _ _ _ _ _ Hm E1) as [<- EE]. 
  apply (cqcc_close (fvec N x) (fvec N x2) a ratio c P (frame_count N L hop) re im re2 im2 num th); auto; [apply HR|]. intros p i Hp Hi. destruct (Hz p i Hp Hi) as [Z1 Z2]. split; [exact Z1|].
  destruct (EE p i Hp Hi) as [Er Ei]. specialize (D p i Hp Hi). rewrite <- Er, <- Ei in D. lra.
Qed.

(** ** continuity *)
Lemma least_positive : forall n (f : nat -> R), (forall i, (i < n)%nat -> 0 < f i) -> exists r, 0 < r /\ forall i, (i < n)%nat -> r <= f i.
Proof.
  induction n; intros f Hf; [exists 1; split; [lra|intros; lia]|]. destruct (IHn f ltac:(intros; apply Hf; lia)) as (r & Hr & B). pose proof (Hf n ltac:(lia)) as Hn.
  exists (Rmin r (f n)). split; [apply Rmin_glb_lt; auto|]. intros i Hi. destruct (Nat.eq_dec i n) as [->|Hne]; [apply Rmin_r|]. eapply Rle_trans; [apply Rmin_l|apply B; lia].
Qed.
Lemma least_entry : forall P m (f : nat -> nat -> R), (forall p i, (p < P)%nat -> (i < m)%nat -> 0 < f p i) -> exists r, 0 < r /\ forall p i, (p < P)%nat -> (i < m)%nat -> r <= f p i.
Proof.
  induction P; intros m f Hf; [exists 1; split; [lra|intros; lia]|]. destruct (IHP m f ltac:(intros; apply Hf; lia)) as (r & Hr & B).
  destruct (least_positive m (f P) ltac:(intros; apply Hf; lia)) as (r2 & Hr2 & B2). exists (Rmin r r2). split; [apply Rmin_glb_lt; auto|]. intros p i Hp Hi.
  destruct (Nat.eq_dec p P) as [->|Hne]; [eapply Rle_trans; [apply Rmin_r|auto]|]. eapply Rle_trans; [apply Rmin_l|apply B; lia].
Qed.
Lemma abs_pos : forall a b, a <> 0 \/ b <> 0 -> 0 < spec_abs a b.
Proof.
  intros a b Hz. unfold spec_abs. apply sqrt_lt_R0. destruct Hz as [Hz|Hz]; apply Rsqr_pos_lt in Hz; rewrite Rsqr_pow2 in Hz; [pose proof (pow2_ge_0 b)|pose proof (pow2_ge_0 a)]; lra.
Qed.
Lemma bigsum_one : forall n f i, (forall j, (j < n)%nat -> 0 <= f j) -> (i < n)%nat -> f i <= bigsum n f.
Proof.
  induction n; intros f i Hf Hi; [lia|]. cbn [bigsum]. pose proof (bigsum_nonneg n f ltac:(intros; apply Hf; lia)). pose proof (Hf n ltac:(lia)).
  destruct (Nat.eq_dec i n) as [->|Hne]; [lra|]. pose proof (IHn f i ltac:(intros; apply Hf; lia) ltac:(lia)). lra.
Qed.
Lemma cqcc_continuous : forall `{Env} a N L hop n O B x ratio c P re im num eps, cqt_ready a N L hop n O B ->
  cqt_spectrogram (fvec N x) a = Ok (cmat P (frame_count N L hop) re im) ->
  (forall p i, (p < P)%nat -> (i < frame_count N L hop)%nat -> re p i <> 0 \/ im p i <> 0) ->
  Ztrunc (rnd (INR (frame_count N L hop) * ratio)) = Z.of_nat num -> (1 <= num)%nat ->
  (1 <= c_dct_type c <= 4)%Z -> (c_dct_type c = 1%Z -> (2 <= P)%nat) -> (0 <= c_num_ceps c)%Z -> no_lifter c -> no_normalisation c -> 0 < eps ->
  let K := Nat.min (Z.to_nat (c_num_ceps c)) P in
  exists d y, 0 < d /\ cqcc (fvec N x) a ratio c = Ok (fmat num K y) /\
    forall x2, apart N d x x2 -> exists y2, cqcc (fvec N x2) a ratio c = Ok (fmat num K y2) /\ forall t k, (t < num)%nat -> (k < K)%nat -> Rabs (y2 t k - y t k) <= eps.
Proof.
  intros E a N L hop n O B x ratio c P re im num eps Hr Hq Hnz Hnum Hn Ht Ht1 Hc Hl Hnm He K. pose proof (frame_count_pos N L hop) as Hm.
  assert (HP : (0 < P)%nat). { destruct (cqt_near a N L hop n O B Hr) as (b & P' & len & HR & HE). destruct (HE x x) as (re' & im' & _ & _ & E1 & _). rewrite Hq in E1. apply Ok_inj in E1. destruct (cmat_inj _ _ _ _ _ _ _ Hm E1) as [-> _]. apply HR. }
  destruct (least_entry P (frame_count N L hop) (fun p i => spec_abs (re p i) (im p i)) ltac:(intros; apply abs_pos; auto)) as (r & Hr0 & Hlow).
  set (w := 8 * (INR num * INR P)). assert (N1 : 1 <= INR num) by (apply (le_INR 1); lia). assert (P1 : 1 <= INR P) by (apply (le_INR 1); lia).
  assert (W : 1 <= w). { unfold w. pose proof (Rmult_le_compat 1 (INR num) 1 (INR P) ltac:(lra) ltac:(lra) N1 P1). lra. }
  set (e := eps / w). assert (E0 : 0 < e) by (apply Rdiv_lt_0_compat; lra). set (th := 1 - exp (- e)).
  assert (T : 0 < th < 1). { unfold th. pose proof (exp_pos (- e)). assert (exp (- e) < exp 0) by (apply exp_increasing; lra). rewrite exp_0 in *. lra. }
  assert (LT : ln (1 - th) = - e). { unfold th. replace (1 - (1 - exp (- e))) with (exp (- e)) by ring. apply ln_exp. }
  set (C := (if q_pre_emph a then 1 + Rabs (q_coeff a) else 1) * (1 + Rmax 0 (q_threshold a) * sqrt (INR (Nat.min L n)))).
  assert (C1 : 0 < C). { unfold C. pose proof (Rabs_pos (q_coeff a)). pose proof (Rmult_le_pos _ _ (Rmax_l 0 (q_threshold a)) (sqrt_pos (INR (Nat.min L n)))). apply Rmult_lt_0_compat; [destruct (q_pre_emph a); lra|lra]. }
  assert (D0 : 0 < th * r / C) by (apply Rdiv_lt_0_compat; [apply Rmult_lt_0_compat; lra|exact C1]).
  assert (G : forall x2, apart N (th * r / C) x x2 -> exists y y2, cqcc (fvec N x) a ratio c = Ok (fmat num K y) /\ cqcc (fvec N x2) a ratio c = Ok (fmat num K y2) /\
     bigsum num (fun t => bigsum K (fun k => (y2 t k - y t k) ^ 2)) <= INR num * INR P * (8 * ln (1 - th) ^ 2)).
  { intros x2 Hx2. apply (cqcc_recordings a N L hop n O B x x2 (th * r / C) ratio c P re im num th); auto; try lra. intros p i Hp Hi. pose proof (Hlow p i Hp Hi) as Lw. cbv beta in Lw. split; [lra|].
    unfold cqt_reach. replace ((if q_pre_emph a then 1 + Rabs (q_coeff a) else 1) * (th * r / C) * (1 + Rmax 0 (q_threshold a) * sqrt (INR (Nat.min L n)))) with (th * r / C * C) by (unfold C; ring).
    replace (th * r / C * C) with (th * r) by (field; lra). apply Rmult_le_compat_l; lra. }
  assert (HH : exists y, cqcc (fvec N x) a ratio c = Ok (fmat num K y)). { destruct (G x ltac:(intros t _; rewrite Rminus_eq_0, Rabs_R0; lra)) as (y & _ & E1 & _). exists y. exact E1. }
  destruct HH as (y & Ey). exists (th * r / C), y. split; [exact D0|]. split; [exact Ey|]. intros x2 Hx2. destruct (G x2 Hx2) as (y' & y2 & E1 & E2 & D). exists y2. split; [exact E2|].
  intros t k Htn Hk. rewrite Ey in E1. apply Ok_inj in E1. destruct (fmat_inj _ _ _ _ E1 t k Htn Hk).
  assert (S1 : (y2 t k - y t k) ^ 2 <= bigsum num (fun t => bigsum K (fun k => (y2 t k - y' t k) ^ 2))).
  { eapply Rle_trans; [|apply (bigsum_one num _ t); [intros; apply bigsum_nonneg; intros; apply pow2_ge_0|exact Htn]]. cbv beta.
    eapply Rle_trans; [|apply (bigsum_one K _ k); [intros; apply pow2_ge_0|exact Hk]]. cbv beta. right. rewrite (fmat_inj _ _ _ _ E1 t k Htn Hk). reflexivity. }
  rewrite LT in D. replace (INR num * INR P * (8 * (- e) ^ 2)) with (w * e ^ 2) in D by (unfold w; ring).
  assert (w * e ^ 2 <= eps ^ 2). { unfold e. replace (w * (eps / w) ^ 2) with (eps ^ 2 * / w) by (field; lra). rewrite <- (Rmult_1_r (eps ^ 2)) at 2. apply Rmult_le_compat_l; [apply pow2_ge_0|]. rewrite <- Rinv_1. apply Rinv_le_contravar; lra. }
  apply Rsqr_incr_0_var; [|lra]. rewrite <- Rsqr_abs, !Rsqr_pow2. lra.
Qed.
