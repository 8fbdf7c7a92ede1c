(** * Properties of the statistics of a spectrum (spfeats.py): C61-C64, C91-C96 *)
From Coq Require Import Reals ZArith List String Bool Lia Lra Psatz.
From Verif Require Import Base BaseFacts Cplx SpecBase SpecMat SpecFeatures BigSum MatFacts
  Fourier SpecSpectral Dominant DominantFacts SpFeats SpFeatsFacts.
Import ListNotations.
Local Open Scope R_scope.

(** ** C61: the centroid is a frequency of the band, whatever the level *)
Theorem C61_centroid : forall M re im fs, (0 < M)%nat -> (0 < fs)%Z ->
  (exists k, (k < M)%nat /\ (re k <> 0 \/ im k <> 0)) ->
  exists c, spectral_centroid fs (cvec M re im) 1 = Ok (Fin c) /\ 0 <= c <= IZR fs / 2 /\
  c * bigsum M (cmag re im) = bigsum M (fun k => cmag re im k * bin_freq fs M k).
Proof.
  intros M re im fs HM Hfs Hk. assert (Hs := heard M re im Hk).
  exists (spec_moment M (cmag re im) (bin_freq fs M) 1). rewrite centroid_cvec by auto. split; [auto|]. unfold spec_moment.
  rewrite (bigsum_ext _ (fun k => cmag re im k * bin_freq fs M k ^ 1) (fun k => cmag re im k * bin_freq fs M k)) by (intros; ring).
  split; [|field; auto]. apply weighted_mean_bounds; auto; intros; [apply cmag_nonneg|apply bin_freq_range; auto].
Qed.
Print Assumptions C61_centroid.
Example C61_centroid_example : exists c, spectral_centroid 16000 (cvec 257 (fun k => INR k) (fun k => 1)) 1 = Ok (Fin c) /\
  0 <= c <= IZR 16000 / 2.
Proof.
  destruct (C61_centroid 257 (fun k => INR k) (fun _ => 1) 16000) as (c & E & B & _); [lia|lia|exists 0%nat; split; [lia|right; lra]|eauto].
Qed.
Theorem C61_gain : forall M re im fs g i, (0 < M)%nat -> (0 < fs)%Z -> g <> 0 ->
  spectral_centroid fs (cvec M (fun k => g * re k) (fun k => g * im k)) i = spectral_centroid fs (cvec M re im) i.
Proof. exact centroid_gain. Qed.
Print Assumptions C61_gain.
Theorem C61_silence : forall M fs i, (0 < M)%nat -> (0 < fs)%Z ->
  spectral_centroid fs (cvec M (fun _ => 0) (fun _ => 0)) i = Ok NaN.
Proof. intros. apply centroid_silent; auto. apply silent0. Qed.
Print Assumptions C61_silence.
Example C61_gain_example : forall re im i,
  spectral_centroid 16000 (cvec 257 (fun k => -3 * re k) (fun k => -3 * im k)) i = spectral_centroid 16000 (cvec 257 re im) i /\
  spectral_centroid 16000 (cvec 257 (fun _ => 0) (fun _ => 0)) i = Ok NaN.
Proof. intros. split; [apply C61_gain; try lia; lra|apply C61_silence; lia]. Qed.
Example C61_example : spectral_centroid 300 (cvec 3 (fun _ => 1) (fun _ => 0)) 1 = Ok (Fin (200 / 3)).
Proof.
  rewrite centroid_cvec; try lia.
  - do 2 f_equal. unfold spec_moment. cbn [bigsum]. unfold cmag, spec_abs, bin_freq, folded_bin.
    cbn [Nat.min Nat.sub INR]. replace (1 ^ 2 + 0 ^ 2) with 1 by ring. rewrite sqrt_1. field.
  - apply heard. exists 0%nat. split; [lia|]. left. lra.
Qed.

(** ** C91: the frequency axis of the statistics is folded *)
(** A spectrum with a single non-zero bin k has its centroid at min(k, M-k)*fs/M, so bins k and
    M-k cannot be told apart. *)
Theorem C91_single_bin : forall M re im fs k, (k < M)%nat -> (0 < fs)%Z -> (re k <> 0 \/ im k <> 0) ->
  (forall j, (j < M)%nat -> j <> k -> re j = 0 /\ im j = 0) ->
  spectral_centroid fs (cvec M re im) 1 = Ok (Fin (INR (Nat.min k (M - k)) * IZR fs / INR M)).
Proof. exact centroid_single. Qed.
Print Assumptions C91_single_bin.
(** For the spectra extract_feats passes (bins 0 .. n//2 of an n-point transform) that is the
    frequency k*fs/n of the bin for k = 0 only. *)
Theorem C91_true_frequency_refuted : forall n k fs, (3 <= n)%nat -> (k <= n / 2)%nat -> (0 < fs)%Z ->
  (INR (Nat.min k (S (n / 2) - k)) * IZR fs / INR (S (n / 2)) = INR k * IZR fs / INR n <-> k = O).
Proof. exact folded_true. Qed.
Print Assumptions C91_true_frequency_refuted.
Example C91_example : forall a, a <> 0 ->
  spectral_centroid 16000 (cvec 257 (fun k => if Nat.eqb k 256 then a else 0) (fun _ => 0)) 1 = Ok (Fin (16000 / 257)).
Proof.
  intros a Ha. rewrite (C91_single_bin 257 _ _ 16000 256); try lia.
  - do 2 f_equal. cbn [Nat.min Nat.sub INR]. replace (INR 257) with 257 by (rewrite INR_IZR; reflexivity). lra.
  - left. cbn. auto.
  - intros j Hj Hn. rewrite (proj2 (Nat.eqb_neq j 256)) by auto. auto.
Qed.

(** ** C92: skewness and kurtosis *)
(** They divide by the third and fourth power of the second moment about 0: the values ignore the
    level but shrink with the unit of frequency. *)
Theorem C92_value : forall p M re im fs, (0 < M)%nat -> (0 < fs)%Z ->
  (exists k, (1 <= k < M)%nat /\ (re k <> 0 \/ im k <> 0)) ->
  spectral_moment p fs (cvec M re im)
  = Ok (Fin (spec_central M (cmag re im) (bin_freq fs M) p / spec_moment M (cmag re im) (bin_freq fs M) 2 ^ p)).
Proof.
  intros p M re im fs HM Hfs (k & Hk & Hn). apply moment_cvec; auto.
  - apply heard. exists k. split; [lia|auto].
  - apply (moment2_pos M re im fs k); auto.
Qed.
Print Assumptions C92_value.
Theorem C92_gain : forall M re im fs g, (0 < M)%nat -> (0 < fs)%Z -> g <> 0 ->
  spectral_skewness fs (cvec M (fun k => g * re k) (fun k => g * im k)) = spectral_skewness fs (cvec M re im) /\
  spectral_kurtosis fs (cvec M (fun k => g * re k) (fun k => g * im k)) = spectral_kurtosis fs (cvec M re im).
Proof. intros. split; apply moment_gain; auto; lia. Qed.
Print Assumptions C92_gain.
Theorem C92_dimensionless_refuted : forall M re im fs c, (0 < M)%nat -> (0 < fs)%Z -> (0 < c)%Z ->
  (exists k, (1 <= k < M)%nat /\ (re k <> 0 \/ im k <> 0)) -> exists s q,
  spectral_skewness fs (cvec M re im) = Ok (Fin s) /\ spectral_kurtosis fs (cvec M re im) = Ok (Fin q) /\ 0 <= q /\
  spectral_skewness (c * fs) (cvec M re im) = Ok (Fin (s / IZR c ^ 3)) /\
  spectral_kurtosis (c * fs) (cvec M re im) = Ok (Fin (q / IZR c ^ 4)).
Proof.
  intros M re im fs c HM Hfs Hc Hk. do 2 eexists.
  repeat (split; [apply C92_value; auto|]). split; [|split].
  - apply kurtosis_nonneg.
  - unfold spectral_skewness. rewrite C92_value by (auto; lia). do 2 f_equal. apply moment_unit; auto. apply IZR_lt in Hc. lra.
  - unfold spectral_kurtosis. rewrite C92_value by (auto; lia). do 2 f_equal. apply moment_unit; auto. apply IZR_lt in Hc. lra.
Qed.
Print Assumptions C92_dimensionless_refuted.
(** A spectrum with nothing outside bin 0 has neither. *)
Theorem C92_dc_nan : forall M re im fs, (0 < M)%nat -> (0 < fs)%Z ->
  (forall k, (1 <= k < M)%nat -> re k = 0 /\ im k = 0) ->
  spectral_skewness fs (cvec M re im) = Ok NaN /\ spectral_kurtosis fs (cvec M re im) = Ok NaN.
Proof. intros. split; apply moment_dc; auto; lia. Qed.
Print Assumptions C92_dc_nan.
Example C92_nan_example : forall re im,
  spectral_skewness 16000 (cvec 257 (fun k => -3 * re k) (fun k => -3 * im k)) = spectral_skewness 16000 (cvec 257 re im) /\
  spectral_kurtosis 16000 (cvec 257 (fun k => if Nat.eqb k 0 then 5 else 0) (fun _ => 0)) = Ok NaN.
Proof.
  intros. split; [apply C92_gain; try lia; lra|]. apply C92_dc_nan; try lia.
  intros k Hk. destruct (Nat.eqb_spec k 0); [lia|auto].
Qed.
(** M = 4 bins at 0, 1, 2, 1 (fs = 4), magnitudes 1, 0, 1, 0 *)
Example C92_example : spectral_kurtosis 4 (cvec 4 (fun k => if Nat.even k then 1 else 0) (fun _ => 0)) = Ok (Fin (1 / 16)).
Proof.
  unfold spectral_kurtosis. rewrite C92_value; try lia.
  - do 2 f_equal. unfold spec_central, spec_moment. cbn [bigsum Nat.even]. unfold cmag, spec_abs, bin_freq, folded_bin.
    cbn [Nat.min Nat.sub INR Nat.even]. replace (1 ^ 2 + 0 ^ 2) with 1 by ring. replace (0 ^ 2 + 0 ^ 2) with 0 by ring.
    rewrite sqrt_1, sqrt_0. field.
  - exists 2%nat. split; [lia|]. cbn. left. lra.
Qed.

(** ** C93: the entropy *)
Theorem C93_normalised : forall M re im, (2 <= M)%nat -> (forall k, (k < M)%nat -> re k <> 0 \/ im k <> 0) ->
  bigsum M (cmag re im) = 1 -> exists h, spectral_entropy (cvec M re im) = Fin h /\ 0 <= h <= 1.
Proof.
  intros M re im HM Hn Hs. assert (Hp := all_heard M re im Hn). eexists. rewrite entropy_cvec by auto. split; [auto|].
  assert (HN : 1 < INR M) by (change 1 with (INR 1); apply lt_INR; lia).
  assert (HL : 0 < ln (INR M)) by (rewrite <- ln_1; apply ln_increasing; lra).
  destruct (gibbs M (cmag re im)) as [A B]; auto; [lia|]. split.
  - apply Rmult_le_pos; auto. left. apply Rinv_0_lt_compat; auto.
  - apply Rmult_le_reg_r with (ln (INR M)); auto. unfold Rdiv. rewrite Rmult_assoc, Rinv_l by lra. lra.
Qed.
Print Assumptions C93_normalised.
(** extract_feats does not normalise: the entropy of g*X is not that of X, and is negative for a
    flat spectrum of magnitude above 1. *)
Theorem C93_gain_refuted : forall M re im g, (2 <= M)%nat -> (forall k, (k < M)%nat -> re k <> 0 \/ im k <> 0) -> g <> 0 ->
  exists h, spectral_entropy (cvec M re im) = Fin h /\
  spectral_entropy (cvec M (fun k => g * re k) (fun k => g * im k))
  = Fin (Rabs g * h - Rabs g * ln (Rabs g) * bigsum M (cmag re im) / ln (INR M)).
Proof. exact entropy_gain. Qed.
Print Assumptions C93_gain_refuted.
Theorem C93_flat : forall M re im a, (2 <= M)%nat -> 0 < a -> (forall k, (k < M)%nat -> cmag re im k = a) ->
  spectral_entropy (cvec M re im) = Fin (- INR M * a * ln a / ln (INR M)) /\
  (1 < a -> - INR M * a * ln a / ln (INR M) < 0).
Proof. exact entropy_flat. Qed.
Print Assumptions C93_flat.
Theorem C93_zero_bin : forall M re im k, (k < M)%nat -> re k = 0 -> im k = 0 ->
  spectral_entropy (cvec M re im) = NaN.
Proof. intros M re im k Hk Hr Hi. apply (entropy_zero_bin M re im k); auto. apply spec_abs_zero. auto. Qed.
Print Assumptions C93_zero_bin.
Example C93_range_example : (exists h, spectral_entropy (cvec 3 (fun k => nth k [1 / 2; 1 / 4; 1 / 4] 0) (fun _ => 0)) = Fin h /\ 0 <= h <= 1) /\
  spectral_entropy (cvec 257 (fun k => INR k) (fun k => INR k)) = NaN.
Proof.
  split.
  - apply C93_normalised; [lia| |].
    + intros k Hk. left. destruct k as [|[|[|k]]]; cbn; try lra; lia.
    + assert (Q : forall v, 0 <= v -> cmag (fun _ => v) (fun _ => 0) 0 = v).
      { intros v Hv. unfold cmag, spec_abs. replace (v ^ 2 + 0 ^ 2) with (v ^ 2) by ring. apply sqrt_pow2. exact Hv. }
      unfold cmag in *. cbn [bigsum nth]. rewrite !Q by lra. lra.
  - apply (C93_zero_bin 257 _ _ 0); [lia|reflexivity|reflexivity].
Qed.
Example C93_example : spectral_entropy (cvec 4 (fun _ => 0) (fun _ => -1/4)) = Fin 1 /\
  spectral_entropy (cvec 4 (fun _ => 4) (fun _ => 0)) = Fin (-16).
Proof.
  assert (L : ln (INR 4) <> 0).
  { assert (0 < ln (INR 4)); [|lra]. rewrite <- ln_1. apply ln_increasing; [lra|]. rewrite INR_IZR. cbn. lra. }
  split.
  - rewrite (proj1 (C93_flat 4 (fun _ => 0) (fun _ => -1/4) (1/4) ltac:(lia) ltac:(lra)
      ltac:(intros; unfold cmag, spec_abs; replace (0 ^ 2 + (-1/4) ^ 2) with (Rsqr (1/4)) by (unfold Rsqr; field); apply sqrt_Rsqr; lra))).
    f_equal. replace (1 / 4) with (/ INR 4) by (rewrite INR_IZR; cbn; field). rewrite ln_Rinv by (rewrite INR_IZR; cbn; lra).
    field. split; auto. rewrite INR_IZR. cbn. lra.
  - rewrite (proj1 (C93_flat 4 (fun _ => 4) (fun _ => 0) 4 ltac:(lia) ltac:(lra)
      ltac:(intros; unfold cmag, spec_abs; replace (4 ^ 2 + 0 ^ 2) with (Rsqr 4) by (unfold Rsqr; field); apply sqrt_Rsqr; lra))).
    f_equal. replace (INR 4) with 4 in * by (rewrite INR_IZR; reflexivity). field. auto.
Qed.

(** ** C94: the spread is an array *)
(** One value per bin; their squares sum to the square of the sum of all the deviations of the
    frequencies from the centroid, which does not depend on how the energy is spread about it. *)
Theorem C94_value : forall M re im fs, (0 < M)%nat -> (0 < fs)%Z ->
  (exists k, (k < M)%nat /\ (re k <> 0 \/ im k <> 0)) -> exists v,
  spectral_spread fs (cvec M re im) = Ok (fvec M v) /\ (forall k, 0 <= v k) /\
  bigsum M (fun k => v k ^ 2)
  = bigsum M (fun k => bin_freq fs M k - spec_moment M (cmag re im) (bin_freq fs M) 1) ^ 2 /\
  forall j k, v j ^ 2 * cmag re im k = v k ^ 2 * cmag re im j.
Proof. intros. apply spread_facts; auto. apply heard. auto. Qed.
Print Assumptions C94_value.
Theorem C94_gain : forall M re im fs g, (0 < M)%nat -> (0 < fs)%Z -> g <> 0 ->
  spectral_spread fs (cvec M (fun k => g * re k) (fun k => g * im k)) = spectral_spread fs (cvec M re im).
Proof. exact spread_gain. Qed.
Print Assumptions C94_gain.
Example C94_gain_example : forall re im, (exists k, (k < 257)%nat /\ (re k <> 0 \/ im k <> 0)) -> exists v,
  spectral_spread 16000 (cvec 257 re im) = Ok (fvec 257 v) /\
  spectral_spread 16000 (cvec 257 (fun k => -3 * re k) (fun k => -3 * im k)) = Ok (fvec 257 v).
Proof.
  intros re im Hk. destruct (C94_value 257 re im 16000) as (v & E & _); [lia|lia|exact Hk|].
  exists v. split; [exact E|]. rewrite C94_gain by (try lia; lra). exact E.
Qed.
(** With the bins 0 and M/2 equally strong the deviations cancel or not depending on the other bins. *)
Example C94_example : spectral_spread 2 (cvec 2 (fun _ => 1) (fun _ => 0)) = Ok [Fin 0; Fin 0].
Proof.
  rewrite spread_cvec; try lia.
  - unfold fvec. cbn [map seq]. assert (E : bigsum 2 (fun j => bin_freq 2 2 j - spec_moment 2 (cmag (fun _ => 1) (fun _ => 0)) (bin_freq 2 2) 1) = 0).
    { unfold spec_moment. cbn [bigsum]. unfold cmag, spec_abs, bin_freq, folded_bin. cbn [Nat.min Nat.sub INR].
      replace (1 ^ 2 + 0 ^ 2) with 1 by ring. rewrite sqrt_1. field. }
    rewrite E, Rabs_R0. do 2 f_equal; [f_equal; ring|]. f_equal. f_equal. ring.
  - apply heard. exists 0%nat. split; [lia|]. left. lra.
Qed.

(** ** C62: flatness *)
Theorem C62_range : forall M re im, (0 < M)%nat -> (exists k, (k < M)%nat /\ (re k <> 0 \/ im k <> 0)) ->
  exists w, spectral_flatness (cvec M re im) = Fin w /\ 0 <= w <= 1 /\
  (w = 1 <-> forall k, (k < M)%nat -> cmag re im k = cmag re im 0) /\
  (w = 0 <-> exists k, (k < M)%nat /\ re k = 0 /\ im k = 0).
Proof. intros. apply flatness_facts; auto. apply heard. auto. Qed.
Print Assumptions C62_range.
Theorem C62_geometric_over_arithmetic : forall M re im, (0 < M)%nat -> (forall k, (k < M)%nat -> re k <> 0 \/ im k <> 0) ->
  exists w, spectral_flatness (cvec M re im) = Fin w /\ 0 < w /\
  bigsum M (fun k => ln (cmag re im k)) = INR M * ln (w * (bigsum M (cmag re im) / INR M)).
Proof. intros. apply flatness_geo; auto. apply all_heard; auto. Qed.
Print Assumptions C62_geometric_over_arithmetic.
Theorem C62_gain : forall M re im g, (0 < M)%nat -> g <> 0 ->
  spectral_flatness (cvec M (fun k => g * re k) (fun k => g * im k)) = spectral_flatness (cvec M re im).
Proof. exact flatness_gain. Qed.
Print Assumptions C62_gain.
Theorem C62_silence : forall M, (0 < M)%nat -> spectral_flatness (cvec M (fun _ => 0) (fun _ => 0)) = NaN.
Proof. intros. apply flatness_silent; auto. apply silent0. Qed.
Print Assumptions C62_silence.
Example C62_gain_example : exists w, spectral_flatness (cvec 257 (fun k => INR k) (fun _ => 1)) = Fin w /\ 0 < w /\
  spectral_flatness (cvec 257 (fun k => 2 * INR k) (fun _ => 2 * 1)) = Fin w /\
  spectral_flatness (cvec 257 (fun _ => 0) (fun _ => 0)) = NaN.
Proof.
  destruct (C62_geometric_over_arithmetic 257 (fun k => INR k) (fun _ => 1)) as (w & E & P & _); [lia|intros; right; lra|].
  exists w. split; [exact E|]. split; [exact P|]. split; [|apply C62_silence; lia].
  rewrite <- E. apply (C62_gain 257 (fun k => INR k) (fun _ => 1) 2); [lia|lra].
Qed.
Example C62_example : exists w, spectral_flatness (cvec 5 (fun k => INR k) (fun _ => 0)) = Fin w /\ w = 0.
Proof.
  destruct (C62_range 5 (fun k => INR k) (fun _ => 0) ltac:(lia)) as (w & E & _ & _ & H).
  - exists 1%nat. split; [lia|]. left. cbn. lra.
  - exists w. split; auto. apply H. exists 0%nat. split; [lia|auto].
Qed.

(** ** C63: flux *)
Theorem C63_norm : forall M re im p, (1 <= p)%nat -> exists v, spectral_flux (cvec M re im) p = Ok (Fin v) /\ 0 <= v /\
  v ^ p = bigsum (M - 1) (fun k => Rabs (cmag re im (S k) - cmag re im k) ^ p).
Proof. exact flux_cvec. Qed.
Print Assumptions C63_norm.
Theorem C63_zero : forall M re im p, (1 <= p)%nat ->
  (spectral_flux (cvec M re im) p = Ok (Fin 0) <-> forall k, (k < M)%nat -> cmag re im k = cmag re im 0).
Proof. exact flux_zero_iff. Qed.
Print Assumptions C63_zero.
Theorem C63_gain : forall M re im p g, (1 <= p)%nat -> exists v, spectral_flux (cvec M re im) p = Ok (Fin v) /\
  spectral_flux (cvec M (fun k => g * re k) (fun k => g * im k)) p = Ok (Fin (Rabs g * v)).
Proof. exact flux_gain. Qed.
Print Assumptions C63_gain.
Example C63_zero_example : spectral_flux (cvec 257 (fun k => if Nat.even k then 3 else 4) (fun k => if Nat.even k then 4 else -3)) 2 = Ok (Fin 0) /\
  exists v, spectral_flux (cvec 257 (fun k => INR k) (fun _ => 1)) 2 = Ok (Fin v) /\
            spectral_flux (cvec 257 (fun k => -3 * INR k) (fun _ => -3 * 1)) 2 = Ok (Fin (Rabs (-3) * v)).
Proof.
  split; [|apply (C63_gain 257 (fun k => INR k) (fun _ => 1) 2 (-3)); lia]. apply C63_zero; [lia|].
  intros k _. unfold cmag, spec_abs. cbn [Nat.even]. destruct (Nat.even k); f_equal; ring.
Qed.
Example C63_example : exists v, spectral_flux (cvec 3 (fun k => 3 * INR k) (fun k => 4 * INR k)) 2 = Ok (Fin v) /\ v ^ 2 = 50.
Proof.
  destruct (C63_norm 3 (fun k => 3 * INR k) (fun k => 4 * INR k) 2 ltac:(lia)) as (v & E & _ & H).
  exists v. split; auto. rewrite H.
  rewrite (bigsum_ext _ _ (fun _ => 25)); [cbn [Nat.sub]; rewrite bigsum_const; cbn [INR]; ring|].
  intros k Hk. assert (C : forall j, cmag (fun k => 3 * INR k) (fun k => 4 * INR k) j = 5 * INR j).
  { intros j. unfold cmag, spec_abs. replace ((3 * INR j) ^ 2 + (4 * INR j) ^ 2) with (Rsqr (5 * INR j)) by (unfold Rsqr; ring).
    apply sqrt_Rsqr. pose proof (pos_INR j). lra. }
  rewrite !C, S_INR. replace (5 * (INR k + 1) - 5 * INR k) with 5 by ring. rewrite Rabs_pos_eq by lra. ring.
Qed.

(** ** C64: the rolloff is not a frequency *)
Theorem C64_rolloff : forall M re im k, spectral_rolloff (cvec M re im) (Fin k) = Fin (k * bigsum M (cmag re im)).
Proof. intros. unfold spectral_rolloff. rewrite magnitude_cvec, fsum_fvec. reflexivity. Qed.
Print Assumptions C64_rolloff.
Theorem C64_extract_feats : forall L x fs n, (1 <= n)%nat -> (0 < fs)%Z -> exists r,
  extract_feats (fvec L x) fs (Z.of_nat n) = Ok r /\
  sf_rolloff r = cvec (S (n / 2)) (fun k => IZR fs * spec_re n L x k) (fun k => IZR fs * spec_im n L x k).
Proof.
  intros L x fs n Hn Hfs. destruct (extract_ok L x fs n Hn Hfs) as (r & E & _ & H). exists r. split; auto. exact (proj1 H).
Qed.
Print Assumptions C64_extract_feats.
Example C64_feats_example : exists r, extract_feats (fvec 600 (fun t => sin (INR t))) 16000 512 = Ok r /\
  List.length (sf_rolloff r) = 257%nat.
Proof.
  destruct (C64_extract_feats 600 (fun t => sin (INR t)) 16000 512) as (r & E & F); [lia|lia|].
  exists r. split; [exact E|]. rewrite F. unfold cvec. rewrite map_length, seq_length. reflexivity.
Qed.

(** 85% of the magnitude sum of 3+4i, 0 *)
Example C64_example : spectral_rolloff (cvec 2 (fun k => if Nat.eqb k 0 then 3 else 0) (fun k => if Nat.eqb k 0 then 4 else 0)) (Fin 0.85) = Fin 4.25.
Proof.
  rewrite C64_rolloff. f_equal. cbn [bigsum]. unfold cmag, spec_abs. cbn [Nat.eqb].
  replace (3 ^ 2 + 4 ^ 2) with (Rsqr 5) by (unfold Rsqr; ring). replace (0 ^ 2 + 0 ^ 2) with 0 by ring.
  rewrite sqrt_Rsqr, sqrt_0 by lra. lra.
Qed.

(** ** C95: mean, variance and root mean square of the complex spectrum *)
Theorem C95_mean_variance : forall L x fs n, (1 <= n)%nat -> (0 < fs)%Z -> exists r v,
  let M := S (n / 2) in let re := spec_re n L x in let im := spec_im n L x in
  extract_feats (fvec L x) fs (Z.of_nat n) = Ok r /\
  sf_mean r = (Fin (bigsum M re / INR M), Fin (bigsum M im / INR M)) /\
  sf_variance r = Fin v /\ 0 <= v /\ sf_std r = Fin (sqrt v) /\
  v + ((bigsum M re / INR M) ^ 2 + (bigsum M im / INR M) ^ 2) = bigsum M (spec_sq n L x) / INR M.
Proof.
  intros L x fs n Hn Hfs. destruct (extract_ok L x fs n Hn Hfs) as (r & E & _ & _ & H1 & _ & H2 & H3).
  exists r. eexists. cbv zeta. split; [auto|]. split; [exact H1|]. split; [exact H3|].
  split; [apply cvar_nonneg; lia|]. split; [exact H2|]. unfold spec_avg, spec_sq. ring.
Qed.
Print Assumptions C95_mean_variance.
(** The value stored as rms is a square root of the mean of X*X, a complex number; its absolute
    value is at most the root of the mean of |X|**2 ... *)
Theorem C95_rms : forall L x fs n, (1 <= n)%nat -> (0 < fs)%Z -> exists r p q,
  let M := S (n / 2) in let re := spec_re n L x in let im := spec_im n L x in
  extract_feats (fvec L x) fs (Z.of_nat n) = Ok r /\ sf_rms r = (Fin p, Fin q) /\ 0 <= p /\
  p ^ 2 - q ^ 2 = bigsum M (fun k => re k ^ 2 - im k ^ 2) / INR M /\
  2 * p * q = bigsum M (fun k => 2 * re k * im k) / INR M /\
  p ^ 2 + q ^ 2 <= bigsum M (spec_sq n L x) / INR M.
Proof.
  intros L x fs n Hn Hfs. destruct (extract_ok L x fs n Hn Hfs) as (r & E & _ & _ & _ & H & _).
  destruct (rms_cvec (S (n / 2)) (spec_re n L x) (spec_im n L x) ltac:(lia)) as (p & q & A & B).
  exists r, p, q. cbv zeta. split; [auto|]. split; [rewrite H; exact A|]. exact B.
Qed.
Print Assumptions C95_rms.
Example C95_rms_example : exists r p q, extract_feats (fvec 600 (fun t => sin (INR t))) 16000 512 = Ok r /\
  sf_rms r = (Fin p, Fin q) /\ 0 <= p.
Proof.
  destruct (C95_rms 600 (fun t => sin (INR t)) 16000 512) as (r & p & q & E & F & P & _); [lia|lia|].
  exists r, p, q. auto.
Qed.
(** ... and can be smaller: it changes when the signal is delayed. *)
Theorem C95_rms_delay_refuted :
  (exists r, extract_feats [Fin 1; Fin 0] 4 4 = Ok r /\ sf_rms r = (Fin 1, Fin 0)) /\
  (exists r, extract_feats [Fin 0; Fin 1] 4 4 = Ok r /\ sf_rms r = (Fin (sqrt (1 / 3)), Fin 0)).
Proof. exact rms_delay. Qed.
Print Assumptions C95_rms_delay_refuted.

(** ** C96: extract_feats and the level of the signal *)
(** It returns for every finite signal; a gain leaves centroid, skewness, kurtosis, spread and
    flatness unchanged and scales flux, deviation, variance, mean and rolloff. *)
Theorem C96_gain : forall L x fs n g, (1 <= n)%nat -> (0 < fs)%Z -> g <> 0 -> exists r r',
  extract_feats (fvec L x) fs (Z.of_nat n) = Ok r /\
  extract_feats (fvec L (fun t => g * x t)) fs (Z.of_nat n) = Ok r' /\
  sf_centroid r' = sf_centroid r /\ sf_skewness r' = sf_skewness r /\ sf_kurtosis r' = sf_kurtosis r /\
  sf_spread r' = sf_spread r /\ sf_flatness r' = sf_flatness r /\
  sf_flux r' = fmul (Fin (Rabs g)) (sf_flux r) /\ sf_std r' = fmul (Fin (Rabs g)) (sf_std r) /\
  sf_variance r' = fmul (Fin (g ^ 2)) (sf_variance r) /\ sf_mean r' = cscal (Fin g) (sf_mean r) /\
  sf_rolloff r' = map (cscal (Fin g)) (sf_rolloff r).
Proof. exact extract_gain. Qed.
Print Assumptions C96_gain.
(** Silence gives NaN for every ratio and 0 for the rest. *)
Theorem C96_silence : forall L fs n, (1 <= n)%nat -> (0 < fs)%Z ->
  extract_feats (repeat (Fin 0) L) fs (Z.of_nat n)
  = Ok (mkFeats NaN NaN NaN NaN (repeat NaN (S (n / 2))) NaN (repeat (Fin 0, Fin 0) (S (n / 2))) (Fin 0)
                (Fin 0, Fin 0) (Fin 0, Fin 0) (Fin 0) (Fin 0)).
Proof. exact extract_silent. Qed.
Print Assumptions C96_silence.
Theorem C96_nfft : forall sig fs nfft, (nfft < 1)%Z -> extract_feats sig fs nfft = Raise ValueError.
Proof. intros. unfold extract_feats, np_rfft. rewrite (proj2 (Z.ltb_lt _ _)) by auto. reflexivity. Qed.
Print Assumptions C96_nfft.
Example C96_gain_example : exists r r',
  extract_feats (fvec 600 (fun t => sin (INR t))) 16000 512 = Ok r /\
  extract_feats (fvec 600 (fun t => -3 * sin (INR t))) 16000 512 = Ok r' /\ sf_centroid r' = sf_centroid r /\
  (exists s, extract_feats (repeat (Fin 0) 600) 16000 512 = Ok s /\ sf_centroid s = NaN) /\
  extract_feats (repeat (Fin 1) 600) 16000 0 = Raise ValueError.
Proof.
  destruct (C96_gain 600 (fun t => sin (INR t)) 16000 512 (-3)) as (r & r' & E & E' & C & _); [lia|lia|lra|].
  exists r, r'. split; [exact E|]. split; [exact E'|]. split; [exact C|]. split; [|apply C96_nfft; lia].
  eexists. split; [apply (C96_silence 600 16000 512); lia|reflexivity].
Qed.
Example C96_example : exists r, extract_feats (fvec 600 (fun t => sin (INR t))) 16000 512 = Ok r /\ exists c, sf_variance r = Fin c /\ 0 <= c.
Proof.
  destruct (C95_mean_variance 600 (fun t => sin (INR t)) 16000 512 ltac:(lia) ltac:(lia)) as (r & v & H).
  cbv zeta in H. destruct H as (A & _ & B & D & _). exists r. split; [exact A|]. eauto.
Qed.
