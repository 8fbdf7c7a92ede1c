(** * Lemmas about the statistics of a spectrum *)
From Coq Require Import Reals ZArith List String Bool Lia Lra Psatz.
From Coquelicot Require Import Complex.
From Verif Require Import Base BaseFacts Cplx CplxFacts SpecBase SpecMat SpecFeatures BigSum MatFacts
  Fourier Features FeaturesFacts SpecSpectral Dominant DominantFacts SpFeats.
Import ListNotations.
Local Open Scope R_scope.

Lemma cvec_length : forall M re im, List.length (cvec M re im) = M.
Proof. intros. unfold cvec. rewrite map_length, seq_length. auto. Qed.
Lemma spec_abs_nonneg : forall a b, 0 <= spec_abs a b. Proof. intros. apply sqrt_pos. Qed.
Lemma spec_abs_sq : forall a b, spec_abs a b * spec_abs a b = a ^ 2 + b ^ 2.
Proof. intros. unfold spec_abs. apply sqrt_sqrt. pose proof (pow2_ge_0 a). pose proof (pow2_ge_0 b). lra. Qed.
Lemma cmag_nonneg : forall re im k, 0 <= cmag re im k. Proof. intros. apply spec_abs_nonneg. Qed.
Lemma spec_abs_zero : forall a b, spec_abs a b = 0 <-> a = 0 /\ b = 0.
Proof.
  intros a b. pose proof (spec_abs_sq a b) as H. pose proof (pow2_ge_0 a). pose proof (pow2_ge_0 b). split.
  - intros E. rewrite E in H. split; apply Rsqr_0_uniq; unfold Rsqr; lra.
  - intros [-> ->]. unfold spec_abs. replace (0 ^ 2 + 0 ^ 2) with 0 by ring. apply sqrt_0.
Qed.
Lemma spec_abs_scal : forall g a b, spec_abs (g * a) (g * b) = Rabs g * spec_abs a b.
Proof.
  intros. unfold spec_abs. replace ((g * a) ^ 2 + (g * b) ^ 2) with (Rsqr g * (a ^ 2 + b ^ 2)) by (unfold Rsqr; ring).
  rewrite sqrt_mult, sqrt_Rsqr_abs; auto; [apply Rle_0_sqr|]. pose proof (pow2_ge_0 a). pose proof (pow2_ge_0 b). lra.
Qed.
Lemma magnitude_cvec : forall M re im, magnitude (cvec M re im) = fvec M (cmag re im).
Proof.
  intros. unfold magnitude, cvec. rewrite map_map. apply map_ext. intros k.
  change (Fin (re k), Fin (im k)) with (emb (re k, im k)). rewrite cabs_emb. reflexivity.
Qed.
Lemma abs_freqs_cvec : forall M re im fs, (0 < M)%nat -> (0 < fs)%Z ->
  abs_freqs (cvec M re im) fs = Ok (fvec M (bin_freq fs M)).
Proof.
  intros M re im fs HM Hfs. unfold abs_freqs. rewrite cvec_length, fftfreq_fvec by (auto; lia). cbn [rbind]. f_equal.
  unfold fvec. rewrite map_map. apply map_ext_in. intros k Hk. apply in_seq in Hk. cbn [fabs]. f_equal.
  apply IZR_lt in Hfs. assert (0 < INR M) by (apply lt_0_INR; auto).
  unfold bin_freq, Rdiv. rewrite !Rabs_mult, signed_bin_abs, (Rabs_pos_eq (IZR fs)), (Rabs_pos_eq (/ _)) by
    (try lia; try lra; left; apply Rinv_0_lt_compat; auto). reflexivity.
Qed.
Lemma bin_freq_range : forall fs M k, (0 < fs)%Z -> (k < M)%nat -> 0 <= bin_freq fs M k <= IZR fs / 2.
Proof.
  intros fs M k Hfs Hk. apply IZR_lt in Hfs. assert (HM : 0 < INR M) by (apply lt_0_INR; lia).
  unfold bin_freq, folded_bin. assert (0 <= INR (Nat.min k (M - k))) by apply pos_INR.
  assert (2 * INR (Nat.min k (M - k)) <= INR M).
  { change 2 with (INR 2). rewrite <- mult_INR. apply le_INR. lia. }
  split.
  - unfold Rdiv. apply Rmult_le_pos; [nra|left; apply Rinv_0_lt_compat; auto].
  - apply Rmult_le_reg_r with (INR M); auto. unfold Rdiv at 1. rewrite Rmult_assoc, Rinv_l, Rmult_1_r by lra. nra.
Qed.

(** ** moments *)
Lemma fsum_mul_pow : forall M m f i, fsum (map2 fmul (fvec M m) (map (fun v => fpown v i) (fvec M f)))
  = Fin (bigsum M (fun k => m k * f k ^ i)).
Proof.
  intros. rewrite (fvec_map M f (fun v => fpown v i) (fun v => v ^ i)) by (intros; apply fpown_Fin).
  rewrite (fvec_map2 M m _ fmul Rmult) by reflexivity. apply fsum_fvec.
Qed.
Lemma centroid_cvec : forall M re im fs i, (0 < M)%nat -> (0 < fs)%Z -> bigsum M (cmag re im) <> 0 ->
  spectral_centroid fs (cvec M re im) i = Ok (Fin (spec_moment M (cmag re im) (bin_freq fs M) i)).
Proof.
  intros M re im fs i HM Hfs Hs. unfold spectral_centroid. rewrite magnitude_cvec, abs_freqs_cvec by auto. cbn [rbind].
  rewrite fsum_mul_pow, fsum_fvec, fdiv_Fin by auto. reflexivity.
Qed.
Lemma silent_mag : forall M m, (forall k, (k < M)%nat -> 0 <= m k) -> bigsum M m = 0 -> forall k, (k < M)%nat -> m k = 0.
Proof. intros M m H E k Hk. exact (bigsum_eq0 M m H E k Hk). Qed.
Lemma centroid_silent : forall M re im fs i, (0 < M)%nat -> (0 < fs)%Z -> bigsum M (cmag re im) = 0 ->
  spectral_centroid fs (cvec M re im) i = Ok NaN.
Proof.
  intros M re im fs i HM Hfs Hs. unfold spectral_centroid. rewrite magnitude_cvec, abs_freqs_cvec by auto. cbn [rbind].
  rewrite fsum_mul_pow, fsum_fvec, Hs. rewrite bigsum_zero.
  - cbn [fdiv]. destruct (Req_EM_T 0 0); [|lra]. unfold finfmul. destruct (Req_EM_T 0 0); [auto|lra].
  - intros k Hk. rewrite (silent_mag M (cmag re im)); auto; [ring|]. intros; apply cmag_nonneg.
Qed.
Lemma moment_cvec : forall p M re im fs, (0 < M)%nat -> (0 < fs)%Z -> bigsum M (cmag re im) <> 0 ->
  spec_moment M (cmag re im) (bin_freq fs M) 2 <> 0 ->
  spectral_moment p fs (cvec M re im)
  = Ok (Fin (spec_central M (cmag re im) (bin_freq fs M) p / spec_moment M (cmag re im) (bin_freq fs M) 2 ^ p)).
Proof.
  intros p M re im fs HM Hfs Hs H2. unfold spectral_moment. rewrite !centroid_cvec by auto. cbn [rbind].
  rewrite abs_freqs_cvec by auto. cbn [rbind]. rewrite magnitude_cvec.
  set (mu1 := spec_moment M (cmag re im) (bin_freq fs M) 1). set (mu2 := spec_moment M (cmag re im) (bin_freq fs M) 2) in *.
  rewrite (fvec_map M _ (fun f => fpown (fsub f (Fin mu1)) p) (fun v => (v - mu1) ^ p)) by (intros; unfold fsub; cbn [fneg fadd]; apply fpown_Fin).
  rewrite (fvec_map2 M _ _ fmul Rmult) by reflexivity. rewrite !fsum_fvec, fpown_Fin. cbn [fmul].
  assert (mu2 ^ p <> 0) by (apply pow_nonzero; auto).
  rewrite fdiv_Fin by (apply Rmult_integral_contrapositive; auto). do 2 f_equal.
  unfold spec_central. fold mu1. field. auto.
Qed.
Lemma moment_zero : forall p M re im fs, (1 <= p)%nat -> (0 < M)%nat -> (0 < fs)%Z -> bigsum M (cmag re im) <> 0 ->
  spec_moment M (cmag re im) (bin_freq fs M) 2 = 0 -> spectral_moment p fs (cvec M re im) = Ok NaN.
Proof.
  intros p M re im fs Hp HM Hfs Hs H2. unfold spectral_moment. rewrite !centroid_cvec by auto. cbn [rbind].
  rewrite abs_freqs_cvec by auto. cbn [rbind]. rewrite magnitude_cvec.
  assert (Hz : forall k, (k < M)%nat -> cmag re im k * bin_freq fs M k = 0).
  { intros k Hk. unfold spec_moment, Rdiv in H2. apply Rmult_integral in H2 as [H2|H2].
    - assert (K : cmag re im k * bin_freq fs M k ^ 2 = 0).
      { apply (bigsum_eq0 M (fun k => cmag re im k * bin_freq fs M k ^ 2)); auto.
        intros. apply Rmult_le_pos; [apply cmag_nonneg|apply pow2_ge_0]. }
      apply Rmult_integral in K as [->|K]; [ring|]. assert (bin_freq fs M k = 0) as -> by (apply Rsqr_0_uniq; unfold Rsqr; lra). ring.
    - exfalso. apply Rinv_neq_0_compat in Hs. auto. }
  assert (E1 : spec_moment M (cmag re im) (bin_freq fs M) 1 = 0).
  { unfold spec_moment. rewrite bigsum_zero; [unfold Rdiv; ring|]. intros k Hk. rewrite pow_1. auto. }
  rewrite E1, H2.
  rewrite (fvec_map M _ (fun f => fpown (fsub f (Fin 0)) p) (fun v => (v - 0) ^ p)) by (intros; unfold fsub; cbn [fneg fadd]; apply fpown_Fin).
  rewrite (fvec_map2 M _ _ fmul Rmult) by reflexivity. rewrite !fsum_fvec, fpown_Fin. cbn [fmul].
  rewrite bigsum_zero.
  - rewrite pow_i by lia. cbn [fdiv]. rewrite Rmult_0_r. destruct (Req_EM_T 0 0); [|lra]. unfold finfmul. destruct (Req_EM_T 0 0); [auto|lra].
  - intros k Hk. destruct p; [lia|]. cbn [pow]. rewrite Rminus_0_r.
    transitivity (cmag re im k * bin_freq fs M k * bin_freq fs M k ^ p); [ring|]. rewrite Hz by auto. ring.
Qed.
Lemma weighted_mean_bounds : forall M m f lo hi, (forall k, (k < M)%nat -> 0 <= m k) -> bigsum M m <> 0 ->
  (forall k, (k < M)%nat -> lo <= f k <= hi) -> lo <= bigsum M (fun k => m k * f k) / bigsum M m <= hi.
Proof.
  intros M m f lo hi Hm Hs Hf. assert (0 <= bigsum M m) by (apply bigsum_nonneg; auto). assert (Hp : 0 < bigsum M m) by lra.
  split; apply Rmult_le_reg_r with (bigsum M m); auto; unfold Rdiv; rewrite ?Rmult_assoc, Rinv_l, Rmult_1_r by lra.
  - rewrite <- bigsum_scal. apply bigsum_le. intros k Hk. specialize (Hm k Hk). specialize (Hf k Hk). nra.
  - rewrite <- bigsum_scal. apply bigsum_le. intros k Hk. specialize (Hm k Hk). specialize (Hf k Hk). nra.
Qed.
Lemma spec_moment_gain : forall M m f i g, g <> 0 -> bigsum M m <> 0 ->
  spec_moment M (fun k => g * m k) f i = spec_moment M m f i.
Proof.
  intros M m f i g Hg Hs. unfold spec_moment. rewrite bigsum_scal.
  rewrite (bigsum_ext _ _ (fun k => g * (m k * f k ^ i))) by (intros; ring). rewrite bigsum_scal. field. auto.
Qed.
Lemma spec_central_gain : forall M m f i g, g <> 0 -> bigsum M m <> 0 ->
  spec_central M (fun k => g * m k) f i = spec_central M m f i.
Proof.
  intros M m f i g Hg Hs. unfold spec_central. rewrite spec_moment_gain by auto. rewrite bigsum_scal.
  rewrite (bigsum_ext _ _ (fun k => g * (m k * (f k - spec_moment M m f 1) ^ i))) by (intros; ring). rewrite bigsum_scal. field. auto.
Qed.
Lemma spec_moment_unit : forall M m f i c, spec_moment M m (fun k => c * f k) i = c ^ i * spec_moment M m f i.
Proof.
  intros. unfold spec_moment. rewrite (bigsum_ext _ _ (fun k => c ^ i * (m k * f k ^ i))) by (intros; rewrite Rpow_mult_distr; ring).
  rewrite bigsum_scal. unfold Rdiv. ring.
Qed.
Lemma spec_central_unit : forall M m f i c, spec_central M m (fun k => c * f k) i = c ^ i * spec_central M m f i.
Proof.
  intros. unfold spec_central. rewrite spec_moment_unit. rewrite pow_1.
  rewrite (bigsum_ext _ _ (fun k => c ^ i * (m k * (f k - spec_moment M m f 1) ^ i))).
  - rewrite bigsum_scal. unfold Rdiv. ring.
  - intros. rewrite <- Rmult_minus_distr_l, Rpow_mult_distr. ring.
Qed.
Lemma bin_freq_unit : forall c fs M k, bin_freq (c * fs) M k = IZR c * bin_freq fs M k.
Proof. intros. unfold bin_freq. rewrite mult_IZR. unfold Rdiv. ring. Qed.
Lemma bigsum_mag_gain : forall M re im g, g <> 0 -> bigsum M (cmag re im) <> 0 ->
  bigsum M (cmag (fun k => g * re k) (fun k => g * im k)) <> 0.
Proof.
  intros M re im g Hg Hs. unfold cmag.
  rewrite (bigsum_ext _ _ (fun k => Rabs g * cmag re im k)) by (intros; rewrite spec_abs_scal; auto).
  rewrite bigsum_scal. apply Rmult_integral_contrapositive. split; auto. apply Rabs_no_R0; auto.
Qed.
Lemma spec_moment_ext : forall M m m' f f' i, (forall k, (k < M)%nat -> m k = m' k) -> (forall k, (k < M)%nat -> f k = f' k) ->
  spec_moment M m f i = spec_moment M m' f' i.
Proof.
  intros M m m' f f' i H H'. unfold spec_moment. rewrite (bigsum_ext M m m') by auto.
  rewrite (bigsum_ext M _ (fun k => m' k * f' k ^ i)); auto. intros. rewrite H, H'; auto.
Qed.
Lemma spec_central_ext : forall M m m' f f' i, (forall k, (k < M)%nat -> m k = m' k) -> (forall k, (k < M)%nat -> f k = f' k) ->
  spec_central M m f i = spec_central M m' f' i.
Proof.
  intros M m m' f f' i H H'. unfold spec_central. rewrite (spec_moment_ext M m m' f f' 1) by auto.
  rewrite (bigsum_ext M m m') by auto.
  rewrite (bigsum_ext M _ (fun k => m' k * (f' k - spec_moment M m' f' 1) ^ i)); auto. intros. rewrite H, H'; auto.
Qed.

(** ** logarithms *)
Lemma ln_le_sub : forall x, 0 < x -> ln x <= x - 1.
Proof. intros x Hx. pose proof (exp_ineq1_le (ln x)) as H. rewrite exp_ln in H by auto. lra. Qed.
Lemma ln_lt_sub : forall x, 0 < x -> x <> 1 -> ln x < x - 1.
Proof.
  intros x Hx H1. assert (ln x <> 0). { intros E. apply H1. rewrite <- (exp_ln x), E by auto. apply exp_0. }
  pose proof (exp_ineq1 (ln x) H) as K. rewrite exp_ln in K by auto. lra.
Qed.

Lemma ln_quot : forall x y, 0 < x -> 0 < y -> ln (x / y) = ln x - ln y.
Proof. intros. unfold Rdiv. rewrite ln_mult, ln_Rinv by (auto; apply Rinv_0_lt_compat; auto). ring. Qed.
Lemma bigsum_le_eq : forall n f g, (forall k, (k < n)%nat -> f k <= g k) -> bigsum n g <= bigsum n f ->
  forall k, (k < n)%nat -> f k = g k.
Proof.
  intros n f g H E k Hk. assert (g k - f k = 0); [|lra].
  apply (bigsum_eq0 n (fun k => g k - f k)); auto.
  - intros j Hj. specialize (H j Hj). lra.
  - rewrite bigsum_minus. pose proof (bigsum_le n f g H). lra.
Qed.

(** ** flatness *)
Lemma gmean_pos : forall M m, (0 < M)%nat -> (forall k, (k < M)%nat -> 0 < m k) ->
  gmean (fvec M m) = Fin (exp (spec_avg M (fun k => ln (m k)))).
Proof.
  intros M m HM H. unfold gmean.
  replace (map flog (fvec M m)) with (fvec M (fun k => ln (m k))).
  - rewrite fmean_fvec by auto. reflexivity.
  - unfold fvec. rewrite map_map. apply map_ext_in. intros k Hk. apply in_seq in Hk. rewrite flog_pos; auto. apply H. lia.
Qed.
Lemma fsum_NInf : forall l, (forall v, In v l -> v = NInf \/ finite v) -> In NInf l -> fsum l = NInf.
Proof.
  assert (A : forall l, (forall v, In v l -> v = NInf \/ finite v) -> fsum l = NInf \/ finite (fsum l)).
  { induction l as [|x l IH]; intros H; [right; exists 0; reflexivity|].
    destruct IH as [E|[r E]]; [intros; apply H; right; auto| |]; unfold fsum in *; cbn [fold_right]; rewrite E;
      destruct (H x (or_introl eq_refl)) as [->|[q ->]]; cbn [fadd]; auto; right; eexists; reflexivity. }
  induction l as [|x l IH]; intros H Hin; [contradiction|].
  assert (Hl : forall v, In v l -> v = NInf \/ finite v) by (intros; apply H; right; auto).
  unfold fsum; cbn [fold_right]; change (fold_right fadd f0 l) with (fsum l).
  destruct (A l Hl) as [E|[r E]].
  - rewrite E. destruct (H x (or_introl eq_refl)) as [->|[q ->]]; reflexivity.
  - destruct Hin as [->|Hin]; [rewrite E; reflexivity|]. rewrite (IH Hl Hin) in E. discriminate.
Qed.
Lemma gmean_zero : forall M m k, (forall k, (k < M)%nat -> 0 <= m k) -> (k < M)%nat -> m k = 0 -> gmean (fvec M m) = Fin 0.
Proof.
  intros M m k Hm Hk H0. unfold gmean, fmean. rewrite fsum_NInf.
  - rewrite map_length, fvec_length. unfold fnat. cbn [fdiv]. assert (0 < INR M) by (apply lt_0_INR; lia).
    destruct (Rlt_dec (INR M) 0); [lra|]. reflexivity.
  - intros v Hv. unfold fvec in Hv. rewrite map_map in Hv. apply in_map_iff in Hv as (j & <- & Hj). apply in_seq in Hj.
    specialize (Hm j ltac:(lia)). cbn [flog]. destruct (Rlt_dec 0 (m j)); [right; eexists; reflexivity|].
    destruct (Req_EM_T (m j) 0); [auto|lra].
  - unfold fvec. rewrite map_map. apply in_map_iff. exists k. split; [|apply in_seq; lia]. rewrite H0. cbn [flog].
    destruct (Rlt_dec 0 0); [lra|]. destruct (Req_EM_T 0 0); [auto|lra].
Qed.
Lemma am_gm : forall M m, (0 < M)%nat -> (forall k, (k < M)%nat -> 0 < m k) ->
  exp (spec_avg M (fun k => ln (m k))) <= spec_avg M m /\
  (exp (spec_avg M (fun k => ln (m k))) = spec_avg M m -> forall k, (k < M)%nat -> m k = spec_avg M m).
Proof.
  intros M m HM H. assert (HN : 0 < INR M) by (apply lt_0_INR; auto).
  set (a := spec_avg M m).
  assert (Ha : 0 < a).
  { unfold a, spec_avg. apply Rdiv_lt_0_compat; auto. apply (bigsum_pos M m O); auto. intros; left; auto. }
  assert (Hsum : bigsum M (fun k => m k / a - 1) = 0).
  { rewrite bigsum_minus, bigsum_div, bigsum_const. unfold a, spec_avg. field.
    split; [lra|]. unfold a, spec_avg in Ha. intros E. rewrite E in Ha. unfold Rdiv in Ha. lra. }
  assert (Hle : forall k, (k < M)%nat -> ln (m k / a) <= m k / a - 1).
  { intros k Hk. apply ln_le_sub, Rdiv_lt_0_compat; auto. }
  assert (Hln : bigsum M (fun k => ln (m k / a)) = INR M * (spec_avg M (fun k => ln (m k)) - ln a)).
  { rewrite (bigsum_ext _ _ (fun k => ln (m k) - ln a)) by (intros; apply ln_quot; auto).
    rewrite bigsum_minus, bigsum_const. unfold spec_avg. field. lra. }
  assert (Hb : bigsum M (fun k => ln (m k / a)) <= 0) by (rewrite <- Hsum; apply bigsum_le; auto).
  split.
  - rewrite <- (exp_ln a) by auto. destruct (Rle_lt_dec (spec_avg M (fun k => ln (m k))) (ln a)) as [Hl|Hl]; [|exfalso; nra].
    destruct Hl as [Hl|Hl]; [left; apply exp_increasing; auto|rewrite Hl; lra].
  - intros E k Hk. assert (El : spec_avg M (fun k => ln (m k)) = ln a) by (rewrite <- E, ln_exp; auto).
    assert (Ek : ln (m k / a) = m k / a - 1).
    { apply (bigsum_le_eq M (fun k => ln (m k / a)) (fun k => m k / a - 1)); auto. rewrite Hsum, Hln, El. lra. }
    destruct (Req_dec (m k / a) 1) as [E1|N1].
    + apply Rmult_eq_reg_r with (/ a); [|apply Rinv_neq_0_compat; lra]. rewrite Rinv_r by lra. exact E1.
    + exfalso. pose proof (ln_lt_sub (m k / a) ltac:(apply Rdiv_lt_0_compat; auto) N1). lra.
Qed.
Lemma spec_avg_pos : forall M m, (0 < M)%nat -> (forall k, (k < M)%nat -> 0 <= m k) -> bigsum M m <> 0 -> 0 < spec_avg M m.
Proof.
  intros M m HM Hm Hs. assert (0 <= bigsum M m) by (apply bigsum_nonneg; auto). apply Rdiv_lt_0_compat; [lra|apply lt_0_INR; auto].
Qed.
Lemma flatness_cvec : forall M re im, (0 < M)%nat -> bigsum M (cmag re im) <> 0 ->
  spectral_flatness (cvec M re im)
  = Fin (if existsb (fun k => Reqb (cmag re im k) 0) (seq 0 M) then 0
         else exp (spec_avg M (fun k => ln (cmag re im k))) / spec_avg M (cmag re im)).
Proof.
  intros M re im HM Hs. unfold spectral_flatness. rewrite magnitude_cvec, fmean_fvec by auto. fold (spec_avg M (cmag re im)).
  assert (Ha : 0 < spec_avg M (cmag re im)) by (apply spec_avg_pos; auto; intros; apply cmag_nonneg).
  destruct (existsb _ (seq 0 M)) eqn:Ex.
  - apply existsb_exists in Ex as (k & Hk & E). apply in_seq in Hk. unfold Reqb in E. destruct (Req_EM_T (cmag re im k) 0); [|discriminate].
    rewrite (gmean_zero M _ k) by (auto; try lia; intros; apply cmag_nonneg). rewrite fdiv_Fin by lra. f_equal. unfold Rdiv. ring.
  - rewrite gmean_pos; auto; [apply fdiv_Fin; lra|]. intros k Hk. pose proof (cmag_nonneg re im k).
    destruct (Req_dec (cmag re im k) 0) as [E|]; [exfalso|lra].
    assert (existsb (fun k => Reqb (cmag re im k) 0) (seq 0 M) = true); [|congruence].
    apply existsb_exists. exists k. split; [apply in_seq; lia|]. rewrite E. apply Reqb_refl.
Qed.

(** ** entropy *)
Lemma entropy_cvec : forall M re im, (2 <= M)%nat -> (forall k, (k < M)%nat -> 0 < cmag re im k) ->
  spectral_entropy (cvec M re im) = Fin (- bigsum M (fun k => cmag re im k * ln (cmag re im k)) / ln (INR M)).
Proof.
  intros M re im HM H. unfold spectral_entropy. rewrite magnitude_cvec, fvec_length. unfold fnat.
  assert (HN : 1 < INR M) by (change 1 with (INR 1); apply lt_INR; lia).
  rewrite (flog_pos (INR M)) by lra. assert (0 < ln (INR M)) by (rewrite <- ln_1; apply ln_increasing; lra).
  replace (map flog (fvec M (cmag re im))) with (fvec M (fun k => ln (cmag re im k))).
  - rewrite (fvec_map2 M _ _ fmul Rmult) by reflexivity. rewrite fsum_fvec. cbn [fmul]. rewrite fdiv_Fin by lra. do 2 f_equal. ring.
  - unfold fvec. rewrite map_map. apply map_ext_in. intros k Hk. apply in_seq in Hk. rewrite flog_pos; auto. apply H. lia.
Qed.
Lemma entropy_zero_bin : forall M re im k, (k < M)%nat -> cmag re im k = 0 -> spectral_entropy (cvec M re im) = NaN.
Proof.
  intros M re im k Hk H0. unfold spectral_entropy. rewrite magnitude_cvec. rewrite fsum_NaN; [reflexivity|].
  unfold fvec. rewrite map_map, map2_map_same. apply in_map_iff. exists k. split; [|apply in_seq; lia].
  rewrite H0. cbn [flog]. destruct (Rlt_dec 0 0); [lra|]. destruct (Req_EM_T 0 0); [|lra].
  cbn [fmul]. rewrite Ropp_0. unfold finfmul. destruct (Req_EM_T 0 0); [auto|lra].
Qed.
Lemma gibbs : forall M m, (1 <= M)%nat -> (forall k, (k < M)%nat -> 0 < m k) -> bigsum M m = 1 ->
  0 <= - bigsum M (fun k => m k * ln (m k)) <= ln (INR M).
Proof.
  intros M m HM H Hs. assert (HN : 0 < INR M) by (apply lt_0_INR; lia). split.
  - rewrite <- bigsum_opp. apply bigsum_nonneg. intros k Hk. assert (m k <= 1).
    { rewrite <- Hs. apply bigsum_ge_term; auto. intros; left; auto. }
    assert (ln (m k) <= 0). { rewrite <- ln_1. destruct (Req_dec (m k) 1) as [->|]; [lra|]. left. apply ln_increasing; auto. lra. }
    specialize (H k Hk). nra.
  - assert (K : bigsum M (fun k => m k * ln (/ (INR M * m k))) <= 0).
    { apply Rle_trans with (bigsum M (fun k => / INR M - m k)).
      - apply bigsum_le. intros k Hk. specialize (H k Hk).
        assert (0 < INR M * m k) by (apply Rmult_lt_0_compat; auto).
        pose proof (ln_le_sub (/ (INR M * m k)) ltac:(apply Rinv_0_lt_compat; auto)) as L.
        apply Rle_trans with (m k * (/ (INR M * m k) - 1)); [apply Rmult_le_compat_l; lra|]. right. field. lra.
      - rewrite bigsum_minus, bigsum_const, Hs. right. field. lra. }
    rewrite (bigsum_ext _ _ (fun k => - (m k * ln (m k)) - m k * ln (INR M))) in K.
    + rewrite bigsum_minus, bigsum_opp, bigsum_scal_r, Hs in K. lra.
    + intros k Hk. specialize (H k Hk). rewrite ln_Rinv by (apply Rmult_lt_0_compat; auto). rewrite ln_mult by auto. ring.
Qed.

(** ** spread *)
Lemma spread_cvec : forall M re im fs, (0 < M)%nat -> (0 < fs)%Z -> bigsum M (cmag re im) <> 0 ->
  spectral_spread fs (cvec M re im)
  = Ok (fvec M (fun k => Rabs (bigsum M (fun j => bin_freq fs M j - spec_moment M (cmag re im) (bin_freq fs M) 1))
                         * sqrt (cmag re im k / bigsum M (cmag re im)))).
Proof.
  intros M re im fs HM Hfs Hs. unfold spectral_spread. rewrite abs_freqs_cvec by auto. cbn [rbind].
  rewrite centroid_cvec by auto. cbn [rbind]. rewrite magnitude_cvec.
  set (mu := spec_moment M (cmag re im) (bin_freq fs M) 1).
  rewrite (fvec_map M _ (fun f => fsub f (Fin mu)) (fun v => v - mu)) by reflexivity.
  rewrite !fsum_fvec, fpown_Fin. set (S := bigsum M (fun i => bin_freq fs M i - mu)). f_equal.
  unfold fvec. rewrite map_map. apply map_ext. intros k. cbn [fmul]. rewrite fdiv_Fin by auto.
  assert (Hp : 0 <= bigsum M (cmag re im)) by (apply bigsum_nonneg; intros; apply cmag_nonneg).
  assert (Hq : 0 <= cmag re im k / bigsum M (cmag re im)).
  { apply Rmult_le_pos; [apply cmag_nonneg|left; apply Rinv_0_lt_compat; lra]. }
  replace (S ^ 2 * cmag re im k / bigsum M (cmag re im)) with (Rsqr S * (cmag re im k / bigsum M (cmag re im)))
    by (unfold Rsqr, Rdiv; ring).
  rewrite fsqrt_nonneg by (apply Rmult_le_pos; auto; apply Rle_0_sqr). f_equal.
  rewrite sqrt_mult, sqrt_Rsqr_abs by (auto; apply Rle_0_sqr). reflexivity.
Qed.
Lemma spread_silent : forall M re im fs, (0 < M)%nat -> (0 < fs)%Z -> bigsum M (cmag re im) = 0 ->
  spectral_spread fs (cvec M re im) = Ok (repeat NaN M).
Proof.
  intros M re im fs HM Hfs Hs. unfold spectral_spread. rewrite abs_freqs_cvec by auto. cbn [rbind].
  rewrite centroid_silent by auto. cbn [rbind]. rewrite magnitude_cvec. f_equal.
  rewrite fsum_NaN.
  - change (fpown NaN 2) with NaN. apply (list_eq_nth _ NaN); rewrite map_length, fvec_length, ?repeat_length; auto.
    intros i Hi. rewrite (nth_map F F _ _ i NaN NaN) by (rewrite fvec_length; auto). rewrite nth_repeat. reflexivity.
  - destruct M; [lia|]. rewrite fvec_S. cbn [map fsub fneg fadd]. left. reflexivity.
Qed.
Lemma moment_silent : forall p M re im fs, (1 <= p)%nat -> (0 < M)%nat -> (0 < fs)%Z -> bigsum M (cmag re im) = 0 ->
  spectral_moment p fs (cvec M re im) = Ok NaN.
Proof.
  intros p M re im fs Hp HM Hfs Hs. unfold spectral_moment. rewrite !centroid_silent by auto. cbn [rbind].
  rewrite abs_freqs_cvec by auto. cbn [rbind]. rewrite magnitude_cvec, fsum_fvec. destruct p; [lia|].
  change (fpown NaN (S p)) with NaN. rewrite fsum_NaN; [reflexivity|].
  destruct M; [lia|]. rewrite !fvec_S. cbn [map map2 fsub fneg fadd fpown fmul]. left. reflexivity.
Qed.
Lemma flatness_silent : forall M re im, (0 < M)%nat -> bigsum M (cmag re im) = 0 -> spectral_flatness (cvec M re im) = NaN.
Proof.
  intros M re im HM Hs. unfold spectral_flatness. rewrite magnitude_cvec, fmean_fvec, Hs by auto.
  rewrite (gmean_zero M _ 0) by (auto; try (intros; apply cmag_nonneg); apply (silent_mag M); auto; intros; apply cmag_nonneg).
  unfold Rdiv at 1. rewrite Rmult_0_l. cbn [fdiv]. destruct (Req_EM_T 0 0); [|lra]. unfold finfmul. destruct (Req_EM_T 0 0); [auto|lra].
Qed.

(** ** flux *)
Lemma np_diff_fvec : forall M m, np_diff (fvec M m) = fvec (M - 1) (fun k => m (S k) - m k).
Proof.
  intros M m. unfold np_diff. destruct M; [reflexivity|]. replace (S M - 1)%nat with M by lia.
  rewrite fvec_S at 1. cbn [tl]. apply (list_eq_nth _ NaN).
  - rewrite map2_length, !fvec_length. lia.
  - intros i Hi. rewrite map2_length, !fvec_length in Hi. rewrite (map2_nth _ _ _ _ _ _ NaN NaN NaN i), !fvec_nth by
      (rewrite ?fvec_length; lia). reflexivity.
Qed.
Lemma pow_strict : forall p a b, (1 <= p)%nat -> 0 <= a < b -> a ^ p < b ^ p.
Proof.
  intros p a b Hp H. induction p; [lia|]. cbn [pow]. destruct p; [cbn [pow]; lra|].
  specialize (IHp ltac:(lia)). assert (0 <= a ^ S p) by (apply pow_le; lra). apply Rmult_le_0_lt_compat; lra.
Qed.
Lemma pow_inj_nonneg : forall p a b, (1 <= p)%nat -> 0 <= a -> 0 <= b -> a ^ p = b ^ p -> a = b.
Proof.
  intros p a b Hp Ha Hb E. destruct (Rtotal_order a b) as [H|[H|H]]; auto; exfalso.
  - pose proof (pow_strict p a b Hp ltac:(lra)). lra.
  - pose proof (pow_strict p b a Hp ltac:(lra)). lra.
Qed.
Lemma flux_cvec : forall M re im p, (1 <= p)%nat -> exists v, spectral_flux (cvec M re im) p = Ok (Fin v) /\ 0 <= v /\
  v ^ p = bigsum (M - 1) (fun k => Rabs (cmag re im (S k) - cmag re im k) ^ p).
Proof.
  intros M re im p Hp. unfold spectral_flux. rewrite (proj2 (Nat.eqb_neq p 0)) by lia.
  rewrite magnitude_cvec, np_diff_fvec.
  rewrite (fvec_map _ _ (fun d => fpown (fabs d) p) (fun v => Rabs v ^ p)) by (intros; cbn [fabs]; apply fpown_Fin).
  rewrite fsum_fvec. set (s := bigsum _ _).
  assert (Hs : 0 <= s) by (apply bigsum_nonneg; intros; apply pow_le, Rabs_pos).
  assert (HP : 0 < INR p) by (apply lt_0_INR; lia).
  assert (Hq : 0 < 1 / INR p) by (apply Rdiv_lt_0_compat; lra).
  unfold fpow. destruct (Req_EM_T (1 / INR p) 0); [lra|]. destruct (Rlt_dec 0 s).
  - exists (Rpower s (1 / INR p)). split; auto. split; [left; apply exp_pos|].
    rewrite <- Rpower_pow by apply exp_pos. rewrite Rpower_mult. replace (1 / INR p * INR p) with 1 by (field; lra).
    apply Rpower_1. auto.
  - destruct (Req_EM_T s 0) as [E|]; [|lra]. destruct (Rlt_dec 0 (1 / INR p)); [|lra]. exists 0.
    split; auto. split; [lra|]. rewrite E. apply pow_i. lia.
Qed.
Lemma flux_zero_iff : forall M re im p, (1 <= p)%nat ->
  (spectral_flux (cvec M re im) p = Ok (Fin 0) <-> forall k, (k < M)%nat -> cmag re im k = cmag re im 0).
Proof.
  intros M re im p Hp. destruct (flux_cvec M re im p Hp) as (v & -> & Hv & E). split.
  - intros H. apply Ok_inj, Fin_inj in H. subst v. rewrite pow_i in E by lia. symmetry in E.
    assert (Z : forall k, (k < M - 1)%nat -> cmag re im (S k) = cmag re im k).
    { intros k Hk. pose proof (bigsum_eq0 _ _ ltac:(intros; apply pow_le, Rabs_pos) E k Hk) as K. cbv beta in K.
      destruct (Req_dec (cmag re im (S k) - cmag re im k) 0); [lra|].
      exfalso. apply (pow_nonzero (Rabs (cmag re im (S k) - cmag re im k)) p); auto. apply Rabs_no_R0; auto. }
    induction k; intros Hk; auto. rewrite Z by lia. apply IHk. lia.
  - intros H. do 2 f_equal. apply (pow_inj_nonneg p); auto; try lra. rewrite E, pow_i by lia. apply bigsum_zero.
    intros k Hk. rewrite (H (S k)), (H k) by lia. rewrite Rminus_diag_eq, Rabs_R0 by auto. apply pow_i. lia.
Qed.
Lemma flux_gain : forall M re im p g, (1 <= p)%nat ->
  exists v, spectral_flux (cvec M re im) p = Ok (Fin v) /\
  spectral_flux (cvec M (fun k => g * re k) (fun k => g * im k)) p = Ok (Fin (Rabs g * v)).
Proof.
  intros M re im p g Hp. destruct (flux_cvec M re im p Hp) as (v & -> & Hv & E). exists v. split; auto.
  destruct (flux_cvec M (fun k => g * re k) (fun k => g * im k) p Hp) as (w & -> & Hw & E'). do 2 f_equal.
  apply (pow_inj_nonneg p); auto; [apply Rmult_le_pos; auto; apply Rabs_pos|].
  rewrite E', Rpow_mult_distr, E, <- bigsum_scal. apply bigsum_ext. intros k Hk. unfold cmag. rewrite !spec_abs_scal.
  rewrite <- Rmult_minus_distr_l, Rabs_mult, Rabs_Rabsolu, Rpow_mult_distr. reflexivity.
Qed.

(** ** mean, variance and root mean square *)
Lemma csum_cvec : forall M re im, csum (cvec M re im) = (Fin (bigsum M re), Fin (bigsum M im)).
Proof.
  intros M re im. rewrite <- (fsum_fvec M re), <- (fsum_fvec M im). unfold cvec, fvec, csum, fsum.
  induction (seq 0 M) as [|k l IH]; [reflexivity|]. cbn [map fold_right]. rewrite IH. reflexivity.
Qed.
Lemma cmean_cvec : forall M re im, (0 < M)%nat -> cmean (cvec M re im) = (Fin (spec_avg M re), Fin (spec_avg M im)).
Proof.
  intros M re im HM. unfold cmean, fnat. rewrite csum_cvec, cvec_length. cbn [fst snd].
  rewrite !fdiv_Fin by (apply not_0_INR; lia). reflexivity.
Qed.
Lemma cvar_cvec : forall M re im, (0 < M)%nat ->
  cvar (cvec M re im)
  = Fin (spec_avg M (fun k => re k ^ 2 + im k ^ 2) - (spec_avg M re ^ 2 + spec_avg M im ^ 2)).
Proof.
  intros M re im HM. unfold cvar. rewrite cmean_cvec by auto. unfold cvec. rewrite map_map.
  set (a := spec_avg M re). set (b := spec_avg M im).
  rewrite (map_ext _ (fun k => Fin ((re k - a) * (re k - a) + (im k - b) * (im k - b)))) by reflexivity.
  change (map _ (seq 0 M)) with (fvec M (fun k => (re k - a) * (re k - a) + (im k - b) * (im k - b))).
  rewrite fmean_fvec by auto. f_equal. assert (HN : INR M <> 0) by (apply not_0_INR; lia).
  rewrite (bigsum_ext _ _ (fun k => (re k ^ 2 + im k ^ 2) - ((2 * a) * re k + (2 * b) * im k) + (a ^ 2 + b ^ 2))) by (intros; ring).
  rewrite bigsum_plus, bigsum_minus, (bigsum_plus M (fun k => 2 * a * re k)), !bigsum_scal, bigsum_const.
  assert (Ea : bigsum M re = INR M * a) by (unfold a, spec_avg; field; auto).
  assert (Eb : bigsum M im = INR M * b) by (unfold b, spec_avg; field; auto).
  rewrite Ea, Eb. unfold spec_avg. field. auto.
Qed.
Lemma cvar_nonneg : forall M re im, (0 < M)%nat ->
  0 <= spec_avg M (fun k => re k ^ 2 + im k ^ 2) - (spec_avg M re ^ 2 + spec_avg M im ^ 2).
Proof.
  intros M re im HM. pose proof (cvar_cvec M re im HM) as E. unfold cvar in E. rewrite cmean_cvec in E by auto. unfold cvec in E. rewrite map_map in E.
  set (a := spec_avg M re) in *. set (b := spec_avg M im) in *.
  rewrite (map_ext _ (fun k => Fin ((re k - a) * (re k - a) + (im k - b) * (im k - b)))) in E by reflexivity.
  change (map _ (seq 0 M)) with (fvec M (fun k => (re k - a) * (re k - a) + (im k - b) * (im k - b))) in E.
  rewrite fmean_fvec in E by auto. apply Fin_inj in E. rewrite <- E. apply Rmult_le_pos.
  - apply bigsum_nonneg. intros. pose proof (Rle_0_sqr (re i - a)). pose proof (Rle_0_sqr (im i - b)). unfold Rsqr in *. lra.
  - left. apply Rinv_0_lt_compat, lt_0_INR. auto.
Qed.
Lemma csqrt_Fin : forall a b, exists p q, csqrt (Fin a, Fin b) = (Fin p, Fin q) /\ 0 <= p /\
  p ^ 2 - q ^ 2 = a /\ 2 * p * q = b /\ p ^ 2 + q ^ 2 = spec_abs a b.
Proof.
  intros a b. unfold csqrt. change (Fin a, Fin b) with (emb (a, b)). rewrite cabs_emb. cbn [emb fst snd].
  change (Cmod (a, b)) with (spec_abs a b). set (m := spec_abs a b).
  assert (Hm : m * m = a ^ 2 + b ^ 2) by apply spec_abs_sq. assert (H0 : 0 <= m) by apply spec_abs_nonneg.
  pose proof (pow2_ge_0 b) as Hb. assert (H1 : a <= m) by (destruct (Rle_lt_dec a m); auto; nra).
  assert (H2 : - m <= a) by (destruct (Rle_lt_dec (- m) a); auto; nra).
  cbn [fadd fsub fneg]. rewrite !fdiv_Fin by lra. rewrite !fsqrt_nonneg by (unfold Rdiv; nra).
  set (p := sqrt ((m + a) / 2)). set (q := sqrt ((m + - a) / 2)).
  assert (Hp : p * p = (m + a) / 2) by (apply sqrt_sqrt; lra). assert (Hq : q * q = (m + - a) / 2) by (apply sqrt_sqrt; lra).
  assert (Hp0 : 0 <= p) by apply sqrt_pos. assert (Hq0 : 0 <= q) by apply sqrt_pos.
  assert (Hpq : 2 * p * q = Rabs b).
  { apply Rsqr_inj; [nra|apply Rabs_pos|]. rewrite <- Rsqr_abs. unfold Rsqr.
    transitivity (4 * (p * p) * (q * q)); [ring|]. rewrite Hp, Hq. nra. }
  unfold fltb, f0. destruct (Rlt_dec b 0) as [Hn|Hn].
  - rewrite Rltb_true by auto. exists p, (- q). rewrite Rabs_left in Hpq by auto. repeat split; auto; nra.
  - rewrite Rltb_false by lra. exists p, q. rewrite Rabs_pos_eq in Hpq by lra. repeat split; auto; nra.
Qed.
Lemma square_cvec : forall M re im, map (fun z => cmul z z) (cvec M re im)
  = cvec M (fun k => re k ^ 2 - im k ^ 2) (fun k => 2 * re k * im k).
Proof.
  intros. unfold cvec. rewrite map_map. apply map_ext. intros k. unfold cmul. cbn [fst snd fmul fsub fneg fadd].
  f_equal; f_equal; ring.
Qed.
Lemma spec_abs_triangle : forall M u v, spec_abs (bigsum M u) (bigsum M v) <= bigsum M (fun k => spec_abs (u k) (v k)).
Proof.
  intros M u v. induction M.
  - cbn [bigsum]. replace (spec_abs 0 0) with 0; [lra|]. symmetry. apply spec_abs_zero. auto.
  - rewrite !bigsum_S. eapply Rle_trans; [|apply Rplus_le_compat_r, IHM].
    apply (Cmod_triangle (bigsum M u, bigsum M v) (u M, v M)).
Qed.
Lemma rms_cvec : forall M re im, (0 < M)%nat -> exists p q,
  csqrt (cmean (map (fun z => cmul z z) (cvec M re im))) = (Fin p, Fin q) /\ 0 <= p /\
  p ^ 2 - q ^ 2 = spec_avg M (fun k => re k ^ 2 - im k ^ 2) /\ 2 * p * q = spec_avg M (fun k => 2 * re k * im k) /\
  p ^ 2 + q ^ 2 <= spec_avg M (fun k => re k ^ 2 + im k ^ 2).
Proof.
  intros M re im HM. rewrite square_cvec, cmean_cvec by auto.
  destruct (csqrt_Fin (spec_avg M (fun k => re k ^ 2 - im k ^ 2)) (spec_avg M (fun k => 2 * re k * im k))) as (p & q & E & A & B & C & D).
  exists p, q. repeat split; auto. rewrite D. assert (HN : 0 < INR M) by (apply lt_0_INR; auto).
  unfold spec_avg, Rdiv. rewrite (Rmult_comm (bigsum M _)), (Rmult_comm (bigsum M (fun k => 2 * re k * im k))).
  rewrite spec_abs_scal, Rabs_pos_eq by (left; apply Rinv_0_lt_compat; auto). rewrite (Rmult_comm (bigsum M _)).
  apply Rmult_le_compat_l; [left; apply Rinv_0_lt_compat; auto|]. eapply Rle_trans; [apply spec_abs_triangle|].
  right. apply bigsum_ext. intros k Hk. unfold spec_abs.
  replace ((re k ^ 2 - im k ^ 2) ^ 2 + (2 * re k * im k) ^ 2) with (Rsqr (re k ^ 2 + im k ^ 2)) by (unfold Rsqr; ring).
  apply sqrt_Rsqr. pose proof (pow2_ge_0 (re k)). pose proof (pow2_ge_0 (im k)). lra.
Qed.

(** ** extract_feats *)
Lemma rfft_cvec : forall L x n, (1 <= n)%nat ->
  np_rfft [fvec L x] (Z.of_nat n) = Ok [cvec (S (n / 2)) (spec_re n L x) (spec_im n L x)].
Proof.
  intros L x n Hn. unfold np_rfft. rewrite (proj2 (Z.ltb_ge _ _)), Nat2Z.id by lia. do 2 f_equal. cbn [map]. f_equal.
  unfold cvec. apply map_ext. intros k. apply dft_bin_fvec.
Qed.
Lemma spec_re_gain : forall n L f g k, spec_re n L (fun t => g * f t) k = g * spec_re n L f k.
Proof. intros. unfold spec_re. rewrite <- bigsum_scal. apply bigsum_ext. intros. ring. Qed.
Lemma spec_im_gain : forall n L f g k, spec_im n L (fun t => g * f t) k = g * spec_im n L f k.
Proof. intros. unfold spec_im. rewrite <- bigsum_scal. apply bigsum_ext. intros. ring. Qed.
Lemma cvec_ext : forall M re im re' im', (forall k, (k < M)%nat -> re k = re' k) -> (forall k, (k < M)%nat -> im k = im' k) ->
  cvec M re im = cvec M re' im'.
Proof. intros. unfold cvec. apply map_ext_in. intros k Hk. apply in_seq in Hk. rewrite H, H0 by lia. auto. Qed.


(** ** statements used by the properties *)
Lemma heard : forall M re im, (exists k, (k < M)%nat /\ (re k <> 0 \/ im k <> 0)) -> bigsum M (cmag re im) <> 0.
Proof.
  intros M re im (k & Hk & Hn) E. assert (K : cmag re im k = 0).
  { apply (bigsum_eq0 M); auto. intros; apply cmag_nonneg. }
  apply spec_abs_zero in K. tauto.
Qed.
Lemma all_heard : forall M re im, (forall k, (k < M)%nat -> re k <> 0 \/ im k <> 0) -> forall k, (k < M)%nat -> 0 < cmag re im k.
Proof.
  intros M re im H k Hk. pose proof (cmag_nonneg re im k). destruct (Req_dec (cmag re im k) 0) as [E|]; [|lra].
  apply spec_abs_zero in E. specialize (H k Hk). tauto.
Qed.
Lemma silent0 : forall M, bigsum M (cmag (fun _ => 0) (fun _ => 0)) = 0.
Proof. intros. apply bigsum_zero. intros. apply spec_abs_zero. auto. Qed.
Lemma mag_gain : forall re im g k, cmag (fun k => g * re k) (fun k => g * im k) k = Rabs g * cmag re im k.
Proof. intros. apply spec_abs_scal. Qed.
Lemma sum_gain : forall M re im g, bigsum M (cmag (fun k => g * re k) (fun k => g * im k)) = Rabs g * bigsum M (cmag re im).
Proof. intros. rewrite <- bigsum_scal. apply bigsum_ext. intros; apply mag_gain. Qed.
Lemma centroid_gain : forall M re im fs g i, (0 < M)%nat -> (0 < fs)%Z -> g <> 0 ->
  spectral_centroid fs (cvec M (fun k => g * re k) (fun k => g * im k)) i = spectral_centroid fs (cvec M re im) i.
Proof.
  intros M re im fs g i HM Hfs Hg. assert (Rabs g <> 0) by (apply Rabs_no_R0; auto).
  destruct (Req_dec (bigsum M (cmag re im)) 0) as [E|E].
  - rewrite !centroid_silent; auto. rewrite sum_gain, E. ring.
  - rewrite !centroid_cvec; auto; [|apply bigsum_mag_gain; auto]. do 2 f_equal.
    rewrite <- (spec_moment_gain M (cmag re im) _ i (Rabs g)) by auto. apply spec_moment_ext; intros; auto. apply mag_gain.
Qed.
Lemma moment_gain : forall p M re im fs g, (1 <= p)%nat -> (0 < M)%nat -> (0 < fs)%Z -> g <> 0 ->
  spectral_moment p fs (cvec M (fun k => g * re k) (fun k => g * im k)) = spectral_moment p fs (cvec M re im).
Proof.
  intros p M re im fs g Hp HM Hfs Hg. assert (Rabs g <> 0) by (apply Rabs_no_R0; auto).
  destruct (Req_dec (bigsum M (cmag re im)) 0) as [E|E].
  - rewrite !moment_silent; auto. rewrite sum_gain, E. ring.
  - assert (E' : bigsum M (cmag (fun k => g * re k) (fun k => g * im k)) <> 0) by (apply bigsum_mag_gain; auto).
    assert (K : forall i, spec_moment M (cmag (fun k => g * re k) (fun k => g * im k)) (bin_freq fs M) i
                = spec_moment M (cmag re im) (bin_freq fs M) i).
    { intros i. rewrite <- (spec_moment_gain M (cmag re im) _ i (Rabs g)) by auto. apply spec_moment_ext; intros; auto. apply mag_gain. }
    assert (K' : spec_central M (cmag (fun k => g * re k) (fun k => g * im k)) (bin_freq fs M) p
                = spec_central M (cmag re im) (bin_freq fs M) p).
    { rewrite <- (spec_central_gain M (cmag re im) _ p (Rabs g)) by auto. apply spec_central_ext; intros; auto. apply mag_gain. }
    destruct (Req_dec (spec_moment M (cmag re im) (bin_freq fs M) 2) 0) as [Z|Z].
    + rewrite !moment_zero; auto. rewrite K; auto.
    + rewrite !moment_cvec; auto; [|rewrite K; auto]. rewrite K, K'. reflexivity.
Qed.
Lemma centroid_single : forall M re im fs k, (k < M)%nat -> (0 < fs)%Z -> (re k <> 0 \/ im k <> 0) ->
  (forall j, (j < M)%nat -> j <> k -> re j = 0 /\ im j = 0) ->
  spectral_centroid fs (cvec M re im) 1 = Ok (Fin (INR (Nat.min k (M - k)) * IZR fs / INR M)).
Proof.
  intros M re im fs k Hk Hfs Hn Hz. assert (Hs := heard M re im (ex_intro _ k (conj Hk Hn))).
  rewrite centroid_cvec by (auto; lia). do 2 f_equal. unfold spec_moment.
  assert (Zm : forall j, (j < M)%nat -> j <> k -> cmag re im j = 0) by (intros; apply spec_abs_zero; auto).
  assert (D : forall f, bigsum M (fun j => cmag re im j * f j) = cmag re im k * f k).
  { intros f. rewrite (bigsum_ext _ _ (fun j => if Nat.eqb j k then cmag re im k * f k else 0)).
    - apply bigsum_delta; auto.
    - intros j Hj. destruct (Nat.eqb_spec j k) as [->|N]; auto. rewrite Zm by auto. ring. }
  rewrite D. rewrite (bigsum_ext _ (cmag re im) (fun j => cmag re im j * 1)) in * by (intros; ring). rewrite (D (fun _ => 1)) in *.
  unfold bin_freq, folded_bin. field. split; [apply not_0_INR; lia|]. intros E. apply Hs. rewrite E. ring.
Qed.
Lemma folded_true : forall n k fs, (3 <= n)%nat -> (k <= n / 2)%nat -> (0 < fs)%Z ->
  (INR (Nat.min k (S (n / 2) - k)) * IZR fs / INR (S (n / 2)) = INR k * IZR fs / INR n <-> k = O).
Proof.
  intros n k fs Hn Hk Hfs. apply IZR_lt in Hfs. set (h := (n / 2)%nat) in *. set (M := S h).
  assert (HM : 0 < INR M) by (apply lt_0_INR; lia). assert (HN : 0 < INR n) by (apply lt_0_INR; lia).
  assert (Hh : (n = 2 * h \/ n = 2 * h + 1)%nat).
  { pose proof (Nat.div_mod n 2 ltac:(lia)). pose proof (Nat.mod_upper_bound n 2 ltac:(lia)). fold h in H. lia. }
  split.
  - intros E. assert (K : (Nat.min k (M - k) * n = k * M)%nat).
    { apply INR_eq. rewrite !mult_INR. apply Rmult_eq_reg_r with (IZR fs / (INR M * INR n)).
      - transitivity (INR (Nat.min k (M - k)) * IZR fs / INR M); [field; lra|]. rewrite E. field; lra.
      - apply Rgt_not_eq, Rdiv_lt_0_compat; [lra|nra]. }
    clear E. clearbody h. unfold M in *. clear M HM HN.
    destruct (Nat.le_gt_cases k (S h - k)) as [L|L].
    + rewrite Nat.min_l in K by auto. destruct k as [|k]; [auto|exfalso]. apply Nat.mul_cancel_l in K; lia.
    + rewrite Nat.min_r in K by lia. exfalso. destruct Hh as [->| ->].
      * assert (E : ((3 * Z.of_nat h + 1) * (6 * Z.of_nat h + 4 - 9 * Z.of_nat k) = 4)%Z) by nia.
        set (u := (6 * Z.of_nat h + 4 - 9 * Z.of_nat k)%Z) in *. clearbody u. clear K. destruct (Z.le_gt_cases u 0); nia.
      * assert (E : ((3 * Z.of_nat h + 2) * (6 * Z.of_nat h + 5 - 9 * Z.of_nat k) = 1)%Z) by nia.
        set (u := (6 * Z.of_nat h + 5 - 9 * Z.of_nat k)%Z) in *. clearbody u. clear K. destruct (Z.le_gt_cases u 0); nia.
  - intros ->. cbn [Nat.min]. change (INR 0) with 0. unfold Rdiv. ring.
Qed.
Lemma moment2_pos : forall M re im fs k, (0 < fs)%Z -> (1 <= k < M)%nat -> (re k <> 0 \/ im k <> 0) ->
  spec_moment M (cmag re im) (bin_freq fs M) 2 <> 0.
Proof.
  intros M re im fs k Hfs Hk Hn E. assert (Hs := heard M re im (ex_intro _ k (conj (proj2 Hk) Hn))).
  unfold spec_moment, Rdiv in E. apply Rmult_integral in E as [E|E]; [|apply Rinv_neq_0_compat in Hs; auto].
  assert (K : cmag re im k * bin_freq fs M k ^ 2 = 0).
  { apply (bigsum_eq0 M (fun k => cmag re im k * bin_freq fs M k ^ 2)); auto; [|lia].
    intros. apply Rmult_le_pos; [apply cmag_nonneg|apply pow2_ge_0]. }
  apply Rmult_integral in K as [K|K].
  - apply spec_abs_zero in K. tauto.
  - apply (pow_nonzero (bin_freq fs M k) 2); auto. apply IZR_lt in Hfs. unfold bin_freq, folded_bin.
    apply Rgt_not_eq, Rdiv_lt_0_compat; [|apply lt_0_INR; lia]. apply Rmult_lt_0_compat; auto. apply lt_0_INR. lia.
Qed.
Lemma kurtosis_nonneg : forall M re im f,
  0 <= spec_central M (cmag re im) f 4 / spec_moment M (cmag re im) f 2 ^ 4.
Proof.
  intros. assert (P4 : forall x, 0 <= x ^ 4) by (intros; replace (x ^ 4) with ((x ^ 2) ^ 2) by ring; apply pow2_ge_0).
  assert (Q : forall x y, 0 <= x -> 0 <= y -> 0 <= x / y).
  { intros x y Hx [Hy|<-]; [apply Rmult_le_pos; auto; left; apply Rinv_0_lt_compat; auto|]. unfold Rdiv. rewrite Rinv_0. lra. }
  apply Q; auto. apply Q; [apply bigsum_nonneg; intros; apply Rmult_le_pos; [apply cmag_nonneg|auto]|].
  apply bigsum_nonneg; intros; apply cmag_nonneg.
Qed.
Lemma moment_unit : forall p M m fs c, IZR c <> 0 ->
  spec_central M m (bin_freq (c * fs) M) p / spec_moment M m (bin_freq (c * fs) M) 2 ^ p
  = spec_central M m (bin_freq fs M) p / spec_moment M m (bin_freq fs M) 2 ^ p / IZR c ^ p.
Proof.
  intros p M m fs c Hc.
  rewrite (spec_central_ext M m m (bin_freq (c * fs) M) (fun k => IZR c * bin_freq fs M k)) by (auto; intros; apply bin_freq_unit).
  rewrite (spec_moment_ext M m m (bin_freq (c * fs) M) (fun k => IZR c * bin_freq fs M k)) by (auto; intros; apply bin_freq_unit).
  rewrite spec_central_unit, spec_moment_unit, Rpow_mult_distr, <- pow_mult, Nat.mul_comm, pow_mult.
  set (u := IZR c ^ p). assert (u <> 0) by (apply pow_nonzero; auto). unfold Rdiv. rewrite Rinv_mult.
  replace (u ^ 2) with (u * u) by ring. rewrite Rinv_mult.
  set (A := spec_central M m (bin_freq fs M) p). set (B := / (_ ^ p)).
  transitivity (A * B * / u * (u * / u)); [ring|]. rewrite Rinv_r by auto. ring.
Qed.
Lemma moment_dc : forall p M re im fs, (1 <= p)%nat -> (0 < M)%nat -> (0 < fs)%Z ->
  (forall k, (1 <= k < M)%nat -> re k = 0 /\ im k = 0) -> spectral_moment p fs (cvec M re im) = Ok NaN.
Proof.
  intros p M re im fs Hp HM Hfs Hz. destruct (Req_dec (bigsum M (cmag re im)) 0) as [E|E]; [apply moment_silent; auto|].
  apply moment_zero; auto. unfold spec_moment. rewrite bigsum_zero; [unfold Rdiv; ring|]. intros k Hk. destruct k.
  - unfold bin_freq, folded_bin. cbn [Nat.min]. change (INR 0) with 0. unfold Rdiv. ring.
  - replace (cmag re im (S k)) with 0; [ring|]. symmetry. apply spec_abs_zero. apply Hz. lia.
Qed.
Lemma entropy_gain : forall M re im g, (2 <= M)%nat -> (forall k, (k < M)%nat -> re k <> 0 \/ im k <> 0) -> g <> 0 ->
  exists h, spectral_entropy (cvec M re im) = Fin h /\
  spectral_entropy (cvec M (fun k => g * re k) (fun k => g * im k))
  = Fin (Rabs g * h - Rabs g * ln (Rabs g) * bigsum M (cmag re im) / ln (INR M)).
Proof.
  intros M re im g HM Hn Hg. assert (Hp := all_heard M re im Hn). assert (Ha : 0 < Rabs g) by (apply Rabs_pos_lt; auto).
  assert (HN : 1 < INR M) by (change 1 with (INR 1); apply lt_INR; lia).
  assert (HL : 0 < ln (INR M)) by (rewrite <- ln_1; apply ln_increasing; lra).
  eexists. rewrite !entropy_cvec; auto.
  - split; [auto|]. f_equal.
    rewrite (bigsum_ext _ _ (fun k => Rabs g * (cmag re im k * ln (cmag re im k)) + (Rabs g * ln (Rabs g)) * cmag re im k)).
    + rewrite bigsum_plus, !bigsum_scal. field. lra.
    + intros k Hk. rewrite mag_gain, ln_mult by auto. ring.
  - intros k Hk. rewrite mag_gain. apply Rmult_lt_0_compat; auto.
Qed.
Lemma entropy_flat : forall M re im a, (2 <= M)%nat -> 0 < a -> (forall k, (k < M)%nat -> cmag re im k = a) ->
  spectral_entropy (cvec M re im) = Fin (- INR M * a * ln a / ln (INR M)) /\
  (1 < a -> - INR M * a * ln a / ln (INR M) < 0).
Proof.
  intros M re im a HM Ha H. assert (HN : 1 < INR M) by (change 1 with (INR 1); apply lt_INR; lia).
  assert (HL : 0 < ln (INR M)) by (rewrite <- ln_1; apply ln_increasing; lra). split.
  - rewrite entropy_cvec; auto; [|intros; rewrite H by auto; auto]. f_equal.
    rewrite (bigsum_ext _ _ (fun _ => a * ln a)) by (intros; rewrite H by auto; auto). rewrite bigsum_const. field. lra.
  - intros H1. assert (0 < ln a) by (rewrite <- ln_1; apply ln_increasing; lra).
    assert (0 < INR M * a * ln a / ln (INR M)).
    { apply Rdiv_lt_0_compat; auto. apply Rmult_lt_0_compat; auto. apply Rmult_lt_0_compat; lra. }
    replace (- INR M * a * ln a / ln (INR M)) with (- (INR M * a * ln a / ln (INR M))) by (field; lra). lra.
Qed.
Lemma spread_facts : forall M re im fs, (0 < M)%nat -> (0 < fs)%Z -> bigsum M (cmag re im) <> 0 -> exists v,
  spectral_spread fs (cvec M re im) = Ok (fvec M v) /\ (forall k, 0 <= v k) /\
  bigsum M (fun k => v k ^ 2)
  = bigsum M (fun k => bin_freq fs M k - spec_moment M (cmag re im) (bin_freq fs M) 1) ^ 2 /\
  forall j k, v j ^ 2 * cmag re im k = v k ^ 2 * cmag re im j.
Proof.
  intros M re im fs HM Hfs Hs. eexists. split; [apply spread_cvec; auto|]. cbv beta.
  set (S := bigsum M (fun k => bin_freq fs M k - spec_moment M (cmag re im) (bin_freq fs M) 1)).
  assert (Hp : 0 <= bigsum M (cmag re im)) by (apply bigsum_nonneg; intros; apply cmag_nonneg).
  assert (Q : forall k, (Rabs S * sqrt (cmag re im k / bigsum M (cmag re im))) ^ 2 = S ^ 2 / bigsum M (cmag re im) * cmag re im k).
  { intros k. rewrite Rpow_mult_distr, pow2_abs.
    replace (sqrt (cmag re im k / bigsum M (cmag re im)) ^ 2) with (cmag re im k / bigsum M (cmag re im)); [field; auto|].
    symmetry. apply pow2_sqrt. apply Rmult_le_pos; [apply cmag_nonneg|left; apply Rinv_0_lt_compat; lra]. }
  split; [|split].
  - intros. apply Rmult_le_pos; [apply Rabs_pos|apply sqrt_pos].
  - rewrite (bigsum_ext _ _ (fun k => S ^ 2 / bigsum M (cmag re im) * cmag re im k)) by (intros; apply Q).
    rewrite bigsum_scal. field. auto.
  - intros j k. rewrite !Q. ring.
Qed.
Lemma spread_gain : forall M re im fs g, (0 < M)%nat -> (0 < fs)%Z -> g <> 0 ->
  spectral_spread fs (cvec M (fun k => g * re k) (fun k => g * im k)) = spectral_spread fs (cvec M re im).
Proof.
  intros M re im fs g HM Hfs Hg. assert (Rabs g <> 0) by (apply Rabs_no_R0; auto).
  destruct (Req_dec (bigsum M (cmag re im)) 0) as [E|E].
  - rewrite !spread_silent; auto. rewrite sum_gain, E. ring.
  - rewrite !spread_cvec; auto; [|apply bigsum_mag_gain; auto]. f_equal. apply fvec_ext. intros k Hk. f_equal.
    + f_equal. apply bigsum_ext. intros j Hj. f_equal.
      rewrite <- (spec_moment_gain M (cmag re im) _ 1 (Rabs g)) by auto. apply spec_moment_ext; intros; auto. apply mag_gain.
    + f_equal. rewrite mag_gain, sum_gain. field. auto.
Qed.
Lemma flatness_nonzero : forall M re im, (0 < M)%nat -> (forall k, (k < M)%nat -> 0 < cmag re im k) ->
  spectral_flatness (cvec M re im) = Fin (exp (spec_avg M (fun k => ln (cmag re im k))) / spec_avg M (cmag re im)) /\
  0 < spec_avg M (cmag re im).
Proof.
  intros M re im HM Hp. assert (Hs : bigsum M (cmag re im) <> 0).
  { apply Rgt_not_eq. apply (bigsum_pos M _ 0%nat); auto. intros; apply cmag_nonneg. }
  split; [|apply spec_avg_pos; auto; intros; apply cmag_nonneg]. rewrite flatness_cvec by auto.
  destruct (existsb _ (seq 0 M)) eqn:Ex; auto. exfalso.
  apply existsb_exists in Ex as (k & Hk & E). apply in_seq in Hk. unfold Reqb in E.
  destruct (Req_EM_T (cmag re im k) 0); [|discriminate]. specialize (Hp k ltac:(lia)). lra.
Qed.
Lemma flatness_facts : forall M re im, (0 < M)%nat -> bigsum M (cmag re im) <> 0 ->
  exists w, spectral_flatness (cvec M re im) = Fin w /\ 0 <= w <= 1 /\
  (w = 1 <-> forall k, (k < M)%nat -> cmag re im k = cmag re im 0) /\
  (w = 0 <-> exists k, (k < M)%nat /\ re k = 0 /\ im k = 0).
Proof.
  intros M re im HM Hs.
  destruct (existsb (fun k => Reqb (cmag re im k) 0) (seq 0 M)) eqn:Ex.
  - exists 0. rewrite flatness_cvec, Ex by auto. split; auto. split; [lra|].
    apply existsb_exists in Ex as (k & Hk & E). apply in_seq in Hk. unfold Reqb in E.
    destruct (Req_EM_T (cmag re im k) 0) as [Z|]; [|discriminate]. split; split; intros H; try lra.
    + exfalso. apply Hs. apply bigsum_zero. intros j Hj. rewrite (H j), <- (H k) by (auto; lia). auto.
    + exists k. split; [lia|]. apply spec_abs_zero. auto.
  - assert (Hp : forall k, (k < M)%nat -> 0 < cmag re im k).
    { intros k Hk. pose proof (cmag_nonneg re im k). destruct (Req_dec (cmag re im k) 0) as [E|]; [exfalso|lra].
      assert (existsb (fun k => Reqb (cmag re im k) 0) (seq 0 M) = true); [|congruence].
      apply existsb_exists. exists k. split; [apply in_seq; lia|]. rewrite E. apply Reqb_refl. }
    destruct (flatness_nonzero M re im HM Hp) as [E Ha]. destruct (am_gm M (cmag re im) HM Hp) as [G1 G2].
    eexists. split; [exact E|]. set (e := exp _) in *. assert (0 < e) by apply exp_pos.
    assert (He : 0 < e / spec_avg M (cmag re im)) by (apply Rdiv_lt_0_compat; auto). split; [|split].
    + split; [lra|]. apply Rmult_le_reg_r with (spec_avg M (cmag re im)); auto. unfold Rdiv. rewrite Rmult_assoc, Rinv_l by lra. lra.
    + split; intros H1.
      * assert (e = spec_avg M (cmag re im)). { apply Rmult_eq_reg_r with (/ spec_avg M (cmag re im)); [|apply Rinv_neq_0_compat; lra].
          rewrite Rinv_r by lra. exact H1. }
        intros k Hk. rewrite (G2 H0 k Hk), (G2 H0 0%nat HM). auto.
      * unfold e. assert (INR M <> 0) by (apply not_0_INR; lia). unfold spec_avg at 1.
        rewrite (bigsum_ext _ _ (fun _ => ln (cmag re im 0))) by (intros k Hk; rewrite H1; auto). unfold spec_avg.
        rewrite (bigsum_ext _ (cmag re im) (fun _ => cmag re im 0)) by auto. rewrite !bigsum_const.
        replace (INR M * ln (cmag re im 0) / INR M) with (ln (cmag re im 0)) by (field; auto).
        rewrite exp_ln by auto. field. split; auto. specialize (Hp 0%nat HM). lra.
    + split; intros H1; [lra|]. exfalso. destruct H1 as (k & Hk & A & B). specialize (Hp k Hk).
      assert (cmag re im k = 0) by (apply spec_abs_zero; auto). lra.
Qed.
Lemma flatness_geo : forall M re im, (0 < M)%nat -> (forall k, (k < M)%nat -> 0 < cmag re im k) ->
  exists w, spectral_flatness (cvec M re im) = Fin w /\ 0 < w /\
  bigsum M (fun k => ln (cmag re im k)) = INR M * ln (w * (bigsum M (cmag re im) / INR M)).
Proof.
  intros M re im HM Hp. destruct (flatness_nonzero M re im HM Hp) as [E Ha]. eexists. split; [exact E|].
  split; [apply Rdiv_lt_0_compat; auto; apply exp_pos|]. fold (spec_avg M (cmag re im)).
  replace (_ / spec_avg M (cmag re im) * spec_avg M (cmag re im)) with (exp (spec_avg M (fun k => ln (cmag re im k)))) by (field; lra).
  rewrite ln_exp. unfold spec_avg. field. apply not_0_INR. lia.
Qed.
Lemma flatness_gain : forall M re im g, (0 < M)%nat -> g <> 0 ->
  spectral_flatness (cvec M (fun k => g * re k) (fun k => g * im k)) = spectral_flatness (cvec M re im).
Proof.
  intros M re im g HM Hg. assert (HR : 0 < Rabs g) by (apply Rabs_pos_lt; auto).
  destruct (Req_dec (bigsum M (cmag re im)) 0) as [E|E].
  - rewrite !flatness_silent; auto. rewrite sum_gain, E. ring.
  - rewrite !flatness_cvec; auto; [|apply bigsum_mag_gain; auto]. f_equal.
    replace (existsb (fun k => Reqb (cmag (fun k => g * re k) (fun k => g * im k) k) 0) (seq 0 M))
      with (existsb (fun k => Reqb (cmag re im k) 0) (seq 0 M)).
    + destruct (existsb _ (seq 0 M)) eqn:Ex; auto.
      assert (Hp : forall k, (k < M)%nat -> 0 < cmag re im k).
      { intros k Hk. pose proof (cmag_nonneg re im k). destruct (Req_dec (cmag re im k) 0) as [Ek|]; [exfalso|lra].
        assert (existsb (fun k => Reqb (cmag re im k) 0) (seq 0 M) = true); [|congruence].
        apply existsb_exists. exists k. split; [apply in_seq; lia|]. rewrite Ek. apply Reqb_refl. }
      assert (HN : INR M <> 0) by (apply not_0_INR; lia).
      replace (spec_avg M (fun k => ln (cmag (fun k => g * re k) (fun k => g * im k) k)))
        with (ln (Rabs g) + spec_avg M (fun k => ln (cmag re im k))).
      * rewrite exp_plus, exp_ln by auto. unfold spec_avg. rewrite sum_gain. field. repeat split; auto; lra.
      * unfold spec_avg. rewrite (bigsum_ext _ (fun k => ln (cmag (fun k => g * re k) _ k)) (fun k => ln (Rabs g) + ln (cmag re im k))).
        { rewrite bigsum_plus, bigsum_const. field. auto. }
        intros k Hk. rewrite mag_gain. apply ln_mult; auto.
    + induction (seq 0 M) as [|k l IH]; auto. cbn [existsb]. rewrite IH. f_equal. rewrite mag_gain. unfold Reqb.
      destruct (Req_EM_T (cmag re im k) 0) as [Z|Z]; destruct (Req_EM_T (Rabs g * cmag re im k) 0) as [Z'|Z']; auto.
      * exfalso. apply Z'. rewrite Z. ring.
      * exfalso. apply Rmult_integral in Z'. lra.
Qed.
Lemma stats_ok : forall M re im fs, (0 < M)%nat -> (0 < fs)%Z -> exists a b c v,
  spectral_centroid fs (cvec M re im) 1 = Ok a /\ spectral_skewness fs (cvec M re im) = Ok b /\
  spectral_kurtosis fs (cvec M re im) = Ok c /\ spectral_spread fs (cvec M re im) = Ok v.
Proof.
  intros M re im fs HM Hfs. assert (P : forall p, (1 <= p)%nat -> exists w, spectral_moment p fs (cvec M re im) = Ok w).
  { intros p Hp. destruct (Req_dec (bigsum M (cmag re im)) 0) as [E|E]; [rewrite moment_silent; eauto|].
    destruct (Req_dec (spec_moment M (cmag re im) (bin_freq fs M) 2) 0); [rewrite moment_zero; eauto|rewrite moment_cvec; eauto]. }
  destruct (P 3%nat ltac:(lia)) as (b & Eb). destruct (P 4%nat ltac:(lia)) as (c & Ec).
  destruct (Req_dec (bigsum M (cmag re im)) 0) as [E|E].
  - exists NaN, b, c. eexists. rewrite centroid_silent, spread_silent by auto. eauto.
  - do 4 eexists. rewrite centroid_cvec, spread_cvec by auto. eauto.
Qed.
Lemma extract_ok : forall L x fs n, (1 <= n)%nat -> (0 < fs)%Z -> exists r,
  let M := S (n / 2) in let re := spec_re n L x in let im := spec_im n L x in let X := cvec M re im in
  extract_feats (fvec L x) fs (Z.of_nat n) = Ok r /\
  (spectral_centroid fs X 1 = Ok (sf_centroid r) /\ spectral_skewness fs X = Ok (sf_skewness r) /\
   spectral_kurtosis fs X = Ok (sf_kurtosis r) /\ spectral_spread fs X = Ok (sf_spread r) /\
   spectral_entropy X = sf_entropy r /\ spectral_flatness X = sf_flatness r /\ spectral_flux X 2 = Ok (sf_flux r)) /\
  sf_rolloff r = cvec M (fun k => IZR fs * re k) (fun k => IZR fs * im k) /\
  sf_mean r = (Fin (spec_avg M re), Fin (spec_avg M im)) /\
  sf_rms r = csqrt (cmean (map (fun z => cmul z z) X)) /\
  sf_std r = Fin (sqrt (spec_avg M (fun k => re k ^ 2 + im k ^ 2) - (spec_avg M re ^ 2 + spec_avg M im ^ 2))) /\
  sf_variance r = Fin (spec_avg M (fun k => re k ^ 2 + im k ^ 2) - (spec_avg M re ^ 2 + spec_avg M im ^ 2)).
Proof.
  intros L x fs n Hn Hfs. set (M := S (n / 2)). set (re := spec_re n L x). set (im := spec_im n L x).
  destruct (stats_ok M re im fs ltac:(unfold M; lia) Hfs) as (a & b & c & v & Ea & Eb & Ec & Ev).
  destruct (flux_cvec M re im 2 ltac:(lia)) as (w & Ew & _).
  unfold extract_feats. rewrite rfft_cvec by auto. cbn [rbind nth]. fold M re im.
  rewrite Ea, Eb, Ec, Ev, Ew. cbn [rbind]. eexists. cbv zeta. split; [reflexivity|].
  cbn [sf_centroid sf_skewness sf_kurtosis sf_spread sf_entropy sf_flatness sf_flux sf_rolloff sf_mean sf_rms sf_std sf_variance].
  split; [repeat split|]. split; [|split; [|split; [|split]]]; auto.
  - unfold spectral_rolloff_swapped, cvec. rewrite map_map. apply map_ext. intros k. apply IZR_lt in Hfs.
    unfold cscal, fZ. cbn [fabs fst snd fmul]. rewrite Rabs_pos_eq by lra. reflexivity.
  - apply cmean_cvec. unfold M; lia.
  - rewrite cvar_cvec by (unfold M; lia). apply fsqrt_nonneg. apply cvar_nonneg. unfold M; lia.
  - apply cvar_cvec. unfold M; lia.
Qed.
Lemma extract_gain : forall L x fs n g, (1 <= n)%nat -> (0 < fs)%Z -> g <> 0 -> exists r r',
  extract_feats (fvec L x) fs (Z.of_nat n) = Ok r /\
  extract_feats (fvec L (fun t => g * x t)) fs (Z.of_nat n) = Ok r' /\
  sf_centroid r' = sf_centroid r /\ sf_skewness r' = sf_skewness r /\ sf_kurtosis r' = sf_kurtosis r /\
  sf_spread r' = sf_spread r /\ sf_flatness r' = sf_flatness r /\
  sf_flux r' = fmul (Fin (Rabs g)) (sf_flux r) /\ sf_std r' = fmul (Fin (Rabs g)) (sf_std r) /\
  sf_variance r' = fmul (Fin (g ^ 2)) (sf_variance r) /\ sf_mean r' = cscal (Fin g) (sf_mean r) /\
  sf_rolloff r' = map (cscal (Fin g)) (sf_rolloff r).
Proof.
  intros L x fs n g Hn Hfs Hg.
  destruct (extract_ok L x fs n Hn Hfs) as (r & E & (A1 & A2 & A3 & A4 & _ & A5 & A6) & B1 & B2 & _ & B4 & B5).
  destruct (extract_ok L (fun t => g * x t) fs n Hn Hfs) as (r' & E' & (A1' & A2' & A3' & A4' & _ & A5' & A6') & B1' & B2' & _ & B4' & B5').
  exists r, r'. split; [auto|]. split; [auto|]. clear E E'. set (M := S (n / 2)) in *. assert (HM : (0 < M)%nat) by (unfold M; lia). clearbody M.
  rewrite (cvec_ext M _ _ (fun k => g * spec_re n L x k) (fun k => g * spec_im n L x k)) in A1', A2', A3', A4', A5', A6'
    by (intros; apply spec_re_gain || apply spec_im_gain).
  rewrite centroid_gain in A1' by auto. unfold spectral_skewness, spectral_kurtosis in *. rewrite moment_gain in A2', A3' by (auto; lia).
  rewrite spread_gain in A4' by auto. rewrite flatness_gain in A5' by auto.
  destruct (flux_gain M (spec_re n L x) (spec_im n L x) 2 g ltac:(lia)) as (v & F1 & F2). rewrite F1 in A6. rewrite F2 in A6'.
  apply Ok_inj in A6, A6'.
  assert (S1 : spec_avg M (spec_re n L (fun t => g * x t)) = g * spec_avg M (spec_re n L x)).
  { unfold spec_avg. rewrite (bigsum_ext _ _ (fun k => g * spec_re n L x k)) by (intros; apply spec_re_gain). rewrite bigsum_scal. unfold Rdiv; ring. }
  assert (S2 : spec_avg M (spec_im n L (fun t => g * x t)) = g * spec_avg M (spec_im n L x)).
  { unfold spec_avg. rewrite (bigsum_ext _ _ (fun k => g * spec_im n L x k)) by (intros; apply spec_im_gain). rewrite bigsum_scal. unfold Rdiv; ring. }
  assert (S3 : spec_avg M (fun k => spec_re n L (fun t => g * x t) k ^ 2 + spec_im n L (fun t => g * x t) k ^ 2)
             = g ^ 2 * spec_avg M (fun k => spec_re n L x k ^ 2 + spec_im n L x k ^ 2)).
  { unfold spec_avg. rewrite (bigsum_ext _ _ (fun k => g ^ 2 * (spec_re n L x k ^ 2 + spec_im n L x k ^ 2))) by (intros; rewrite spec_re_gain, spec_im_gain; ring).
    rewrite bigsum_scal. unfold Rdiv; ring. }
  rewrite S1, S2, S3 in B4', B5'. rewrite S1, S2 in B2'.
  set (q := spec_avg M (fun k => spec_re n L x k ^ 2 + spec_im n L x k ^ 2)) in *. set (a := spec_avg M (spec_re n L x)) in *. set (b := spec_avg M (spec_im n L x)) in *.
  assert (Hv : g ^ 2 * q - ((g * a) ^ 2 + (g * b) ^ 2) = Rsqr g * (q - (a ^ 2 + b ^ 2))) by (unfold Rsqr; ring).
  rewrite Hv in B4', B5'.
  rewrite A1 in A1'. rewrite A2 in A2'. rewrite A3 in A3'. rewrite A4 in A4'. apply Ok_inj in A1', A2', A3', A4'.
  repeat split; try congruence.
  - rewrite <- A6', <- A6. reflexivity.
  - rewrite B4', B4. cbn [fmul]. f_equal. rewrite sqrt_mult, sqrt_Rsqr_abs; auto; [apply Rle_0_sqr|apply cvar_nonneg; auto].
  - rewrite B5', B5. cbn [fmul]. f_equal. unfold Rsqr. ring.
  - rewrite B2', B2. reflexivity.
  - rewrite B1', B1. unfold cvec. rewrite map_map. apply map_ext. intros k. rewrite spec_re_gain, spec_im_gain.
    unfold cscal. cbn [fst snd fmul]. f_equal; f_equal; ring.
Qed.
Lemma csqrt_real : forall a, 0 <= a -> csqrt (Fin a, Fin 0) = (Fin (sqrt a), Fin 0).
Proof.
  intros a Ha. destruct (csqrt_Fin a 0) as (p & q & E & A & B & C & D). rewrite E.
  replace (spec_abs a 0) with a in D.
  - assert (p ^ 2 = a) by lra. assert (q = 0) as -> by (apply Rsqr_0_uniq; unfold Rsqr; lra).
    do 2 f_equal. rewrite <- H. symmetry. apply sqrt_pow2. auto.
  - unfold spec_abs. replace (a ^ 2 + 0 ^ 2) with (a ^ 2) by ring. symmetry. apply sqrt_pow2. auto.
Qed.
Lemma extract_silent : forall L fs n, (1 <= n)%nat -> (0 < fs)%Z ->
  extract_feats (repeat (Fin 0) L) fs (Z.of_nat n)
  = Ok (mkFeats NaN NaN NaN NaN (repeat NaN (S (n / 2))) NaN (repeat (Fin 0, Fin 0) (S (n / 2))) (Fin 0)
                (Fin 0, Fin 0) (Fin 0, Fin 0) (Fin 0) (Fin 0)).
Proof.
  intros L fs n Hn Hfs. rewrite fvec_repeat. set (M := S (n / 2)).
  destruct (extract_ok L (fun _ => 0) fs n Hn Hfs) as (r & E & (A1 & A2 & A3 & A4 & A7 & A5 & A6) & B1 & B2 & B3 & B4 & B5).
  rewrite E. f_equal. fold M in A1, A2, A3, A4, A5, A6, A7, B1, B2, B3, B4, B5. assert (HM : (0 < M)%nat) by (unfold M; lia). clearbody M.
  assert (R0 : forall k, spec_re n L (fun _ => 0) k = 0) by (intros; apply bigsum_zero; intros; ring).
  assert (I0 : forall k, spec_im n L (fun _ => 0) k = 0) by (intros; apply bigsum_zero; intros; ring).
  rewrite (cvec_ext M _ _ (fun _ => 0) (fun _ => 0)) in A1, A2, A3, A4, A5, A6, A7, B3 by auto.
  assert (Z := silent0 M).
  rewrite centroid_silent in A1 by auto. unfold spectral_skewness, spectral_kurtosis in *. rewrite moment_silent in A2, A3 by (auto; lia).
  rewrite spread_silent in A4 by auto. rewrite flatness_silent in A5 by auto.
  rewrite (entropy_zero_bin M _ _ 0%nat) in A7 by (auto; apply spec_abs_zero; auto).
  rewrite (proj2 (flux_zero_iff M (fun _ => 0) (fun _ => 0) 2 ltac:(lia))) in A6 by reflexivity.
  apply Ok_inj in A1, A2, A3, A4, A6.
  assert (V : forall f, (forall k, f k = 0) -> spec_avg M f = 0) by (intros f Hf; unfold spec_avg; rewrite bigsum_zero by auto; unfold Rdiv; ring).
  rewrite (V (spec_re n L (fun _ => 0))), (V (spec_im n L (fun _ => 0))) in B2, B4, B5 by auto.
  rewrite V in B4, B5 by (intros; rewrite R0, I0; ring). replace (0 - (0 ^ 2 + 0 ^ 2)) with 0 in B4, B5 by ring. rewrite sqrt_0 in B4.
  rewrite square_cvec, cmean_cvec, !V in B3 by (auto; intros; ring). rewrite csqrt_real, sqrt_0 in B3 by lra.
  assert (B1' : sf_rolloff r = repeat (Fin 0, Fin 0) M).
  { rewrite B1. rewrite (cvec_ext M _ _ (fun _ => 0) (fun _ => 0)) by (intros; rewrite ?R0, ?I0; ring). unfold cvec.
    rewrite <- (seq_length M 0) at 2. induction (seq 0 M); auto. cbn. f_equal. auto. }
  destruct r. cbn in *. congruence.
Qed.
Lemma rms_delay :
  (exists r, extract_feats [Fin 1; Fin 0] 4 4 = Ok r /\ sf_rms r = (Fin 1, Fin 0)) /\
  (exists r, extract_feats [Fin 0; Fin 1] 4 4 = Ok r /\ sf_rms r = (Fin (sqrt (1 / 3)), Fin 0)).
Proof.
  assert (C1 : cos (2 * PI * INR 1 / INR 4) = 0) by (replace (2 * PI * INR 1 / INR 4) with (PI / 2) by (cbn [INR]; field); apply cos_PI2).
  assert (C2 : cos (2 * PI * INR 2 / INR 4) = -1) by (replace (2 * PI * INR 2 / INR 4) with PI by (cbn [INR]; field); apply cos_PI).
  assert (S1 : sin (2 * PI * INR 1 / INR 4) = 1) by (replace (2 * PI * INR 1 / INR 4) with (PI / 2) by (cbn [INR]; field); apply sin_PI2).
  assert (S2 : sin (2 * PI * INR 2 / INR 4) = 0) by (replace (2 * PI * INR 2 / INR 4) with PI by (cbn [INR]; field); apply sin_PI).
  assert (C0 : cos (2 * PI * INR 0 / INR 4) = 1) by (replace (2 * PI * INR 0 / INR 4) with 0 by (cbn [INR]; field); apply cos_0).
  assert (S0 : sin (2 * PI * INR 0 / INR 4) = 0) by (replace (2 * PI * INR 0 / INR 4) with 0 by (cbn [INR]; field); apply sin_0).
  split.
  - change [Fin 1; Fin 0] with (fvec 2 (fun t => nth t [1; 0] 0)).
    destruct (extract_ok 2 (fun t => nth t [1; 0] 0) 4 4 ltac:(lia) ltac:(lia)) as (r & E & _ & _ & _ & H & _).
    exists r. split; [exact E|]. rewrite H, square_cvec, cmean_cvec by (cbn; lia).
    transitivity (csqrt (Fin 1, Fin 0)); [|rewrite csqrt_real, sqrt_1 by lra; reflexivity]. f_equal. f_equal; f_equal; unfold spec_avg, spec_re, spec_im;
      change (S (4 / 2)) with 3%nat; change (Nat.min 2 4) with 2%nat; cbn [bigsum nth Nat.mul Nat.add];
      rewrite ?C0, ?C1, ?C2, ?S0, ?S1, ?S2; replace (INR 3) with 3 by (cbn [INR]; ring); field.
  - change [Fin 0; Fin 1] with (fvec 2 (fun t => nth t [0; 1] 0)).
    destruct (extract_ok 2 (fun t => nth t [0; 1] 0) 4 4 ltac:(lia) ltac:(lia)) as (r & E & _ & _ & _ & H & _).
    exists r. split; [exact E|]. rewrite H, square_cvec, cmean_cvec by (cbn; lia).
    rewrite <- csqrt_real by lra. f_equal. f_equal; f_equal; unfold spec_avg, spec_re, spec_im;
      change (S (4 / 2)) with 3%nat; change (Nat.min 2 4) with 2%nat; cbn [bigsum nth Nat.mul Nat.add];
      rewrite ?C0, ?C1, ?C2, ?S0, ?S1, ?S2; replace (INR 3) with 3 by (cbn [INR]; ring); field.
Qed.
