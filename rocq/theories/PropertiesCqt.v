(** * Properties of the constant-Q transform (spectral.py) and of cqcc.py: C65, C66, C97-C100 *)
From Coq Require Import Reals ZArith List String Bool Lia Lra Psatz.
From Flocq Require Import Core.Raux.
From Verif Require Import Base BaseFacts SpecBase SpecMat SpecFeatures SpecSpectral SpecCqt BigSum MatFacts
  Preprocessing PreprocessingFacts ExampleTools Features Extractors FeaturesFacts Cqt CqtFacts.
Import ListNotations.
Local Open Scope R_scope.

(** a small configuration: one bin per octave above 1 Hz at 8 samples per second gives the
    frequencies 1, 2, 4 Hz with windows of 8, 4, 2 samples, of which two fit into 4 samples *)
Lemma ex_freq : forall i, cqt_freq 1 1 i = 2 ^ i.
Proof. intros. unfold cqt_freq. change (INR 1) with 1. unfold Rdiv. rewrite Rinv_1, Rmult_1_r, Rmult_1_l. apply Rpower_pow. lra. Qed.
Lemma ex_quality : cqt_quality 1 1 = 1.
Proof. unfold cqt_quality. change (INR 1) with 1. replace (1 / 1) with 1 by lra. rewrite Rpower_1 by lra. lra. Qed.
Example ex_config : cqt_config 1 1 1 8 4 "hamming".
Proof. repeat split; try lra; try lia. simpl; auto 10. Qed.
Example ex_used : cqt_used 1 1 1 8 0 4 4 1 4 /\ cqt_used 1 1 1 8 0 4 4 2 2 /\ forall N, ~ cqt_used 1 1 1 8 0 4 4 0 N.
Proof.
  unfold cqt_used. cbv zeta. rewrite !ex_freq, ex_quality. cbn [pow INR]. split; [|split].
  - repeat split; try lra; try lia.
  - repeat split; try lra; try lia.
  - intros N (_ & [H _] & HN). apply le_INR in HN. rewrite !INR_IZR in *. change (Z.of_nat 4) with 4%Z in HN.
    lra.
Qed.

(** ** C65: which rows there are *)
(** The rows are exactly the centre frequencies f0*2^(i/B) inside the band for which the window of
    ceil(Q*fs/f) samples fits into nfft, in increasing order, each with the window length that
    belongs to it; the columns are the frames. *)
Theorem C65_rows : forall f0 q B O fs low high n wt thr m L x, cqt_config f0 q B fs n wt -> (0 < m)%nat ->
  (exists i N, (i < O * B)%nat /\ cqt_used f0 q B fs low (or_half high fs) n i N) ->
  exists a P len re im, cqt_rows f0 q O B fs low (or_half high fs) n a P len /\
    compute_constant_qtransform (fmat m L x) fs low high (Z.of_nat n) (Z.of_nat O) (Z.of_nat B) wt thr f0 q = Ok (cmat P m re im).
Proof.
  intros f0 q B O fs low high n wt thr m L x Hc Hm HU.
  destruct (cqt_full f0 q B O fs low high n wt m L Hc Hm HU) as (a & P & len & HR & HE).
  exists a, P, len. rewrite HE, cmat_emb. do 2 eexists. split; [exact HR|reflexivity].
Qed.
Print Assumptions C65_rows.
(** When frequencies lie in the band but no window fits (nfft too small), the call fails with
    IndexError: the slice [-0:] keeps all frequencies while no length is left. *)
Theorem C65_none_fits : forall f0 q B O fs low high n wt thr m L x, cqt_config f0 q B fs n wt ->
  (exists i, (i < O * B)%nat /\ low <= cqt_freq f0 B i <= or_half high fs) ->
  (forall i N, (i < O * B)%nat -> ~ cqt_used f0 q B fs low (or_half high fs) n i N) ->
  compute_constant_qtransform (fmat m L x) fs low high (Z.of_nat n) (Z.of_nat O) (Z.of_nat B) wt thr f0 q = Raise IndexError.
Proof. exact cqt_none_fits. Qed.
Print Assumptions C65_none_fits.
Example C65_example : forall thr m L x, (0 < m)%nat ->
  (exists re im, compute_constant_qtransform (fmat m L x) 8 0 None 4 3 1 "hamming" thr 1 1 = Ok (cmat 2 m re im)) /\
  compute_constant_qtransform (fmat m L x) 8 0 None 1 3 1 "hamming" thr 1 1 = Raise IndexError.
Proof.
  intros thr m L x Hm. assert (EH : or_half None 8 = 4) by (cbn; lra). destruct ex_used as (U1 & U2 & U0). split.
  - destruct (C65_rows 1 1 1 3 8 0 None 4 "hamming" thr m L x ex_config Hm) as (a & P & len & re & im & (HP & Hl & Hi & _) & HE).
    { exists 1%nat, 4%nat. rewrite EH. split; [lia|exact U1]. }
    rewrite EH in Hi. cbn in Hl.
    assert (Q0 : ~ (a <= 0 < a + P)%nat) by (rewrite <- Hi by (cbn; lia); intros [N HN]; exact (U0 N HN)).
    assert (Q1 : (a <= 1 < a + P)%nat) by (rewrite <- Hi by (cbn; lia); eauto).
    assert (Q2 : (a <= 2 < a + P)%nat) by (rewrite <- Hi by (cbn; lia); eauto).
    assert (P = 2%nat) by lia. subst P. eauto.
  - apply (C65_none_fits 1 1 1 3 8 0 None 1 "hamming").
    + repeat split; try lra; try lia. simpl; auto 10.
    + exists 0%nat. rewrite EH, ex_freq. split; [lia|]. cbn. lra.
    + intros i N Hi. rewrite EH. unfold cqt_used. rewrite ex_freq, ex_quality. intros (_ & [H _] & HN).
      assert (N <> 0%nat \/ N = 0%nat) as [HN0|HN0] by lia.
      * assert (N = 1%nat) by lia. subst N. cbn [INR] in H. cbn in Hi.
        assert (i = 0%nat \/ i = 1%nat \/ i = 2%nat) as [->|[->| ->]] by lia; cbn [pow] in H; lra.
      * subst N. cbn [INR] in H. assert (0 < 2 ^ i) by (apply pow_lt; lra). assert (0 < 1 * 8 / 2 ^ i) by (apply Rdiv_lt_0_compat; lra). lra.
Qed.

(** ** C66: the transform is linear in the frames, threshold included *)
Theorem C66_linear : forall f0 q B O fs low high n wt thr m L x y c d, cqt_config f0 q B fs n wt -> (0 < m)%nat ->
  (exists i N, (i < O * B)%nat /\ cqt_used f0 q B fs low (or_half high fs) n i N) ->
  exists P re im re' im',
    compute_constant_qtransform (fmat m L x) fs low high (Z.of_nat n) (Z.of_nat O) (Z.of_nat B) wt thr f0 q = Ok (cmat P m re im) /\
    compute_constant_qtransform (fmat m L y) fs low high (Z.of_nat n) (Z.of_nat O) (Z.of_nat B) wt thr f0 q = Ok (cmat P m re' im') /\
    compute_constant_qtransform (fmat m L (fun i t => c * x i t + d * y i t)) fs low high (Z.of_nat n) (Z.of_nat O) (Z.of_nat B) wt thr f0 q
    = Ok (cmat P m (fun p i => c * re p i + d * re' p i) (fun p i => c * im p i + d * im' p i)).
Proof. exact cqt_linear. Qed.
Print Assumptions C66_linear.
Example C66_linear_example : forall x y, exists P re im re' im',
    compute_constant_qtransform (fmat 3 4 x) 8 0 None 4 3 1 "hamming" 0.005 1 1 = Ok (cmat P 3 re im) /\
    compute_constant_qtransform (fmat 3 4 y) 8 0 None 4 3 1 "hamming" 0.005 1 1 = Ok (cmat P 3 re' im') /\
    compute_constant_qtransform (fmat 3 4 (fun i t => 2 * x i t + -3 * y i t)) 8 0 None 4 3 1 "hamming" 0.005 1 1
    = Ok (cmat P 3 (fun p i => 2 * re p i + -3 * re' p i) (fun p i => 2 * im p i + -3 * im' p i)).
Proof.
  intros x y. apply (C66_linear 1 1 1 3 8 0 None 4 "hamming" 0.005 3 4 x y 2 (-3)); [exact ex_config|lia|].
  exists 1%nat, 4%nat. replace (or_half None 8) with 4 by (cbn; lra). split; [lia|apply ex_used].
Qed.
Example C66_example : exists i N, (i < 3 * 1)%nat /\ cqt_used 1 1 1 8 0 (or_half None 8) 4 i N.
Proof. exists 1%nat, 4%nat. replace (or_half None 8) with 4 by (cbn; lra). split; [lia|apply ex_used]. Qed.

(** ** C97: without a threshold the FFT method is the direct transform *)
(** Every entry is (1/N) sum_t w(t) x(s+t) exp(-2 pi i f t / fs) over the N samples of the frame
    (zero-padded or cropped to nfft) that start at s = (nfft - N)/2. *)
Theorem C97_direct : forall f0 q B O fs low high n wt m L, cqt_config f0 q B fs n wt -> (0 < m)%nat ->
  (exists i N, (i < O * B)%nat /\ cqt_used f0 q B fs low (or_half high fs) n i N) ->
  exists a P len, cqt_rows f0 q O B fs low (or_half high fs) n a P len /\
    forall thr x, thr <= 0 ->
     compute_constant_qtransform (fmat m L x) fs low high (Z.of_nat n) (Z.of_nat O) (Z.of_nat B) wt thr f0 q
     = Ok (cmat P m (fun p i => brown_re wt fs (cqt_freq f0 B (a + p)) (len p) ((n - len p) / 2) (padded L (x i)))
                    (fun p i => brown_im wt fs (cqt_freq f0 B (a + p)) (len p) ((n - len p) / 2) (padded L (x i)))).
Proof. exact cqt_brown. Qed.
Print Assumptions C97_direct.
Example C97_direct_example : exists a P len, cqt_rows 1 1 3 1 8 0 (or_half None 8) 4 a P len /\
  (forall x, compute_constant_qtransform (fmat 3 4 x) 8 0 None 4 3 1 "hamming" 0 1 1
   = Ok (cmat P 3 (fun p i => brown_re "hamming" 8 (cqt_freq 1 1 (a + p)) (len p) ((4 - len p) / 2) (padded 4 (x i)))
                  (fun p i => brown_im "hamming" 8 (cqt_freq 1 1 (a + p)) (len p) ((4 - len p) / 2) (padded 4 (x i))))) /\
  exists re im, compute_constant_qtransform (fmat 3 4 (fun _ t => cos (2 * PI * cqt_freq 1 1 (a + 0) * (INR t - INR ((4 - len 0%nat) / 2)) / 8)))
       8 0 None 4 3 1 "hamming" 0 1 1 = Ok (cmat P 3 re im).
Proof.
  assert (U : exists i N, (i < 3 * 1)%nat /\ cqt_used 1 1 1 8 0 (or_half None 8) 4 i N).
  { exists 1%nat, 4%nat. replace (or_half None 8) with 4 by (cbn; lra). split; [lia|apply ex_used]. }
  destruct (C97_direct 1 1 1 3 8 0 None 4 "hamming" 3 4 ex_config ltac:(lia) U) as (a & P & len & HR & HE).
  exists a, P, len. split; [exact HR|]. split; [intros x; exact (HE 0 x ltac:(lra))|]. do 2 eexists. apply (HE 0). lra.
Qed.
(** Every row answers a steady tone of its own frequency with the mean of its window (cosine and
    quadrature sine together), so all rows weigh tones alike. *)
Theorem C97_tone : forall f0 q B O fs low high n wt m L, cqt_config f0 q B fs n wt -> (0 < m)%nat -> (n <= L)%nat ->
  (exists i N, (i < O * B)%nat /\ cqt_used f0 q B fs low (or_half high fs) n i N) ->
  exists a P len, cqt_rows f0 q O B fs low (or_half high fs) n a P len /\
    forall thr p, thr <= 0 -> (p < P)%nat ->
    let f := cqt_freq f0 B (a + p) in let s := ((n - len p) / 2)%nat in
    exists re im re' im',
     compute_constant_qtransform (fmat m L (fun _ t => cos (2 * PI * f * (INR t - INR s) / IZR fs)))
       fs low high (Z.of_nat n) (Z.of_nat O) (Z.of_nat B) wt thr f0 q = Ok (cmat P m re im) /\
     compute_constant_qtransform (fmat m L (fun _ t => sin (2 * PI * f * (INR t - INR s) / IZR fs)))
       fs low high (Z.of_nat n) (Z.of_nat O) (Z.of_nat B) wt thr f0 q = Ok (cmat P m re' im') /\
     forall i, re p i - im' p i = / INR (len p) * bigsum (len p) (spec_window wt (len p)).
Proof. exact cqt_tone. Qed.
Print Assumptions C97_tone.
(** four samples 1, 2, 3, 4, rectangular-like check: the 4 Hz row of the small configuration with
    two samples uses samples 1 and 2 of the frame, weighted with the window ends *)
Example C97_example : brown_re "hamming" 8 4 2 1 (padded 4 (fun t => INR t + 1)) = / 2 * (0.08 * 2 - 0.08 * 3).
Proof.
  unfold brown_re, spec_window, spec_hamming, spec_theta, padded. cbn [bigsum Nat.add Nat.ltb Nat.leb Nat.sub INR].
  cbn [String.eqb Ascii.eqb Bool.eqb].
  replace (2 * PI * 4 * 0 / 8) with 0 by field. replace (2 * PI * 4 * 1 / 8) with PI by field.
  replace (2 * PI * 0 / 1) with 0 by field. replace (2 * PI * 1 / 1) with (2 * PI) by field.
  rewrite cos_0, cos_PI, cos_2PI. lra.
Qed.

(** ** C98: what the threshold can change *)
(** Dropping kernel bins of modulus up to the threshold changes no entry by more than the threshold
    times the Euclidean norm of the (cropped) frame. *)
Theorem C98_threshold : forall f0 q B O fs low high n wt m L, cqt_config f0 q B fs n wt -> (0 < m)%nat ->
  (exists i N, (i < O * B)%nat /\ cqt_used f0 q B fs low (or_half high fs) n i N) ->
  exists a P len, cqt_rows f0 q O B fs low (or_half high fs) n a P len /\
    forall thr x, 0 <= thr -> exists re im,
     compute_constant_qtransform (fmat m L x) fs low high (Z.of_nat n) (Z.of_nat O) (Z.of_nat B) wt thr f0 q = Ok (cmat P m re im) /\
     forall p i, (p < P)%nat ->
       spec_abs (re p i - brown_re wt fs (cqt_freq f0 B (a + p)) (len p) ((n - len p) / 2) (padded L (x i)))
                (im p i - brown_im wt fs (cqt_freq f0 B (a + p)) (len p) ((n - len p) / 2) (padded L (x i)))
       <= thr * sqrt (bigsum (Nat.min L n) (fun t => x i t ^ 2)).
Proof. exact cqt_error. Qed.
Print Assumptions C98_threshold.
Example C98_case : exists a P len, cqt_rows 1 1 3 1 8 0 (or_half None 8) 4 a P len /\
  forall x, exists re im, compute_constant_qtransform (fmat 3 4 x) 8 0 None 4 3 1 "hamming" 0.005 1 1 = Ok (cmat P 3 re im) /\
    Rabs (re 0%nat 2%nat - brown_re "hamming" 8 (cqt_freq 1 1 (a + 0)) (len 0%nat) ((4 - len 0%nat) / 2) (padded 4 (x 2%nat)))
    <= 0.005 * sqrt (bigsum (Nat.min 4 4) (fun t => x 2%nat t ^ 2)).
Proof.
  assert (U : exists i N, (i < 3 * 1)%nat /\ cqt_used 1 1 1 8 0 (or_half None 8) 4 i N).
  { exists 1%nat, 4%nat. replace (or_half None 8) with 4 by (cbn; lra). split; [lia|apply ex_used]. }
  destruct (C98_threshold 1 1 1 3 8 0 None 4 "hamming" 3 4 ex_config ltac:(lia) U) as (a & P & len & HR & HE).
  exists a, P, len. split; [exact HR|]. intros x. destruct (HE 0.005 x ltac:(lra)) as (re & im & E & B).
  exists re, im. split; [exact E|]. eapply Rle_trans; [|apply (B 0%nat 2%nat); apply HR].
  unfold spec_abs. rewrite <- sqrt_Rsqr_abs. apply sqrt_le_1_alt. rewrite Rsqr_pow2.
  match goal with |- _ <= _ + ?z ^ 2 => pose proof (pow2_ge_0 z) end. lra.
Qed.
Example C98_example : 0.005 * sqrt (bigsum (Nat.min 4 4) (fun t => (INR t + 1) ^ 2)) < 0.03.
Proof.
  cbn [Nat.min bigsum INR]. assert (sqrt (0 + (0 + 1) ^ 2 + (1 + 1) ^ 2 + (1 + 1 + 1) ^ 2 + (1 + 1 + 1 + 1) ^ 2) < 6); [|lra].
  rewrite <- (sqrt_pow2 6) by lra. apply sqrt_lt_1; lra.
Qed.

(** ** C99: cqt_spectrogram and cqcc *)
Definition ex_qargs : qargs := mkQ 8 false 0.97 (Some (mkWindow 0.5 0.25 "hamming")) 4 0 None 3 1 0 1 1.
Example ex_ready : @cqt_ready exact_env ex_qargs 8 4 2 4 3 1.
Proof.
  split; [|split; [reflexivity|split; [reflexivity|split; [reflexivity|split; [cbn; lra|split]]]]].
  - unfold well_framed. cbn. split; [lra|]. split; [apply flen_exact; cbn; lra|]. split; [apply flen_exact; cbn; lra|].
    split; [lia|]. split; [lia|]. auto 10.
  - exact ex_config.
  - exists 1%nat, 4%nat. split; [lia|]. replace (or_half (q_high ex_qargs) (q_fs ex_qargs)) with 4 by (cbn; lra). apply ex_used.
Qed.
Theorem C99_high_freq : forall `{Env} sig a h, q_high a = Some h -> IZR (q_fs a) / 2 < h -> h <> 0 ->
  cqt_spectrogram sig a = Raise (ParameterError msg_high_freq).
Proof.
  intros E sig a h Hh Hlt H0. unfold cqt_spectrogram, or_half. rewrite Hh. destruct (Req_EM_T h 0); [contradiction|].
  cbv zeta. rewrite Rltb_true by auto. reflexivity.
Qed.
Print Assumptions C99_high_freq.
(** one row per usable frequency, one column per frame; the level of the signal is the level of the
    spectrogram *)
Theorem C99_spectrogram : forall `{Env} a N L hop n O B x g, cqt_ready a N L hop n O B ->
  exists P re im, (0 < P)%nat /\ cqt_spectrogram (fvec N x) a = Ok (cmat P (frame_count N L hop) re im) /\
    cqt_spectrogram (fvec N (fun t => g * x t)) a
    = Ok (cmat P (frame_count N L hop) (fun p i => g * re p i) (fun p i => g * im p i)).
Proof. exact @spectrogram_gain. Qed.
Print Assumptions C99_spectrogram.
(** cqcc resamples along the frames: int(frames * ratio) rows; the number of coefficients is limited
    by the number of usable frequencies, not by an argument check *)
Theorem C99_shape : forall `{Env} sig a ratio c P m re im num, cqt_spectrogram sig a = Ok (cmat P m re im) ->
  (0 < P)%nat -> (0 < m)%nat -> Ztrunc (rnd (INR m * ratio)) = Z.of_nat num -> (1 <= num)%nat ->
  (1 <= c_dct_type c <= 4)%Z -> (c_dct_type c = 1%Z -> (2 <= P)%nat) -> (0 <= c_num_ceps c)%Z ->
  no_lifter c -> no_normalisation c ->
  exists r, resample (fmat m P (fun i p => spec_log (re p i ^ 2 + im p i ^ 2))) (Z.of_nat num) = Ok (fmat num P r) /\
    cqcc sig a ratio c = Ok (fmat num (Nat.min (Z.to_nat (c_num_ceps c)) P) (fun t k => spec_dct (c_dct_type c) P (r t) k)).
Proof.
  intros. eexists. split.
  - apply resample_fmat; auto.
  - rewrite (cqcc_of_cqt sig a ratio c P m re im num); auto.
Qed.
Print Assumptions C99_shape.
(** a ratio that leaves no row is a ValueError, whatever else is asked for *)
Theorem C99_no_rows : forall `{Env} sig a ratio c P m re im, cqt_spectrogram sig a = Ok (cmat P m re im) -> (0 < P)%nat ->
  (Ztrunc (rnd (INR m * ratio)) < 1)%Z -> cqcc sig a ratio c = Raise ValueError.
Proof. exact @cqcc_no_rows. Qed.
Print Assumptions C99_no_rows.
(** a case: three frames, ratio 0.5, so one row; ratio 0.3 leaves none; 5 Hz is above half the rate *)
Example C99_case : forall x, exists P re im y,
  @cqt_spectrogram exact_env (fvec 8 x) ex_qargs = Ok (cmat P 3 re im) /\
  @cqcc exact_env (fvec 8 x) ex_qargs 0.5 (mkC 13 2 false None None) = Ok (fmat 1 (Nat.min 13 P) y) /\
  @cqcc exact_env (fvec 8 x) ex_qargs 0.3 (mkC 13 2 false None None) = Raise ValueError /\
  @cqt_spectrogram exact_env (fvec 8 x) (mkQ 8 false 0.97 None 4 0 (Some 5) 3 1 0 1 1) = Raise (ParameterError msg_high_freq).
Proof.
  intros x. destruct (@C99_spectrogram exact_env ex_qargs 8 4 2 4 3 1 x 1 ex_ready) as (P & re & im & HP & E & _).
  change (frame_count 8 4 2) with 3%nat in E.
  assert (Z1 : Ztrunc (rnd (Env := exact_env) (INR 3 * 0.5)) = Z.of_nat 1).
  { cbn [rnd exact_env INR]. replace ((1 + 1 + 1) * 0.5) with 1.5 by lra. rewrite Ztrunc_floor by lra. apply Zfloor_imp. cbn. lra. }
  assert (Z0 : (Ztrunc (rnd (Env := exact_env) (INR 3 * 0.3)) < 1)%Z).
  { cbn [rnd exact_env INR]. replace ((1 + 1 + 1) * 0.3) with 0.9 by lra. rewrite Ztrunc_floor by lra.
    replace (Zfloor 0.9) with 0%Z; [lia|]. symmetry. apply Zfloor_imp. cbn. lra. }
  destruct (@C99_shape exact_env (fvec 8 x) ex_qargs 0.5 (mkC 13 2 false None None) P 3 re im 1 E HP ltac:(lia) Z1) as (r & _ & EC);
    try (cbn; lia); try (left; reflexivity).
  exists P, re, im. eexists. split; [exact E|]. split; [exact EC|]. split.
  - exact (@C99_no_rows exact_env _ _ 0.3 _ P 3 re im E HP Z0).
  - apply (C99_high_freq (H := exact_env) _ _ 5); [reflexivity|cbn; lra|lra].
Qed.
(** the level of the signal only moves coefficient 0, by 2 ln|g| sqrt(P) *)
Theorem C99_gain : forall `{Env} a N L hop n O B x g ratio c P re im num, cqt_ready a N L hop n O B -> g <> 0 ->
  cqt_spectrogram (fvec N x) a = Ok (cmat P (frame_count N L hop) re im) ->
  (forall p i, (p < P)%nat -> (i < frame_count N L hop)%nat -> re p i <> 0 \/ im p i <> 0) ->
  Ztrunc (rnd (INR (frame_count N L hop) * ratio)) = Z.of_nat num -> (1 <= num)%nat ->
  c_dct_type c = 2%Z -> (0 <= c_num_ceps c)%Z -> no_lifter c -> no_normalisation c ->
  exists y, cqcc (fvec N x) a ratio c = Ok (fmat num (Nat.min (Z.to_nat (c_num_ceps c)) P) y) /\
    cqcc (fvec N (fun t => g * x t)) a ratio c
    = Ok (fmat num (Nat.min (Z.to_nat (c_num_ceps c)) P) (fun t k => y t k + (if Nat.eqb k 0 then 2 * ln (Rabs g) * sqrt (INR P) else 0))).
Proof. exact @cqcc_gain. Qed.
Print Assumptions C99_gain.
(** every second sample 1: no entry of its transform is zero *)
Definition alternating (t : nat) : R := if Nat.even t then 1 else 0.
Lemma alternating_cqt : exists P re im, (0 < P)%nat /\
  @cqt_spectrogram exact_env (fvec 8 alternating) ex_qargs = Ok (cmat P (frame_count 8 4 2) re im) /\
  forall p i, (p < P)%nat -> (i < frame_count 8 4 2)%nat -> re p i <> 0 \/ im p i <> 0.
Proof.
  destruct (@spectrogram_ok exact_env ex_qargs 8 4 2 4 3 1 ex_ready) as (b & P & len & HR & HE).
  pose proof HR as HR'. destruct HR' as (HP & Hl & Hi & HU).
  assert (EH : or_half (q_high ex_qargs) (q_fs ex_qargs) = 4) by (cbn; lra). rewrite EH in *.
  exists P. exists (fun p i => brown_re "hamming" 8 (cqt_freq 1 1 (b + p)) (len p) ((4 - len p) / 2) (padded 4 (frame_of (q_sargs ex_qargs) 0.97 4 2 alternating i))).
  eexists. split; [exact HP|]. split.
  { rewrite HE. f_equal. unfold cmat. apply map_ext_in. intros p Hp. apply in_seq in Hp. unfold cvec. apply map_ext. intros i.
    rewrite cqtC_exact; [reflexivity|cbn; lra|]. apply (rows_len _ _ _ _ _ _ _ _ _ _ _ p HR). lia. }
  assert (W : forall i t, (t < 4)%nat -> frame_of (q_sargs ex_qargs) 0.97 4 2 alternating i t = spec_hamming 4 t * alternating t).
  { intros i t Ht. unfold frame_of, spec_frame, spec_pre, window_of. cbn [q_sargs s_pre_emph s_window ex_qargs q_window win_type q_pre_emph].
    replace (alternating (i * 2 + t)) with (alternating t). 2:{ unfold alternating. rewrite Nat.even_add, Nat.even_mul. cbn [Nat.even]. rewrite orb_true_r. destruct (Nat.even t); reflexivity. }
    unfold spec_window. cbn. lra. }
  intros p i Hp Hi'. left. cbn beta.
  assert (H0 : spec_hamming 4 0 = 0.08).
  { unfold spec_hamming, spec_theta. cbn [INR Nat.sub]. replace (2 * PI * 0 / (1 + 1 + 1)) with 0 by field. rewrite cos_0. lra. }
  assert (H2 : spec_hamming 4 2 = 0.77).
  { unfold spec_hamming, spec_theta. cbn [INR Nat.sub]. replace (2 * PI * (1 + 1) / (1 + 1 + 1)) with (PI / 3 + PI) by field.
    rewrite neg_cos, cos_PI3. lra. }
  assert (K1 : spec_hamming 2 1 = 0.08).
  { unfold spec_hamming, spec_theta. cbn [INR Nat.sub]. replace (2 * PI * 1 / 1) with (2 * PI) by field. rewrite cos_2PI. lra. }
  destruct (HU p Hp) as (L1 & Hf & HL & Hn). cbv zeta in HL.
  change (q_f0 ex_qargs) with 1 in *. change (q_rate ex_qargs) with 1 in *. change (q_fs ex_qargs) with 8%Z in *.
  rewrite ex_freq in *. rewrite ex_quality in HL.
  assert (Hb : (b + p = 1 \/ b + p = 2)%nat).
  { assert (b + p <> 0)%nat; [|lia]. intros Z. rewrite Z in HL. cbn [pow] in HL. apply le_INR in Hn. change (INR 4) with (1 + 1 + 1 + 1) in Hn. lra. }
  destruct Hb as [Hb|Hb]; rewrite Hb in *; cbn [pow] in *.
  - assert (len p = 4%nat) as ->. { assert (INR (len p) < 5 /\ 3 < INR (len p)) as [A1 A2] by lra. replace 5 with (INR 5) in A1 by (cbn; lra). replace 3 with (INR 3) in A2 by (cbn; lra). apply INR_lt in A1, A2. lia. }
    unfold brown_re. cbn [bigsum]. rewrite !Rmult_1_r. unfold padded. cbn [Nat.sub Nat.div Nat.divmod fst Nat.add Nat.ltb Nat.leb].
    rewrite !W by lia. unfold spec_window. cbn [String.eqb Ascii.eqb Bool.eqb]. unfold alternating. cbn [Nat.even]. rewrite H0, H2. cbn [INR].
    replace (2 * PI * 2 * 0 / 8) with 0 by field. replace (2 * PI * 2 * (1 + 1) / 8) with PI by field. rewrite cos_0, cos_PI. cbn [Nat.leb]. rewrite !Rmult_0_r, !Rmult_0_l. apply Rlt_not_eq. lra.
  - assert (len p = 2%nat) as ->. { assert (INR (len p) < 3 /\ 1 < INR (len p)) as [A1 A2] by lra. replace 3 with (INR 3) in A1 by (cbn; lra). change 1 with (INR 1) in A2. apply INR_lt in A1, A2. lia. }
    unfold brown_re. cbn [bigsum]. rewrite !Rmult_1_r. unfold padded. cbn [Nat.sub Nat.div Nat.divmod fst Nat.add Nat.ltb Nat.leb].
    rewrite !W by lia. unfold spec_window. cbn [String.eqb Ascii.eqb Bool.eqb]. unfold alternating. cbn [Nat.even]. rewrite H2, K1. cbn [INR].
    replace (2 * PI * (2 * 2) / 8) with PI by field. rewrite cos_PI. cbn [Nat.leb]. rewrite !Rmult_0_r, !Rmult_0_l. apply Rlt_not_eq. lra.
Qed.
(** a case: the samples 1, 0, 1, 0, ... give no zero entry *)
Example C99_gain_example : exists P y, (0 < P)%nat /\
  @cqcc exact_env (fvec 8 alternating) ex_qargs 0.5 (mkC 13 2 false None None) = Ok (fmat 1 (Nat.min 13 P) y) /\
  @cqcc exact_env (fvec 8 (fun t => -3 * alternating t)) ex_qargs 0.5 (mkC 13 2 false None None)
  = Ok (fmat 1 (Nat.min 13 P) (fun t k => y t k + (if Nat.eqb k 0 then 2 * ln (Rabs (-3)) * sqrt (INR P) else 0))).
Proof.
  destruct alternating_cqt as (P & re & im & HP & E & NZ).
  destruct (@C99_gain exact_env ex_qargs 8 4 2 4 3 1 alternating (-3) 0.5 (mkC 13 2 false None None) P re im 1 ex_ready ltac:(lra) E NZ)
    as (y & E1 & E2); try (cbn; lia); try (left; reflexivity); try reflexivity.
  - change (frame_count 8 4 2) with 3%nat. cbn [rnd exact_env INR]. replace ((1 + 1 + 1) * 0.5) with 1.5 by lra. rewrite Ztrunc_floor by lra. apply Zfloor_imp. cbn. lra.
  - exists P, y. split; [exact HP|]. split; [exact E1|exact E2].
Qed.
Example C99_example : @cqt_ready exact_env ex_qargs 8 4 2 4 3 1 /\ frame_count 8 4 2 = 3%nat /\
  Ztrunc (rnd (Env := exact_env) (INR 3 * 0.5)) = Z.of_nat 1.
Proof.
  split; [exact ex_ready|]. split; [reflexivity|]. cbn [rnd exact_env INR].
  replace ((1 + 1 + 1) * 0.5) with 1.5 by lra. rewrite Ztrunc_floor by lra. apply Zfloor_imp. cbn. lra.
Qed.

(** ** C100: resampling *)
(** Each output row is a fixed combination of the input rows: the same for every column and every
    input; constants stay, the mean over the rows stays, ... *)
Theorem C100_weights : forall m num, (0 < m)%nat -> (1 <= num)%nat -> exists w,
  (forall P y, resample (fmat m P y) (Z.of_nat num) = Ok (fmat num P (fun t j => bigsum m (fun s => y s j * w t s)))) /\
  (forall t, bigsum m (w t) = 1) /\ (forall s, bigsum num (fun t => w t s) = INR num / INR m).
Proof.
  intros m num Hm Hn. exists (resample_weight m num). split; [|split].
  - intros. apply resample_fmat; auto.
  - intros. apply resample_const; auto.
  - intros. apply resample_mean; auto.
Qed.
Print Assumptions C100_weights.
(** ... every oscillation below half the smaller number of rows keeps its number of periods, its
    amplitude and its phase, ... *)
Theorem C100_harmonic : forall m num P k phi amp, (0 < m)%nat -> (1 <= num)%nat -> (2 * k < Nat.min num m)%nat ->
  resample (fmat m P (fun s j => amp j * cos (2 * PI * INR k * INR s / INR m + phi j))) (Z.of_nat num)
  = Ok (fmat num P (fun t j => amp j * cos (2 * PI * INR k * INR t / INR num + phi j))).
Proof.
  intros m num P k phi amp Hm Hn Hk. rewrite resample_fmat by auto. f_equal. apply fmat_ext. intros t j _ _.
  rewrite <- (resample_harmonic m num t k (phi j)), <- bigsum_scal by auto. apply bigsum_ext. intros. ring.
Qed.
Print Assumptions C100_harmonic.
(** ... and a whole multiple of the rows passes through the given rows, so the same number of rows
    changes nothing. *)
Theorem C100_interpolates : forall m r P y, (0 < m)%nat -> (1 <= r)%nat -> exists z,
  resample (fmat m P y) (Z.of_nat (r * m)) = Ok (fmat (r * m) P z) /\
  forall t j, (t < m)%nat -> z (r * t)%nat j = y t j.
Proof.
  intros m r P y Hm Hr. eexists. split.
  - apply resample_fmat; auto. nia.
  - intros t j Ht. cbv beta.
    rewrite (bigsum_ext m _ (fun s => if Nat.eqb s t then y s j else 0)).
    + apply (bigsum_delta m t (fun s => y s j)); auto.
    + intros s Hs. rewrite resample_interpolates by lia. destruct (Nat.eqb s t); ring.
Qed.
Print Assumptions C100_interpolates.
Theorem C100_same_rows : forall m P y, (0 < m)%nat -> resample (fmat m P y) (Z.of_nat m) = Ok (fmat m P y).
Proof.
  intros m P y Hm. destruct (C100_interpolates m 1 P y Hm ltac:(lia)) as (z & E & Hz). rewrite Nat.mul_1_l in E. rewrite E. f_equal.
  apply fmat_ext. intros t j Ht _. rewrite <- (Hz t j Ht), Nat.mul_1_l. auto.
Qed.
Print Assumptions C100_same_rows.
Example C100_more_example :
  resample (fmat 8 1 (fun s _ => 2 * cos (2 * PI * INR 1 * INR s / INR 8 + 1))) 5
  = Ok (fmat 5 1 (fun t _ => 2 * cos (2 * PI * INR 1 * INR t / INR 5 + 1))) /\
  (forall y, resample (fmat 8 3 y) 8 = Ok (fmat 8 3 y)) /\
  forall y, exists z, resample (fmat 8 3 y) 24 = Ok (fmat 24 3 z) /\ z 6%nat 1%nat = y 2%nat 1%nat.
Proof.
  split; [exact (C100_harmonic 8 5 1 1 (fun _ => 1) (fun _ => 2) ltac:(lia) ltac:(lia) ltac:(cbn; lia))|].
  split; [intros y; apply (C100_same_rows 8); lia|].
  intros y. destruct (C100_interpolates 8 3 3 y) as (z & E & H); [lia|lia|]. exists z. split; [exact E|apply (H 2%nat); lia].
Qed.
Example C100_example : resample (fmat 2 1 (fun s _ => INR s)) 1 = Ok [[Fin (1 / 2)]].
Proof.
  change 1%Z with (Z.of_nat 1). rewrite resample_fmat by lia. unfold fmat, fvec. cbn [seq map]. do 4 f_equal.
  cbn [bigsum INR]. rewrite !Rmult_0_l, !Rmult_1_l.
  pose proof (resample_mean 2 1 1 ltac:(lia) ltac:(lia)) as H. cbn [bigsum INR] in H.
  change (Z.of_nat 1) with 1%Z. lra.
Qed.
