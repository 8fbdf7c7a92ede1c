(** * C194: pre-emphasis before the call, and pre-emphasised tones *)
From Coq Require Import Reals ZArith List String Bool Lia Lra.
From Verif Require Import Base SpecBase SpecMat SpecFilters SpecBanks SpecFeatures SpecSpectral SpecCqt Preprocessing Features Lpc Rplp Pncc Cqt Extractors
  FeaturesFacts ExampleTools ExampleFeatures MatFacts PropertiesMelBanks SpecChannels SpecChannelsMore SpecTone SpecHum SpecCqtTone CqtToneFacts PropertiesFeatures PropertiesCqtTone SpecPreMoved PreMovedFacts.
Import ListNotations.
Local Open Scope R_scope.

(** A call with pre_emph=True is a call of pre_emphasis followed by the call with pre_emph=False, errors
    included; the coefficient is the argument for some functions and 0.97 for the others. *)
Theorem C194_spectrogram : forall `{Env} s x y a, s_pre_emph a = true -> pre_emphasis x (gram_coeff s a) = Ok y ->
  spectrogram s x a = spectrogram s y (without_pre a).
Proof. exact @spectrogram_moved. Qed.
Print Assumptions C194_spectrogram.
Theorem C194_features : forall `{Env} e x y a c, s_pre_emph a = true -> pre_emphasis x (feature_coeff e a) = Ok y ->
  run e x a c = run e y (without_pre a) c.
Proof. exact @run_moved. Qed.
Print Assumptions C194_features.
Theorem C194_more_features : forall `{Env} x y a, s_pre_emph a = true -> pre_emphasis x (s_coeff a) = Ok y ->
  (forall g c, psrcc x a g c = psrcc y (without_pre a) g c) /\
  (forall p c, pncc x a p c = pncc y (without_pre a) p c) /\
  (forall o li no, plp x a o li no = plp y (without_pre a) o li no) /\
  (forall o li no, rplp x a o li no = rplp y (without_pre a) o li no).
Proof. intros E x y a Hp Hy. repeat split; intros; [apply psrcc_moved|apply pncc_moved|apply rastaplp_moved|apply rastaplp_moved]; assumption. Qed.
Print Assumptions C194_more_features.
Theorem C194_lpc : forall `{Env} x y fs order co co2 w, pre_emphasis x 0.97 = Ok y ->
  lpc x fs order true co w = lpc y fs order false co2 w /\
  forall li no, lpcc x fs order true co w li no = lpcc y fs order false co2 w li no.
Proof. intros E x y fs order co co2 w Hy. split; intros; [apply lpc_moved|apply lpcc_moved]; assumption. Qed.
Print Assumptions C194_lpc.
Theorem C194_cqt : forall `{Env} x y a, q_pre_emph a = true -> pre_emphasis x (q_coeff a) = Ok y ->
  cqt_spectrogram x a = cqt_spectrogram y (cq_without_pre a) /\
  forall r c, cqcc x a r c = cqcc y (cq_without_pre a) r c.
Proof. intros E x y a Hp Hy. split; intros; [apply cqt_moved|apply cqcc_moved]; assumption. Qed.
Print Assumptions C194_cqt.

(** A tone comes out of pre_emphasis as a tone of the same frequency from the second sample on, its
    amplitude times sqrt(1-2c*cos(2 pi nu)+c^2) and with one shift of the phase for all amplitudes; for
    c >= 0 this factor grows with the frequency, from |1-c| up to 1+c. *)
Theorem C194_tone : forall c nu phi N, (0 < N)%nat -> exists psi, forall A, exists y,
  pre_emphasis (fvec N (tone A nu phi)) c = Ok (fvec N y) /\
  y 0%nat = tone A nu phi 0%nat /\ forall t, (1 <= t)%nat -> y t = tone (A * pre_gain true c nu) nu psi t.
Proof. exact pre_tone. Qed.
Print Assumptions C194_tone.
Theorem C194_gain : forall c nu nu2, 0 <= c -> 0 <= nu -> nu <= nu2 -> nu2 <= / 2 ->
  Rabs (1 - c) <= pre_gain true c nu /\ pre_gain true c nu <= pre_gain true c nu2 /\ pre_gain true c nu2 <= 1 + c.
Proof. exact pre_gain_mono. Qed.
Print Assumptions C194_gain.
(** So all rows but the first are those of a tone without pre-emphasis. *)
Theorem C194_tone_rows : forall `{Env} s a N L hop n B nu phi, well_framed a N L hop -> s_pre_emph a = true -> (1 <= s_nfft a)%Z -> (0 < n)%nat ->
  spectro_bank s a = Ok (fmat n (S (half (s_nfft a))) B) ->
  exists psi, forall A, exists P Q P2 Q2,
    spectrogram s (fvec N (tone A nu phi)) a = Ok (fmat (frame_count N L hop) n P, fmat (frame_count N L hop) (S (half (s_nfft a))) Q) /\
    spectrogram s (fvec N (tone (A * pre_gain true (gram_coeff s a) nu) nu psi)) (without_pre a) = Ok (fmat (frame_count N L hop) n P2, fmat (frame_count N L hop) (S (half (s_nfft a))) Q2) /\
    forall i, (1 <= i)%nat -> (forall j, P i j = P2 i j) /\ (forall k, Q i k = Q2 i k).
Proof. exact @gram_pre_tone. Qed.
Print Assumptions C194_tone_rows.
Theorem C194_tone_features : forall `{Env} e a c N L hop nu phi, well_framed a N L hop -> s_pre_emph a = true -> no_normalisation c ->
  exists psi, forall A M M2, run e (fvec N (tone A nu phi)) a c = Ok M ->
    run e (fvec N (tone (A * pre_gain true (feature_coeff e a) nu) nu psi)) (without_pre a) c = Ok M2 ->
    forall i, (1 <= i)%nat -> (i < List.length M)%nat -> (i < List.length M2)%nat -> nth i M [] = nth i M2 [].
Proof. exact @run_pre_tone. Qed.
Print Assumptions C194_tone_features.
(** and C193 holds in all frames but the first with that amplitude *)
Theorem C194_tone_cqt : forall `{Env} a N L hop n O B, cqt_ready a N L hop n O B -> q_pre_emph a = true ->
  exists b P len, cqt_rows (q_f0 a) (q_rate a) O B (q_fs a) (q_low a) (or_half (q_high a) (q_fs a)) n b P len /\
  forall A nu phi, 0 < nu < / 2 -> exists re im, cqt_spectrogram (fvec N (tone A nu phi)) a = Ok (cmat P (frame_count N L hop) re im) /\
  forall p i, (p < P)%nat -> (1 <= i)%nat ->
    let f := cqt_freq (q_f0 a) B (b + p) / IZR (q_fs a) in let amp := Rabs A * pre_gain true (q_coeff a) nu in
    let cut := Rmax 0 (q_threshold a) * (amp * sqrt (INR (Nat.min L n))) in
    (f <> nu -> spec_abs (re p i) (im p i) <= amp / (2 * cqt_quality (q_rate a) B) * (f / Rabs (nu - f) + f / image_distance nu f) + cut) /\
    (f = nu -> amp * (tone_share (win_type (window_of (q_sargs a))) L n (len p) / 2 - / (INR (len p) * Rabs (sin (2 * PI * nu)))) - cut <= spec_abs (re p i) (im p i)).
Proof. exact @cqt_pre_tone. Qed.
Print Assumptions C194_tone_cqt.

(** a case: three samples, and the pre-emphasised call with the coefficient 1/2 *)
Example C194_case : pre_emphasis (fvec 3 INR) (/ 2) = Ok (fvec 3 (spec_pre true (/ 2) INR)) /\
  spec_pre true (/ 2) INR 2 = 3 / 2 /\
  forall a, s_pre_emph a = true -> s_coeff a = / 2 -> @mel_spectrogram exact_env (fvec 3 INR) a = @mel_spectrogram exact_env (fvec 3 (spec_pre true (/ 2) INR)) (without_pre a).
Proof.
  assert (K : pre_emphasis (fvec 3 INR) (/ 2) = Ok (fvec 3 (spec_pre true (/ 2) INR))) by exact (pre_fvec 3 true (/ 2) INR ltac:(lia)).
  split; [exact K|]. split; [cbn; lra|]. intros a Hp Hc. apply (@C194_spectrogram exact_env Mel _ _ a Hp). cbn [gram_coeff]. rewrite Hc. exact K.
Qed.
(** lpc with pre_emph=True and any coefficient, of three samples *)
Example C194_lpc_case : forall fs order co w, @lpc exact_env (fvec 3 INR) fs order true co w = @lpc exact_env (fvec 3 (spec_pre true 0.97 INR)) fs order false 0 w.
Proof. intros. apply (@C194_lpc exact_env). exact (pre_fvec 3 true 0.97 INR ltac:(lia)). Qed.
Example C194_cqt_case : forall r c, @cqcc exact_env (fvec 1000 INR) default_qargs r c = @cqcc exact_env (fvec 1000 (spec_pre true 0.97 INR)) (cq_without_pre default_qargs) r c.
Proof. intros r c. apply (@C194_cqt exact_env); [reflexivity|]. exact (pre_fvec 1000 true 0.97 INR ltac:(lia)). Qed.
(** at a quarter of the sampling rate the factor is sqrt(1+c^2) *)
Example C194_gain_case : forall c, 0 <= c -> pre_gain true c (/ 4) = sqrt (1 + c ^ 2) /\ sqrt (1 + c ^ 2) <= 1 + c.
Proof.
  intros c Hc. assert (E : pre_gain true c (/ 4) = sqrt (1 + c ^ 2)). { unfold pre_gain. replace (2 * PI * / 4) with (PI / 2) by field. rewrite cos_PI2. f_equal. ring. }
  split; [exact E|]. rewrite <- E. apply (C194_gain c 0 (/ 4)); lra.
Qed.
(** mfcc with the default arguments, 1000 samples of a tone: rows 1 to 3 *)
Example C194_mfcc : forall nu phi, exists psi, forall A, exists y y2,
  @mfcc exact_env (fvec 1000 (tone A nu phi)) default_sargs default_cargs = Ok (fmat 4 13 y) /\
  @mfcc exact_env (fvec 1000 (tone (A * pre_gain true 0.97 nu) nu psi)) (without_pre default_sargs) default_cargs = Ok (fmat 4 13 y2) /\
  forall i, (1 <= i < 4)%nat -> nth i (fmat 4 13 y) [] = nth i (fmat 4 13 y2) [].
Proof.
  intros nu phi. destruct (@C194_tone_features exact_env Mfcc default_sargs default_cargs 1000 400 160 nu phi (default_framed 1000 ltac:(lia)) eq_refl (or_introl eq_refl)) as (psi & HP).
  exists psi. intros A. destruct (C42_example (tone A nu phi)) as [y Hy].
  destruct (@C42_finite_default_bank exact_env Mfcc (without_pre default_sargs) default_cargs 1000 400 160 24 (tone (A * pre_gain true 0.97 nu) nu psi)) as [y2 Hy2];
    auto; try (simpl; lia); try (left; reflexivity); try exact I; try exact default_band.
  { exact (default_framed 1000 ltac:(lia)). }
  exists y, y2. split; [exact Hy|]. split; [exact Hy2|]. intros i Hi. apply (HP A (fmat 4 13 y) (fmat 4 13 y2) Hy Hy2); rewrite ?fmat_length; lia.
Qed.
(** the case of C193 with the default pre-emphasis *)
Example C194_cqt_tone_case : forall N, (400 <= N)%nat -> @cqt_ready exact_env (mkQ 16000 true 0.97 None 512 0 None 7 24 0 120 1) N 400 160 512 7 24.
Proof. intros N HN. exact (C193_ready N HN). Qed.
Example C194_plp_case : @plp exact_env (fvec 1000 INR) default_sargs 13 None None = @plp exact_env (fvec 1000 (spec_pre true 0.97 INR)) (without_pre default_sargs) 13 None None.
Proof. apply (@C194_more_features exact_env); [reflexivity|]. exact (pre_fvec 1000 true 0.97 INR ltac:(lia)). Qed.
(** mel_spectrogram with the default arguments, 1000 samples of a tone *)
Example C194_mel : forall nu phi, exists psi, forall A, exists P Q P2 Q2,
  @mel_spectrogram exact_env (fvec 1000 (tone A nu phi)) default_sargs = Ok (fmat 4 24 P, fmat 4 257 Q) /\
  @mel_spectrogram exact_env (fvec 1000 (tone (A * pre_gain true 0.97 nu) nu psi)) (without_pre default_sargs) = Ok (fmat 4 24 P2, fmat 4 257 Q2) /\
  forall i, (1 <= i)%nat -> (forall j, P i j = P2 i j) /\ (forall k, Q i k = Q2 i k).
Proof.
  intros nu phi. destruct (C17_mel_triangles 24 512 16000 0 None 8000 "constant" "Oshaghnessy" oshaghnessy) as ((cc & HB) & _);
    [left; auto|simpl; tauto|right; split; auto; lra|lra|lra|lra|lia|].
  apply (@C194_tone_rows exact_env Mel default_sargs 1000 400 160 24 (spec_bank oshaghnessy 0 8000 24 (half 512) "constant") nu phi);
    [exact (default_framed 1000 ltac:(lia))|reflexivity|simpl; lia|lia|].
  unfold spectro_bank, default_sargs. cbn [s_fbanks s_nfilts s_nfft s_fs s_low s_high s_scale s_approach]. change 24%Z with (Z.of_nat 24). rewrite HB. reflexivity.
Qed.
