(** * Proofs for C194: pre-emphasis before the call, and what it makes of a tone *)
From Coq Require Import Reals ZArith List String Bool Lia Lra Psatz FunctionalExtensionality.
From Coquelicot Require Import Complex.
From Verif Require Import Base BaseFacts SpecBase SpecMat SpecFeatures BigSum MatFacts Preprocessing PreprocessingFacts SpecSpectral SpecFilters SpecBanks Features Lpc LpcFacts
  Rplp Pncc Cqt CqtFacts SpecCqt SpecCqtSeen Extractors FeaturesFacts FeaturesMore FeaturesLaws SpecChannels SpecChannelsMore ChannelsFacts SpecTone ToneFacts SpecHum HumFacts SpecCqtTone CqtToneFacts
  SpecPreMoved.
Import ListNotations.
Local Open Scope R_scope.

Lemma framed_moved : forall `{Env} x y fs c c2 w, pre_emphasis x c = Ok y -> framed x fs true c w = framed y fs false c2 w.
Proof. intros E x y fs c c2 w Hy. unfold framed. rewrite Hy. reflexivity. Qed.
Lemma spectrogram_moved : forall `{Env} s x y a, s_pre_emph a = true -> pre_emphasis x (gram_coeff s a) = Ok y ->
  spectrogram s x a = spectrogram s y (without_pre a).
Proof.
  intros E s x y a Hp Hy. rewrite !spectrogram_gram. unfold spec_gram. change (spectro_coeff s a) with (gram_coeff s a) in *.
  rewrite Hp, (framed_moved x y _ _ (gram_coeff s (without_pre a)) _ Hy). destruct s; reflexivity.
Qed.
Lemma run_moved : forall `{Env} e x y a c, s_pre_emph a = true -> pre_emphasis x (feature_coeff e a) = Ok y ->
  run e x a c = run e y (without_pre a) c.
Proof.
  intros E e x y a c Hp Hy. rewrite !run_cep. unfold cep, spec_gram. replace (extractor_coeff e a) with (feature_coeff e a) by (destruct e; reflexivity).
  rewrite Hp, (framed_moved x y _ _ (extractor_coeff e (without_pre a)) _ Hy). destruct e; reflexivity.
Qed.
Lemma lpc_moved : forall `{Env} x y fs order co co2 w, pre_emphasis x 0.97 = Ok y -> lpc x fs order true co w = lpc y fs order false co2 w.
Proof. intros E x y fs order co co2 w Hy. unfold lpc. rewrite (framed_moved x y _ _ 0.97 _ Hy). reflexivity. Qed.
Lemma lpcc_moved : forall `{Env} x y fs order co co2 w li no, pre_emphasis x 0.97 = Ok y -> lpcc x fs order true co w li no = lpcc y fs order false co2 w li no.
Proof. intros E x y fs order co co2 w li no Hy. unfold lpcc. rewrite (framed_moved x y _ _ 0.97 _ Hy). reflexivity. Qed.
Lemma psrcc_moved : forall `{Env} x y a g c, s_pre_emph a = true -> pre_emphasis x (s_coeff a) = Ok y -> psrcc x a g c = psrcc y (without_pre a) g c.
Proof. intros E x y a g c Hp Hy. unfold psrcc. rewrite Hp, (framed_moved x y _ _ (s_coeff a) _ Hy). reflexivity. Qed.
Lemma pncc_moved : forall `{Env} x y a p c, s_pre_emph a = true -> pre_emphasis x (s_coeff a) = Ok y -> pncc x a p c = pncc y (without_pre a) p c.
Proof. intros E x y a p c Hp Hy. unfold pncc. rewrite Hp, (framed_moved x y _ _ (s_coeff a) _ Hy). reflexivity. Qed.
Lemma rastaplp_moved : forall `{Env} x y a o r li no, s_pre_emph a = true -> pre_emphasis x (s_coeff a) = Ok y -> rastaplp x a o r li no = rastaplp y (without_pre a) o r li no.
Proof. intros E x y a o r li no Hp Hy. unfold rastaplp. rewrite Hp, (framed_moved x y _ _ (s_coeff a) _ Hy). reflexivity. Qed.
Lemma cqt_moved : forall `{Env} x y a, q_pre_emph a = true -> pre_emphasis x (q_coeff a) = Ok y -> cqt_spectrogram x a = cqt_spectrogram y (cq_without_pre a).
Proof. intros E x y a Hp Hy. unfold cqt_spectrogram. rewrite Hp, (framed_moved x y _ _ (q_coeff a) _ Hy). reflexivity. Qed.
Lemma cqcc_moved : forall `{Env} x y a r c, q_pre_emph a = true -> pre_emphasis x (q_coeff a) = Ok y -> cqcc x a r c = cqcc y (cq_without_pre a) r c.
Proof. intros E x y a r c Hp Hy. unfold cqcc. rewrite (cqt_moved x y a Hp Hy). reflexivity. Qed.

(** ** Tones *)
Lemma pre_tone_at : forall c nu phi, exists psi, forall A t, spec_pre true c (tone A nu phi) (S t) = tone (A * pre_gain true c nu) nu psi (S t).
Proof.
  intros c nu phi. destruct (pre_wave c 1 nu phi) as (psi & HW). exists psi. intros A t. unfold spec_pre, tone. specialize (HW (INR (S t))). replace (INR (S t) - 1) with (INR t) in HW by (rewrite S_INR; ring).
  transitivity (A * (1 * cos (2 * PI * nu * INR (S t) + phi) - c * (1 * cos (2 * PI * nu * INR t + phi)))); [ring|]. rewrite HW. ring.
Qed.
Lemma pre_tone : forall c nu phi N, (0 < N)%nat -> exists psi, forall A, exists y, pre_emphasis (fvec N (tone A nu phi)) c = Ok (fvec N y) /\
  y 0%nat = tone A nu phi 0%nat /\ forall t, (1 <= t)%nat -> y t = tone (A * pre_gain true c nu) nu psi t.
Proof.
  intros c nu phi N HN. destruct (pre_tone_at c nu phi) as (psi & HW). exists psi. intros A. exists (spec_pre true c (tone A nu phi)). split; [exact (pre_fvec N true c _ HN)|]. split; [reflexivity|].
  intros t Ht. destruct t as [|t]; [lia|]. apply HW.
Qed.
Lemma fvec_nth_out : forall N x t, nth t (fvec N x) NaN = if Nat.ltb t N then Fin (x t) else NaN.
Proof.
  intros N x t. destruct (Nat.ltb_spec t N) as [H|H]; [apply fvec_nth; exact H|]. apply nth_overflow. rewrite fvec_length. exact H.
Qed.
Lemma run_pre_tone : forall `{Env} e a c N L hop nu phi, well_framed a N L hop -> s_pre_emph a = true -> no_normalisation c ->
  exists psi, forall A M M2, run e (fvec N (tone A nu phi)) a c = Ok M ->
    run e (fvec N (tone (A * pre_gain true (feature_coeff e a) nu) nu psi)) (without_pre a) c = Ok M2 ->
    forall i, (1 <= i)%nat -> (i < List.length M)%nat -> (i < List.length M2)%nat -> nth i M [] = nth i M2 [].
Proof.
  intros E e a c N L hop nu phi Hw Hp Hn. pose proof Hw as (_ & _ & Hh & H0 & HN & _). destruct (pre_tone (feature_coeff e a) nu phi N ltac:(lia)) as (psi & HT). exists psi.
  intros A M M2 H1 H2 i Hi I1 I2. destruct (HT A) as (y & Hy & _ & HT1). rewrite (run_moved e _ _ a c Hp Hy) in H1.
  apply (run_row_eq e _ _ (without_pre a) c M M2 i i H1 H2 Hn I1 I2); [intros; tauto|]. intros j Hj [J|J] J2; [|discriminate J].
  change (flen (s_fs (without_pre a)) (win_hop (window_of (without_pre a)))) with (flen (s_fs a) (win_hop (window_of a))). rewrite Hh. rewrite !fvec_nth_out. destruct (Nat.ltb _ N); [|reflexivity]. f_equal. apply HT1. nia.
Qed.
Lemma cqt_pre_tone : forall `{Env} a N L hop n O B, cqt_ready a N L hop n O B -> q_pre_emph a = true ->
  exists b P len, cqt_rows (q_f0 a) (q_rate a) O B (q_fs a) (q_low a) (or_half (q_high a) (q_fs a)) n b P len /\
  forall A nu phi, 0 < nu < / 2 -> exists re im, cqt_spectrogram (fvec N (tone A nu phi)) a = Ok (cmat P (frame_count N L hop) re im) /\
  forall p i, (p < P)%nat -> (1 <= i)%nat ->
    let f := cqt_freq (q_f0 a) B (b + p) / IZR (q_fs a) in let amp := Rabs A * pre_gain true (q_coeff a) nu in
    let cut := Rmax 0 (q_threshold a) * (amp * sqrt (INR (Nat.min L n))) in
    (f <> nu -> spec_abs (re p i) (im p i) <= amp / (2 * cqt_quality (q_rate a) B) * (f / Rabs (nu - f) + f / image_distance nu f) + cut) /\
    (f = nu -> amp * (tone_share (win_type (window_of (q_sargs a))) L n (len p) / 2 - / (INR (len p) * Rabs (sin (2 * PI * nu)))) - cut <= spec_abs (re p i) (im p i)).
Proof.
  intros E a N L hop n O B Hr Hpre. destruct (spectrogram_ok a N L hop n O B Hr) as (b & P & len & HR & HE). exists b, P, len. split; [exact HR|]. intros A nu phi Hnu. rewrite HE, cmat_emb. do 2 eexists. split; [reflexivity|].
  intros p i Hp Hi. cbv beta zeta. destruct (pre_tone_at (q_coeff a) nu phi) as (psi & HT).
  assert (Hr2 : cqt_ready (cq_without_pre a) N L hop n O B) by exact Hr.
  pose proof (row_tone (cq_without_pre a) N L hop n O B b P len Hr2 eq_refl HR (A * pre_gain true (q_coeff a) nu) nu psi p i Hnu Hp) as K. cbv zeta in K.
  assert (EA : Rabs (A * pre_gain true (q_coeff a) nu) = Rabs A * pre_gain true (q_coeff a) nu) by (rewrite Rabs_mult, (Rabs_pos_eq (pre_gain _ _ _)) by apply pre_gain_pos; reflexivity). rewrite EA in K.
  assert (EZ : row_at (cq_without_pre a) B L hop n len b (tone (A * pre_gain true (q_coeff a) nu) nu psi) p i
    = cqtC (q_threshold a) n (win_type (window_of (q_sargs a))) (q_fs a) L (frame_of (q_sargs a) (q_coeff a) L hop (tone A nu phi) i) (cqt_freq (q_f0 a) B (b + p)) (len p)).
  { unfold row_at. apply cqtC_ext. intros t. unfold frame_of, spec_frame. f_equal. change (s_pre_emph (q_sargs (cq_without_pre a))) with false. change (s_pre_emph (q_sargs a)) with (q_pre_emph a). rewrite Hpre.
    destruct Hr as ((_ & _ & _ & H0 & _) & _). destruct (i * hop + t)%nat as [|u] eqn:Eu; [nia|]. rewrite HT. reflexivity. }
  rewrite EZ in K. exact (proj2 K).
Qed.
Lemma gram_pre_tone : forall `{Env} s a N L hop n B nu phi, well_framed a N L hop -> s_pre_emph a = true -> (1 <= s_nfft a)%Z -> (0 < n)%nat ->
  spectro_bank s a = Ok (fmat n (S (half (s_nfft a))) B) ->
  exists psi, forall A, exists P Q P2 Q2,
    spectrogram s (fvec N (tone A nu phi)) a = Ok (fmat (frame_count N L hop) n P, fmat (frame_count N L hop) (S (half (s_nfft a))) Q) /\
    spectrogram s (fvec N (tone (A * pre_gain true (gram_coeff s a) nu) nu psi)) (without_pre a) = Ok (fmat (frame_count N L hop) n P2, fmat (frame_count N L hop) (S (half (s_nfft a))) Q2) /\
    forall i, (1 <= i)%nat -> (forall j, P i j = P2 i j) /\ (forall k, Q i k = Q2 i k).
Proof.
  intros E s a N L hop n B nu phi Hw Hp Hf Hn HB. destruct (pre_tone_at (gram_coeff s a) nu phi) as (psi & HT). exists psi. intros A.
  assert (HB2 : spectro_bank s (without_pre a) = Ok (fmat n (S (half (s_nfft (without_pre a)))) B)) by exact HB.
  do 4 eexists. split; [exact (spectrogram_fvec s a N L hop n B _ Hw Hf Hn HB)|]. split; [exact (spectrogram_fvec s (without_pre a) N L hop n B _ Hw Hf Hn HB2)|]. intros i Hi.
  assert (EF : frame_of a (spectro_coeff s a) L hop (tone A nu phi) i
    = frame_of (without_pre a) (spectro_coeff s (without_pre a)) L hop (tone (A * pre_gain true (gram_coeff s a) nu) nu psi) i).
  { apply FunctionalExtensionality.functional_extensionality. intros t. unfold frame_of, spec_frame. f_equal. change (s_pre_emph (without_pre a)) with false. rewrite Hp. change (spectro_coeff s a) with (gram_coeff s a).
    destruct Hw as (_ & _ & _ & H0 & _). destruct (i * hop + t)%nat as [|u] eqn:Eu; [nia|]. rewrite HT. reflexivity. }
  rewrite EF. split; reflexivity.
Qed.
Lemma pre_gain_mono : forall c nu nu2, 0 <= c -> 0 <= nu -> nu <= nu2 -> nu2 <= / 2 ->
  Rabs (1 - c) <= pre_gain true c nu /\ pre_gain true c nu <= pre_gain true c nu2 /\ pre_gain true c nu2 <= 1 + c.
Proof.
  intros c nu nu2 Hc H0 H1 H2. unfold pre_gain. pose proof PI_RGT_0 as PP. assert (CD : cos (2 * PI * nu2) <= cos (2 * PI * nu)). { apply cos_decr_1; nra. }
  pose proof (COS_bound (2 * PI * nu)) as C1. pose proof (COS_bound (2 * PI * nu2)) as C2. split; [|split].
  - rewrite <- (sqrt_Rsqr_abs (1 - c)). apply sqrt_le_1_alt. unfold Rsqr. nra.
  - apply sqrt_le_1_alt. nra.
  - rewrite <- (sqrt_Rsqr (1 + c)) by lra. apply sqrt_le_1_alt. unfold Rsqr. nra.
Qed.
