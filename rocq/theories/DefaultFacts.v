(** * Calls without a window argument *)
From Coq Require Import Reals ZArith String List Lia Lra.
From Flocq Require Import Core.Raux.
From Verif Require Import Base SpecBase SpecMat SpecFilters SpecBanks SpecFeatures Preprocessing PreprocessingFacts Features Extractors FeaturesFacts
  FeaturesMore FeaturesPhase ExampleTools MatFacts Lpc Rplp Pncc Cqt Channels SpecDefaults.
Import ListNotations.
Local Open Scope R_scope.

Lemma default_is : default_window = hamming_25_10.
Proof. unfold default_window, hamming_25_10. f_equal; lra. Qed.
Lemma framed_default : forall `{Env} sig fs pre co, framed sig fs pre co None = framed sig fs pre co (Some hamming_25_10).
Proof. intros. unfold framed. rewrite default_is. reflexivity. Qed.
Lemma framed_2d_default : forall `{Env} s fs pre co, framed_2d s fs pre co None = framed_2d s fs pre co (Some hamming_25_10).
Proof. intros. unfold framed_2d. rewrite default_is. reflexivity. Qed.

Lemma run_default : forall `{Env} e sig a c, run e sig (with_window a None) c = run e sig (with_window a (Some hamming_25_10)) c.
Proof.
  intros E e sig a c. destruct e; cbn [run];
    unfold mfcc, imfcc, lfcc, bfcc, gfcc, ngcc, msrcc, mfcc, mel_spectrogram, linear_spectrogram, bark_spectrogram, erb_spectrogram, with_fbanks, with_window;
    cbn [s_fs s_pre_emph s_coeff s_window s_nfilts s_nfft s_low s_high s_scale s_fbanks s_approach]; rewrite ?framed_default; reflexivity.
Qed.
Lemma others_default : forall `{Env} sig a g c p order lifter norm,
  psrcc sig (with_window a None) g c = psrcc sig (with_window a (Some hamming_25_10)) g c /\
  pncc sig (with_window a None) p c = pncc sig (with_window a (Some hamming_25_10)) p c /\
  plp sig (with_window a None) order lifter norm = plp sig (with_window a (Some hamming_25_10)) order lifter norm /\
  rplp sig (with_window a None) order lifter norm = rplp sig (with_window a (Some hamming_25_10)) order lifter norm.
Proof.
  intros. unfold psrcc, pncc, plp, rplp, rastaplp, with_window.
  cbn [s_fs s_pre_emph s_coeff s_window s_nfilts s_nfft s_low s_high s_scale s_fbanks s_approach]. rewrite !framed_default. repeat split; reflexivity.
Qed.
Lemma lpc_default : forall `{Env} sig fs order pre co lifter norm,
  lpc sig fs order pre co None = lpc sig fs order pre co (Some hamming_25_10) /\
  lpcc sig fs order pre co None lifter norm = lpcc sig fs order pre co (Some hamming_25_10) lifter norm.
Proof. intros. unfold lpc, lpcc. rewrite !framed_default. split; reflexivity. Qed.
Lemma cqt_default : forall `{Env} sig a ratio c,
  cqt_spectrogram sig (with_cqt_window a None) = cqt_spectrogram sig (with_cqt_window a (Some hamming_25_10)) /\
  cqcc sig (with_cqt_window a None) ratio c = cqcc sig (with_cqt_window a (Some hamming_25_10)) ratio c.
Proof.
  intros E sig a ratio c.
  assert (K : cqt_spectrogram sig (with_cqt_window a None) = cqt_spectrogram sig (with_cqt_window a (Some hamming_25_10))).
  { unfold cqt_spectrogram, with_cqt_window. cbn [q_fs q_pre_emph q_coeff q_window q_nfft q_low q_high q_octaves q_bins q_threshold q_f0 q_rate].
    rewrite framed_default, default_is. reflexivity. }
  split; [exact K|]. unfold cqcc. rewrite K. reflexivity.
Qed.
Lemma default_well_framed : forall `{Env} a m N, s_window a = None -> s_fs a = Z.of_nat (200 * m) -> (1 <= m)%nat -> (5 * m <= N)%nat ->
  rnd (INR (5 * m)) = INR (5 * m) -> rnd (INR (2 * m)) = INR (2 * m) -> well_framed a N (5 * m) (2 * m).
Proof.
  intros E a m N Hw Hf Hm HN R5 R2. unfold well_framed, window_of. rewrite Hw, Hf, default_is. cbn [hamming_25_10 win_len win_hop win_type].
  split; [lra|]. unfold flen. rewrite <- INR_IZR_INZ, mult_INR.
  replace (25 / 1000 * (INR 200 * INR m)) with (INR (5 * m)) by (rewrite mult_INR; replace (INR 200) with 200 by (rewrite INR_IZR_INZ; reflexivity); replace (INR 5) with 5 by (rewrite INR_IZR_INZ; reflexivity); lra).
  replace (10 / 1000 * (INR 200 * INR m)) with (INR (2 * m)) by (rewrite mult_INR; replace (INR 200) with 200 by (rewrite INR_IZR_INZ; reflexivity); replace (INR 2) with 2 by (rewrite INR_IZR_INZ; reflexivity); lra).
  rewrite R5, R2, !INR_IZR_INZ, !Ztrunc_IZR. repeat split; try lia. cbn. tauto.
Qed.
Lemma default_frame_of : forall a co m x i t, s_window a = None -> (1 <= m)%nat ->
  frame_of a co (5 * m) (2 * m) x i t = default_frame m (spec_pre (s_pre_emph a) co x) i t.
Proof.
  intros a co m x i t Hw Hm. unfold frame_of, spec_frame, window_of, default_frame. rewrite Hw, default_is. cbn [hamming_25_10 win_type].
  f_equal. unfold spec_window. destruct (Nat.leb_spec (5 * m) 1); [lia|]. cbn [String.eqb]. 
  change (String.eqb "hamming" "hanning") with false. change (String.eqb "hamming" "bartlet") with false.
  change (String.eqb "hamming" "kaiser") with false. change (String.eqb "hamming" "blackman") with false. unfold spec_hamming, spec_theta. reflexivity.
Qed.
Lemma spectrogram_default : forall `{Env} s a m N n B x, s_window a = None -> s_fs a = Z.of_nat (200 * m) -> (1 <= m)%nat -> (5 * m <= N)%nat ->
  rnd (INR (5 * m)) = INR (5 * m) -> rnd (INR (2 * m)) = INR (2 * m) ->
  (1 <= s_nfft a)%Z -> (0 < n)%nat -> spectro_bank s a = Ok (fmat n (S (half (s_nfft a))) B) ->
  let fr i := default_frame m (spec_pre (s_pre_emph a) (spectro_coeff s a) x) i in
  let rows := ((N - 5 * m) / (2 * m) + 1)%nat in
  spectrogram s (fvec N x) a
  = Ok (fmat rows n (fun i j => spec_band (half (s_nfft a)) (Z.to_nat (s_nfft a)) (5 * m) (fr i) (B j)),
        fmat rows (S (half (s_nfft a))) (fun i => spec_mag (Z.to_nat (s_nfft a)) (5 * m) (fr i))).
Proof.
  intros E s a m N n B x Hw Hf Hm HN R5 R2 Hn Hn0 HB fr rows.
  rewrite (spectrogram_fvec s a N (5 * m) (2 * m) n B x (default_well_framed a m N Hw Hf Hm HN R5 R2) Hn Hn0 HB).
  change (frame_count N (5 * m) (2 * m)) with rows.
  assert (K : forall i, frame_of a (spectro_coeff s a) (5 * m) (2 * m) x i = fr i).
  { intros i. apply FunctionalExtensionality.functional_extensionality. intros t. apply default_frame_of; assumption. }
  f_equal. f_equal; apply fmat_ext; intros i j Hi Hj; rewrite K; reflexivity.
Qed.
