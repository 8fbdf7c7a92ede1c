(** * Properties: calls that leave out the window *)
From Coq Require Import Reals ZArith String List Lia Lra.
From Verif Require Import Base SpecBase SpecMat SpecFilters SpecBanks SpecFeatures Preprocessing Features Extractors Lpc Rplp Pncc Cqt ExampleFeatures
  FeaturesMore MelBanksMore FeaturesFacts FeaturesLaws SpecDefaults DefaultFacts.
Import ListNotations.
Local Open Scope R_scope.

(** C162. Every extractor called with window=None behaves as with 25 ms Hamming windows every
    10 ms: the same features, the same errors. *)
Theorem C162_cepstra : forall `{Env} e sig a c, run e sig (with_window a None) c = run e sig (with_window a (Some hamming_25_10)) c.
Proof. exact @run_default. Qed.
Print Assumptions C162_cepstra.
Theorem C162_others : forall `{Env} sig a g c p order lifter norm,
  psrcc sig (with_window a None) g c = psrcc sig (with_window a (Some hamming_25_10)) g c /\
  pncc sig (with_window a None) p c = pncc sig (with_window a (Some hamming_25_10)) p c /\
  plp sig (with_window a None) order lifter norm = plp sig (with_window a (Some hamming_25_10)) order lifter norm /\
  rplp sig (with_window a None) order lifter norm = rplp sig (with_window a (Some hamming_25_10)) order lifter norm.
Proof. exact @others_default. Qed.
Print Assumptions C162_others.
Theorem C162_prediction : forall `{Env} sig fs order pre co lifter norm,
  lpc sig fs order pre co None = lpc sig fs order pre co (Some hamming_25_10) /\
  lpcc sig fs order pre co None lifter norm = lpcc sig fs order pre co (Some hamming_25_10) lifter norm.
Proof. exact @lpc_default. Qed.
Print Assumptions C162_prediction.
Theorem C162_constant_q : forall `{Env} sig a ratio c,
  cqt_spectrogram sig (with_cqt_window a None) = cqt_spectrogram sig (with_cqt_window a (Some hamming_25_10)) /\
  cqcc sig (with_cqt_window a None) ratio c = cqcc sig (with_cqt_window a (Some hamming_25_10)) ratio c.
Proof. exact @cqt_default. Qed.
Print Assumptions C162_constant_q.

(** C162. In numbers: at 200 m samples per second a spectrogram without a window argument has a row for every
    5 m samples beginning at a multiple of 2 m, and sample t of a row is weighted by 0.54 - 0.46 cos(2 pi t / (5 m - 1)). *)
Theorem C162_spectrogram : forall `{Env} s a m N n B x, s_window a = None -> s_fs a = Z.of_nat (200 * m) -> (1 <= m)%nat -> (5 * m <= N)%nat ->
  rnd (INR (5 * m)) = INR (5 * m) -> rnd (INR (2 * m)) = INR (2 * m) ->
  (1 <= s_nfft a)%Z -> (0 < n)%nat -> spectro_bank s a = Ok (fmat n (S (half (s_nfft a))) B) ->
  let fr i := default_frame m (spec_pre (s_pre_emph a) (spectro_coeff s a) x) i in
  let rows := ((N - 5 * m) / (2 * m) + 1)%nat in
  spectrogram s (fvec N x) a
  = Ok (fmat rows n (fun i j => spec_band (half (s_nfft a)) (Z.to_nat (s_nfft a)) (5 * m) (fr i) (B j)),
        fmat rows (S (half (s_nfft a))) (fun i => spec_mag (Z.to_nat (s_nfft a)) (5 * m) (fr i))).
Proof. exact @spectrogram_default. Qed.
Print Assumptions C162_spectrogram.
(** the default call at 16 kHz *)
Example C162_example : forall x, exists B,
  @mel_spectrogram exact_env (fvec 1000 x) default_sargs =
  Ok (fmat 4 24 (fun i j => spec_band 256 512 400 (default_frame 80 (spec_pre true 0.97 x) i) (B j)),
      fmat 4 257 (fun i => spec_mag 512 400 (default_frame 80 (spec_pre true 0.97 x) i))).
Proof.
  intros x. destruct (@valid_band_bank exact_env Mfcc default_sargs 24 default_band) as (B & HB & _); [auto|simpl; lia|].
  exists B. apply (@C162_spectrogram exact_env Mel default_sargs 80 1000 24 B x); try reflexivity; try lia; try (simpl; lia); exact HB.
Qed.
