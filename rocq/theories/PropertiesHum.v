(** * Properties of recordings with a hum or an offset *)
From Coq Require Import Reals ZArith List String Bool Lia Lra.
From Coquelicot Require Rcomplements.
From Verif Require Import Base BaseFacts SpecBase BigSum Preprocessing SpecMat MatFacts SpecFilters SpecBanks SpecFeatures DctFacts MelBanksMore Features
  Extractors FeaturesFacts FeaturesMore FeaturesLaws FeaturesPhase ExampleFeatures SpecInvariance SpecNoise NoiseFacts PropertiesMelBanks PropertiesNoise
  SpecTone ToneFacts SpecHum HumFacts.
Import ListNotations.
Local Open Scope R_scope.

(** ** C173: a tone of nu periods per sample is added to a recording *)

(** bins of the magnitude spectrum change by at most the leak of the tone, times its amplitude and the
    gain of the pre-emphasis filter at its frequency; roots of band energies by at most sqrt(weights/nfft)
    times this for the bin with the largest leak. The recording is arbitrary. *)
Theorem C173_spectrogram : forall (E : Env) s a N L hop n B A nu phi x,
  @well_framed E a N L hop -> (Z.of_nat L <= s_nfft a)%Z -> (0 < n)%nat ->
  @spectro_bank E s a = Ok (fmat n (S (half (s_nfft a))) B) ->
  let m := Z.to_nat (s_nfft a) in
  exists P Q P2 Q2,
    @spectrogram E s (fvec N x) a = Ok (fmat (frame_count N L hop) n P, fmat (frame_count N L hop) (S (half (s_nfft a))) Q) /\
    @spectrogram E s (fvec N (with_hum A nu phi x)) a = Ok (fmat (frame_count N L hop) n P2, fmat (frame_count N L hop) (S (half (s_nfft a))) Q2) /\
    forall i, (i < frame_count N L hop)%nat ->
      (forall k, off_bin m nu k -> Rabs (Q2 i k - Q i k) <= hum_mag (s_pre_emph a) (spectro_coeff s a) A nu (leak m nu k) i) /\
      (forall j ell, (j < n)%nat -> 0 <= ell -> (forall k, (k <= half (s_nfft a))%nat -> 0 <= B j k /\ (B j k <> 0 -> off_bin m nu k /\ leak m nu k <= ell)) ->
         Rabs (sqrt (P2 i j) - sqrt (P i j)) <= hum_level (s_pre_emph a) (spectro_coeff s a) A nu ell (bigsum (S (half (s_nfft a))) (B j)) m i).
Proof. exact spectrogram_hum. Qed.
Print Assumptions C173_spectrogram.

(** an offset: bin k changes by at most 2/sin(pi*k/nfft) times the offset, times |1-coefficient| with
    pre-emphasis (and a little more in the first frame); bands without weight below bin k1 likewise *)
Theorem C173_offset : forall (E : Env) s a N L hop n B A x,
  @well_framed E a N L hop -> (Z.of_nat L <= s_nfft a)%Z -> (0 < n)%nat ->
  @spectro_bank E s a = Ok (fmat n (S (half (s_nfft a))) B) ->
  let c := spectro_coeff s a in
  let effect i k := Rabs A * ((if s_pre_emph a then Rabs (1 - c) else 1) * (2 / sin (PI * (INR k / IZR (s_nfft a)))) + first_frame (s_pre_emph a) c i) in
  exists P Q P2 Q2,
    @spectrogram E s (fvec N x) a = Ok (fmat (frame_count N L hop) n P, fmat (frame_count N L hop) (S (half (s_nfft a))) Q) /\
    @spectrogram E s (fvec N (fun t => x t + A)) a = Ok (fmat (frame_count N L hop) n P2, fmat (frame_count N L hop) (S (half (s_nfft a))) Q2) /\
    forall i, (i < frame_count N L hop)%nat ->
      (forall k, (1 <= k <= half (s_nfft a))%nat -> Rabs (Q2 i k - Q i k) <= effect i k) /\
      (forall j k1, (j < n)%nat -> (1 <= k1)%nat -> (forall k, (k <= half (s_nfft a))%nat -> 0 <= B j k) -> (forall k, (k < k1)%nat -> B j k = 0) -> (k1 <= half (s_nfft a))%nat ->
         Rabs (sqrt (P2 i j) - sqrt (P i j)) <= sqrt (bigsum (S (half (s_nfft a))) (B j) / IZR (s_nfft a)) * effect i k1).
Proof. exact spectrogram_offset. Qed.
Print Assumptions C173_offset.

(** mfcc, imfcc, lfcc, ngcc: rows stay close where the root of every band energy exceeds the level q of
    the tone in that band; r is the ratio *)
Theorem C173_log : forall (E : Env) e a c N L hop n B A nu phi x ell,
  @well_framed E a N L hop -> (Z.of_nat L <= s_nfft a)%Z -> (0 < n)%nat ->
  @extractor_bank E e a = Ok (fmat n (S (half (s_nfft a))) B) ->
  let m := Z.to_nat (s_nfft a) in
  (forall j, (j < n)%nat -> 0 <= ell j /\ forall k, (k <= half (s_nfft a))%nat -> 0 <= B j k /\ (B j k <> 0 -> off_bin m nu k /\ leak m nu k <= ell j)) ->
  (0 <= c_num_ceps c <= s_nfilts a)%Z -> (1 <= c_dct_type c <= 4)%Z -> (c_dct_type c = 1%Z -> (2 <= n)%nat) ->
  no_lifter c -> no_normalisation c ->
  let K := Nat.min (Z.to_nat (c_num_ceps c)) n in
  let x2 := with_hum A nu phi x in
  let band z i j := spec_band (half (s_nfft a)) m L (frame_of a (extractor_coeff e a) L hop z i) (B j) in
  let q i j := hum_level (s_pre_emph a) (extractor_coeff e a) A nu (ell j) (bigsum (S (half (s_nfft a))) (B j)) m i in
  In e [Mfcc; Imfcc; Lfcc; Ngcc] -> c_use_energy c = false ->
  exists y y2, @run E e (fvec N x) a c = Ok (fmat (frame_count N L hop) K y) /\ @run E e (fvec N x2) a c = Ok (fmat (frame_count N L hop) K y2) /\
    forall i r, (i < frame_count N L hop)%nat -> 0 <= r < 1 -> (forall j, (j < n)%nat -> 0 < band x i j /\ q i j <= r * sqrt (band x i j)) ->
      sqdist K (y i) (y2 i) <= INR n * (2 * - ln (1 - r)) ^ 2.
Proof. intros. eapply hum_log; eassumption. Qed.
Print Assumptions C173_log.

(** bfcc *)
Theorem C173_bfcc : forall (E : Env) e a c N L hop n B A nu phi x ell,
  @well_framed E a N L hop -> (Z.of_nat L <= s_nfft a)%Z -> (0 < n)%nat ->
  @extractor_bank E e a = Ok (fmat n (S (half (s_nfft a))) B) ->
  let m := Z.to_nat (s_nfft a) in
  (forall j, (j < n)%nat -> 0 <= ell j /\ forall k, (k <= half (s_nfft a))%nat -> 0 <= B j k /\ (B j k <> 0 -> off_bin m nu k /\ leak m nu k <= ell j)) ->
  (0 <= c_num_ceps c <= s_nfilts a)%Z -> (1 <= c_dct_type c <= 4)%Z -> (c_dct_type c = 1%Z -> (2 <= n)%nat) ->
  no_lifter c -> no_normalisation c ->
  let K := Nat.min (Z.to_nat (c_num_ceps c)) n in
  let x2 := with_hum A nu phi x in
  let band z i j := spec_band (half (s_nfft a)) m L (frame_of a (extractor_coeff e a) L hop z i) (B j) in
  let q i j := hum_level (s_pre_emph a) (extractor_coeff e a) A nu (ell j) (bigsum (S (half (s_nfft a))) (B j)) m i in
  e = Bfcc -> c_use_energy c = false ->
  exists y y2, @run E e (fvec N x) a c = Ok (fmat (frame_count N L hop) K y) /\ @run E e (fvec N x2) a c = Ok (fmat (frame_count N L hop) K y2) /\
    forall i r, (i < frame_count N L hop)%nat -> 0 <= r < 1 -> (forall j, (j < n)%nat -> 0 < band x i j /\ q i j <= r * sqrt (band x i j)) ->
      sqdist K (y i) (y2 i) <= INR n * (32 / 3 * - ln (1 - r)) ^ 2.
Proof. intros. eapply hum_bfcc; eassumption. Qed.
Print Assumptions C173_bfcc.

(** gfcc, and msrcc with 0 < gamma <= 1/2: no condition on the level of the bands *)
Theorem C173_root : forall (E : Env) e p a c N L hop n B A nu phi x ell,
  @well_framed E a N L hop -> (Z.of_nat L <= s_nfft a)%Z -> (0 < n)%nat ->
  @extractor_bank E e a = Ok (fmat n (S (half (s_nfft a))) B) ->
  let m := Z.to_nat (s_nfft a) in
  (forall j, (j < n)%nat -> 0 <= ell j /\ forall k, (k <= half (s_nfft a))%nat -> 0 <= B j k /\ (B j k <> 0 -> off_bin m nu k /\ leak m nu k <= ell j)) ->
  (0 <= c_num_ceps c <= s_nfilts a)%Z -> (1 <= c_dct_type c <= 4)%Z -> (c_dct_type c = 1%Z -> (2 <= n)%nat) ->
  no_lifter c -> no_normalisation c ->
  let K := Nat.min (Z.to_nat (c_num_ceps c)) n in
  let x2 := with_hum A nu phi x in
  let band z i j := spec_band (half (s_nfft a)) m L (frame_of a (extractor_coeff e a) L hop z i) (B j) in
  let q i j := hum_level (s_pre_emph a) (extractor_coeff e a) A nu (ell j) (bigsum (S (half (s_nfft a))) (B j)) m i in
  root_exponent e p -> 0 < p <= / 2 -> c_use_energy c = false ->
  exists y y2, @run E e (fvec N x) a c = Ok (fmat (frame_count N L hop) K y) /\ @run E e (fvec N x2) a c = Ok (fmat (frame_count N L hop) K y2) /\
    forall i l, (i < frame_count N L hop)%nat -> (forall j, (j < n)%nat -> q i j <= l) -> sqdist K (y i) (y2 i) <= INR n * spec_root (2 * p) l ^ 2.
Proof. intros. eapply hum_root; eassumption. Qed.
Print Assumptions C173_root.

(** a bank of the caller with one band that holds bin 128 (4 kHz) only *)
Definition one_bin (_ k : nat) : R := if Nat.eqb k 128 then 1 else 0.
Definition one_bin_args : sargs := mkS 16000 true 0.97 (Some (mkWindow 0.025 0.010 "hamming")) 1 512 0 None "constant" (Some (fmat 1 257 one_bin)) "Oshaghnessy".
Fact one_bin_sum : bigsum 257 (one_bin 0) = 1.
Proof. exact (bigsum_delta 257 128 (fun _ => 1) ltac:(lia)). Qed.
Fact leak_4k : off_bin 512 (/ 32) 128 /\ leak 512 (/ 32) 128 <= 4.
Proof.
  pose proof PI_RGT_0 as HP. unfold off_bin, leak. replace (INR 128 / INR 512) with (/ 4) by (rewrite !INR_IZR_INZ; cbn; field).
  replace (PI * (/ 32 - / 4)) with (- (7 / 32 * PI)) by field. rewrite sin_neg. replace (PI * (/ 32 + / 4)) with (9 / 32 * PI) by field. rewrite Rabs_Ropp.
  assert (S : forall y, PI / 6 <= y -> y <= PI / 2 -> 1 / 2 <= sin y) by (intros y H1 H2; rewrite <- sin_PI6; apply sin_incr_1; lra).
  pose proof (S (7 / 32 * PI) ltac:(lra) ltac:(lra)) as S1. pose proof (S (9 / 32 * PI) ltac:(lra) ltac:(lra)) as S2. rewrite !Rabs_pos_eq by lra. split; [lra|].
  assert (/ sin (7 / 32 * PI) <= 2) by (replace 2 with (/ (1 / 2)) by field; apply Rinv_le_contravar; lra).
  assert (/ sin (9 / 32 * PI) <= 2) by (replace 2 with (/ (1 / 2)) by field; apply Rinv_le_contravar; lra). lra.
Qed.
Fact gain_2 : forall nu, pre_gain true 0.97 nu <= 2.
Proof.
  intros nu. unfold pre_gain. pose proof (COS_bound (2 * PI * nu)). apply Rle_trans with (sqrt (2 ^ 2)); [apply sqrt_le_1_alt; lra|rewrite sqrt_pow2; lra].
Qed.
(** a hum at 500 Hz, any recording of 1000 samples: that bin and that band change by at most 9 times its amplitude *)
Example C173_spectrogram_example : forall A phi x, exists P Q P2 Q2,
  @mel_spectrogram exact_env (fvec 1000 x) one_bin_args = Ok (fmat 4 1 P, fmat 4 257 Q) /\
  @mel_spectrogram exact_env (fvec 1000 (with_hum A (/ 32) phi x)) one_bin_args = Ok (fmat 4 1 P2, fmat 4 257 Q2) /\
  forall i, (i < 4)%nat -> Rabs (Q2 i 128%nat - Q i 128%nat) <= 9 * Rabs A /\ Rabs (sqrt (P2 i 0%nat) - sqrt (P i 0%nat)) <= 9 * Rabs A.
Proof.
  intros A phi x. destruct (C173_spectrogram exact_env Mel one_bin_args 1000 400 160 1 one_bin A (/ 32) phi x) as (P & Q & P2 & Q2 & H1 & H2 & H3).
  - exact (default_framed 1000 ltac:(lia)).
  - simpl. lia.
  - lia.
  - reflexivity.
  - exists P, Q, P2, Q2. split; [exact H1|]. split; [exact H2|]. intros i Hi. destruct (H3 i Hi) as (H4 & H5).
    change (Z.to_nat (s_nfft one_bin_args)) with 512%nat in *. change (half (s_nfft one_bin_args)) with 256%nat in *. change (s_pre_emph one_bin_args) with true in *.
    change (spectro_coeff Mel one_bin_args) with 0.97 in *. destruct leak_4k as (O & LE).
    assert (HM : hum_mag true 0.97 A (/ 32) 4 i <= 9 * Rabs A).
    { unfold hum_mag. rewrite Rmult_comm. apply Rmult_le_compat_r; [apply Rabs_pos|]. pose proof (gain_2 (/ 32)).
      assert (first_frame true 0.97 i <= 1) by (unfold first_frame; destruct (true && Nat.eqb i 0); [rewrite Rabs_pos_eq|]; lra). lra. }
    split.
    + eapply Rle_trans; [apply H4, O|]. eapply Rle_trans; [apply (hum_mag_mono _ _ _ _ _ _ i LE)|exact HM].
    + eapply Rle_trans; [apply (H5 0%nat 4); [lia|lra|]|].
      * intros k Hk. unfold one_bin. destruct (Nat.eqb_spec k 128) as [->|NE]; [split; [lra|intros _; split; assumption]|split; [lra|intros NZ; contradiction NZ; reflexivity]].
      * unfold hum_level. change (S 256) with 257%nat. rewrite one_bin_sum. rewrite <- (Rmult_1_l (9 * Rabs A)). apply Rmult_le_compat; [apply sqrt_pos| | |exact HM].
        -- eapply Rle_trans; [apply Rabs_pos|]. eapply Rle_trans; [apply H4, O|]. apply hum_mag_mono, LE.
        -- replace (INR 512) with 512 by (rewrite INR_IZR_INZ; reflexivity). apply Rle_trans with (sqrt 1); [apply sqrt_le_1_alt; lra|rewrite sqrt_1; lra].
Qed.
(** an offset A: from the second frame on bin 128 changes by less than A/10 *)
Example C173_offset_example : forall A x, exists P Q P2 Q2,
  @mel_spectrogram exact_env (fvec 1000 x) one_bin_args = Ok (fmat 4 1 P, fmat 4 257 Q) /\
  @mel_spectrogram exact_env (fvec 1000 (fun t => x t + A)) one_bin_args = Ok (fmat 4 1 P2, fmat 4 257 Q2) /\
  forall i, (1 <= i < 4)%nat -> Rabs (Q2 i 128%nat - Q i 128%nat) <= 0.1 * Rabs A /\ Rabs (sqrt (P2 i 0%nat) - sqrt (P i 0%nat)) <= 0.1 * Rabs A.
Proof.
  intros A x. destruct (C173_offset exact_env Mel one_bin_args 1000 400 160 1 one_bin A x) as (P & Q & P2 & Q2 & H1 & H2 & H3).
  - exact (default_framed 1000 ltac:(lia)).
  - simpl. lia.
  - lia.
  - reflexivity.
  - exists P, Q, P2, Q2. split; [exact H1|]. split; [exact H2|]. intros i Hi. assert (Hi4 : (i < 4)%nat) by lia. destruct (H3 i Hi4) as (H4 & H5). clear H1 H2 H3.
    change (half (s_nfft one_bin_args)) with 256%nat in *. change (s_pre_emph one_bin_args) with true in *. change (s_nfft one_bin_args) with 512%Z in *.
    change (spectro_coeff Mel one_bin_args) with 0.97 in *.
    set (ef := Rabs A * (Rabs (1 - 0.97) * (2 / sin (PI * (INR 128 / 512))) + first_frame true 0.97 i)) in *.
    assert (EF : ef <= 0.1 * Rabs A).
    { unfold ef. rewrite Rmult_comm. apply Rmult_le_compat_r; [apply Rabs_pos|]. replace (INR 128 / 512) with (/ 4) by (rewrite INR_IZR_INZ; cbn; field).
      replace (first_frame true 0.97 i) with 0 by (unfold first_frame; destruct (Nat.eqb_spec i 0); [lia|reflexivity]). rewrite Rabs_pos_eq by lra.
      pose proof pi_low. pose proof PI_4. assert (S1 : 0.7 <= sin (PI * / 4)) by (eapply Rle_trans; [|apply (sin_low (PI * / 4) 0.78); lra]; lra).
      assert (/ sin (PI * / 4) <= / 0.7) by (apply Rinv_le_contravar; lra). lra. }
    assert (E0 : 0 <= ef) by (eapply Rle_trans; [apply Rabs_pos|apply (H4 128%nat); lia]).
    split; [eapply Rle_trans; [apply (H4 128%nat); lia|exact EF]|].
    eapply Rle_trans; [apply (H5 0%nat 128%nat); try lia|].
    + intros k _. unfold one_bin. destruct (Nat.eqb k 128); lra.
    + intros k Hk. unfold one_bin. destruct (Nat.eqb_spec k 128); [lia|reflexivity].
    + fold ef. change (S 256) with 257%nat. rewrite one_bin_sum. rewrite <- (Rmult_1_l (0.1 * Rabs A)). apply Rmult_le_compat; [apply sqrt_pos|exact E0| |exact EF].
      apply Rle_trans with (sqrt 1); [apply sqrt_le_1_alt; lra|rewrite sqrt_1; lra].
Qed.
(** frames of one sample, the recording (1, 3), a buzz at half the sampling rate with amplitude 1/400 *)
Fact buzz_bin : forall j k, (k <= 0)%nat -> off_bin 1 (/ 2) k /\ leak 1 (/ 2) k <= (fun _ : nat => 2) j.
Proof.
  intros j k Hk. assert (k = 0%nat) by lia. subst k. unfold off_bin, leak. change (INR 0) with 0. change (INR 1) with 1.
  replace (PI * (/ 2 - 0 / 1)) with (PI / 2) by field. replace (PI * (/ 2 + 0 / 1)) with (PI / 2) by field. rewrite sin_PI2, Rabs_R1. split; [lra|]. lra.
Qed.
Fact buzz_level : forall co i, 0 <= co <= 1 -> hum_level true co (/ 400) (/ 2) 2 (bigsum 1 (fun _ => 1)) 1 i <= 0.02.
Proof.
  intros co i Hc. unfold hum_level, hum_mag. cbn [bigsum]. change (INR 1) with 1. replace ((0 + 1) / 1) with 1 by field. rewrite sqrt_1, Rmult_1_l, Rabs_pos_eq by lra.
  assert (pre_gain true co (/ 2) <= 2).
  { unfold pre_gain. replace (2 * PI * / 2) with PI by field. rewrite cos_PI. apply Rle_trans with (sqrt (2 ^ 2)); [apply sqrt_le_1_alt; nra|rewrite sqrt_pow2; lra]. }
  assert (first_frame true co i <= 1) by (unfold first_frame; destruct (true && Nat.eqb i 0); [rewrite Rabs_pos_eq|]; lra). lra.
Qed.
Example C173_log_example : forall phi, exists y y2,
  @mfcc exact_env (fvec 2 two) (tiny 1) tiny_c = Ok (fmat 2 1 y) /\ @mfcc exact_env (fvec 2 (with_hum (/ 400) (/ 2) phi two)) (tiny 1) tiny_c = Ok (fmat 2 1 y2) /\
  forall i, (i < 2)%nat -> sqdist 1 (y i) (y2 i) <= 0.045 ^ 2.
Proof.
  intros phi. destruct (C173_log exact_env Mfcc (tiny 1) tiny_c 2 1 1 1 (fun _ _ => 1) (/ 400) (/ 2) phi two (fun _ => 2)) as (y & y2 & Y & Y2 & D);
    try (simpl; lia); try (left; reflexivity); try reflexivity; auto.
  - apply tiny_framed. reflexivity.
  - intros j _. split; [lra|]. intros k Hk. split; [lra|]. intros _. apply (buzz_bin j), Hk.
  - exists y, y2. split; [exact Y|]. split; [exact Y2|]. intros i Hi. eapply Rle_trans; [apply (D i 0.02 Hi ltac:(lra))|].
    + intros j _. change (half (s_nfft (tiny 1))) with 0%nat. change (Z.to_nat (s_nfft (tiny 1))) with 1%nat. cbn [extractor_coeff]. change (s_coeff (tiny 1)) with 1.
      change (s_pre_emph (tiny 1)) with true. pose proof (buzz_level 1 i ltac:(lra)). pose proof (two_band i Hi) as B.
      assert (1 <= sqrt (spec_band 0 1 1 (frame_of (tiny 1) 1 1 1 two i) (fun _ => 1))) by (apply above_one; exact B). lra.
    + change (INR 1) with 1. pose proof two_log as L. rewrite Rmult_1_l. apply pow_incr. lra.
Qed.
Example C173_bfcc_example : forall phi, exists y y2,
  @bfcc exact_env (fvec 2 two) (tiny 1) tiny_c = Ok (fmat 2 1 y) /\ @bfcc exact_env (fvec 2 (with_hum (/ 400) (/ 2) phi two)) (tiny 1) tiny_c = Ok (fmat 2 1 y2) /\
  forall i, (i < 2)%nat -> sqdist 1 (y i) (y2 i) <= 0.23 ^ 2.
Proof.
  intros phi. destruct (C173_bfcc exact_env Bfcc (tiny 1) tiny_c 2 1 1 1 (fun _ _ => 1) (/ 400) (/ 2) phi two (fun _ => 2)) as (y & y2 & Y & Y2 & D);
    try (simpl; lia); try (left; reflexivity); try reflexivity; auto.
  - apply tiny_framed. reflexivity.
  - intros j _. split; [lra|]. intros k Hk. split; [lra|]. intros _. apply (buzz_bin j), Hk.
  - exists y, y2. split; [exact Y|]. split; [exact Y2|]. intros i Hi. eapply Rle_trans; [apply (D i 0.02 Hi ltac:(lra))|].
    + intros j _. change (half (s_nfft (tiny 1))) with 0%nat. change (Z.to_nat (s_nfft (tiny 1))) with 1%nat. cbn [extractor_coeff].
      change (frame_of (tiny 1) 0.97 1 1 two i) with (frame_of (tiny 0.97) 0.97 1 1 two i).
      change (s_pre_emph (tiny 1)) with true. pose proof (buzz_level 0.97 i ltac:(lra)).
      assert (B : 1 <= spec_band 0 1 1 (frame_of (tiny 0.97) 0.97 1 1 two i) (fun _ => 1)) by (rewrite tiny_band; destruct i as [|[|i]]; cbn [spec_pre two]; try lia; lra).
      assert (1 <= sqrt (spec_band 0 1 1 (frame_of (tiny 0.97) 0.97 1 1 two i) (fun _ => 1))) by (apply above_one; exact B). lra.
    + change (INR 1) with 1. pose proof two_log as L. rewrite Rmult_1_l. apply pow_incr. lra.
Qed.
(** msrcc with gamma 1/2, any recording with the buzz *)
Example C173_root_example : forall phi x, exists y y2,
  @msrcc exact_env (fvec 2 x) (tiny 1) (1 / 2) tiny_c = Ok (fmat 2 1 y) /\ @msrcc exact_env (fvec 2 (with_hum (/ 400) (/ 2) phi x)) (tiny 1) (1 / 2) tiny_c = Ok (fmat 2 1 y2) /\
  forall i, (i < 2)%nat -> sqdist 1 (y i) (y2 i) <= 0.02 ^ 2.
Proof.
  intros phi x. destruct (C173_root exact_env (Msrcc (1 / 2)) (1 / 2) (tiny 1) tiny_c 2 1 1 1 (fun _ _ => 1) (/ 400) (/ 2) phi x (fun _ => 2)) as (y & y2 & Y & Y2 & D);
    try (simpl; lia); try (left; reflexivity); try reflexivity; auto; try lra.
  - apply tiny_framed. reflexivity.
  - intros j _. split; [lra|]. intros k Hk. split; [lra|]. intros _. apply (buzz_bin j), Hk.
  - right. split; [reflexivity|lra].
  - exists y, y2. split; [exact Y|]. split; [exact Y2|]. intros i Hi. eapply Rle_trans; [apply (D i 0.02 Hi)|].
    + intros j _. apply (buzz_level 1 i). lra.
    + unfold spec_root. destruct (Req_EM_T 0.02 0); [lra|]. replace (2 * (1 / 2)) with 1 by lra. rewrite Rpower_1 by lra. change (INR 1) with 1. lra.
Qed.
