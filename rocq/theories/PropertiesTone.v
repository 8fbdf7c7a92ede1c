(** * Properties of the analysis of pure tones *)
From Coq Require Import Reals ZArith List String Bool Lia Lra.
From Verif Require Import Base BaseFacts SpecBase BigSum Preprocessing SpecMat MatFacts SpecFilters SpecBanks SpecFeatures Features Extractors
  ExampleFeatures SpecSpectral Dominant PropertiesMelBanks PropertiesDominant SpecTone ToneFacts.
Import ListNotations.
Local Open Scope R_scope.

(** ** C170: a tone of nu periods per sample *)

(** in a spectrogram a tone stays out of the bins and bands further than d from it: bins get at most
    A*(1/sin(pi*d) + 1/edge), however long the frames are, and bands the square of this over nfft times
    the sum of their weights *)
Theorem C170_leakage : forall (E : Env) s a N L hop n B A nu phi,
  @well_framed E a N L hop -> s_pre_emph a = false -> (Z.of_nat L <= s_nfft a)%Z -> (0 < n)%nat ->
  @spectro_bank E s a = Ok (fmat n (S (half (s_nfft a))) B) -> 0 < nu < / 2 ->
  exists P Q, @spectrogram E s (fvec N (tone A nu phi)) a = Ok (fmat (frame_count N L hop) n P, fmat (frame_count N L hop) (S (half (s_nfft a))) Q) /\
  forall i d, (i < frame_count N L hop)%nat -> 0 < d ->
    (forall k, (k <= half (s_nfft a))%nat -> d <= Rabs (nu - INR k / IZR (s_nfft a)) -> 0 <= Q i k <= Rabs A * (/ sin (PI * d) + / edge_distance nu)) /\
    (forall j, (j < n)%nat -> (forall k, (k <= half (s_nfft a))%nat -> 0 <= B j k /\ (B j k <> 0 -> d <= Rabs (nu - INR k / IZR (s_nfft a)))) ->
       0 <= P i j <= bigsum (S (half (s_nfft a))) (B j) * (Rabs A * (/ sin (PI * d) + / edge_distance nu)) ^ 2 / IZR (s_nfft a)).
Proof. exact spectrogram_tone. Qed.
Print Assumptions C170_leakage.

(** the bin get_dominant_frequencies picks is within d of the tone in every frame, whatever the phase
    and the amplitude, if the tone stands out (see tone_seen) *)
Theorem C170_bin : forall `{Env} N A nu phi fs wl wh wt L hop n d k0, cut_config fs wl wh wt N L hop -> (L <= n)%nat -> A <> 0 ->
  0 < nu < / 2 -> 0 < d -> (k0 <= n / 2)%nat -> tone_seen wt n L nu d k0 ->
  exists k v, get_dominant_frequencies (fvec N (tone A nu phi)) fs None (Z.of_nat n) wl wh wt false = Ok (fvec (frame_count N L hop) v) /\
  forall i, (i < frame_count N L hop)%nat -> (k i <= n / 2)%nat /\ Rabs (nu - INR (k i) / INR n) < d /\
    near_milli (signed_bin (S (n / 2)) (k i) * IZR fs / INR (S (n / 2))) (v i).
Proof. exact @dominant_tone. Qed.
Print Assumptions C170_bin.

(** the number reported for a tone of frequency f = nu*fs is f*n/(n/2+1), almost 2*f, up to
    d*fs*n/(n/2+1) for tones below fs/4; for tones above fs/4 it is a negative number *)
Theorem C170_reported : forall `{Env} N A nu phi fs wl wh wt L hop n d k0, cut_config fs wl wh wt N L hop -> (L <= n)%nat -> A <> 0 ->
  0 < nu < / 2 -> 0 < d -> (k0 <= n / 2)%nat -> tone_seen wt n L nu d k0 ->
  exists v, get_dominant_frequencies (fvec N (tone A nu phi)) fs None (Z.of_nat n) wl wh wt false = Ok (fvec (frame_count N L hop) v) /\
  let r := INR n / INR (S (n / 2)) in
  forall i, (i < frame_count N L hop)%nat ->
  (nu + d <= / 4 -> Rabs (v i - r * (nu * IZR fs)) <= r * (d * IZR fs) + / 2000) /\
  (/ 4 + / (2 * INR n) <= nu - d -> Rabs (v i - (r * (nu * IZR fs) - IZR fs)) <= r * (d * IZR fs) + / 2000 /\
     ((Z.of_nat (S (n / 2)) < 2000 * fs)%Z -> v i < 0)).
Proof. exact @dominant_tone_value. Qed.
Print Assumptions C170_reported.

(** with the default window and transform, 16 kHz: a tone of 1000 to 3800 Hz is reported within 400 Hz of
    1.992 times its frequency, one of 4220 to 7000 Hz is not reported when only positive values are asked for *)
Theorem C170_default : forall `{Env} N A f phi, cut_config 16000 0.025 0.010 "hamming" N 400 160 -> A <> 0 ->
  (1000 <= f <= 3800 -> exists v,
     get_dominant_frequencies (fvec N (tone A (f / 16000) phi)) 16000 None 512 0.025 0.010 "hamming" false = Ok (fvec (frame_count N 400 160) v) /\
     forall i, (i < frame_count N 400 160)%nat -> Rabs (v i - 512 / 257 * f) <= 400) /\
  (4220 <= f <= 7000 ->
     get_dominant_frequencies (fvec N (tone A (f / 16000) phi)) 16000 None 512 0.025 0.010 "hamming" true = Ok []).
Proof. exact @default_tone. Qed.
Print Assumptions C170_default.

(** 1000 samples of a 1 kHz tone: bins 1 kHz away or more hold at most 10.3 times the amplitude *)
Example C170_leakage_example : forall A phi, exists P Q,
  @mel_spectrogram exact_env (fvec 1000 (tone A (/ 16) phi)) (mkS 16000 false 0.97 (Some (mkWindow 0.025 0.010 "hamming")) 24 512 0 None "constant" None "Oshaghnessy")
    = Ok (fmat 4 24 P, fmat 4 257 Q) /\
  forall i k, (i < 4)%nat -> (64 <= k <= 256)%nat -> 0 <= Q i k <= 10.3 * Rabs A.
Proof.
  intros A phi.
  destruct (C17_mel_triangles 24 512 16000 0 None 8000 "constant" "Oshaghnessy" oshaghnessy) as ((cc & HB) & HR & _);
    [left; auto|simpl; tauto|right; split; auto; lra|lra|lra|lra|lia|].
  destruct (C170_leakage exact_env Mel (mkS 16000 false 0.97 (Some (mkWindow 0.025 0.010 "hamming")) 24 512 0 None "constant" None "Oshaghnessy") 1000 400 160 24
    (spec_bank oshaghnessy 0 8000 24 (half 512) "constant") A (/ 16) phi) as (P & Q & H1 & H2).
  - exact (default_framed 1000 ltac:(lia)).
  - reflexivity.
  - simpl. lia.
  - lia.
  - unfold spectro_bank. cbn [s_fbanks s_nfilts s_nfft s_fs s_low s_high s_scale s_approach]. change 24%Z with (Z.of_nat 24). rewrite HB. reflexivity.
  - lra.
  - exists P, Q. split; [exact H1|]. intros i k Hi Hk. destruct (H2 i (/ 16) Hi ltac:(lra)) as (K & _). cbn [s_nfft] in K.
    assert (KR : 64 <= INR k) by (replace 64 with (INR 64) by (rewrite INR_IZR_INZ; reflexivity); apply le_INR; lia).
    assert (HH : half 512 = 256%nat) by reflexivity. destruct (K k ltac:(lia)) as (K0 & K1).
    { rewrite Rabs_minus_sym. eapply Rle_trans; [|apply Rle_abs]. lra. }
    split; [exact K0|]. eapply Rle_trans; [exact K1|]. rewrite Rmult_comm. apply Rmult_le_compat_r; [apply Rabs_pos|].
    pose proof (edge_16 (/ 16) ltac:(lra)) as EG. assert (SG : edge_distance (/ 16) <= sin (PI * / 16)) by apply Rmin_l.
    assert (/ sin (PI * / 16) <= / 0.195) by (apply Rinv_le_contravar; lra). assert (/ edge_distance (/ 16) <= / 0.195) by (apply Rinv_le_contravar; lra). lra.
Qed.
(** the largest bin of every frame of the 1 kHz tone is within 200 Hz of 1 kHz: 26 to 38 *)
Example C170_bin_example : forall A phi, A <> 0 -> exists k v,
  @get_dominant_frequencies exact_env (fvec 1000 (tone A (/ 16) phi)) 16000 None 512 0.025 0.010 "hamming" false = Ok (fvec 4 v) /\
  forall i, (i < 4)%nat -> (26 <= k i <= 38)%nat /\ near_milli (signed_bin 257 (k i) * 16000 / INR 257) (v i).
Proof.
  intros A phi HA. destruct (default_seen (/ 16) ltac:(lra)) as (k0 & Hk0 & HS).
  destruct (C170_bin (H := exact_env) 1000 A (/ 16) phi 16000 0.025 0.010 "hamming" 400 160 512 (/ 80) k0 (default_cut 1000 ltac:(lia)) ltac:(lia) HA ltac:(lra) ltac:(lra) Hk0 HS)
    as (k & v & H1 & H2).
  exists k, v. split; [exact H1|]. intros i Hi. destruct (H2 i Hi) as (_ & K & V). split; [|exact V].
  replace (INR 512) with 512 in K by (rewrite INR_IZR_INZ; reflexivity). apply Rabs_def2 in K. rewrite INR_IZR_INZ in K.
  assert (25 < Z.of_nat (k i) < 39)%Z by (split; apply lt_IZR; lra). lia.
Qed.
(** the 1 kHz tone is reported near 1992 Hz, a 5 kHz tone near -6039 Hz *)
Example C170_reported_example : forall A phi, A <> 0 -> exists v w,
  @get_dominant_frequencies exact_env (fvec 1000 (tone A (/ 16) phi)) 16000 None 512 0.025 0.010 "hamming" false = Ok (fvec 4 v) /\
  @get_dominant_frequencies exact_env (fvec 1000 (tone A (5 / 16) phi)) 16000 None 512 0.025 0.010 "hamming" false = Ok (fvec 4 w) /\
  forall i, (i < 4)%nat -> 1592 <= v i <= 2392 /\ -6439 <= w i <= -5639.
Proof.
  intros A phi HA. destruct (default_seen (/ 16) ltac:(lra)) as (k0 & Hk0 & HS). destruct (default_seen (5 / 16) ltac:(lra)) as (k1 & Hk1 & HS1).
  destruct (C170_reported (H := exact_env) 1000 A (/ 16) phi 16000 0.025 0.010 "hamming" 400 160 512 (/ 80) k0 (default_cut 1000 ltac:(lia)) ltac:(lia) HA ltac:(lra) ltac:(lra) Hk0 HS)
    as (v & H1 & H2).
  destruct (C170_reported (H := exact_env) 1000 A (5 / 16) phi 16000 0.025 0.010 "hamming" 400 160 512 (/ 80) k1 (default_cut 1000 ltac:(lia)) ltac:(lia) HA ltac:(lra) ltac:(lra) Hk1 HS1)
    as (w & H3 & H4).
  exists v, w. split; [exact H1|]. split; [exact H3|]. intros i Hi. destruct (H2 i Hi) as (K & _). destruct (H4 i Hi) as (_ & K4).
  replace (INR 512) with 512 in * by (rewrite INR_IZR_INZ; reflexivity). replace (INR (S (512 / 2))) with 257 in * by (rewrite INR_IZR_INZ; reflexivity).
  specialize (K ltac:(lra)). destruct (K4 ltac:(lra)) as (K5 & _). apply Rcomplements.Rabs_le_between in K, K5. lra.
Qed.
(** the hypotheses of C170_default hold for every recording of 400 samples or more *)
Example C170_default_example : forall A phi, A <> 0 ->
  @get_dominant_frequencies exact_env (fvec 1000 (tone A (5000 / 16000) phi)) 16000 None 512 0.025 0.010 "hamming" true = Ok [].
Proof. intros A phi HA. apply (C170_default (H := exact_env) 1000 A 5000 phi (default_cut 1000 ltac:(lia)) HA). lra. Qed.
