(** * Properties of the analysis of tones in noise *)
From Coq Require Import Reals ZArith List String Bool Lia Lra.
From Verif Require Import Base BaseFacts SpecBase BigSum Preprocessing SpecMat MatFacts SpecFeatures SpecSpectral Dominant PropertiesDominant
  SpecYin Yin PropertiesYin SpecNoise SpecTone ToneFacts YinToneFacts ToneNoiseFacts.
Import ListNotations.
Local Open Scope R_scope.

(** ** C172: any recording whose samples are within eps of those of a tone *)

(** every window is voiced, with a lag less than a sixth of a period off (so no octave errors) and a
    harmonic rate below the threshold. The noise is arbitrary, up to eps in every sample. *)
Theorem C172_pitch : forall `{Env} N A nu phi eps x fs wl wh low high th L hop lo T,
  yin_config fs wl wh low high L hop lo T -> (S T <= L)%nat -> A <> 0 -> 0 < nu -> apart N eps (tone A nu phi) x -> 0 <= eps ->
  100 * nu ^ 2 <= th <= / 7 -> 7 * th * (INR L + / sin (2 * PI * nu)) + 2 / nu + / sin (2 * PI * nu) <= INR L ->
  60 * eps ^ 2 <= th * A ^ 2 -> 10 * eps <= Rabs A * Rmin (sin (PI * nu * INR lo)) (/ 2) ->
  (1 <= lo)%nat -> nu * INR lo <= / 2 -> / nu + / 2 < INR (S T) ->
  let n := yin_frames N L hop in
  exists P H a, compute_yin (fvec N x) fs wl wh low high th
    = Ok (fvec n P, fvec n H, map a (seq 0 n), fvec n (fun i => INR (i * hop) / IZR fs)) /\
  forall i, (i < n)%nat -> (exists p, P i = IZR fs / INR p /\ Rabs (INR p - / nu) < / nu / 6 /\ (1 <= p)%nat) /\ 0 <= H i < th.
Proof. exact @yin_noisy. Qed.
Print Assumptions C172_pitch.

(** with the default parameters at 16 kHz: tones of 265 to 500 Hz, noise up to a fortieth of the amplitude *)
Theorem C172_pitch_default : forall `{Env} N A f phi x, yin_config 16000 0.03 0.015 50 3000 480 240 5 319 -> A <> 0 -> 265 <= f <= 500 ->
  apart N (Rabs A / 40) (tone A (f / 16000) phi) x ->
  let n := yin_frames N 480 240 in
  exists P H a, compute_yin (fvec N x) 16000 0.03 0.015 50 3000 0.1
    = Ok (fvec n P, fvec n H, map a (seq 0 n), fvec n (fun i => INR (i * 240) / 16000)) /\
  forall i, (i < n)%nat -> (exists p, P i = 16000 / INR p /\ Rabs (INR p - 16000 / f) < 16000 / f / 6 /\ (1 <= p)%nat) /\ 0 <= H i < 0.1.
Proof. exact @yin_noisy_default. Qed.
Print Assumptions C172_pitch_default.

(** the bin get_dominant_frequencies picks is within d of the tone in every frame *)
Theorem C172_bin : forall `{Env} N A nu phi eps x fs wl wh wt L hop n d k0, cut_config fs wl wh wt N L hop -> (L <= n)%nat -> A <> 0 ->
  0 < nu < / 2 -> 0 < d -> (k0 <= n / 2)%nat -> apart N eps (tone A nu phi) x -> tone_seen_in_noise wt n L nu d (eps / Rabs A) k0 ->
  exists k v, get_dominant_frequencies (fvec N x) fs None (Z.of_nat n) wl wh wt false = Ok (fvec (frame_count N L hop) v) /\
  forall i, (i < frame_count N L hop)%nat -> (k i <= n / 2)%nat /\ Rabs (nu - INR (k i) / INR n) < d /\
    near_milli (signed_bin (S (n / 2)) (k i) * IZR fs / INR (S (n / 2))) (v i).
Proof. exact @dominant_noisy. Qed.
Print Assumptions C172_bin.

(** what is reported for it, as in C170_reported *)
Theorem C172_reported : forall `{Env} N A nu phi eps x fs wl wh wt L hop n d k0, cut_config fs wl wh wt N L hop -> (L <= n)%nat -> A <> 0 ->
  0 < nu < / 2 -> 0 < d -> (k0 <= n / 2)%nat -> apart N eps (tone A nu phi) x -> tone_seen_in_noise wt n L nu d (eps / Rabs A) k0 ->
  exists v, get_dominant_frequencies (fvec N x) fs None (Z.of_nat n) wl wh wt false = Ok (fvec (frame_count N L hop) v) /\
  let r := INR n / INR (S (n / 2)) in
  forall i, (i < frame_count N L hop)%nat ->
  (nu + d <= / 4 -> Rabs (v i - r * (nu * IZR fs)) <= r * (d * IZR fs) + / 2000) /\
  (/ 4 + / (2 * INR n) <= nu - d -> Rabs (v i - (r * (nu * IZR fs) - IZR fs)) <= r * (d * IZR fs) + / 2000 /\
     ((Z.of_nat (S (n / 2)) < 2000 * fs)%Z -> v i < 0)).
Proof. exact @dominant_noisy_value. Qed.
Print Assumptions C172_reported.

(** with the default window and transform, 16 kHz, noise up to a fortieth of the amplitude: a tone of 1000
    to 3600 Hz is reported within 800 Hz of 1.992 times its frequency *)
Theorem C172_default : forall `{Env} N A f phi x, cut_config 16000 0.025 0.010 "hamming" N 400 160 -> A <> 0 -> 1000 <= f <= 3600 ->
  apart N (Rabs A / 40) (tone A (f / 16000) phi) x -> exists v,
  get_dominant_frequencies (fvec N x) 16000 None 512 0.025 0.010 "hamming" false = Ok (fvec (frame_count N 400 160) v) /\
  forall i, (i < frame_count N 400 160)%nat -> Rabs (v i - 512 / 257 * f) <= 800.
Proof. exact @dominant_noisy_default. Qed.
Print Assumptions C172_default.

(** a tone with a buzz at half the sampling rate on top *)
Definition buzz (nu : R) (t : nat) : R := tone 1 nu 0 t + (-1) ^ t / 50.
Fact buzz_apart : forall N nu, apart N (/ 50) (tone 1 nu 0) (buzz nu).
Proof. intros N nu t _. unfold buzz. replace (tone 1 nu 0 t + (-1) ^ t / 50 - tone 1 nu 0 t) with ((-1) ^ t * / 50) by field. rewrite Rabs_mult, pow_1_abs, Rabs_pos_eq; lra. Qed.
Fact buzz_apart_40 : forall N nu, apart N (Rabs 1 / 40) (tone 1 nu 0) (buzz nu).
Proof. intros N nu t Ht. rewrite Rabs_R1. eapply Rle_trans; [exact (buzz_apart N nu t Ht)|lra]. Qed.

(** a period of 40 samples, threshold 0.1: the lag is between 34 and 46 *)
Example C172_pitch_example : exists P H a,
  @compute_yin exact_env (fvec 2000 (buzz (/ 40))) 16000 0.03 0.015 50 3000 0.1
    = Ok (fvec 7 P, fvec 7 H, map a (seq 0 7), fvec 7 (fun i => INR (i * 240) / 16000)) /\
  forall i, (i < 7)%nat -> 340 <= P i <= 480.
Proof.
  assert (S2 : 5 * / 40 <= sin (2 * PI * / 40)) by (apply (sin2 (/ 40) 0.1); lra).
  assert (K : / sin (2 * PI * / 40) <= 8) by (replace 8 with (/ (5 * / 40)) by field; apply Rinv_le_contravar; lra).
  assert (E480 : INR 480 = 480) by (rewrite INR_IZR_INZ; reflexivity). assert (E320 : INR 320 = 320) by (rewrite INR_IZR_INZ; reflexivity).
  assert (G1 : 7 * 0.1 * (INR 480 + / sin (2 * PI * / 40)) + 2 / / 40 + / sin (2 * PI * / 40) <= INR 480) by (rewrite E480; lra).
  assert (G2 : 10 * / 50 <= Rabs 1 * Rmin (sin (PI * / 40 * INR 5)) (/ 2)).
  { rewrite Rabs_R1, Rmult_1_l. replace (INR 5) with 5 by (rewrite INR_IZR_INZ; reflexivity). pose proof pi_low. pose proof pi_high.
    apply Rmin_glb; [|lra]. eapply Rle_trans; [|apply (sin_low _ 0.39)]; lra. }
  assert (G3 : / 40 * INR 5 <= / 2) by (replace (INR 5) with 5 by (rewrite INR_IZR_INZ; reflexivity); lra).
  assert (G4 : / / 40 + / 2 < INR 320) by (rewrite E320; lra).
  destruct (C172_pitch (H := exact_env) 2000 1 (/ 40) 0 (/ 50) (buzz (/ 40)) 16000 0.03 0.015 50 3000 0.1 480 240 5 319 default_yin ltac:(lia) ltac:(lra) ltac:(lra)
    (buzz_apart 2000 (/ 40)) ltac:(lra) ltac:(lra) G1 ltac:(lra) G2 ltac:(lia) G3 G4) as (P & H & a & E1 & E2).
  change (yin_frames 2000 480 240) with 7%nat in *. exists P, H, a. split; [exact E1|]. intros i Hi. destruct (E2 i Hi) as ((p & Ep & Hp & _) & _).
  apply Rabs_def2 in Hp. rewrite Ep. rewrite INR_IZR_INZ in *. assert (Q : (33 < Z.of_nat p < 47)%Z) by (split; apply lt_IZR; lra).
  assert (Q1 : 34 <= IZR (Z.of_nat p) <= 46) by (split; apply IZR_le; lia).
  split; apply Rmult_le_reg_r with (IZR (Z.of_nat p)); try lra; unfold Rdiv; rewrite Rmult_assoc, Rinv_l by lra; lra.
Qed.
(** 440 Hz with the buzz: pitches between 377 and 533 Hz, so neither 220 nor 880 *)
Example C172_pitch_default_example : exists P H a,
  @compute_yin exact_env (fvec 2000 (buzz (440 / 16000))) 16000 0.03 0.015 50 3000 0.1
    = Ok (fvec 7 P, fvec 7 H, map a (seq 0 7), fvec 7 (fun i => INR (i * 240) / 16000)) /\
  forall i, (i < 7)%nat -> 377 <= P i <= 533.4.
Proof.
  destruct (C172_pitch_default (H := exact_env) 2000 1 440 0 (buzz (440 / 16000)) default_yin ltac:(lra) ltac:(lra) (buzz_apart_40 2000 (440 / 16000))) as (P & H & a & E1 & E2).
  change (yin_frames 2000 480 240) with 7%nat in *. exists P, H, a. split; [exact E1|]. intros i Hi. destruct (E2 i Hi) as ((p & Ep & Hp & _) & _).
  apply Rabs_def2 in Hp. rewrite Ep. rewrite INR_IZR_INZ in *. assert (Q : (30 < Z.of_nat p < 43)%Z) by (split; apply lt_IZR; lra).
  assert (Q1 : 31 <= IZR (Z.of_nat p) <= 42) by (split; apply IZR_le; lia).
  assert (Q2 : 30.303 < IZR (Z.of_nat p) < 42.425) by lra.
  split; apply Rmult_le_reg_r with (IZR (Z.of_nat p)); try lra; unfold Rdiv; rewrite Rmult_assoc, Rinv_l by lra; lra.
Qed.
(** 1 kHz with the buzz: the largest bin of every frame is one of 20 to 44 *)
Example C172_bin_example : exists k v,
  @get_dominant_frequencies exact_env (fvec 1000 (buzz (/ 16))) 16000 None 512 0.025 0.010 "hamming" false = Ok (fvec 4 v) /\
  forall i, (i < 4)%nat -> (20 <= k i <= 44)%nat /\ near_milli (signed_bin 257 (k i) * 16000 / INR 257) (v i).
Proof.
  destruct (default_seen_noise (/ 16) (/ 50 / Rabs 1) ltac:(lra) ltac:(rewrite Rabs_R1; lra)) as (k0 & Hk0 & HS).
  destruct (C172_bin (H := exact_env) 1000 1 (/ 16) 0 (/ 50) (buzz (/ 16)) 16000 0.025 0.010 "hamming" 400 160 512 (/ 40) k0 (default_cut 1000 ltac:(lia)) ltac:(lia) ltac:(lra) ltac:(lra) ltac:(lra) Hk0
    (buzz_apart 1000 (/ 16)) HS) as (k & v & H1 & H2).
  exists k, v. split; [exact H1|]. intros i Hi. destruct (H2 i Hi) as (_ & K & V). split; [|exact V].
  replace (INR 512) with 512 in K by (rewrite INR_IZR_INZ; reflexivity). apply Rabs_def2 in K. rewrite INR_IZR_INZ in K.
  assert (19 < Z.of_nat (k i) < 45)%Z by (split; apply lt_IZR; lra). lia.
Qed.
(** 5 kHz with the buzz is still reported as a negative number *)
Example C172_reported_example : exists v,
  @get_dominant_frequencies exact_env (fvec 1000 (buzz (5 / 16))) 16000 None 512 0.025 0.010 "hamming" false = Ok (fvec 4 v) /\
  forall i, (i < 4)%nat -> -6840 <= v i <= -5200.
Proof.
  destruct (default_seen_noise (5 / 16) (/ 50 / Rabs 1) ltac:(lra) ltac:(rewrite Rabs_R1; lra)) as (k0 & Hk0 & HS).
  destruct (C172_reported (H := exact_env) 1000 1 (5 / 16) 0 (/ 50) (buzz (5 / 16)) 16000 0.025 0.010 "hamming" 400 160 512 (/ 40) k0 (default_cut 1000 ltac:(lia)) ltac:(lia) ltac:(lra) ltac:(lra) ltac:(lra) Hk0
    (buzz_apart 1000 (5 / 16)) HS) as (v & H1 & H2).
  exists v. split; [exact H1|]. intros i Hi. destruct (H2 i Hi) as (_ & K).
  replace (INR 512) with 512 in * by (rewrite INR_IZR_INZ; reflexivity). replace (INR (S (512 / 2))) with 257 in * by (rewrite INR_IZR_INZ; reflexivity).
  destruct (K ltac:(lra)) as (K5 & _). apply Rcomplements.Rabs_le_between in K5. lra.
Qed.
Example C172_default_example : exists v,
  @get_dominant_frequencies exact_env (fvec 1000 (buzz (2000 / 16000))) 16000 None 512 0.025 0.010 "hamming" false = Ok (fvec 4 v) /\
  forall i, (i < 4)%nat -> 3184 <= v i <= 4785.
Proof.
  destruct (C172_default (H := exact_env) 1000 1 2000 0 (buzz (2000 / 16000)) (default_cut 1000 ltac:(lia)) ltac:(lra) ltac:(lra) (buzz_apart_40 1000 (2000 / 16000))) as (v & H1 & H2).
  exists v. split; [exact H1|]. intros i Hi. pose proof (H2 i Hi) as K. apply Rcomplements.Rabs_le_between in K. lra.
Qed.
