(** * C193: pure tones in the constant-Q transform *)
From Coq Require Import Reals ZArith List String Bool Lia Lra.
From Verif Require Import Base SpecBase BigSum SpecMat SpecFeatures SpecSpectral SpecCqt Preprocessing PreprocessingFacts ExampleTools Features Extractors FeaturesFacts Cqt CqtFacts WindowFacts SpecTone ToneFacts SpecCqtSeen SpecCqtTone CqtToneFacts.
Import ListNotations.
Local Open Scope R_scope.

(** A tone of nu periods per sample in cqt_spectrogram without pre-emphasis, in every frame and whatever
    its phase. A row centred at another frequency f responds with at most
    |A|/(2Q) (f/|nu - f| + f/(distance of the images)), plus what the threshold cuts off: the relative
    distance of the frequencies counts, divided by Q. *)
Theorem C193_tone : forall `{Env} a N L hop n O B, cqt_ready a N L hop n O B -> q_pre_emph a = false ->
  exists b P len, cqt_rows (q_f0 a) (q_rate a) O B (q_fs a) (q_low a) (or_half (q_high a) (q_fs a)) n b P len /\
  forall A nu phi, 0 < nu < / 2 -> exists re im, cqt_spectrogram (fvec N (tone A nu phi)) a = Ok (cmat P (frame_count N L hop) re im) /\
  forall p i, (p < P)%nat ->
    let f := cqt_freq (q_f0 a) B (b + p) / IZR (q_fs a) in let cut := Rmax 0 (q_threshold a) * (Rabs A * sqrt (INR (Nat.min L n))) in
    (f <> nu -> spec_abs (re p i) (im p i) <= Rabs A / INR (len p) * (/ Rabs (sin (PI * (nu - f))) + / Rabs (sin (PI * (nu + f)))) + cut) /\
    (f <> nu -> spec_abs (re p i) (im p i) <= Rabs A / (2 * cqt_quality (q_rate a) B) * (f / Rabs (nu - f) + f / image_distance nu f) + cut) /\
    (f = nu -> Rabs A * (tone_share (win_type (window_of (q_sargs a))) L n (len p) / 2 - / (INR (len p) * Rabs (sin (2 * PI * nu)))) - cut <= spec_abs (re p i) (im p i)).
Proof. exact @cqt_tone. Qed.
Print Assumptions C193_tone.
(** Two tones: the row of the first one shows it unless the second one is too loud or too near. *)
Theorem C193_two_tones : forall `{Env} a N L hop n O B, cqt_ready a N L hop n O B -> q_pre_emph a = false ->
  exists b P len, cqt_rows (q_f0 a) (q_rate a) O B (q_fs a) (q_low a) (or_half (q_high a) (q_fs a)) n b P len /\
  forall A nu phi A2 nu2 phi2, 0 < nu < / 2 -> 0 < nu2 < / 2 -> nu <> nu2 -> exists re im,
    cqt_spectrogram (fvec N (fun t => tone A nu phi t + tone A2 nu2 phi2 t)) a = Ok (cmat P (frame_count N L hop) re im) /\
  forall p i, (p < P)%nat -> cqt_freq (q_f0 a) B (b + p) / IZR (q_fs a) = nu ->
    let cut := Rmax 0 (q_threshold a) * ((Rabs A + Rabs A2) * sqrt (INR (Nat.min L n))) in
    Rabs A * (tone_share (win_type (window_of (q_sargs a))) L n (len p) / 2 - / (INR (len p) * Rabs (sin (2 * PI * nu))))
    - Rabs A2 / (2 * cqt_quality (q_rate a) B) * (nu / Rabs (nu2 - nu) + nu / image_distance nu2 nu) - cut <= spec_abs (re p i) (im p i).
Proof. exact @cqt_two_tones. Qed.
Print Assumptions C193_two_tones.

(** 24 rows per octave above 120 Hz at 16 kHz with frames of 400 samples: row 96 is at 1920 Hz *)
Definition tone_qargs : qargs := mkQ 16000 false 0.97 None 512 0 None 7 24 0 120 1.
Lemma tone_freq : cqt_freq 120 24 96 = 1920.
Proof.
  unfold cqt_freq. replace (INR 96 / INR 24) with (INR 4) by (rewrite !INR_IZR_INZ; cbn; lra). rewrite Rpower_pow by lra. lra.
Qed.
Lemma root_two : 1 + 10 / 343 <= Rpower 2 (1 / INR 24) <= 1 + 1 / 34.
Proof.
  assert (E : forall y, 0 < y -> Rpower (y ^ 24) (1 / INR 24) = y).
  { intros y Hy. rewrite <- Rpower_pow, Rpower_mult by auto. replace (INR 24 * (1 / INR 24)) with 1 by (rewrite INR_IZR_INZ; cbn; lra). apply Rpower_1. exact Hy. }
  assert (P : 0 <= 1 / INR 24) by (rewrite INR_IZR_INZ; cbn; lra). split.
  - rewrite <- (E (1 + 10 / 343)) by lra. apply Rle_Rpower_l; [exact P|]. split; [apply pow_lt; lra|lra].
  - rewrite <- (E (1 + 1 / 34)) by lra. apply Rle_Rpower_l; [exact P|]. split; lra.
Qed.
Lemma tone_quality : 34 <= cqt_quality 1 24 <= 34.3.
Proof.
  pose proof root_two as [L U]. unfold cqt_quality, Rdiv. rewrite Rmult_1_l. set (y := Rpower 2 _ - 1) in *. assert (Y : 10 / 343 <= y <= 1 / 34) by (unfold y; lra). split.
  - replace 34 with (/ (1 / 34)) by field. apply Rinv_le_contravar; lra.
  - replace 34.3 with (343 / 10) by lra. replace (343 / 10) with (/ (10 / 343)) by field. apply Rinv_le_contravar; lra.
Qed.
Lemma round_up : forall r, 0 < r -> exists M, r <= INR M < r + 1.
Proof.
  intros r Hr. destruct (archimed r) as [A1 A2]. assert (U : (0 < up r)%Z) by (apply lt_IZR; lra). destruct (Req_dec (IZR (up r) - 1) r) as [E|E].
  - exists (Z.to_nat (up r - 1)). rewrite INR_IZR_INZ, Z2Nat.id, minus_IZR by lia. lra.
  - exists (Z.to_nat (up r)). rewrite INR_IZR_INZ, Z2Nat.id by lia. lra.
Qed.
Lemma tone_used : exists M, cqt_used 120 1 24 16000 0 8000 512 96 M.
Proof.
  pose proof tone_quality as Q. destruct (round_up (cqt_quality 1 24 * 16000 / 1920) ltac:(lra)) as (M & HM). exists M. unfold cqt_used. cbv zeta. rewrite tone_freq. split; [lra|]. split; [exact HM|].
  apply INR_le. rewrite (INR_IZR_INZ 512). change (IZR (Z.of_nat 512)) with 512. lra.
Qed.
Example C193_ready : forall N, (400 <= N)%nat -> @cqt_ready exact_env tone_qargs N 400 160 512 7 24.
Proof.
  intros N HN. split; [|split; [reflexivity|split; [reflexivity|split; [reflexivity|split; [cbn; lra|split]]]]].
  - unfold well_framed. cbn. split; [lra|]. split; [apply flen_exact; cbn; lra|]. split; [apply flen_exact; cbn; lra|].
    split; [lia|]. split; [lia|]. auto 10.
  - repeat split; try (cbn; lra); try lia. simpl; auto 10.
  - destruct tone_used as (M & HM). exists 96%nat, M. split; [lia|]. replace (or_half (q_high tone_qargs) (q_fs tone_qargs)) with 8000 by (cbn; lra). exact HM.
Qed.
Lemma tone_own : forall M, (let r := cqt_quality 1 24 * 16000 / 1920 in r <= INR M < r + 1) -> 0.016 <= tone_share "hamming" 400 512 M / 2 - / (INR M * Rabs (sin (2 * PI * 0.12))).
Proof.
  intros M [U1 U2]. pose proof tone_quality as Q.
  assert (M1 : (284 <= M <= 286)%nat).
  { cbv zeta in U1, U2. assert (I284 : INR 283 = 283) by (rewrite INR_IZR_INZ; reflexivity). assert (I286 : INR 287 = 287) by (rewrite INR_IZR_INZ; reflexivity).
    assert (C1 : (283 < M)%nat) by (apply INR_lt; lra). assert (C2 : (M < 287)%nat) by (apply INR_lt; lra). lia. }
  assert (MR : 284 <= INR M <= 286). { split; [change 284 with (IZR (Z.of_nat 284))|change 286 with (IZR (Z.of_nat 286))]; rewrite <- INR_IZR_INZ; apply le_INR; lia. }
  assert (S1 : 0.08 * (0.54 * INR M - 0.46) <= bigsum M (fun t => spec_window "hamming" M t * padded 400 (spec_window "hamming" 400) (middle 512 M + t))).
  { rewrite <- hamming_sum by lia. rewrite <- bigsum_scal. apply bigsum_le. intros t Ht. rewrite Rmult_comm. apply Rmult_le_compat_l; [apply spec_window_bounds; exact Ht|].
    unfold padded. destruct (Nat.ltb_spec (middle 512 M + t) 400) as [H|H].
    - unfold spec_window. cbn [Nat.leb String.eqb Ascii.eqb Bool.eqb]. unfold spec_hamming. pose proof (COS_bound (spec_theta 400 (middle 512 M + t))). lra.
    - unfold middle in H. pose proof (Nat.div_mod (512 - M) 2 ltac:(lia)). pose proof (Nat.mod_upper_bound (512 - M) 2 ltac:(lia)). lia. }
  assert (T : 0.0429 <= tone_share "hamming" 400 512 M). { unfold tone_share. apply Rmult_le_reg_r with (INR M); [lra|]. unfold Rdiv. rewrite Rmult_assoc, Rinv_l by lra. lra. }
  assert (SN : 0.68 <= Rabs (sin (2 * PI * 0.12))). { eapply Rle_trans; [|apply Rle_abs]. pose proof pi_low as PL. assert (PH : PI <= 4) by apply PI_4. pose proof (sin_low (2 * PI * 0.12) 0.7539) as K. eapply Rle_trans; [|apply K]; lra. }
  assert (V : / (INR M * Rabs (sin (2 * PI * 0.12))) <= / (284 * 0.68)). { apply Rinv_le_contravar; [lra|]. apply Rmult_le_compat; lra. }
  lra.
Qed.
(** The row at 1920 Hz: a tone an octave above leaves at most a fiftieth of its amplitude there, its own
    tone at least 0.016 of it (a crude bound, with only the smallest value of the window of the frame). *)
Example C193_example : forall N, (400 <= N)%nat -> exists P p, (p < P)%nat /\ forall A phi, exists re im re2 im2,
  @cqt_spectrogram exact_env (fvec N (tone A 0.24 phi)) tone_qargs = Ok (cmat P (frame_count N 400 160) re im) /\
  @cqt_spectrogram exact_env (fvec N (tone A 0.12 phi)) tone_qargs = Ok (cmat P (frame_count N 400 160) re2 im2) /\
  forall i, spec_abs (re p i) (im p i) <= / 50 * Rabs A /\ 0.016 * Rabs A <= spec_abs (re2 p i) (im2 p i).
Proof.
  intros N HN. destruct (@C193_tone exact_env _ _ _ _ _ _ _ (C193_ready N HN) eq_refl) as (b & P & len & HR & HE). pose proof HR as (_ & _ & HI & HU).
  assert (EH : or_half (q_high tone_qargs) (q_fs tone_qargs) = 8000) by (cbn; lra). rewrite EH in *.
  destruct (proj1 (HI 96%nat ltac:(lia)) tone_used) as [B1 B2]. exists P, (96 - b)%nat. split; [lia|]. intros A phi.
  destruct (HE A 0.24 phi ltac:(lra)) as (re & im & E1 & D1). destruct (HE A 0.12 phi ltac:(lra)) as (re2 & im2 & E2 & D2). exists re, im, re2, im2. split; [exact E1|]. split; [exact E2|]. intros i.
  specialize (D1 (96 - b)%nat i ltac:(lia)). specialize (D2 (96 - b)%nat i ltac:(lia)). cbv zeta in D1, D2. replace (b + (96 - b))%nat with 96%nat in D1, D2 by lia.
  cbn [q_f0 q_fs q_rate q_threshold tone_qargs] in D1, D2. rewrite tone_freq, (Rmax_left 0 0), Rmult_0_l in D1, D2 by lra. replace (1920 / 16000) with 0.12 in D1, D2 by lra.
  pose proof tone_quality as Q. pose proof (Rabs_pos A) as A0. split.
  - destruct D1 as (_ & D & _). specialize (D ltac:(lra)). unfold image_distance in D. rewrite Rmin_left, (Rabs_pos_eq (0.24 - 0.12)), Rplus_0_r in D by lra. eapply Rle_trans; [exact D|].
    replace (0.24 - 0.12) with (12 / 100) by lra. replace (0.24 + 0.12) with (36 / 100) by lra. replace 0.12 with (12 / 100) by lra. replace (12 / 100 / (12 / 100) + 12 / 100 / (36 / 100)) with (4 / 3) by field. rewrite (Rmult_comm (/ 50)). unfold Rdiv at 1. rewrite Rmult_assoc. apply Rmult_le_compat_l; [exact A0|].
    assert (/ (2 * cqt_quality 1 24) <= / 68) by (apply Rinv_le_contravar; lra). lra.
  - destruct D2 as (_ & _ & D). specialize (D eq_refl). rewrite Rminus_0_r in D. eapply Rle_trans; [|exact D]. rewrite Rmult_comm. apply Rmult_le_compat_l; [exact A0|].
    destruct (HU (96 - b)%nat ltac:(lia)) as [_ (_ & [U1 U2] & _)]. replace (b + (96 - b))%nat with 96%nat in U1, U2 by lia. cbn [q_f0 q_fs q_rate tone_qargs] in U1, U2. rewrite tone_freq in U1, U2.
    change (win_type (window_of (q_sargs tone_qargs))) with "hamming"%string. apply tone_own. split; assumption.
Qed.
(** 1920 Hz and an octave above, at most half as loud *)
Example C193_two_tones_example : forall N, (400 <= N)%nat -> exists P p, (p < P)%nat /\ forall A2 phi phi2, Rabs A2 <= / 2 -> exists re im,
  @cqt_spectrogram exact_env (fvec N (fun t => tone 1 0.12 phi t + tone A2 0.24 phi2 t)) tone_qargs = Ok (cmat P (frame_count N 400 160) re im) /\
  forall i, 0.006 <= spec_abs (re p i) (im p i).
Proof.
  intros N HN. destruct (@C193_two_tones exact_env _ _ _ _ _ _ _ (C193_ready N HN) eq_refl) as (b & P & len & HR & HE). pose proof HR as (_ & _ & HI & HU).
  assert (EH : or_half (q_high tone_qargs) (q_fs tone_qargs) = 8000) by (cbn; lra). rewrite EH in *.
  destruct (proj1 (HI 96%nat ltac:(lia)) tone_used) as [B1 B2]. exists P, (96 - b)%nat. split; [lia|]. intros A2 phi phi2 HA.
  destruct (HE 1 0.12 phi A2 0.24 phi2 ltac:(lra) ltac:(lra) ltac:(lra)) as (re & im & E1 & D). exists re, im. split; [exact E1|]. intros i.
  specialize (D (96 - b)%nat i ltac:(lia)). cbv zeta in D. replace (b + (96 - b))%nat with 96%nat in D by lia. cbn [q_f0 q_fs q_rate q_threshold tone_qargs] in D. rewrite tone_freq in D. specialize (D ltac:(lra)).
  rewrite (Rmax_left 0 0), Rmult_0_l, Rabs_R1, Rmult_1_l, Rminus_0_r in D by lra. eapply Rle_trans; [|exact D].
  change (win_type (window_of (q_sargs tone_qargs))) with "hamming"%string.
  destruct (HU (96 - b)%nat ltac:(lia)) as [_ (_ & [U1 U2] & _)]. replace (b + (96 - b))%nat with 96%nat in U1, U2 by lia. cbn [q_f0 q_fs q_rate tone_qargs] in U1, U2. rewrite tone_freq in U1, U2.
  pose proof (tone_own (len (96 - b)%nat) (conj U1 U2)) as K. pose proof tone_quality as Q. pose proof (Rabs_pos A2) as A0.
  assert (LK : Rabs A2 / (2 * cqt_quality 1 24) * (0.12 / Rabs (0.24 - 0.12) + 0.12 / image_distance 0.24 0.12) <= / 2 * (/ 68 * (4 / 3))).
  { unfold image_distance. rewrite Rmin_left, (Rabs_pos_eq (0.24 - 0.12)) by lra. replace (0.24 - 0.12) with (12 / 100) by lra. replace (0.24 + 0.12) with (36 / 100) by lra. replace 0.12 with (12 / 100) by lra.
    replace (12 / 100 / (12 / 100) + 12 / 100 / (36 / 100)) with (4 / 3) by field. unfold Rdiv at 1. rewrite Rmult_assoc. assert (V : / (2 * cqt_quality 1 24) <= / 68) by (apply Rinv_le_contravar; lra).
    assert (V0 : 0 < / (2 * cqt_quality 1 24)) by (apply Rinv_0_lt_compat; lra). apply Rmult_le_compat; lra. }
  lra.
Qed.
