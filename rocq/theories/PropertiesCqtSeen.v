(** * C185: the samples a row of the constant-Q transform sees *)
From Coq Require Import Reals ZArith List String Bool Lia Lra.
From Verif Require Import Base SpecBase SpecMat SpecFeatures SpecSpectral SpecCqt Preprocessing PreprocessingFacts ExampleTools Features Extractors FeaturesFacts Cqt CqtFacts PropertiesCqt SpecCqtSeen CqtSeenFacts.
Import ListNotations.
Local Open Scope R_scope.

(** Two recordings of the same length: an entry in row p differs by at most the root mean square of
    the difference of the frames over the len p samples in the middle of nfft (the frame padded with
    zeros), plus the threshold times the norm of the difference of the frames. *)
Theorem C185_near : forall `{Env} a N L hop n O B, cqt_ready a N L hop n O B ->
  exists b P len, cqt_rows (q_f0 a) (q_rate a) O B (q_fs a) (q_low a) (or_half (q_high a) (q_fs a)) n b P len /\
  forall x x2, exists re im re2 im2, cqt_spectrogram (fvec N x) a = Ok (cmat P (frame_count N L hop) re im) /\
    cqt_spectrogram (fvec N x2) a = Ok (cmat P (frame_count N L hop) re2 im2) /\
  forall p i, (p < P)%nat -> let d := frame_of (q_sargs a) (q_coeff a) L hop (fun t => x2 t - x t) i in
    spec_abs (re2 p i - re p i) (im2 p i - im p i)
    <= sqrt (part_energy (middle n (len p)) (len p) (padded L d) / INR (len p)) + Rmax 0 (q_threshold a) * sqrt (part_energy 0 (Nat.min L n) d).
Proof. exact @cqt_near. Qed.
Print Assumptions C185_near.
(** Without threshold an entry in row p depends on the len p samples in the middle only (and with
    pre-emphasis on the sample before each of them). *)
Theorem C185_blind : forall `{Env} a N L hop n O B, cqt_ready a N L hop n O B -> q_threshold a <= 0 ->
  exists b P len, cqt_rows (q_f0 a) (q_rate a) O B (q_fs a) (q_low a) (or_half (q_high a) (q_fs a)) n b P len /\
  forall x x2, exists re im re2 im2, cqt_spectrogram (fvec N x) a = Ok (cmat P (frame_count N L hop) re im) /\
    cqt_spectrogram (fvec N x2) a = Ok (cmat P (frame_count N L hop) re2 im2) /\
  forall p i, (p < P)%nat ->
    (forall t, (middle n (len p) <= t < middle n (len p) + len p)%nat -> (t < L)%nat ->
       x2 (i * hop + t)%nat = x (i * hop + t)%nat /\ (q_pre_emph a = true -> x2 (i * hop + t - 1)%nat = x (i * hop + t - 1)%nat)) ->
    re2 p i = re p i /\ im2 p i = im p i.
Proof. exact @cqt_blind. Qed.
Print Assumptions C185_blind.
(** So a row with windows shorter than the hop misses samples although the frames overlap: the
    sample behind the middle of frame j may be anything. *)
Theorem C185_missed : forall `{Env} a N L hop n O B, cqt_ready a N L hop n O B -> q_threshold a <= 0 -> q_pre_emph a = false ->
  exists b P len, cqt_rows (q_f0 a) (q_rate a) O B (q_fs a) (q_low a) (or_half (q_high a) (q_fs a)) n b P len /\
  forall x g j, let at_ p := (j * hop + middle n (len p) + len p)%nat in
  forall p, (p < P)%nat -> (len p < hop)%nat -> exists re im re2 im2,
    cqt_spectrogram (fvec N x) a = Ok (cmat P (frame_count N L hop) re im) /\
    cqt_spectrogram (fvec N (fun t => if Nat.eqb t (at_ p) then g else x t)) a = Ok (cmat P (frame_count N L hop) re2 im2) /\
    forall i, re2 p i = re p i /\ im2 p i = im p i.
Proof. exact @cqt_missed. Qed.
Print Assumptions C185_missed.

(** one row per octave above 120 Hz at 16 kHz with the default frames of 400 samples every 160 *)
Definition seen_qargs : qargs := mkQ 16000 false 0.97 None 512 0 None 7 1 0 120 1.
Lemma seen_freq : forall i, cqt_freq 120 1 i = 120 * 2 ^ i.
Proof. intros. unfold cqt_freq. change (INR 1) with 1. unfold Rdiv. rewrite Rinv_1, Rmult_1_r. f_equal. apply Rpower_pow. lra. Qed.
Lemma INR_134 : INR 134 = 134.
Proof. rewrite INR_IZR_INZ. reflexivity. Qed.
Lemma INR_160 : INR 160 = 160.
Proof. rewrite INR_IZR_INZ. reflexivity. Qed.
Example C185_ready_example : forall N, (400 <= N)%nat -> @cqt_ready exact_env seen_qargs N 400 160 512 7 1.
Proof.
  intros N HN. split; [|split; [reflexivity|split; [reflexivity|split; [reflexivity|split; [cbn; lra|split]]]]].
  - unfold well_framed. cbn. split; [lra|]. split; [apply flen_exact; cbn; lra|]. split; [apply flen_exact; cbn; lra|].
    split; [lia|]. split; [lia|]. auto 10.
  - repeat split; try (cbn; lra); try lia. simpl; auto 10.
  - exists 0%nat, 134%nat. split; [lia|]. replace (or_half (q_high seen_qargs) (q_fs seen_qargs)) with 8000 by (cbn; lra).
    unfold cqt_used. cbv zeta. cbn [q_f0 q_rate q_fs q_low seen_qargs]. rewrite seen_freq, ex_quality, INR_134. cbn [pow]. repeat split; try lra; try lia.
Qed.
(** every row misses the sample behind the middle of every frame, seven octaves of them *)
Example C185_example : forall N x g j, (400 <= N)%nat -> exists P len, (0 < P)%nat /\
  forall p, (p < P)%nat -> exists re im re2 im2,
    @cqt_spectrogram exact_env (fvec N x) seen_qargs = Ok (cmat P (frame_count N 400 160) re im) /\
    @cqt_spectrogram exact_env (fvec N (fun t => if Nat.eqb t (j * 160 + middle 512 (len p) + len p) then g else x t)) seen_qargs = Ok (cmat P (frame_count N 400 160) re2 im2) /\
    forall i, re2 p i = re p i /\ im2 p i = im p i.
Proof.
  intros N x g j HN. destruct (@C185_missed exact_env _ _ _ _ _ _ _ (C185_ready_example N HN) ltac:(cbn; lra) eq_refl) as (b & P & len & HR & HE).
  exists P, len. split; [apply HR|]. intros p Hp. apply (HE x g j p Hp). destruct HR as (_ & _ & _ & Hl). destruct (Hl p Hp) as [_ (_ & [_ U] & _)].
  cbn [q_f0 q_rate q_fs q_low seen_qargs] in U. rewrite seen_freq, ex_quality in U. apply INR_lt. rewrite INR_160.
  assert (W : 1 <= 2 ^ (b + p)) by (apply pow_R1_Rle; lra).
  assert (1 * 16000 / (120 * 2 ^ (b + p)) <= 1 * 16000 / (120 * 1)); [|lra]. apply Rmult_le_compat_l; [lra|]. apply Rinv_le_contravar; [lra|]. apply Rmult_le_compat_l; [lra|exact W].
Qed.
Example C185_near_example : forall N, (400 <= N)%nat -> exists P len, (0 < P)%nat /\
  forall x x2, exists re im re2 im2, @cqt_spectrogram exact_env (fvec N x) seen_qargs = Ok (cmat P (frame_count N 400 160) re im) /\
    @cqt_spectrogram exact_env (fvec N x2) seen_qargs = Ok (cmat P (frame_count N 400 160) re2 im2) /\
  forall p i, (p < P)%nat -> spec_abs (re2 p i - re p i) (im2 p i - im p i)
    <= sqrt (part_energy (middle 512 (len p)) (len p) (padded 400 (fun t => spec_window "hamming" 400 t * (x2 (i * 160 + t)%nat - x (i * 160 + t)%nat))) / INR (len p)).
Proof.
  intros N HN. destruct (@C185_near exact_env _ _ _ _ _ _ _ (C185_ready_example N HN)) as (b & P & len & HR & HE).
  exists P, len. split; [apply HR|]. intros x x2. destruct (HE x x2) as (re & im & re2 & im2 & E1 & E2 & D). exists re, im, re2, im2. split; [exact E1|]. split; [exact E2|].
  intros p i Hp. specialize (D p i Hp). cbv zeta in D. rewrite (Rmax_left 0 (q_threshold seen_qargs)), Rmult_0_l, Rplus_0_r in D by (cbn; lra).
  unfold frame_of, spec_frame, spec_pre in D. cbn [q_sargs s_pre_emph q_pre_emph seen_qargs] in D. exact D.
Qed.
