(** * Property theorems: the band-pass filter of get_dominant_frequencies (C150-C153) *)
From Coq Require Import Reals ZArith String List Bool Lia Lra.
From Verif Require Import Base BaseFacts SpecMat SpecBanks SpecSpectral Dominant Butter SpecButter ButterLaws Binary64.
From Verif Require BarkMore.
Import ListNotations.
Local Open Scope R_scope.

(** C150. Which cut-off frequencies are accepted.  A cut-off that is not strictly between 0 and half
    the sampling rate is refused, whatever the signal and the other arguments are; ... *)
Theorem C150_refused : forall (E : Env) sig fs lower upper nfft wl wh wt p, sane_rounding (@rnd E) -> (0 < fs <= 2 ^ 52)%Z ->
  lower <= 0 \/ upper <= 0 \/ IZR fs / 2 <= lower \/ IZR fs / 2 <= upper ->
  get_dominant_frequencies_of sig fs true lower upper nfft wl wh wt p = Raise ValueError.
Proof. exact of_refused. Qed.
Print Assumptions C150_refused.
(** ... so the documented defaults 50 and 3000 Hz fail for every recording sampled at 6 kHz or less
    and work in binary64 above that. *)
Theorem C150_default_refuted : forall (E : Env) sig fs nfft wl wh wt p, sane_rounding (@rnd E) -> (0 < fs <= 6000)%Z ->
  get_dominant_frequencies_of sig fs true 50 3000 nfft wl wh wt p = Raise ValueError.
Proof.
  intros E sig fs nfft wl wh wt p S H. apply C150_refused; auto; [lia|]. right. right. right.
  assert (IZR fs <= 6000) by (apply IZR_le; lia). lra.
Qed.
Print Assumptions C150_default_refuted.
Example C150_default_example : forall sig,
  @get_dominant_frequencies_of binary64 sig 6000 true 50 3000 512 0.025 0.01 "hamming" true = Raise ValueError /\
  @get_dominant_frequencies_of binary64 sig 4000 true 50 3000 512 0.025 0.01 "hamming" true = Raise ValueError.
Proof. intros. split; apply C150_default_refuted; try lia; exact BarkMore.binary64_sane. Qed.
Theorem C150_default_accepted : forall fs, (6001 <= fs <= 2 ^ 52)%Z -> exists w1 w2, 0 < w1 < w2 /\ w2 < 1 /\
  forall sig nfft wl wh wt p, @get_dominant_frequencies_of binary64 sig fs true 50 3000 nfft wl wh wt p
  = @get_dominant_frequencies binary64 (band_pass 6 w1 w2 sig) fs None nfft wl wh wt p.
Proof.
  intros fs H. pose proof (default_cutoffs fs H) as (A & B). exists (@cutoff_of binary64 fs 50), (@cutoff_of binary64 fs 3000).
  split; [exact A|]. split; [exact B|]. intros. unfold get_dominant_frequencies_of. rewrite default_accepted by auto. cbn [rbind].
  unfold band_pass. destruct (butter_band _ _ _). reflexivity.
Qed.
Print Assumptions C150_default_accepted.
Example C150_accepted_example : exists w1 w2, 0 < w1 < w2 /\ w2 < 1 /\
  forall sig, @get_dominant_frequencies_of binary64 sig 16000 true 50 3000 512 0.025 0.01 "hamming" true
  = @get_dominant_frequencies binary64 (band_pass 6 w1 w2 sig) 16000 None 512 0.025 0.01 "hamming" true.
Proof. destruct (C150_default_accepted 16000) as (w1 & w2 & A & B & C); [lia|]. exists w1, w2. auto. Qed.
(** In exact arithmetic every other pair is accepted, and the analysed signal is the response of the
    filter with these edges. *)
Theorem C150_filtered : forall N x fs lower upper nfft wl wh wt p, 0 < lower < IZR fs / 2 -> 0 < upper < IZR fs / 2 ->
  exists y, responds (band_pass 6 (2 * lower / IZR fs) (2 * upper / IZR fs)) x y /\
  @get_dominant_frequencies_of exact_env (fvec N x) fs true lower upper nfft wl wh wt p
  = @get_dominant_frequencies exact_env (fvec N y) fs None nfft wl wh wt p.
Proof. exact of_accepted. Qed.
Print Assumptions C150_filtered.
Example C150_filtered_example : forall x, exists y, responds (band_pass 6 (2 * 100 / 8000) (2 * 1000 / 8000)) x y /\
  @get_dominant_frequencies_of exact_env (fvec 4000 x) 8000 true 100 1000 512 0.025 0.01 "hamming" true
  = @get_dominant_frequencies exact_env (fvec 4000 y) 8000 None 512 0.025 0.01 "hamming" true.
Proof. intros x. apply C150_filtered; lra. Qed.

(** C151. The filter is stable, whatever its edges (and its order): the response to a bounded signal
    is bounded, by a factor that does not depend on the signal; ... *)
Theorem C151_bounded : forall N w1 w2, (1 <= N)%nat -> 0 < w1 < w2 -> w2 < 1 -> exists G, 0 <= G /\
  forall x B, (forall t, Rabs (x t) <= B) -> exists y, responds (band_pass N w1 w2) x y /\ forall t, Rabs (y t) <= G * B.
Proof. exact band_bounded. Qed.
Print Assumptions C151_bounded.
(** ... and it rings out when the sound stops or fades. *)
Theorem C151_fades : forall N w1 w2 x y, (1 <= N)%nat -> 0 < w1 < w2 -> w2 < 1 ->
  responds (band_pass N w1 w2) x y -> Un_cv x 0 -> Un_cv y 0.
Proof. exact band_fades. Qed.
Print Assumptions C151_fades.
(** one click *)
Example C151_example : forall c, exists y, responds (band_pass 6 0.00625 0.375) (fun t => if Nat.eqb t 0 then c else 0) y /\ Un_cv y 0.
Proof.
  intros c. destruct (C151_bounded 6 0.00625 0.375) as (G & _ & H); [lia|lra|lra|].
  destruct (H (fun t => if Nat.eqb t 0 then c else 0) (Rabs c)) as (y & Hy & _).
  - intros t. destruct (Nat.eqb t 0); [lra|]. rewrite Rabs_R0. apply Rabs_pos.
  - exists y. split; [exact Hy|]. apply (C151_fades 6 0.00625 0.375 _ y) in Hy; auto; try lia; try lra.
    intros eps He. exists 1%nat. intros n Hn. replace (Nat.eqb n 0) with false by (symmetry; apply Nat.eqb_neq; lia).
    unfold R_dist. rewrite Rminus_0_r, Rabs_R0. exact He.
Qed.

(** C152. A tone of om radians per sample comes out, after the transient, as a tone of the same
    frequency with its amplitude multiplied by the Butterworth gain; ... *)
Theorem C152_tone : forall w1 w2 A ph om x y, 0 < w1 < w2 -> w2 < 1 -> 0 < om < PI ->
  (forall t, x t = A * cos (om * INR t + ph)) -> responds (band_pass 6 w1 w2) x y ->
  exists ps, Un_cv (fun t => y t - A * butterworth 6 w1 w2 om * cos (om * INR t + ps)) 0.
Proof. exact band_tone. Qed.
Print Assumptions C152_tone.
(** ... the gain is never above 1, is at least 1/sqrt 2 exactly between the two cut-offs, and is
    1/sqrt 2 at both of them. *)
Theorem C152_band : forall w1 w2 om, 0 < w1 < w2 -> w2 < 1 -> 0 < om < PI ->
  (/ sqrt 2 <= butterworth 6 w1 w2 om <-> PI * w1 <= om <= PI * w2) /\
  ((om = PI * w1 \/ om = PI * w2) -> butterworth 6 w1 w2 om = / sqrt 2) /\ 0 < butterworth 6 w1 w2 om <= 1.
Proof. exact gain_edges. Qed.
Print Assumptions C152_band.
(** 1 kHz at 16 kHz is inside the default band, 4 kHz is not *)
Example C152_example : / sqrt 2 <= butterworth 6 0.00625 0.375 (PI / 8) /\ butterworth 6 0.00625 0.375 (PI / 2) < / sqrt 2 /\
  forall A ph y, responds (band_pass 6 0.00625 0.375) (fun t => A * cos (PI / 8 * INR t + ph)) y ->
  exists ps, Un_cv (fun t => y t - A * butterworth 6 0.00625 0.375 (PI / 8) * cos (PI / 8 * INR t + ps)) 0.
Proof.
  pose proof PI_RGT_0 as P. split; [|split].
  - apply C152_band; lra.
  - destruct (Rlt_le_dec (butterworth 6 0.00625 0.375 (PI / 2)) (/ sqrt 2)) as [|L]; [assumption|].
    apply C152_band in L; lra.
  - intros A ph y Hy. apply (C152_tone 0.00625 0.375 A ph (PI / 8) _ y) in Hy; auto; lra.
Qed.

(** C153. A constant signal and one that alternates at half the sampling rate die out; ... *)
Theorem C153_ends : forall w1 w2 A x y, 0 < w1 < w2 -> w2 < 1 ->
  (forall t, x t = A) \/ (forall t, x t = A * (-1) ^ t) -> responds (band_pass 6 w1 w2) x y -> Un_cv y 0.
Proof. exact band_ends. Qed.
Print Assumptions C153_ends.
(** ... so an offset of the recording, which without the filter decides the result (C89_offset), has
    no lasting effect on the analysed signal. *)
Theorem C153_offset : forall w1 w2 x y c z, 0 < w1 < w2 -> w2 < 1 ->
  responds (band_pass 6 w1 w2) x y -> responds (band_pass 6 w1 w2) (fun t => x t + c) z -> Un_cv (fun t => z t - y t) 0.
Proof. exact band_offset. Qed.
Print Assumptions C153_offset.
Example C153_example : forall c, exists y, responds (band_pass 6 0.00625 0.375) (fun _ => c) y /\ Un_cv y 0.
Proof.
  intros c. destruct (C151_bounded 6 0.00625 0.375) as (G & _ & H); [lia|lra|lra|].
  destruct (H (fun _ => c) (Rabs c)) as (y & Hy & _); [intros; lra|]. exists y. split; [exact Hy|].
  apply (C153_ends 0.00625 0.375 c (fun _ => c) y); auto; lra.
Qed.
Example C153_offset_example : forall x y, responds (band_pass 6 0.00625 0.375) x y -> exists z,
  responds (band_pass 6 0.00625 0.375) (fun t => x t + 1) z /\ Un_cv (fun t => z t - y t) 0.
Proof.
  intros x y Hy. destruct (band_exists 6 0.00625 0.375 (fun t => x t + 1)) as (z & _ & Hz); [lia|].
  exists z. split; [exact Hz|]. apply (C153_offset 0.00625 0.375 x y 1 z); auto; lra.
Qed.
