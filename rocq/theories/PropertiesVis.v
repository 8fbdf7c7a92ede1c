(** * Properties of the computations behind the plots *)
From Coq Require Import Reals ZArith List String Bool Lia Lra.
From Verif Require Import Base BaseFacts SpecBase SpecMat MatFacts Vis SpecVis VisFacts.
Import ListNotations.
Local Open Scope R_scope.

(** C75. The dB image of a finite spectrogram: every entry is between -dbf and 0, the entries of
    largest magnitude are exactly 0 ... *)
Theorem C75_range : forall r c x dbf, (0 < r)%nat -> (0 < c)%nat -> 0 <= dbf ->
  exists y, db_image (fmat r c x) (Fin dbf) = Ok (fmat r c y) /\
    (forall i j, (i < r)%nat -> (j < c)%nat -> - dbf <= y i j <= 0) /\
    exists i0 j0, (i0 < r)%nat /\ (j0 < c)%nat /\ y i0 j0 = 0 /\
      forall i j, (i < r)%nat -> (j < c)%nat -> Rabs (x i j) <= Rabs (x i0 j0).
Proof.
  intros r c x dbf Hr Hc Hd. destruct (db_image_value r c x Hr Hc dbf) as (i0 & j0 & Hi0 & Hj0 & B & E). eexists. split; [exact E|].
  assert (N : forall i j, (i < r)%nat -> (j < c)%nat -> spec_db (Rabs (x i0 j0)) (Rabs (x i j)) <= 0).
  { intros i j Hi Hj. rewrite <- (spec_db_0 (Rabs (x i0 j0))). apply spec_db_mono. auto. }
  split; [intros i j Hi Hj; split; [apply Rmax_r|apply Rmax_lub; [auto|lra]]|]. exists i0, j0. repeat (split; auto). rewrite spec_db_0. apply Rmax_left. lra.
Qed.
Print Assumptions C75_range.
(** ... and the others are 10 log10 of the ratio to the largest magnitude, magnitudes below 1e-10
    and levels below -dbf being raised to these floors. *)
Theorem C75_value : forall r c x dbf, (0 < r)%nat -> (0 < c)%nat ->
  exists m, (exists i j, (i < r)%nat /\ (j < c)%nat /\ m = Rabs (x i j)) /\
    (forall i j, (i < r)%nat -> (j < c)%nat -> Rabs (x i j) <= m) /\
    db_image (fmat r c x) (Fin dbf) = Ok (fmat r c (fun i j => Rmax (spec_db m (Rabs (x i j))) (- dbf))).
Proof.
  intros r c x dbf Hr Hc. destruct (db_image_value r c x Hr Hc dbf) as (i0 & j0 & Hi0 & Hj0 & B & E).
  exists (Rabs (x i0 j0)). split; [eauto|]. split; auto.
Qed.
Print Assumptions C75_value.
Example C75_example : exists y, db_image (fmat 1 2 (fun _ j => INR j - 3)) (Fin 80) = Ok (fmat 1 2 y) /\ - (80) <= y 0%nat 1%nat <= 0.
Proof.
  destruct (C75_range 1 2 (fun _ j => INR j - 3) 80) as (y & E & B & _); [lia|lia|lra|]. exists y. split; [exact E|]. apply B; lia.
Qed.

(** C115. The image is an increasing function of the magnitude, does not change with the level of
    the spectrogram (above the 1e-10 floor), is constant for a negative dynamic range, and is NaN
    everywhere as soon as one entry is NaN. *)
Theorem C115_monotone : forall r c x dbf y, (0 < r)%nat -> (0 < c)%nat ->
  db_image (fmat r c x) (Fin dbf) = Ok (fmat r c y) ->
  forall i j k l, (i < r)%nat -> (j < c)%nat -> (k < r)%nat -> (l < c)%nat -> Rabs (x i j) <= Rabs (x k l) -> y i j <= y k l.
Proof.
  intros r c x dbf y Hr Hc E i j k l Hi Hj Hk Hl H. destruct (db_image_value r c x Hr Hc dbf) as (i0 & j0 & _ & _ & _ & E2).
  rewrite E in E2. apply Ok_inj in E2. rewrite (fmat_inj _ _ _ _ E2 i j Hi Hj), (fmat_inj _ _ _ _ E2 k l Hk Hl).
  apply Rle_max_compat_r. apply spec_db_mono. auto.
Qed.
Print Assumptions C115_monotone.
Theorem C115_gain : forall r c x g dbf, (0 < r)%nat -> (0 < c)%nat ->
  (forall i j, (i < r)%nat -> (j < c)%nat -> 1 / 10 ^ 10 <= Rabs (x i j) /\ 1 / 10 ^ 10 <= Rabs (g * x i j)) ->
  db_image (fmat r c (fun i j => g * x i j)) (Fin dbf) = db_image (fmat r c x) (Fin dbf).
Proof. exact db_image_gain. Qed.
Print Assumptions C115_gain.
Theorem C115_negative_range : forall r c x dbf, (0 < r)%nat -> (0 < c)%nat -> dbf <= 0 ->
  db_image (fmat r c x) (Fin dbf) = Ok (fmat r c (fun _ _ => - dbf)).
Proof.
  intros r c x dbf Hr Hc Hd. destruct (db_image_value r c x Hr Hc dbf) as (i0 & j0 & Hi0 & Hj0 & B & ->). f_equal. apply fmat_ext.
  intros i j Hi Hj. apply Rmax_right. apply Rle_trans with 0; [|lra]. rewrite <- (spec_db_0 (Rabs (x i0 j0))). apply spec_db_mono. auto.
Qed.
Print Assumptions C115_negative_range.
Example C115_range_example : db_image (fmat 2 3 (fun i j => INR i - INR j)) (Fin (- (80))) = Ok (fmat 2 3 (fun _ _ => - - (80))) /\
  exists y, db_image (fmat 1 2 (fun _ j => INR j - 3)) (Fin 80) = Ok (fmat 1 2 y) /\ y 0%nat 1%nat <= y 0%nat 0%nat.
Proof.
  split; [apply C115_negative_range; [lia|lia|lra]|].
  destruct (C75_value 1 2 (fun _ j => INR j - 3) 80 ltac:(lia) ltac:(lia)) as (m & _ & _ & E). eexists. split; [exact E|].
  apply (C115_monotone 1 2 _ _ _ Nat.lt_0_1 Nat.lt_0_2 E 0%nat 1%nat 0%nat 0%nat); try lia. simpl. unfold Rabs. repeat destruct (Rcase_abs _); lra.
Qed.
Theorem C115_nan : forall spec dbf, (exists row, In row spec /\ In NaN row) ->
  db_image spec dbf = Ok (map (map (fun _ => NaN)) spec).
Proof. exact db_image_NaN. Qed.
Print Assumptions C115_nan.
Example C115_example : db_image (fmat 2 2 (fun i j => 1000 * (INR i + INR j + 1))) (Fin 80) = db_image (fmat 2 2 (fun i j => INR i + INR j + 1)) (Fin 80)
  /\ db_image [[Fin 1; NaN]; [Fin 2; Fin 3]] (Fin 80) = Ok [[NaN; NaN]; [NaN; NaN]].
Proof.
  split.
  - apply C115_gain; [lia|lia|]. intros i j Hi Hj. pose proof (pos_INR i). pose proof (pos_INR j). rewrite !Rabs_pos_eq by lra. lra.
  - apply C115_nan. exists [Fin 1; NaN]. simpl. auto.
Qed.

(** C116. A tick label shows the position of the tick on the scale of the filter bank to one
    decimal, for every bank type (unknown types show Hz) and ticks from -200 Hz on ... *)
Theorem C116_labels : forall X fb_type, (forall i, (i < List.length X)%nat -> -200 <= nth i X 0) ->
  exists ls, tick_function (map Fin X) fb_type = Ok ls /\ List.length ls = List.length X /\
    forall i, (i < List.length X)%nat -> shows (nth i ls TextNaN) (spec_tick fb_type (nth i X 0)).
Proof.
  intros X t HX. rewrite tick_labels. eexists. split; [reflexivity|]. rewrite !map_length. split; auto. intros i Hi.
  rewrite (nth_map _ _ _ _ _ NaN) by (rewrite map_length; auto). rewrite (nth_map _ _ _ _ _ 0) by auto. rewrite tick_value_spec by auto. apply percent_shows.
Qed.
Print Assumptions C116_labels.
(** ... labels do not decrease from left to right ... *)
Theorem C116_order : forall X fb_type ls i j a b, (forall i, (i < List.length X)%nat -> -200 <= nth i X 0) ->
  tick_function (map Fin X) fb_type = Ok ls -> (i < List.length X)%nat -> (j < List.length X)%nat -> nth i X 0 <= nth j X 0 ->
  label_value (nth i ls TextNaN) = Some a -> label_value (nth j ls TextNaN) = Some b -> a <= b.
Proof.
  intros X t ls i j a b HX E Hi Hj H. rewrite tick_labels in E. apply Ok_inj in E. subst ls.
  rewrite !(nth_map _ _ _ _ _ NaN) by (rewrite map_length; auto). rewrite !(nth_map _ _ _ _ _ 0) by auto. rewrite !tick_value_spec by auto.
  apply percent_mono. apply spec_tick_mono; auto.
Qed.
Print Assumptions C116_order.
Example C116_order_example : exists ls a b, tick_function (map Fin [250; 4000]) "bark" = Ok ls /\
  label_value (nth 0 ls TextNaN) = Some a /\ label_value (nth 1 ls TextNaN) = Some b /\ a <= b.
Proof.
  assert (H : forall i, (i < List.length [250; 4000])%nat -> -200 <= nth i [250; 4000] 0) by (intros [|[|i]] Hi; simpl in *; try lra; lia).
  destruct (C116_labels [250; 4000] "bark") as (ls & E & _ & G).
  - intros i Hi. specialize (H i Hi). lra.
  - destruct (G 0%nat ltac:(simpl; lia)) as (a & Ea & _). destruct (G 1%nat ltac:(simpl; lia)) as (b & Eb & _).
    exists ls, a, b. repeat split; auto. apply (C116_order [250; 4000] "bark" ls 0 1); auto; simpl; lia || lra.
Qed.
(** ... and a tick left of -700 Hz is labelled nan on the mel axis. *)
Theorem C116_mel_nan : forall X f i, nth_error X i = Some (Fin f) -> f < -700 ->
  exists ls, tick_function X "mel" = Ok ls /\ nth_error ls i = Some TextNaN.
Proof. exact tick_mel_low. Qed.
Print Assumptions C116_mel_nan.
Example C116_example : (exists ls, tick_function [Fin (-1000); Fin 0] "mel" = Ok ls /\ nth_error ls 0 = Some TextNaN) /\
  exists ls, tick_function (map Fin [0; 1000]) "no such bank" = Ok ls /\ shows (nth 1 ls TextNaN) 1000.
Proof.
  split; [apply (C116_mel_nan _ (-1000)); [reflexivity|lra]|].
  destruct (C116_labels [0; 1000] "no such bank") as (ls & E & _ & G).
  - intros [|[|i]] Hi; simpl in *; try lra; lia.
  - exists ls. split; [exact E|]. exact (G 1%nat ltac:(simpl; lia)).
Qed.
