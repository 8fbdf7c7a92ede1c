(** * Lemmas about windowing *)
From Coq Require Import Reals ZArith List String Bool Lia Lra Psatz Arith.
From Verif Require Import Base BaseFacts SpecBase Preprocessing PreprocessingFacts.
Import ListNotations.
Local Open Scope R_scope.

Lemma INR_pred_pos : forall M, (2 <= M)%nat -> 0 < INR (M - 1).
Proof. intros. apply lt_0_INR. lia. Qed.

Lemma spec_theta_sym : forall M n, (2 <= M)%nat -> (n < M)%nat ->
  spec_theta M (M - 1 - n) = 2 * PI - spec_theta M n.
Proof.
  intros. unfold spec_theta. rewrite minus_INR with (n := (M - 1)%nat) (m := n) by lia.
  pose proof (INR_pred_pos M H). field. lra.
Qed.

Lemma cos_2PI_minus : forall x, cos (2 * PI - x) = cos x.
Proof. intros. rewrite cos_minus, cos_2PI, sin_2PI. lra. Qed.

Lemma spec_window_sym : forall name M n, (n < M)%nat ->
  spec_window name M (M - 1 - n) = spec_window name M n.
Proof.
  intros name M n Hn. unfold spec_window. destruct (Nat.leb_spec M 1); auto.
  assert (HM : (2 <= M)%nat) by lia.
  assert (Hc : cos (spec_theta M (M - 1 - n)) = cos (spec_theta M n)).
  { rewrite spec_theta_sym by auto. apply cos_2PI_minus. }
  assert (Hr : 2 * INR (M - 1 - n) / INR (M - 1) - 1 = - (2 * INR n / INR (M - 1) - 1)).
  { rewrite minus_INR with (n := (M - 1)%nat) (m := n) by lia.
    pose proof (INR_pred_pos M HM). field. lra. }
  destruct (String.eqb name "hanning"); [unfold spec_hann; rewrite Hc; auto|].
  destruct (String.eqb name "bartlet"); [unfold spec_bartlett; rewrite Hr, Rabs_Ropp; auto|].
  destruct (String.eqb name "kaiser").
  { unfold spec_kaiser. rewrite Hr.
    replace ((- (2 * INR n / INR (M - 1) - 1)) ^ 2) with ((2 * INR n / INR (M - 1) - 1) ^ 2) by ring. auto. }
  destruct (String.eqb name "blackman").
  { unfold spec_blackman. rewrite Hc. f_equal. f_equal.
    rewrite spec_theta_sym by auto. rewrite !cos_2a_cos. rewrite cos_2PI_minus. auto. }
  unfold spec_hamming; rewrite Hc; auto.
Qed.

Lemma spec_window_bounds : forall name M n, (n < M)%nat ->
  0 <= spec_window name M n <= 1.
Proof.
  intros name M n Hn. unfold spec_window. destruct (Nat.leb_spec M 1); [lra|].
  assert (HM : (2 <= M)%nat) by lia.
  pose proof (COS_bound (spec_theta M n)) as Hc.
  destruct (String.eqb name "hanning"); [unfold spec_hann; lra|].
  destruct (String.eqb name "bartlet").
  { unfold spec_bartlett. pose proof (INR_pred_pos M HM).
    assert (0 <= 2 * INR n / INR (M - 1) <= 2).
    { pose proof (pos_INR n). assert (INR n <= INR (M - 1)) by (apply le_INR; lia). split.
      - apply Rmult_le_pos; [lra|]. apply Rlt_le, Rinv_0_lt_compat; auto.
      - apply Rmult_le_reg_r with (INR (M - 1)); auto. unfold Rdiv. rewrite Rmult_assoc, Rinv_l by lra. lra. }
    pose proof (Rabs_pos (2 * INR n / INR (M - 1) - 1)).
    assert (Rabs (2 * INR n / INR (M - 1) - 1) <= 1) by (apply Rabs_le; lra). lra. }
  destruct (String.eqb name "kaiser").
  { rewrite <- kaiser_spec by auto. pose proof (kaiser_bounds M n HM Hn). lra. }
  destruct (String.eqb name "blackman").
  { unfold spec_blackman. rewrite cos_2a_cos. set (c := cos (spec_theta M n)) in *. nra. }
  unfold spec_hamming; lra.
Qed.

Lemma spec_hamming_lower : forall M n, 0.08 <= spec_window "hamming" M n.
Proof.
  intros. unfold spec_window. destruct (Nat.leb M 1); [lra|]. cbn.
  unfold spec_hamming. pose proof (COS_bound (spec_theta M n)). lra.
Qed.

Lemma bcast_same : forall A B (f : A -> B -> B) w row,
  List.length w = List.length row -> bcast f w row = Ok (map2 f w row).
Proof. intros. unfold bcast. rewrite H, Nat.eqb_refl. auto. Qed.

Lemma mk_window_length : forall at_ M, (1 <= M)%Z -> List.length (mk_window at_ M) = Z.to_nat M.
Proof.
  intros. unfold mk_window. destruct (Z.ltb_spec M 1); [lia|].
  destruct (Z.eqb_spec M 1); [subst; auto|]. rewrite map_length, seq_length; auto.
Qed.

Lemma mk_window_nth : forall at_ M j, (j < Z.to_nat M)%nat ->
  nth j (mk_window at_ M) NaN = Fin (if Nat.leb (Z.to_nat M) 1 then 1 else at_ (Z.to_nat M) j).
Proof.
  intros. unfold mk_window. destruct (Z.ltb_spec M 1); [lia|].
  destruct (Z.eqb_spec M 1).
  - subst. simpl in *. assert (j = O) by lia. subst. auto.
  - rewrite nth_map_seq by auto. destruct (Nat.leb_spec (Z.to_nat M) 1); [lia|auto].
Qed.

Definition known_window (wt : string) : bool := existsb (String.eqb wt) window_names.

Lemma windowing_row_known : forall B (f : F -> B -> B) row M wt,
  (1 <= M)%Z -> zlen row = M -> known_window wt = true ->
  exists out, windowing_row f row M wt = Ok out /\ List.length out = List.length row /\
  forall j d d', (j < List.length row)%nat ->
    nth j out d = f (Fin (spec_window wt (Z.to_nat M) j)) (nth j row d').
Proof.
  intros B f row M wt HM Hl Hk.
  assert (Hlr : List.length row = Z.to_nat M) by (unfold zlen in Hl; lia).
  unfold windowing_row, window_row.
  rewrite !bcast_same by (rewrite mk_window_length by auto; auto). cbn [rbind].
  assert (HH : forall at_ : nat -> nat -> R,
     ((2 <= Z.to_nat M)%nat -> forall n, at_ (Z.to_nat M) n = spec_window wt (Z.to_nat M) n) ->
     List.length (map2 f (mk_window at_ M) row) = List.length row /\
     forall j d d', (j < List.length row)%nat ->
       nth j (map2 f (mk_window at_ M) row) d = f (Fin (spec_window wt (Z.to_nat M) j)) (nth j row d')).
  { intros at_ Hat. split.
    - rewrite map2_length, mk_window_length by auto. lia.
    - intros j d d' Hj. rewrite map2_nth with (da := NaN) (db := d').
      2:{ rewrite mk_window_length by auto; lia. } 2:{ auto. }
      rewrite mk_window_nth by lia. f_equal. f_equal.
      destruct (Nat.leb_spec (Z.to_nat M) 1).
      + unfold spec_window. destruct (Nat.leb_spec (Z.to_nat M) 1); auto; lia.
      + apply Hat; lia. }
  unfold known_window, window_names in Hk. simpl in Hk.
  destruct (String.eqb wt "hanning") eqn:E1.
  { eexists; split; [reflexivity|]. apply HH. intros H2 n. rewrite hanning_spec by auto.
    unfold spec_window. rewrite E1. destruct (Nat.leb_spec (Z.to_nat M) 1); auto; lia. }
  destruct (String.eqb wt "bartlet") eqn:E2.
  { eexists; split; [reflexivity|]. apply HH. intros H2 n. rewrite bartlett_spec by auto.
    unfold spec_window. rewrite E1, E2. destruct (Nat.leb_spec (Z.to_nat M) 1); auto; lia. }
  destruct (String.eqb wt "kaiser") eqn:E3.
  { eexists; split; [reflexivity|]. apply HH. intros H2 n. rewrite kaiser_spec by auto.
    unfold spec_window. rewrite E1, E2, E3. destruct (Nat.leb_spec (Z.to_nat M) 1); auto; lia. }
  destruct (String.eqb wt "blackman") eqn:E4.
  { eexists; split; [reflexivity|]. apply HH. intros H2 n. rewrite blackman_spec by auto.
    unfold spec_window. rewrite E1, E2, E3, E4. destruct (Nat.leb_spec (Z.to_nat M) 1); auto; lia. }
  destruct (String.eqb wt "hamming") eqn:E5; [|discriminate].
  eexists; split; [reflexivity|]. apply HH. intros H2 n. rewrite hamming_spec by auto.
  unfold spec_window. rewrite E1, E2, E3, E4. destruct (Nat.leb_spec (Z.to_nat M) 1); auto; lia.
Qed.

Lemma windowing_row_unknown : forall B (f : F -> B -> B) row M wt,
  (1 <= M)%Z -> zlen row = M -> known_window wt = false ->
  windowing_row f row M wt = Raise KeyError.
Proof.
  intros B f row M wt HM Hl Hk.
  assert (Hlr : List.length row = Z.to_nat M) by (unfold zlen in Hl; lia).
  unfold windowing_row, window_row.
  rewrite !bcast_same by (rewrite mk_window_length by auto; auto). cbn [rbind].
  unfold known_window, window_names in Hk. simpl in Hk.
  destruct (String.eqb wt "hanning"); [discriminate|].
  destruct (String.eqb wt "bartlet"); [discriminate|].
  destruct (String.eqb wt "kaiser"); [discriminate|].
  destruct (String.eqb wt "blackman"); [discriminate|].
  destruct (String.eqb wt "hamming"); [discriminate|]. auto.
Qed.

(** the windowed row as a function: product with the specified window *)
Definition wrow (wt : string) (row : list F) : list F :=
  map (fun j => fmul (Fin (spec_window wt (List.length row) j)) (nth j row NaN))
      (seq 0 (List.length row)).

Lemma windowing_row_eq : forall row M wt,
  (1 <= M)%Z -> zlen row = M -> known_window wt = true ->
  windowing_row fmul row M wt = Ok (wrow wt row).
Proof.
  intros row M wt HM Hl Hk.
  destruct (windowing_row_known _ fmul row M wt HM Hl Hk) as (out & -> & Hlen & Hn).
  f_equal. apply (list_eq_nth _ NaN).
  - unfold wrow. rewrite map_length, seq_length; auto.
  - intros i Hi. rewrite Hlen in Hi. rewrite (Hn i NaN NaN Hi).
    unfold wrow. rewrite nth_map_seq by auto.
    replace (Z.to_nat M) with (List.length row) by (unfold zlen in Hl; lia). auto.
Qed.

Lemma windowing_eq : forall frames M wt,
  (1 <= M)%Z -> Forall (fun row => zlen row = M) frames -> known_window wt = true ->
  windowing frames M wt = Ok (map (wrow wt) frames).
Proof.
  intros. unfold windowing. apply mapM_ok_map. intros row Hr.
  apply windowing_row_eq; auto. rewrite Forall_forall in H0. auto.
Qed.

Lemma windowing_key_error : forall frames M wt,
  (1 <= M)%Z -> Forall (fun row => zlen row = M) frames -> frames <> [] ->
  known_window wt = false -> windowing frames M wt = Raise KeyError.
Proof.
  intros. unfold windowing. apply mapM_Forall_const_raise; auto. intros row Hr.
  apply windowing_row_unknown; auto. rewrite Forall_forall in H0. auto.
Qed.

Lemma known_window_iff : forall wt, known_window wt = true <-> In wt window_names.
Proof.
  intros. unfold known_window. rewrite existsb_exists. split.
  - intros (x & Hx & He). apply String.eqb_eq in He. subst; auto.
  - intros. exists wt. split; auto. apply String.eqb_refl.
Qed.

Lemma windowing_spec : forall frames M wt,
  (1 <= M)%Z -> Forall (fun row => zlen row = M) frames -> In wt window_names ->
  exists out, windowing frames M wt = Ok out /\
    has_shape out (List.length frames) (Z.to_nat M) /\
    forall i j, (i < List.length frames)%nat -> (j < Z.to_nat M)%nat ->
      nth j (nth i out []) NaN =
      fmul (Fin (spec_window wt (Z.to_nat M) j)) (nth j (nth i frames []) NaN).
Proof.
  intros frames M wt HM Hf Hk. apply known_window_iff in Hk.
  eexists. split; [apply windowing_eq; auto|]. rewrite Forall_forall in Hf. split.
  - split; [apply map_length|]. apply Forall_forall. intros r Hr. apply in_map_iff in Hr.
    destruct Hr as (row & <- & Hr). unfold wrow. rewrite map_length, seq_length.
    specialize (Hf _ Hr). unfold zlen in Hf. lia.
  - intros i j Hi Hj. rewrite nth_map with (d := []) by auto.
    assert (Hl : List.length (nth i frames []) = Z.to_nat M).
    { specialize (Hf (nth i frames []) (nth_In _ _ Hi)). unfold zlen in Hf. lia. }
    unfold wrow. rewrite Hl. rewrite nth_map_seq by auto. auto.
Qed.
