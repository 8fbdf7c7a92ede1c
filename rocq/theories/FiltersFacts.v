(** * Lemmas about scaling vectors and the RASTA filter *)
From Coq Require Import Reals ZArith List String Bool Lia Lra Psatz.
From Verif Require Import Base BaseFacts SpecBase SpecMat SpecFilters BigSum MatFacts Filters.
Import ListNotations.
Local Open Scope R_scope.

Lemma scale_fbank_ok : forall name n, In name scale_names ->
  scale_fbank name (Z.of_nat n) = Ok (fvec n (spec_scale name n)).
Proof.
  intros name n H. unfold scale_fbank. destruct (Z.ltb_spec (Z.of_nat n) 0); [lia|].
  rewrite Nat2Z.id. unfold spec_scale.
  destruct H as [<-|[<-|[<-|[]]]]; cbn [String.eqb Ascii.eqb Bool.eqb]; f_equal.
  - unfold fvec. rewrite <- seq_shift, map_map. apply map_ext_in; intros i Hi. apply in_seq in Hi.
    unfold fnat. rewrite fdiv_Fin by (apply not_0_INR; lia). rewrite Nat.add_1_r. auto.
  - unfold fvec. apply map_ext_in; intros i Hi. apply in_seq in Hi.
    unfold fnat. rewrite fdiv_Fin by (apply not_0_INR; lia). auto.
  - apply fvec_repeat.
Qed.
Lemma scale_fbank_bad : forall name n, ~ In name scale_names -> (0 <= n)%Z ->
  scale_fbank name n = Raise KeyError.
Proof.
  intros name n H Hn. unfold scale_fbank. destruct (Z.ltb_spec n 0); [lia|].
  repeat match goal with
  | |- context [String.eqb name ?s] => destruct (String.eqb_spec name s);
      [exfalso; apply H; subst; simpl; tauto|] end. reflexivity.
Qed.
Lemma scale_fbank_neg : forall name n, (n < 0)%Z -> scale_fbank name n = Raise ValueError.
Proof. intros. unfold scale_fbank. destruct (Z.ltb_spec n 0); [auto|lia]. Qed.
Lemma scale_fbank_inv : forall name n s, scale_fbank name n = Ok s ->
  (0 <= n)%Z /\ In name scale_names /\ s = fvec (Z.to_nat n) (spec_scale name (Z.to_nat n)).
Proof.
  intros name n s H. destruct (Z.ltb_spec n 0).
  - rewrite scale_fbank_neg in H by auto. discriminate.
  - destruct (in_dec string_dec name scale_names) as [Hi|Hi].
    + rewrite <- (Z2Nat.id n) in H by auto. rewrite scale_fbank_ok in H by auto.
      apply Ok_inj in H. auto.
    + rewrite scale_fbank_bad in H by auto. discriminate.
Qed.
Lemma spec_scale_range : forall name n j, (j < n)%nat -> 0 < spec_scale name n j <= 1.
Proof.
  intros name n j Hj. unfold spec_scale.
  assert (0 < INR n) by (apply lt_0_INR; lia).
  destruct (String.eqb name "ascendant"); [|destruct (String.eqb name "descendant")]; try lra.
  - split. apply Rdiv_lt_0_compat; auto; apply lt_0_INR; lia.
    apply Rmult_le_reg_r with (INR n); auto. unfold Rdiv. rewrite Rmult_assoc, Rinv_l by lra.
    rewrite Rmult_1_l, Rmult_1_r. apply le_INR; lia.
  - split. apply Rdiv_lt_0_compat; auto; apply lt_0_INR; lia.
    apply Rmult_le_reg_r with (INR n); auto. unfold Rdiv. rewrite Rmult_assoc, Rinv_l by lra.
    rewrite Rmult_1_l, Rmult_1_r. apply le_INR; lia.
Qed.
Lemma spec_scale_mirror : forall n j, (j < n)%nat ->
  spec_scale "descendant" n j = spec_scale "ascendant" n (n - 1 - j).
Proof.
  intros. unfold spec_scale. cbn [String.eqb Ascii.eqb Bool.eqb]. do 2 f_equal. lia.
Qed.

(** ** RASTA *)
Lemma rasta_numer_eq : rasta_numer = map Fin [0.2; 0.1; 0; -0.1; -0.2].
Proof.
  unfold rasta_numer. change (zrange (-2) 3) with [-2; -1; 0; 1; 2]%Z.
  cbn [map]. unfold fZ.
  assert (Es : fsum [fmul (Fin (-2)) (Fin (-2)); fmul (Fin (-1)) (Fin (-1)); fmul (Fin 0) (Fin 0);
                fmul (Fin 1) (Fin 1); fmul (Fin 2) (Fin 2)] = Fin 10).
  { unfold fsum; simpl. f_equal; lra. }
  rewrite Es. cbn [fmul]. repeat rewrite fdiv_Fin by lra. feq.
Qed.

Lemma fir_step : forall z0 z1 z2 z3 x,
  df2t_step rasta_numer [f1] (map Fin [z0; z1; z2; z3]) (Fin x)
  = (Fin (0.2 * x + z0), map Fin [0.1 * x + z1; z2; -0.1 * x + z3; -0.2 * x]).
Proof. intros. rewrite rasta_numer_eq. unfold df2t_step. simpl. feq. Qed.

Lemma iir_step : forall z0 z1 z2 z3 x,
  df2t_step rasta_numer rasta_denom (map Fin [z0; z1; z2; z3]) (Fin x)
  = (Fin (0.2 * x + z0),
     map Fin [0.1 * x + z1 + 0.94 * (0.2 * x + z0); z2; -0.1 * x + z3; -0.2 * x]).
Proof. intros. rewrite rasta_numer_eq. unfold df2t_step, fsub. simpl. feq. Qed.

Lemma fir4 : forall z0 z1 z2 z3 x0 x1 x2 x3, exists y0 y1 y2 y3,
  lfilter_state rasta_numer [f1] (map Fin [z0; z1; z2; z3]) (map Fin [x0; x1; x2; x3])
  = (map Fin [y0; y1; y2; y3],
     map Fin [0.1 * x3 - 0.1 * x1 - 0.2 * x0; -0.1 * x2 - 0.2 * x1; -0.1 * x3 - 0.2 * x2; -0.2 * x3]).
Proof.
  intros. exists (0.2 * x0 + z0), (0.2 * x1 + (0.1 * x0 + z1)), (0.2 * x2 + (0.1 * x1 + z2)),
    (0.2 * x3 + (0.1 * x2 + (-0.1 * x0 + z3))).
  change (map Fin [x0; x1; x2; x3]) with [Fin x0; Fin x1; Fin x2; Fin x3].
  cbn [lfilter_state]. rewrite !fir_step. cbn [map]. feq.
Qed.

Definition rasta_state (x : nat -> R) (t : nat) : list R :=
  [0.94 * spec_rasta x (t - 1) + 0.1 * x (t - 1)%nat - 0.1 * x (t - 3)%nat - 0.2 * x (t - 4)%nat;
   - 0.1 * x (t - 2)%nat - 0.2 * x (t - 3)%nat;
   - 0.1 * x (t - 1)%nat - 0.2 * x (t - 2)%nat;
   - 0.2 * x (t - 1)%nat].

Lemma spec_rasta_step : forall x t, (4 <= t)%nat ->
  spec_rasta x t = 0.94 * spec_rasta x (t - 1) + 0.2 * x t + 0.1 * x (t - 1)%nat
                 - 0.1 * x (t - 3)%nat - 0.2 * x (t - 4)%nat.
Proof.
  intros x t Ht. destruct t; [lia|]. cbn [spec_rasta]. destruct (Nat.ltb_spec t 3); [lia|].
  replace (S t - 1)%nat with t by lia. auto.
Qed.
Lemma spec_rasta_early : forall x t, (t < 4)%nat -> spec_rasta x t = 0.
Proof. intros x t Ht. destruct t; auto. cbn [spec_rasta]. destruct (Nat.ltb_spec t 3); [auto|lia]. Qed.

Lemma iir_run : forall x n t, (4 <= t)%nat ->
  lfilter_state rasta_numer rasta_denom (map Fin (rasta_state x t)) (fvec n (fun i => x (t + i)%nat))
  = (fvec n (fun i => spec_rasta x (t + i)), map Fin (rasta_state x (t + n))).
Proof.
  intros x n. induction n; intros t Ht.
  - rewrite Nat.add_0_r. reflexivity.
  - rewrite !fvec_S. cbn [lfilter_state]. rewrite Nat.add_0_r.
    assert (E : df2t_step rasta_numer rasta_denom (map Fin (rasta_state x t)) (Fin (x t))
      = (Fin (spec_rasta x t), map Fin (rasta_state x (S t)))).
    { unfold rasta_state at 1. rewrite iir_step. f_equal.
      - rewrite (spec_rasta_step x t Ht). f_equal. lra.
      - unfold rasta_state. replace (S t - 1)%nat with t by lia. replace (S t - 2)%nat with (t - 1)%nat by lia.
        replace (S t - 3)%nat with (t - 2)%nat by lia. replace (S t - 4)%nat with (t - 3)%nat by lia.
        rewrite (spec_rasta_step x t Ht). cbn [map]. feq. }
    rewrite E.
    rewrite (fvec_ext n (fun i => x (t + S i)%nat) (fun i => x (S t + i)%nat)) by (intros; f_equal; lia).
    rewrite IHn by lia. f_equal.
    + f_equal. apply fvec_ext; intros; f_equal; lia.
    + do 2 f_equal. lia.
Qed.

Lemma rasta_row_eq : forall c x z, (4 <= c)%nat -> List.length z = 4%nat ->
  rasta_row (map Fin z) (fvec c x)
  = Ok (fvec c (spec_rasta x), map Fin (rasta_state x 4)).
Proof.
  intros c x z Hc Hz. destruct z as [|z0 [|z1 [|z2 [|z3 [|]]]]]; try discriminate.
  unfold rasta_row.
  assert (E0 : py_nth (fvec c x) 0 = Ok (Fin (x O))).
  { destruct c; [lia|]. rewrite fvec_S. reflexivity. }
  rewrite E0. cbn [rbind]. rewrite fvec_firstn by auto. rewrite fvec_skipn by auto.
  replace (map (fun v => fmul v (Fin (x 0%nat))) (map Fin [z0; z1; z2; z3]))
    with (map Fin [z0 * x O; z1 * x O; z2 * x O; z3 * x O]) by reflexivity.
  change (fvec 4 x) with (map Fin [x O; x 1%nat; x 2%nat; x 3%nat]).
  destruct (fir4 (z0 * x O) (z1 * x O) (z2 * x O) (z3 * x O) (x O) (x 1%nat) (x 2%nat) (x 3%nat))
    as (y0 & y1 & y2 & y3 & E). 
  change [Fin (z0 * x 0%nat); Fin (z1 * x 0%nat); Fin (z2 * x 0%nat); Fin (z3 * x 0%nat)]
    with (map Fin [z0 * x 0%nat; z1 * x 0%nat; z2 * x 0%nat; z3 * x 0%nat]).
  rewrite E.
  assert (Es : map Fin [0.1 * x 3%nat - 0.1 * x 1%nat - 0.2 * x 0%nat; -0.1 * x 2%nat - 0.2 * x 1%nat;
                -0.1 * x 3%nat - 0.2 * x 2%nat; -0.2 * x 3%nat] = map Fin (rasta_state x 4)).
  { unfold rasta_state. rewrite spec_rasta_early by lia. cbn [map Nat.sub]. feq. }
  rewrite Es. rewrite (iir_run x (c - 4) 4) by lia.
  do 2 f_equal. replace c with (4 + (c - 4))%nat at 2 by lia. rewrite fvec_app.
  f_equal. unfold fvec. cbn [map seq fmul]. rewrite !spec_rasta_early by lia. unfold f0. feq.
Qed.

Lemma rasta_rows_eq : forall r c x z, (4 <= c)%nat -> List.length z = 4%nat ->
  forall k, rasta_rows (map Fin z) (map (fun i => fvec c (x i)) (seq k r))
  = Ok (map (fun i => fvec c (spec_rasta (x i))) (seq k r)).
Proof.
  induction r; intros c x z Hc Hz k; [reflexivity|]. cbn [seq map rasta_rows].
  rewrite rasta_row_eq by auto. cbn [rbind fst snd]. rewrite IHr by auto. reflexivity.
Qed.

Lemma lfilter_zi_rasta : exists z, List.length z = 4%nat /\ lfilter_zi_fir rasta_numer = map Fin z.
Proof.
  rewrite rasta_numer_eq.
  exists [-0.2; -0.3; -0.3; -0.2]. split; auto.
  unfold lfilter_zi_fir, fsum, fsub. simpl. feq.
Qed.

Lemma rasta_filter_eq : forall r c x, (4 <= c)%nat ->
  rasta_filter (fmat r c x) = Ok (fmat r c (fun i => spec_rasta (x i))).
Proof.
  intros. unfold rasta_filter. destruct lfilter_zi_rasta as [z [Hz ->]].
  unfold fmat. apply rasta_rows_eq; auto.
Qed.

Lemma spec_rasta_const : forall v t, spec_rasta (fun _ => v) t = 0.
Proof.
  intros v t. induction t; auto. cbn [spec_rasta]. destruct (Nat.ltb t 3); auto. rewrite IHt. lra.
Qed.

Lemma spec_rasta_linear : forall x y a b t,
  spec_rasta (fun i => a * x i + b * y i) t = a * spec_rasta x t + b * spec_rasta y t.
Proof.
  intros. induction t; [simpl; lra|]. cbn [spec_rasta]. destruct (Nat.ltb t 3); [lra|]. rewrite IHt. lra.
Qed.

(** contamination of the next row by a NaN *)
Lemma fadd_NaN_r : forall x, fadd x NaN = NaN. Proof. destruct x; auto. Qed.
Lemma fmul_NaN_r : forall x, fmul x NaN = NaN. Proof. destruct x; auto. Qed.

Lemma rasta_nan_state : forall z x0 x1 x2 x3 t y z',
  In NaN [x0; x1; x2; x3] -> List.length z = 4%nat ->
  rasta_row z (x0 :: x1 :: x2 :: x3 :: t) = Ok (y, z') -> List.length z' = 4%nat /\ nth 0 z' f0 = NaN.
Proof.
  intros z x0 x1 x2 x3 t y z' Hin Hz H.
  destruct z as [|z0 [|z1 [|z2 [|z3 [|]]]]]; try discriminate.
  unfold rasta_row in H. cbn [py_nth] in H.
  assert (E0 : py_nth (x0 :: x1 :: x2 :: x3 :: t) 0 = Ok x0) by reflexivity.
  rewrite E0 in H. cbn [rbind firstn skipn] in H.
  rewrite rasta_numer_eq in H.
  destruct (lfilter_state (map Fin [0.2; 0.1; 0; -0.1; -0.2]) [f1]
             (map (fun v => fmul v x0) [z0; z1; z2; z3]) [x0; x1; x2; x3]) as [y1 zz] eqn:Ez.
  destruct (lfilter_state _ rasta_denom zz t) as [y2 ?].
  apply Ok_inj in H. assert (zz = z') by congruence. subst zz. clear H.
  unfold lfilter_state, df2t_step in Ez. cbn [map nth nth_error List.length Nat.ltb Nat.leb seq] in Ez.
  assert (Ez' : z' = snd (y1, z')) by reflexivity. rewrite <- Ez in Ez'. cbn [snd] in Ez'. rewrite Ez'.
  split; [reflexivity|]. cbn [nth].
  destruct Hin as [->|[->|[->|[->|[]]]]]; rewrite ?fmul_NaN_r, ?fadd_NaN_r; auto.
Qed.

Lemma rasta_contaminates : forall row0 row1 rest out, (4 <= List.length row0)%nat ->
  In NaN (firstn 4 row0) -> rasta_filter (row0 :: row1 :: rest) = Ok out ->
  nth 0 (nth 1 out []) f0 = NaN.
Proof.
  intros row0 row1 rest out Hl Hin H. unfold rasta_filter in H.
  destruct lfilter_zi_rasta as [z [Hz Ez]]. rewrite Ez in H.
  destruct row0 as [|x0 [|x1 [|x2 [|x3 t]]]]; try (simpl in Hl; lia). cbn [firstn] in Hin.
  cbn [rasta_rows] in H. apply rbind_Ok in H as [[y0 z'] [H1 H]]. cbn [fst snd] in H.
  apply rasta_nan_state in H1 as [Hz' Hn]; auto. 2:{ rewrite map_length; auto. }
  apply rbind_Ok in H as [ys [H2 H]]. cbn [rasta_rows] in H2.
  apply rbind_Ok in H2 as [[y1 z2] [H3 H2]]. apply rbind_Ok in H2 as [ys' [H4 H2]].
  apply Ok_inj in H. apply Ok_inj in H2. subst. cbn [nth fst].
  destruct z' as [|w0 zt]; [discriminate|]. simpl in Hn. subst w0.
  unfold rasta_row in H3. apply rbind_Ok in H3 as [v0 [Hv H3]].
  destruct row1 as [|r0 rt]; [discriminate|].
  cbn [firstn] in H3. cbn [lfilter_state] in H3. unfold df2t_step in H3 at 1.
  cbn [map nth] in H3.
  match type of H3 with context [let '(_, _) := lfilter_state ?a ?b ?c ?d in _] =>
    destruct (lfilter_state a b c d) as [ya za] end.
  match type of H3 with context [let '(_, _) := lfilter_state ?a ?b ?c ?d in _] =>
    destruct (lfilter_state a b c d) as [yb zb] end.
  apply Ok_inj in H3. assert (Ey : y1 = fst (y1, z2)) by reflexivity. rewrite <- H3 in Ey. rewrite Ey.
  cbn [fst map app nth]. cbn [fmul]. rewrite fadd_NaN_r. reflexivity.
Qed.
