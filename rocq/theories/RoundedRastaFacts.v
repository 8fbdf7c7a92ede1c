(** * Facts: rounding in the RASTA filter *)
From Coq Require Import Reals ZArith List Bool Lia Lra Permutation.
From Verif Require Import Base SpecBase BigSum BaseFacts SpecMat SpecFilters Filters FiltersFacts Rounded SpecRounded RoundedFacts RoundedLaws.
From Verif Require Import RoundedRasta SpecRoundedRasta.
Import ListNotations.
Local Open Scope R_scope.

Lemma spec_rasta_bound : forall x M c, 0 <= M -> (forall t, (t < c)%nat -> Rabs (x t) <= M) ->
  forall t, (t < c)%nat -> Rabs (spec_rasta x t) <= 10 * M.
Proof.
  intros x M c HM Hx t.
  induction t as [|t IH]; intros Ht; [cbn; rewrite Rabs_R0; lra|]. specialize (IH ltac:(lia)).
  destruct (Nat.lt_ge_cases (S t) 4) as [H|H]; [rewrite spec_rasta_early by lia; rewrite Rabs_R0; lra|].
  rewrite spec_rasta_step by lia. replace (S t - 1)%nat with t by lia.
  pose proof (Hx (S t) Ht) as H0. pose proof (Hx t ltac:(lia)) as H1. pose proof (Hx (S t - 3)%nat ltac:(lia)) as H3. pose proof (Hx (S t - 4)%nat ltac:(lia)) as H4.
  apply Rcomplements.Rabs_le_between in IH, H0, H1, H3, H4. apply Rcomplements.Rabs_le_between. lra.
Qed.

Section Step.
Context (E : Env) (u eta M : R).
Hypothesis Ha : accurate u eta (@rnd E).
Hypothesis Hodd : odd (@rnd E).
Hypothesis Hu : u <= 1 / 1000.
Hypothesis Heta : eta <= u.
Hypothesis HM : 0 <= M.
Let A := u * M + eta.

Lemma A_pos : 0 <= A.
Proof. unfold A. destruct Ha as (H1 & H2 & _). pose proof (Rmult_le_pos u M H1 HM). lra. Qed.
Lemma uM_le : u * M <= A.
Proof. unfold A. destruct Ha as (H1 & H2 & _). lra. Qed.
Lemma rnd_zero : @rnd E 0 = 0.
Proof. pose proof (Hodd 0) as H. rewrite Ropp_0 in H. lra. Qed.

Lemma settle : forall w v c d, Rabs (w - v) <= c * A -> Rabs v <= d * M -> 0 <= d -> Rabs (@rnd E w - v) <= (1.001 * c + d + 1) * A.
Proof.
  intros w v c d Hw Hv Hd. destruct Ha as (Hu0 & He0 & Hr). specialize (Hr w).
  pose proof A_pos as HA. pose proof (Rabs_pos (w - v)) as P0.
  replace (@rnd E w - v) with ((@rnd E w - w) + (w - v)) by ring. eapply Rle_trans; [apply Rabs_triang|].
  assert (Hw2 : Rabs w <= d * M + c * A).
  { replace w with (v + (w - v)) by ring. eapply Rle_trans; [apply Rabs_triang|]. lra. }
  assert (K : u * Rabs w <= u * (d * M + c * A)) by (apply Rmult_le_compat_l; lra).
  assert (K1 : u * (c * A) <= 1 / 1000 * (c * A)) by (apply Rmult_le_compat_r; lra).
  assert (K2 : d * (u * M) <= d * A) by (apply Rmult_le_compat_l; [lra|apply uM_le]).
  assert (K3 : eta <= A) by (unfold A; pose proof (Rmult_le_pos u M Hu0 HM); lra).
  replace (u * (d * M + c * A)) with (d * (u * M) + u * (c * A)) in K by ring. lra.
Qed.
(** a stored coefficient times a number *)
Lemma stored_near : forall b, Rabs (@rnd E b - b) <= (Rabs b + 1) * u.
Proof.
  intros b. destruct Ha as (Hu0 & He0 & Hr). specialize (Hr b). lra.
Qed.
Lemma stored_times : forall b x, Rabs x <= M -> Rabs (@rnd E b * x - b * x) <= (Rabs b + 1) * A.
Proof.
  intros b x Hx. replace (@rnd E b * x - b * x) with ((@rnd E b - b) * x) by ring. rewrite Rabs_mult.
  assert (K : Rabs (@rnd E b - b) * Rabs x <= (Rabs b + 1) * u * M)
    by (apply Rmult_le_compat; auto using Rabs_pos, stored_near).
  pose proof uM_le. pose proof (Rabs_pos b).
  assert ((Rabs b + 1) * (u * M) <= (Rabs b + 1) * A) by (apply Rmult_le_compat_l; lra). lra.
Qed.
Lemma product_near : forall f b x, Rabs b <= 0.2 -> Rabs x <= M -> Rabs (@product E f (@rnd E b) x - b * x) <= 2.5 * A.
Proof.
  intros f b x Hb Hx. pose proof (stored_times b x Hx) as K. pose proof A_pos as HA.
  assert (K2 : (Rabs b + 1) * A <= 1.2 * A) by (apply Rmult_le_compat_r; lra).
  unfold product. destruct f; [lra|].
  assert (Hv : Rabs (b * x) <= 0.2 * M) by (rewrite Rabs_mult; apply Rmult_le_compat; auto using Rabs_pos).
  pose proof (settle (@rnd E b * x) (b * x) 1.2 0.2 ltac:(lra) Hv ltac:(lra)). lra.
Qed.
Lemma product_near' : forall f b x, Rabs b <= 0.2 -> Rabs x <= M -> Rabs (@product E f x (@rnd E b) - b * x) <= 2.5 * A.
Proof. intros f b x Hb Hx. unfold product. rewrite (Rmult_comm x). apply (product_near f b x Hb Hx). Qed.
Lemma product_zero : forall f y, @product E f y 0 = 0.
Proof. intros f y. unfold product. rewrite Rmult_0_r, rnd_zero. destruct f; reflexivity. Qed.
(** the feedback product *)
Lemma feedback_near : forall f w y e, Rabs (w - y) <= e * A -> Rabs y <= 10 * M -> 0 <= e ->
  Rabs (@product E f w (@stored_pole E) - -0.94 * y) <= (0.944 * e + 30) * A.
Proof.
  intros f w y e Hw Hy He. pose proof A_pos as HA. destruct Ha as (Hu0 & _).
  pose proof (stored_near (-0.94)) as Hs. replace (Rabs (-0.94)) with 0.94 in Hs by (rewrite Rabs_left; lra).
  assert (Hb : Rabs (@rnd E (-0.94)) <= 0.942).
  { replace (@rnd E (-0.94)) with ((@rnd E (-0.94) - -0.94) + -0.94) by ring. eapply Rle_trans; [apply Rabs_triang|].
    rewrite (Rabs_left (-0.94)) by lra. lra. }
  assert (K : Rabs (w * @rnd E (-0.94) - -0.94 * y) <= (0.942 * e + 19.4) * A).
  { replace (w * @rnd E (-0.94) - -0.94 * y) with (@rnd E (-0.94) * (w - y) + (@rnd E (-0.94) - -0.94) * y) by ring.
    eapply Rle_trans; [apply Rabs_triang|]. rewrite !Rabs_mult.
    assert (K1 : Rabs (@rnd E (-0.94)) * Rabs (w - y) <= 0.942 * (e * A)) by (apply Rmult_le_compat; auto using Rabs_pos).
    assert (K2 : Rabs (@rnd E (-0.94) - -0.94) * Rabs y <= (0.94 + 1) * u * (10 * M)) by (apply Rmult_le_compat; auto using Rabs_pos).
    pose proof uM_le. lra. }
  assert (HeA : 0 <= e * A) by (apply Rmult_le_pos; lra).
  unfold product, stored_pole. destruct f; [lra|].
  assert (Hv : Rabs (-0.94 * y) <= 9.4 * M).
  { rewrite Rabs_mult, (Rabs_left (-0.94)) by lra. lra. }
  pose proof (settle _ _ _ 9.4 K Hv ltac:(lra)). lra.
Qed.

Definition near (z : R * R * R * R) (s : list R) : Prop :=
  let '(z0, z1, z2, z3) := z in
  Rabs (z0 - nth 0 s 0) <= 1560 * A /\ Rabs (z1 - nth 1 s 0) <= 23.5 * A /\
  Rabs (z2 - nth 2 s 0) <= 20.5 * A /\ Rabs (z3 - nth 3 s 0) <= 15 * A.

Ltac between := apply Rcomplements.Rabs_le_between.
Lemma step_near : forall fu z x c t, (4 <= t)%nat -> (t < c)%nat -> (forall s, (s < c)%nat -> Rabs (x s) <= M) -> near z (rasta_state x t) ->
  let '(y, z') := @rasta_float_step E fu z (x t) in
  Rabs (y - spec_rasta x t) <= 1576 * A /\ near z' (rasta_state x (S t)).
Proof.
  intros fu [[[z0 z1] z2] z3] x c t Ht Htc Hx (N0 & N1 & N2 & N3).
  unfold rasta_state in N0, N1, N2, N3. cbn [nth] in N0, N1, N2, N3.
  pose proof A_pos as HA.
  pose proof (spec_rasta_bound x M c HM Hx t Htc) as By. pose proof (spec_rasta_bound x M c HM Hx (t - 1) ltac:(lia)) as By1.
  pose proof (Hx t Htc) as X0. pose proof (Hx (t - 1)%nat ltac:(lia)) as X1. pose proof (Hx (t - 2)%nat ltac:(lia)) as X2.
  pose proof (Hx (t - 3)%nat ltac:(lia)) as X3. pose proof (Hx (t - 4)%nat ltac:(lia)) as X4.
  assert (Ey := spec_rasta_step x t Ht).
  unfold rasta_float_step, stored_numer. cbn [nth map]. 
  replace (2 / 10) with 0.2 by lra. replace (1 / 10) with 0.1 by lra. replace (0 / 10) with 0 by lra.
  replace (-1 / 10) with (-0.1) by lra. replace (-2 / 10) with (-0.2) by lra.
  rewrite !product_zero, !rnd_zero, product_zero.
  pose proof (product_near (fu 0%nat) 0.2 (x t) ltac:(rewrite Rabs_pos_eq; lra) X0) as P0.
  pose proof (product_near' (fu 1%nat) 0.1 (x t) ltac:(rewrite Rabs_pos_eq; lra) X0) as P1.
  pose proof (product_near' (fu 5%nat) (-0.1) (x t) ltac:(rewrite Rabs_left; lra) X0) as P3.
  pose proof (product_near' (fu 7%nat) (-0.2) (x t) ltac:(rewrite Rabs_left; lra) X0) as P4.
  set (p0 := @product E (fu 0%nat) _ _) in *. set (p1 := @product E (fu 1%nat) _ _) in *.
  set (p3 := @product E (fu 5%nat) _ _) in *. set (p4 := @product E (fu 7%nat) _ _) in *.
  clearbody p0 p1 p3 p4.
  apply Rcomplements.Rabs_le_between in N0, N1, N2, N3, P0, P1, P3, P4, X0, X1, X2, X3, X4.
  pose proof By1 as By2. apply Rcomplements.Rabs_le_between in By2.
  assert (Y : Rabs (@rnd E (z0 + p0) - spec_rasta x t) <= 1576 * A).
  { assert (K : Rabs (z0 + p0 - spec_rasta x t) <= 1562.5 * A) by (between; lra).
    pose proof (settle _ _ _ 10 K By ltac:(lra)). lra. }
  set (y := @rnd E (z0 + p0)) in *. clearbody y.
  split; [exact Y|].
  unfold near, rasta_state. cbn [nth]. replace (S t - 1)%nat with t by lia. replace (S t - 2)%nat with (t - 1)%nat by lia.
  replace (S t - 3)%nat with (t - 2)%nat by lia. replace (S t - 4)%nat with (t - 3)%nat by lia.
  split; [|split; [|split]].
  - assert (S1 : Rabs (@rnd E (z1 + p1) - (0.1 * x t - 0.1 * x (t - 2)%nat - 0.2 * x (t - 3)%nat)) <= 27.5 * A).
    { assert (K : Rabs (z1 + p1 - (0.1 * x t - 0.1 * x (t - 2)%nat - 0.2 * x (t - 3)%nat)) <= 26 * A) by (between; lra).
      pose proof (settle _ _ _ 0.4 K ltac:(between; lra) ltac:(lra)). lra. }
    pose proof (feedback_near (fu 2%nat) y _ 1576 Y By ltac:(lra)) as Q.
    apply Rcomplements.Rabs_le_between in By.
    assert (K : Rabs (@rnd E (z1 + p1) - @product E (fu 2%nat) y (@stored_pole E)
      - (0.94 * spec_rasta x t + 0.1 * x t - 0.1 * x (t - 2)%nat - 0.2 * x (t - 3)%nat)) <= 1545.3 * A).
    { apply Rcomplements.Rabs_le_between in S1, Q. between. lra. }
    pose proof (settle _ _ _ 9.8 K ltac:(between; lra) ltac:(lra)). lra.
  - rewrite Rplus_0_r, Rminus_0_r.
    assert (S2 : Rabs (@rnd E z2 - (-0.1 * x (t - 1)%nat - 0.2 * x (t - 2)%nat)) <= 21.9 * A).
    { assert (K : Rabs (z2 - (-0.1 * x (t - 1)%nat - 0.2 * x (t - 2)%nat)) <= 20.5 * A) by (between; lra).
      pose proof (settle _ _ _ 0.3 K ltac:(between; lra) ltac:(lra)). lra. }
    pose proof (settle _ _ _ 0.3 S2 ltac:(between; lra) ltac:(lra)) as K.
    apply Rcomplements.Rabs_le_between in K. between. lra.
  - rewrite Rminus_0_r.
    assert (S3 : Rabs (@rnd E (z3 + p3) - (-0.1 * x t - 0.2 * x (t - 1)%nat)) <= 18.9 * A).
    { assert (K : Rabs (z3 + p3 - (-0.1 * x t - 0.2 * x (t - 1)%nat)) <= 17.5 * A) by (between; lra).
      pose proof (settle _ _ _ 0.3 K ltac:(between; lra) ltac:(lra)). lra. }
    pose proof (settle _ _ _ 0.3 S3 ltac:(between; lra) ltac:(lra)) as K.
    apply Rcomplements.Rabs_le_between in K. between. lra.
  - rewrite Rminus_0_r.
    assert (K : Rabs (p4 - -0.2 * x t) <= 2.5 * A) by (between; lra).
    pose proof (settle _ _ _ 0.2 K ltac:(between; lra) ltac:(lra)) as K'.
    apply Rcomplements.Rabs_le_between in K'. between. lra.
Qed.

(** the state after the FIR pass *)
Lemma fir_entry : forall w p x, (forall t, (t < 4)%nat -> Rabs (x t) <= M) -> (forall i, (i < 4)%nat -> Rabs (w i) <= 0.2) ->
  bigsum 4 (fun i => Rabs (w i)) <= 0.4 -> dot_program (fun i => @rnd E (w i)) 4 p ->
  Rabs (@lin_run E x p - bigsum 4 (fun i => w i * x i)) <= 15 * A.
Proof.
  intros w p x Hx Hw Hs Hp. pose proof A_pos as HA. pose proof Ha as (Hu0 & He0 & _).
  pose proof (lin_error E u eta x p Ha) as K.
  rewrite (dot_exact _ _ _ x Hp), (dot_size _ _ _ x Hp) in K.
  pose proof (dot_depth _ _ _ Hp) as Hd. pose proof (dot_amp _ _ _ Hp) as Hm.
  pose proof (lin_amp_nonneg p) as Hm0.
  assert (P4 : (1 + u) ^ lin_depth p <= 1 + 4.01 * u).
  { eapply Rle_trans; [apply (pow_u_le u _ 4 Hu0 Hd)|]. cbn [pow].
    assert (U2 : u * u <= 1 / 1000 * u) by (apply Rmult_le_compat_r; lra).
    assert (U20 : 0 <= u * u) by (apply Rmult_le_pos; lra).
    assert (U3 : u * u * u <= 1 / 1000 * (u * u)) by (rewrite (Rmult_comm (u * u)); apply Rmult_le_compat_r; lra).
    assert (U30 : 0 <= u * u * u) by (apply Rmult_le_pos; lra).
    assert (U4 : u * u * u * u <= 1 / 1000 * (u * u * u)) by (rewrite (Rmult_comm (u * u * u)); apply Rmult_le_compat_r; lra).
    replace ((1 + u) * ((1 + u) * ((1 + u) * ((1 + u) * 1)))) with (1 + 4 * u + 6 * (u * u) + 4 * (u * u * u) + u * u * u * u) by ring.
    lra. }
  pose proof (pow_u_ge1 u (lin_depth p) Hu0) as P1. set (P := (1 + u) ^ lin_depth p) in *. clearbody P.
  pose proof (Rmult_le_pos u M Hu0 HM) as HuM.
  assert (Size : bigsum 4 (fun k => Rabs (@rnd E (w k) * x k)) <= 0.41 * M).
  { eapply Rle_trans with (bigsum 4 (fun k => (Rabs (w k) + 1 / 400) * M)).
    - apply bigsum_le. intros i Hi. rewrite Rabs_mult. apply Rmult_le_compat; auto using Rabs_pos.
      replace (@rnd E (w i)) with ((@rnd E (w i) - w i) + w i) by ring. eapply Rle_trans; [apply Rabs_triang|].
      pose proof (stored_near (w i)) as Hst. specialize (Hw i Hi). pose proof (Rabs_pos (w i)).
      assert ((Rabs (w i) + 1) * u <= 1.2 * u) by (apply Rmult_le_compat_r; lra). lra.
    - rewrite bigsum_scal_r, bigsum_plus. apply Rmult_le_compat_r; [exact HM|]. cbn [bigsum] in *. lra. }
  assert (Size0 : 0 <= bigsum 4 (fun k => Rabs (@rnd E (w k) * x k))).
  { cbn [bigsum]. pose proof (fun k => Rabs_pos (@rnd E (w k) * x k)) as Q.
    pose proof (Q 0%nat). pose proof (Q 1%nat). pose proof (Q 2%nat). pose proof (Q 3%nat). lra. }
  assert (K1 : (P - 1) * bigsum 4 (fun k => Rabs (@rnd E (w k) * x k)) <= 4.01 * u * (0.41 * M))
    by (apply Rmult_le_compat; lra).
  assert (K2 : P * lin_amp p * eta <= 1.01 * 8 * eta).
  { apply Rmult_le_compat_r; [lra|]. apply Rmult_le_compat; cbn in Hm; lra. }
  assert (K3 : Rabs (bigsum 4 (fun k => @rnd E (w k) * x k) - bigsum 4 (fun i => w i * x i)) <= 4.8 * A).
  { rewrite <- bigsum_minus. eapply Rle_trans; [apply bigsum_Rabs|].
    eapply Rle_trans with (bigsum 4 (fun k => 1.2 * A)).
    - apply bigsum_le. intros i Hi. pose proof (stored_times (w i) (x i) (Hx i Hi)).
      specialize (Hw i Hi). assert ((Rabs (w i) + 1) * A <= 1.2 * A) by (apply Rmult_le_compat_r; lra). lra.
    - cbn [bigsum]. lra. }
  replace (@lin_run E x p - bigsum 4 (fun i => w i * x i))
    with ((@lin_run E x p - bigsum 4 (fun k => @rnd E (w k) * x k)) + (bigsum 4 (fun k => @rnd E (w k) * x k) - bigsum 4 (fun i => w i * x i))) by ring.
  eapply Rle_trans; [apply Rabs_triang|]. unfold A in *. lra.
Qed.
Lemma init_near : forall fir x, @convolves E fir -> (forall t, (t < 4)%nat -> Rabs (x t) <= M) ->
  near (@rasta_float_init E fir x) (rasta_state x 4).
Proof.
  intros fir x Hf Hx. unfold near, rasta_float_init, rasta_state. cbn [nth Nat.sub].
  rewrite spec_rasta_early by lia. pose proof A_pos as HA.
  assert (K : forall j, (j < 4)%nat -> Rabs (@lin_run E x (fir j) - bigsum 4 (fun i => fir_weight j i * x i)) <= 15 * A).
  { intros j Hj. apply fir_entry; [exact Hx| | |apply Hf, Hj].
    - intros i Hi. unfold fir_weight.
      destruct j as [|[|[|[|j]]]]; try lia; destruct i as [|[|[|[|i]]]]; try lia; cbn [Nat.leb Nat.add Nat.sub nth];
        apply Rcomplements.Rabs_le_between; lra.
    - unfold fir_weight.
      destruct j as [|[|[|[|j]]]]; try lia; cbn [bigsum Nat.leb Nat.add Nat.sub nth];
        unfold Rabs; repeat destruct Rcase_abs; lra. }
  pose proof (K 0%nat ltac:(lia)) as K0. pose proof (K 1%nat ltac:(lia)) as K1.
  pose proof (K 2%nat ltac:(lia)) as K2. pose proof (K 3%nat ltac:(lia)) as K3.
  unfold fir_weight in K0, K1, K2, K3. cbn [bigsum Nat.leb Nat.add Nat.sub nth] in K0, K1, K2, K3.
  apply Rcomplements.Rabs_le_between in K0, K1, K2, K3.
  repeat split; between; lra.
Qed.
Lemma state_near : forall fu fir x c, @convolves E fir -> (forall t, (t < c)%nat -> Rabs (x t) <= M) -> forall n, (4 + n <= c)%nat ->
  near (@rasta_float_state E fu fir x n) (rasta_state x (4 + n)).
Proof.
  intros fu fir x c Hf Hx. induction n as [|n IH]; intros Hn; [apply init_near; [exact Hf|intros t Ht; apply Hx; lia]|]. specialize (IH ltac:(lia)).
  cbn [rasta_float_state]. replace (4 + S n)%nat with (S (4 + n)) by lia.
  pose proof (step_near fu _ x c (4 + n) ltac:(lia) ltac:(lia) Hx IH) as K.
  destruct (@rasta_float_step E fu (@rasta_float_state E fu fir x n) (x (4 + n)%nat)) as [y z]. apply K.
Qed.
Theorem rasta_float_error : forall fu fir x c, @convolves E fir -> (forall t, (t < c)%nat -> Rabs (x t) <= M) -> forall t, (t < c)%nat ->
  Rabs (@rasta_float E fu fir x t - spec_rasta x t) <= 1600 * (u * M + eta).
Proof.
  intros fu fir x c Hf Hx t Htc. pose proof A_pos as HA. unfold rasta_float.
  destruct (Nat.ltb_spec t 4) as [H|H].
  { rewrite spec_rasta_early by lia. rewrite Rminus_0_r, Rabs_R0. unfold A in HA. lra. }
  pose proof (state_near fu fir x c Hf Hx (t - 4) ltac:(lia)) as N. replace (4 + (t - 4))%nat with t in N by lia.
  pose proof (step_near fu _ x c t H Htc Hx N) as K.
  destruct (@rasta_float_step E fu (@rasta_float_state E fu fir x (t - 4)) (x t)) as [y z]. cbn [fst].
  destruct K as [K _]. unfold A in *. lra.
Qed.
End Step.

Lemma exact_accurate : accurate 0 0 (@rnd exact_env).
Proof. repeat split; try lra. intros x. cbn. rewrite Rminus_diag_eq by reflexivity. rewrite Rabs_R0. lra. Qed.
Lemma row_bound : forall (x : nat -> R) c, exists M, 0 <= M /\ forall t, (t < c)%nat -> Rabs (x t) <= M.
Proof.
  intros x c. induction c as [|c (M & H0 & H)]; [exists 0; split; [lra|intros; lia]|].
  exists (Rmax M (Rabs (x c))). split; [eapply Rle_trans; [exact H0|apply Rmax_l]|].
  intros t Ht. destruct (Nat.eq_dec t c) as [->|]; [apply Rmax_r|].
  eapply Rle_trans; [apply H; lia|apply Rmax_l].
Qed.
Theorem rasta_float_exact : forall fu fir x t, @convolves exact_env fir -> @rasta_float exact_env fu fir x t = spec_rasta x t.
Proof.
  intros fu fir x t Hf. destruct (row_bound x (S t)) as (M & HM & Hx).
  pose proof (rasta_float_error exact_env 0 0 M exact_accurate ltac:(intros y; reflexivity) ltac:(lra) ltac:(lra) HM fu fir x (S t) Hf Hx t ltac:(lia)) as K.
  replace (1600 * (0 * M + 0)) with 0 in K by ring.
  apply Rcomplements.Rabs_le_between in K. lra.
Qed.
Theorem rasta_filter_float : forall r c x fu fir, (4 <= c)%nat -> @convolves exact_env fir ->
  rasta_filter (fmat r c x) = Ok (fmat r c (fun i => @rasta_float exact_env fu fir (x i))).
Proof.
  intros r c x fu fir Hc Hf. rewrite rasta_filter_eq by exact Hc. f_equal. unfold fmat, fvec.
  apply map_ext. intros i. apply map_ext. intros t. rewrite rasta_float_exact by exact Hf. reflexivity.
Qed.
Theorem rasta_float_constant : forall (E : Env) u, accurate u 0 (@rnd E) -> odd (@rnd E) -> u <= 1 / 1000 ->
  forall fu fir v t, @convolves E fir -> Rabs (@rasta_float E fu fir (fun _ => v) t) <= 1600 * u * Rabs v.
Proof.
  intros E u Ha Ho Hu fu fir v t Hf. pose proof Ha as (Hu0 & _).
  pose proof (rasta_float_error E u 0 (Rabs v) Ha Ho Hu Hu0 (Rabs_pos v) fu fir (fun _ => v) (S t) Hf
    ltac:(intros; lra) t ltac:(lia)) as K.
  rewrite spec_rasta_const, Rminus_0_r in K. lra.
Qed.
