(** * Facts: small changes of a matrix and its normalisation, liftering and deltas *)
From Coq Require Import Reals ZArith List String Bool Lia Lra Psatz.
From Coquelicot Require Rcomplements.
From Verif Require Import Base BaseFacts SpecBase SpecMat SpecFilters BigSum MatFacts Preprocessing Cepstral CepstralFacts.
Import ListNotations.
Local Open Scope R_scope.

Section Mean.
  Variables (r c : nat).
  Hypotheses (Hr : (0 < r)%nat) (Hc : (0 < c)%nat).

  Lemma spec_mean_le : forall f g, (forall i j, (i < r)%nat -> (j < c)%nat -> f i j <= g i j) -> spec_mean r c f <= spec_mean r c g.
  Proof.
    intros f g H. unfold spec_mean. apply Rmult_le_compat_r.
    - left. apply Rinv_0_lt_compat, INR_rc; assumption.
    - apply bigsum_le. intros i Hi. apply bigsum_le. intros j Hj. apply H; assumption.
  Qed.
  Lemma spec_mean_plus : forall f g, spec_mean r c (fun i j => f i j + g i j) = spec_mean r c f + spec_mean r c g.
  Proof.
    intros f g. unfold spec_mean. rewrite (bigsum_ext r _ (fun i => bigsum c (fun j => f i j) + bigsum c (fun j => g i j))) by (intros; apply bigsum_plus).
    rewrite bigsum_plus. unfold Rdiv. ring.
  Qed.
  Lemma spec_mean_scal : forall a f, spec_mean r c (fun i j => a * f i j) = a * spec_mean r c f.
  Proof.
    intros a f. unfold spec_mean. rewrite (bigsum_ext r _ (fun i => a * bigsum c (fun j => f i j))) by (intros; apply bigsum_scal).
    rewrite bigsum_scal. unfold Rdiv. ring.
  Qed.
  Lemma spec_mean_const : forall a, spec_mean r c (fun _ _ => a) = a.
  Proof.
    intros a. unfold spec_mean. rewrite (bigsum_ext r _ (fun _ => INR c * a)) by (intros; apply bigsum_const).
    rewrite bigsum_const. field. split; apply not_0_INR; lia.
  Qed.
  Lemma spec_mean_abs : forall f d, (forall i j, (i < r)%nat -> (j < c)%nat -> Rabs (f i j) <= d) -> Rabs (spec_mean r c f) <= d.
  Proof.
    intros f d H. apply Rcomplements.Rabs_le_between. split.
    - rewrite <- (spec_mean_const (- d)). apply spec_mean_le. intros i j Hi Hj. specialize (H i j Hi Hj).
      apply Rcomplements.Rabs_le_between in H. lra.
    - rewrite <- (spec_mean_const d). apply spec_mean_le. intros i j Hi Hj. specialize (H i j Hi Hj).
      apply Rcomplements.Rabs_le_between in H. lra.
  Qed.
  Lemma spec_mean_sub : forall f g, spec_mean r c (fun i j => f i j - g i j) = spec_mean r c f - spec_mean r c g.
  Proof.
    intros f g. rewrite (spec_mean_ext r c _ (fun i j => f i j + -1 * g i j)) by (intros; ring).
    rewrite spec_mean_plus, spec_mean_scal. ring.
  Qed.

  (** root mean square *)
  Definition rms (f : nat -> nat -> R) : R := sqrt (spec_mean r c (fun i j => f i j ^ 2)).
  Lemma msq_nonneg : forall f, 0 <= spec_mean r c (fun i j => f i j ^ 2).
  Proof. intros f. rewrite <- (spec_mean_const 0). apply spec_mean_le. intros. apply pow2_ge_0. Qed.
  Lemma rms_sq : forall f, rms f ^ 2 = spec_mean r c (fun i j => f i j ^ 2).
  Proof. intros f. unfold rms. apply pow2_sqrt, msq_nonneg. Qed.
  Lemma rms_bound : forall f d, 0 <= d -> (forall i j, (i < r)%nat -> (j < c)%nat -> Rabs (f i j) <= d) -> rms f <= d.
  Proof.
    intros f d Hd H. rewrite <- (sqrt_pow2 d Hd). apply sqrt_le_1_alt. rewrite <- (spec_mean_const (d ^ 2)).
    apply spec_mean_le. intros i j Hi Hj. rewrite <- (pow2_abs (f i j)). apply pow_incr. split; [apply Rabs_pos|auto].
  Qed.
  Lemma rms_plus_pos : forall f g A B, 0 < A -> 0 < B -> rms f <= A -> rms g <= B -> rms (fun i j => f i j + g i j) <= A + B.
  Proof.
    intros f g A B HA HB Hf Hg.
    assert (Hf2 : spec_mean r c (fun i j => f i j ^ 2) <= A ^ 2) by (rewrite <- rms_sq; apply pow_incr; split; [apply sqrt_pos|exact Hf]).
    assert (Hg2 : spec_mean r c (fun i j => g i j ^ 2) <= B ^ 2) by (rewrite <- rms_sq; apply pow_incr; split; [apply sqrt_pos|exact Hg]).
    unfold rms. rewrite <- (sqrt_pow2 (A + B)) by lra. apply sqrt_le_1_alt.
    eapply Rle_trans with (spec_mean r c (fun i j => (1 + B / A) * f i j ^ 2 + (1 + A / B) * g i j ^ 2)).
    - apply spec_mean_le. intros i j _ _. set (a := f i j). set (b := g i j).
      assert (K : 0 <= / (A * B) * (B * a - A * b) ^ 2) by (apply Rmult_le_pos; [left; apply Rinv_0_lt_compat, Rmult_lt_0_compat; assumption|apply pow2_ge_0]).
      replace (/ (A * B) * (B * a - A * b) ^ 2) with (B / A * a ^ 2 + A / B * b ^ 2 - 2 * a * b) in K by (field; lra). lra.
    - rewrite spec_mean_plus, !spec_mean_scal.
      assert (P : 0 <= 1 + B / A) by (pose proof (Rmult_lt_0_compat _ _ HB (Rinv_0_lt_compat _ HA)); unfold Rdiv; lra).
      assert (Q : 0 <= 1 + A / B) by (pose proof (Rmult_lt_0_compat _ _ HA (Rinv_0_lt_compat _ HB)); unfold Rdiv; lra).
      pose proof (Rmult_le_compat_l _ _ _ P Hf2). pose proof (Rmult_le_compat_l _ _ _ Q Hg2).
      replace ((A + B) ^ 2) with ((1 + B / A) * A ^ 2 + (1 + A / B) * B ^ 2) by (field; lra). lra.
  Qed.
  (** Minkowski's inequality *)
  Lemma rms_plus : forall f g, rms (fun i j => f i j + g i j) <= rms f + rms g.
  Proof.
    intros f g. apply le_epsilon. intros e He. assert (0 <= rms f) by apply sqrt_pos. assert (0 <= rms g) by apply sqrt_pos.
    replace (rms f + rms g + e) with ((rms f + e / 2) + (rms g + e / 2)) by lra.
    apply rms_plus_pos; lra.
  Qed.
  Lemma rms_near : forall f g d, 0 <= d -> (forall i j, (i < r)%nat -> (j < c)%nat -> Rabs (f i j - g i j) <= d) ->
    Rabs (rms f - rms g) <= d.
  Proof.
    intros f g d Hd H.
    assert (one : forall f g, (forall i j, (i < r)%nat -> (j < c)%nat -> Rabs (f i j - g i j) <= d) -> rms f <= rms g + d).
    { clear f g H. intros f g H. eapply Rle_trans with (rms (fun i j => g i j + (f i j - g i j))).
      - right. unfold rms. f_equal. apply spec_mean_ext. intros i j _ _. f_equal. ring.
      - eapply Rle_trans; [apply rms_plus|]. pose proof (rms_bound (fun i j => f i j - g i j) d Hd H). lra. }
    pose proof (one f g H). pose proof (one g f ltac:(intros i j Hi Hj; rewrite Rabs_minus_sym; auto)).
    apply Rcomplements.Rabs_le_between. lra.
  Qed.
  Lemma std_rms : forall x, spec_std r c x = rms (fun i j => x i j - spec_mean r c x).
  Proof. reflexivity. Qed.
  Lemma std_near : forall x x' d, 0 <= d -> (forall i j, (i < r)%nat -> (j < c)%nat -> Rabs (x' i j - x i j) <= d) ->
    Rabs (spec_std r c x' - spec_std r c x) <= d.
  Proof.
    intros x x' d Hd H.
    set (e := fun i j => x' i j - x i j). set (m := spec_mean r c e).
    assert (Em : m = spec_mean r c x' - spec_mean r c x) by apply spec_mean_sub.
    assert (Re : rms (fun i j => e i j - m) <= d).
    { unfold rms. rewrite (spec_mean_ext r c _ (fun i j => (e i j ^ 2 + - (2 * m) * e i j) + m ^ 2)) by (intros; ring).
      rewrite !spec_mean_plus, spec_mean_scal, spec_mean_const. fold m.
      rewrite <- (sqrt_pow2 d Hd). apply sqrt_le_1_alt.
      assert (K : spec_mean r c (fun i j => e i j ^ 2) <= d ^ 2).
      { rewrite <- (spec_mean_const (d ^ 2)). apply spec_mean_le. intros i j Hi Hj.
        rewrite <- (pow2_abs (e i j)). apply pow_incr. split; [apply Rabs_pos|apply H; auto]. }
      pose proof (pow2_ge_0 m). nra. }
    rewrite !std_rms. apply Rcomplements.Rabs_le_between. split.
    - assert (K : rms (fun i j => x i j - spec_mean r c x) <= rms (fun i j => x' i j - spec_mean r c x') + rms (fun i j => -1 * (e i j - m))).
      { eapply Rle_trans; [|apply rms_plus]. right. unfold rms. f_equal. apply spec_mean_ext. intros i j _ _. unfold e. rewrite Em. f_equal. ring. }
      assert (rms (fun i j => -1 * (e i j - m)) = rms (fun i j => e i j - m)).
      { unfold rms. f_equal. apply spec_mean_ext. intros i j _ _. ring. }
      lra.
    - assert (K : rms (fun i j => x' i j - spec_mean r c x') <= rms (fun i j => x i j - spec_mean r c x) + rms (fun i j => e i j - m)).
      { eapply Rle_trans; [|apply rms_plus]. right. unfold rms. f_equal. apply spec_mean_ext. intros i j _ _. unfold e. rewrite Em. f_equal. ring. }
      lra.
  Qed.
  Lemma std_pos_non_constant : forall x, 0 < spec_std r c x -> non_constant r c x.
  Proof.
    intros x H.
    destruct (minmax_all r c x Hr Hc) as (i1 & j1 & i2 & j2 & L1 & L2 & L3 & L4 & _ & _ & B).
    exists i1, j1, i2, j2. repeat split; auto. intros E.
    assert (A : forall i j, (i < r)%nat -> (j < c)%nat -> x i j = x i1 j1).
    { intros i j Hi Hj. specialize (B i j Hi Hj). lra. }
    assert (Z : spec_std r c x = 0).
    { unfold spec_std. rewrite (spec_mean_ext r c x (fun _ _ => x i1 j1)) by exact A. rewrite spec_mean_const.
      rewrite (spec_mean_ext r c _ (fun _ _ => 0)); [rewrite spec_mean_const; apply sqrt_0|].
      intros i j Hi Hj. rewrite (A i j Hi Hj). ring. }
    lra.
  Qed.
  Lemma cmean_near : forall x x' d j, (j < c)%nat -> (forall i j, (i < r)%nat -> (j < c)%nat -> Rabs (x' i j - x i j) <= d) ->
    Rabs (cmean r x' j - cmean r x j) <= d.
  Proof.
    intros x x' d j Hj H. unfold cmean. assert (P : 0 < INR r) by (apply lt_0_INR; exact Hr).
    replace (bigsum r (fun i => x' i j) / INR r - bigsum r (fun i => x i j) / INR r)
      with (bigsum r (fun i => x' i j - x i j) / INR r) by (rewrite bigsum_minus; field; lra).
    unfold Rdiv. rewrite Rabs_mult, (Rabs_pos_eq (/ INR r)) by (left; apply Rinv_0_lt_compat, P).
    apply (Rmult_le_reg_r (INR r)); [exact P|]. rewrite Rmult_assoc, Rinv_l, Rmult_1_r by lra.
    eapply Rle_trans; [apply bigsum_Rabs|]. rewrite Rmult_comm, <- bigsum_const. apply bigsum_le. intros i Hi. apply H; auto.
  Qed.
End Mean.

(** a quotient with a changed numerator and denominator *)
Lemma quotient_near : forall a a' s s' p q, 0 < s -> 0 <= q -> q < s -> Rabs (a' - a) <= p -> Rabs (s' - s) <= q ->
  0 < s' /\ Rabs (a' / s' - a / s) <= (p + q * Rabs (a / s)) / (s - q).
Proof.
  intros a a' s s' p q Hs Hq Hqs Ha Hs'. pose proof Hs' as K. apply Rcomplements.Rabs_le_between in K.
  assert (P : 0 < s') by lra. split; [exact P|].
  replace (a' / s' - a / s) with (((a' - a) - (a / s) * (s' - s)) / s') by (field; lra).
  unfold Rdiv at 1. rewrite Rabs_mult, (Rabs_pos_eq (/ s')) by (left; apply Rinv_0_lt_compat, P).
  assert (N : Rabs (a' - a - a / s * (s' - s)) <= p + q * Rabs (a / s)).
  { unfold Rminus at 1. eapply Rle_trans; [apply Rabs_triang|]. rewrite Rabs_Ropp, Rabs_mult.
    pose proof (Rmult_le_compat_l _ _ _ (Rabs_pos (a / s)) Hs'). lra. }
  unfold Rdiv at 2. apply Rmult_le_compat.
  - apply Rabs_pos.
  - left. apply Rinv_0_lt_compat, P.
  - exact N.
  - apply Rinv_le_contravar; lra.
Qed.

Section Normal.
  Variables (r c : nat) (x x' : nat -> nat -> R) (d : R).
  Hypotheses (Hr : (0 < r)%nat) (Hc : (0 < c)%nat).
  Hypothesis Hd : forall i j, (i < r)%nat -> (j < c)%nat -> Rabs (x' i j - x i j) <= d.

  Lemma d_nonneg : 0 <= d.
  Proof. eapply Rle_trans; [apply Rabs_pos|apply (Hd 0%nat 0%nat); assumption]. Qed.

  Theorem ms_near : exists y y', normalize_ceps (fmat r c x) "ms" = Ok (fmat r c y) /\ normalize_ceps (fmat r c x') "ms" = Ok (fmat r c y') /\
    forall i j, (i < r)%nat -> (j < c)%nat -> Rabs (y' i j - y i j) <= 2 * d.
  Proof.
    eexists. eexists. split; [apply norm_ms; assumption|]. split; [apply norm_ms; assumption|].
    intros i j Hi Hj. cbv beta. pose proof (Hd i j Hi Hj) as K. pose proof (cmean_near r c Hr x x' d j Hj Hd) as Q.
    apply Rcomplements.Rabs_le_between in K, Q. apply Rcomplements.Rabs_le_between. lra.
  Qed.
  Theorem mvn_near : d < spec_std r c x ->
    exists y y', normalize_ceps (fmat r c x) "mvn" = Ok (fmat r c y) /\ normalize_ceps (fmat r c x') "mvn" = Ok (fmat r c y') /\
    forall i j, (i < r)%nat -> (j < c)%nat -> Rabs (y' i j - y i j) <= d * (2 + Rabs (y i j)) / (spec_std r c x - d).
  Proof.
    intros Hs. pose proof d_nonneg as D. pose proof (std_near r c Hr Hc x x' d D Hd) as S1.
    assert (0 < spec_std r c x') by (apply Rcomplements.Rabs_le_between in S1; lra).
    eexists. eexists. split; [apply norm_mvn; [assumption|assumption|lra]|]. split; [apply norm_mvn; assumption|].
    intros i j Hi Hj. cbv beta.
    assert (A : Rabs ((x' i j - cmean r x' j) - (x i j - cmean r x j)) <= 2 * d).
    { pose proof (Hd i j Hi Hj) as K. pose proof (cmean_near r c Hr x x' d j Hj Hd) as Q.
      apply Rcomplements.Rabs_le_between in K, Q. apply Rcomplements.Rabs_le_between. lra. }
    destruct (quotient_near _ _ _ _ _ _ (Rle_lt_trans _ _ _ D Hs) D Hs A S1) as [_ K].
    replace (d * (2 + Rabs ((x i j - cmean r x j) / spec_std r c x))) with (2 * d + d * Rabs ((x i j - cmean r x j) / spec_std r c x)) by ring. exact K.
  Qed.
  Theorem vn_near : d < spec_std r c x ->
    exists y y', normalize_ceps (fmat r c x) "vn" = Ok (fmat r c y) /\ normalize_ceps (fmat r c x') "vn" = Ok (fmat r c y') /\
    forall i j, (i < r)%nat -> (j < c)%nat -> Rabs (y' i j - y i j) <= d * (1 + Rabs (y i j)) / (spec_std r c x - d).
  Proof.
    intros Hs. pose proof d_nonneg as D. pose proof (std_near r c Hr Hc x x' d D Hd) as S1.
    assert (0 < spec_std r c x') by (apply Rcomplements.Rabs_le_between in S1; lra).
    eexists. eexists. split; [apply norm_vn; [assumption|assumption|lra]|]. split; [apply norm_vn; assumption|].
    intros i j Hi Hj. cbv beta.
    destruct (quotient_near _ _ _ _ _ _ (Rle_lt_trans _ _ _ D Hs) D Hs (Hd i j Hi Hj) S1) as [_ K].
    replace (d * (1 + Rabs (x i j / spec_std r c x))) with (d + d * Rabs (x i j / spec_std r c x)) by ring. exact K.
  Qed.
  Theorem mn_near : forall g, (exists i1 j1 i2 j2, (i1 < r)%nat /\ (j1 < c)%nat /\ (i2 < r)%nat /\ (j2 < c)%nat /\ g <= x i1 j1 - x i2 j2) ->
    2 * d < g ->
    exists y y', normalize_ceps (fmat r c x) "mn" = Ok (fmat r c y) /\ normalize_ceps (fmat r c x') "mn" = Ok (fmat r c y') /\
    forall i j, (i < r)%nat -> (j < c)%nat -> Rabs (y' i j - y i j) <= 2 * d * (1 + Rabs (y i j)) / (g - 2 * d).
  Proof.
    intros g (a1 & b1 & a2 & b2 & A1 & B1 & A2 & B2 & Hg) Hdg. pose proof d_nonneg as D.
    assert (N : non_constant r c x) by (exists a1, b1, a2, b2; repeat split; auto; intros E; lra).
    assert (N' : non_constant r c x').
    { exists a1, b1, a2, b2. repeat split; auto. intros E. pose proof (Hd a1 b1 A1 B1) as K1. pose proof (Hd a2 b2 A2 B2) as K2.
      apply Rcomplements.Rabs_le_between in K1, K2. lra. }
    destruct (norm_mn r c x Hr Hc N) as (i1 & j1 & i2 & j2 & I1 & J1 & I2 & J2 & B & L & E).
    destruct (norm_mn r c x' Hr Hc N') as (k1 & l1 & k2 & l2 & K1 & L1 & K2 & L2 & B' & L' & E').
    eexists. eexists. split; [exact E|]. split; [exact E'|]. intros i j Hi Hj. cbv beta.
    assert (G : g <= x i1 j1 - x i2 j2).
    { pose proof (B a1 b1 A1 B1). pose proof (B a2 b2 A2 B2). lra. }
    assert (S1 : Rabs ((x' k1 l1 - x' k2 l2) - (x i1 j1 - x i2 j2)) <= 2 * d).
    { pose proof (B k1 l1 K1 L1). pose proof (B k2 l2 K2 L2). pose proof (B' i1 j1 I1 J1). pose proof (B' i2 j2 I2 J2).
      pose proof (Hd k1 l1 K1 L1) as H3. pose proof (Hd k2 l2 K2 L2) as H4. pose proof (Hd i1 j1 I1 J1) as H5. pose proof (Hd i2 j2 I2 J2) as H6.
      apply Rcomplements.Rabs_le_between in H3, H4, H5, H6. apply Rcomplements.Rabs_le_between. lra. }
    assert (M : Rabs ((x' i j - spec_mean r c x') - (x i j - spec_mean r c x)) <= 2 * d).
    { pose proof (Hd i j Hi Hj) as H3. pose proof (spec_mean_abs r c Hr Hc (fun i j => x' i j - x i j) d Hd) as H4.
      rewrite spec_mean_sub in H4. apply Rcomplements.Rabs_le_between in H3, H4. apply Rcomplements.Rabs_le_between. lra. }
    assert (P0 : 0 <= 2 * d) by lra. assert (P1 : 2 * d < x i1 j1 - x i2 j2) by lra.
    destruct (quotient_near _ _ _ _ _ _ (Rle_lt_trans _ _ _ P0 P1) P0 P1 M S1) as [_ K].
    eapply Rle_trans; [exact K|]. set (y := (x i j - spec_mean r c x) / (x i1 j1 - x i2 j2)).
    replace (2 * d + 2 * d * Rabs y) with (2 * d * (1 + Rabs y)) by ring. pose proof (Rabs_pos y).
    unfold Rdiv. apply Rmult_le_compat_l; [apply Rmult_le_pos; lra|]. apply Rinv_le_contravar; lra.
  Qed.
End Normal.

(** ** liftering and deltas *)
Theorem lifter_near : forall r c x x' d lift, (0 < r)%nat -> (0 < c)%nat -> 0 < lift <= 10 ->
  (forall i j, (i < r)%nat -> (j < c)%nat -> Rabs (x' i j - x i j) <= d) ->
  exists y y', lifter_ceps (fmat r c x) lift = Ok (fmat r c y) /\ lifter_ceps (fmat r c x') lift = Ok (fmat r c y') /\
  forall i j, (i < r)%nat -> (j < c)%nat -> Rabs (y' i j - y i j) <= d * spec_lift lift j.
Proof.
  intros r c x x' d lift Hr Hc Hl Hd. eexists. eexists. split; [apply lifter_pos; assumption|]. split; [apply lifter_pos; assumption|].
  intros i j Hi Hj. cbv beta. change (spec_lift lift j) with (liftR lift j). replace (x' i j * liftR lift j - x i j * liftR lift j) with ((x' i j - x i j) * liftR lift j) by ring.
  pose proof (liftR_pos lift j) as P. rewrite Rabs_mult, (Rabs_pos_eq (liftR lift j)) by lra.
  apply Rmult_le_compat_r; [lra|]. apply Hd; assumption.
Qed.
Lemma abs_weights : forall h, bigsum (2 * h + 1) (fun m => Rabs (INR m - INR h)) = INR h * (INR h + 1).
Proof.
  intros h. replace (2 * h + 1)%nat with (h + (h + 1))%nat by lia. rewrite bigsum_split.
  rewrite (bigsum_ext h _ (fun m => INR h - INR m)).
  2:{ intros i Hi. apply lt_INR in Hi. rewrite Rabs_left by lra. ring. }
  rewrite (bigsum_ext (h + 1) _ (fun m => INR m)).
  2:{ intros i _. rewrite plus_INR. replace (INR h + INR i - INR h) with (INR i) by ring. apply Rabs_pos_eq, pos_INR. }
  assert (G : forall n, 2 * bigsum n (fun m => INR m) = INR n * (INR n - 1)).
  { induction n as [|n IH]; [cbn; ring|]. cbn [bigsum]. rewrite Rmult_plus_distr_l, IH, S_INR. ring. }
  rewrite bigsum_minus, bigsum_const. change (bigsum h INR) with (bigsum h (fun m => INR m)).
  pose proof (G h) as G1. pose proof (G (h + 1)%nat) as G2. rewrite (plus_INR h 1) in G2. change (INR 1) with 1 in G2.
  set (s1 := bigsum h (fun m => INR m)) in *. set (s2 := bigsum (h + 1) (fun m => INR m)) in *. lra.
Qed.
Theorem deltas_near : forall r c x x' d w, (0 < r)%nat -> (0 < c)%nat -> (0 <= w)%Z ->
  (forall i j, (i < r)%nat -> (j < c)%nat -> Rabs (x' i j - x i j) <= d) ->
  let h := IZR (w / 2) in
  exists y y', deltas (fmat r c x) w = Ok (fmat r c y) /\ deltas (fmat r c x') w = Ok (fmat r c y') /\
  forall i j, (i < r)%nat -> (j < c)%nat -> Rabs (y' i j - y i j) <= d * (h * (h + 1)).
Proof.
  intros r c x x' d w Hr Hc Hw Hd h.
  assert (Eh : (w / 2 = Z.of_nat (Z.to_nat (w / 2)))%Z) by (rewrite Z2Nat.id; [reflexivity|apply Z.div_pos; lia]).
  eexists. eexists. split; [apply (deltas_fmat r c x (Z.to_nat (w / 2)) w); assumption|].
  split; [apply (deltas_fmat r c x' (Z.to_nat (w / 2)) w); assumption|].
  intros i j Hi Hj. cbv beta. unfold h. set (k := Z.to_nat (w / 2)) in *. rewrite Eh, <- INR_IZR_INZ, <- abs_weights. clearbody k.
  rewrite <- bigsum_minus. eapply Rle_trans; [apply bigsum_Rabs|]. rewrite <- bigsum_scal. apply bigsum_le. intros m Hm.
  rewrite <- Rmult_minus_distr_l, Rabs_mult, (Rmult_comm d). apply Rmult_le_compat_l; [apply Rabs_pos|].
  apply Hd; [assumption|]. unfold clampidx. lia.
Qed.

(** ** no bound without a condition on the spread *)
Definition tiny (e : R) (i j : nat) : R := if Nat.eqb i 0 then e else - e.
Lemma tiny_mean : forall e, spec_mean 2 1 (tiny e) = 0.
Proof. intros e. unfold spec_mean, tiny. cbn. lra. Qed.
Lemma tiny_std : forall e, spec_std 2 1 (tiny e) = Rabs e.
Proof.
  intros e. unfold spec_std. rewrite tiny_mean. rewrite <- sqrt_Rsqr_abs. f_equal.
  unfold spec_mean, tiny, Rsqr. cbn. lra.
Qed.
Lemma tiny_cmean : forall e j, cmean 2 (tiny e) j = 0.
Proof. intros e j. unfold cmean, tiny. cbn. lra. Qed.
Theorem normal_jump : forall t e, In t ["mvn"; "vn"; "mn"]%string -> 0 < e ->
  exists y y', normalize_ceps (fmat 2 1 (tiny e)) t = Ok (fmat 2 1 y) /\ normalize_ceps (fmat 2 1 (tiny (- e))) t = Ok (fmat 2 1 y') /\
  1 <= y 0%nat 0%nat - y' 0%nat 0%nat.
Proof.
  intros t e Ht He.
  assert (S1 : 0 < spec_std 2 1 (tiny e)) by (rewrite tiny_std, Rabs_pos_eq; lra).
  assert (S2 : 0 < spec_std 2 1 (tiny (- e))) by (rewrite tiny_std, Rabs_Ropp, Rabs_pos_eq; lra).
  destruct Ht as [<-|[<-|[<-|[]]]].
  - eexists. eexists. split; [apply norm_mvn; (lia || exact S1)|]. split; [apply norm_mvn; (lia || exact S2)|].
    rewrite !tiny_cmean, !tiny_std, Rabs_Ropp, (Rabs_pos_eq e) by lra. unfold tiny. cbn [Nat.eqb].
    replace ((e - 0) / e - (- e - 0) / e) with 2 by (field; lra). lra.
  - eexists. eexists. split; [apply norm_vn; (lia || exact S1)|]. split; [apply norm_vn; (lia || exact S2)|].
    rewrite !tiny_std, Rabs_Ropp, (Rabs_pos_eq e) by lra. unfold tiny. cbn [Nat.eqb].
    replace (e / e - - e / e) with 2 by (field; lra). lra.
  - assert (N1 : non_constant 2 1 (tiny e)) by (exists 0%nat, 0%nat, 1%nat, 0%nat; repeat split; try lia; unfold tiny; cbn; lra).
    assert (N2 : non_constant 2 1 (tiny (- e))) by (exists 0%nat, 0%nat, 1%nat, 0%nat; repeat split; try lia; unfold tiny; cbn; lra).
    assert (R1 : forall f i1 j1 i2 j2, (f = e \/ f = - e) -> (i1 < 2)%nat -> (j1 < 1)%nat -> (i2 < 2)%nat -> (j2 < 1)%nat ->
      tiny f i2 j2 < tiny f i1 j1 -> tiny f i1 j1 - tiny f i2 j2 = 2 * e).
    { intros f i1 j1 i2 j2 Hf I1 J1 I2 J2 L.
      destruct i1 as [|[|i1]]; try lia; destruct i2 as [|[|i2]]; try lia; unfold tiny in *; cbn [Nat.eqb] in *; destruct Hf; subst; lra. }
    destruct (norm_mn 2 1 _ ltac:(lia) ltac:(lia) N1) as (i1 & j1 & i2 & j2 & I1 & J1 & I2 & J2 & _ & L & E).
    destruct (norm_mn 2 1 _ ltac:(lia) ltac:(lia) N2) as (k1 & l1 & k2 & l2 & K1 & L1 & K2 & L2 & _ & L' & E').
    rewrite (R1 e) in E by auto. rewrite (R1 (- e)) in E' by auto. rewrite tiny_mean in E, E'.
    eexists. eexists. split; [exact E|]. split; [exact E'|]. unfold tiny. cbn [Nat.eqb].
    replace ((e - 0) / (2 * e) - (- e - 0) / (2 * e)) with 1 by (field; lra). lra.
Qed.
Theorem normal_no_constant : forall t, In t ["mvn"; "vn"; "mn"]%string ->
  ~ exists K, forall r c x x' d y y', (0 < d) -> (forall i j, (i < r)%nat -> (j < c)%nat -> Rabs (x' i j - x i j) <= d) ->
    normalize_ceps (fmat r c x) t = Ok (fmat r c y) -> normalize_ceps (fmat r c x') t = Ok (fmat r c y') ->
    forall i j, (i < r)%nat -> (j < c)%nat -> Rabs (y' i j - y i j) <= K * d.
Proof.
  intros t Ht (K & H). set (d := / (2 * (Rabs K + 1))).
  assert (P : 0 < Rabs K + 1) by (pose proof (Rabs_pos K); lra).
  assert (Hd : 0 < d) by (apply Rinv_0_lt_compat; lra).
  destruct (normal_jump t (d / 2) Ht ltac:(lra)) as (y & y' & E & E' & J).
  specialize (H 2%nat 1%nat (tiny (d / 2)) (tiny (- (d / 2))) d y y' Hd).
  assert (B : Rabs (y' 0%nat 0%nat - y 0%nat 0%nat) <= K * d).
  { apply H; try assumption; try lia. intros i j Hi Hj. unfold tiny. destruct (Nat.eqb i 0); apply Rcomplements.Rabs_le_between; lra. }
  apply Rcomplements.Rabs_le_between in B.
  assert (K * d <= / 2).
  { apply Rle_trans with (Rabs K * d); [apply Rmult_le_compat_r; [lra|apply Rle_abs]|].
    apply (Rmult_le_reg_r (2 * (Rabs K + 1))); [lra|]. unfold d. rewrite Rmult_assoc, Rinv_l by lra. lra. }
  lra.
Qed.
