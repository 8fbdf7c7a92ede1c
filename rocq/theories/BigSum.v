(** * Finite sums of reals *)
From Coq Require Import Reals ZArith List Lia Lra Psatz.
From Verif Require Import SpecBase.
Import ListNotations.
Local Open Scope R_scope.

Lemma bigsum_S : forall n f, bigsum (S n) f = bigsum n f + f n.
Proof. reflexivity. Qed.
Lemma bigsum_ext : forall n f g, (forall i, (i < n)%nat -> f i = g i) -> bigsum n f = bigsum n g.
Proof. induction n; simpl; intros; auto. rewrite (IHn f g), H by (intros; try apply H; lia). auto. Qed.
Lemma bigsum_0 : forall n, bigsum n (fun _ => 0) = 0.
Proof. induction n; simpl; auto. rewrite IHn; lra. Qed.
Lemma bigsum_zero : forall n f, (forall i, (i < n)%nat -> f i = 0) -> bigsum n f = 0.
Proof. intros. rewrite (bigsum_ext n f (fun _ => 0)) by auto. apply bigsum_0. Qed.
Lemma bigsum_const : forall n c, bigsum n (fun _ => c) = INR n * c.
Proof. induction n; simpl bigsum; intros; [simpl; lra|]. rewrite IHn, S_INR. ring. Qed.
Lemma bigsum_plus : forall n f g, bigsum n (fun i => f i + g i) = bigsum n f + bigsum n g.
Proof. induction n; simpl; intros; [lra|]. rewrite IHn; ring. Qed.
Lemma bigsum_minus : forall n f g, bigsum n (fun i => f i - g i) = bigsum n f - bigsum n g.
Proof. induction n; simpl; intros; [lra|]. rewrite IHn; ring. Qed.
Lemma bigsum_opp : forall n f, bigsum n (fun i => - f i) = - bigsum n f.
Proof. induction n; simpl; intros; [lra|]. rewrite IHn; ring. Qed.
Lemma bigsum_scal : forall n c f, bigsum n (fun i => c * f i) = c * bigsum n f.
Proof. induction n; simpl; intros; [lra|]. rewrite IHn; ring. Qed.
Lemma bigsum_scal_r : forall n c f, bigsum n (fun i => f i * c) = bigsum n f * c.
Proof. induction n; simpl; intros; [lra|]. rewrite IHn; ring. Qed.
Lemma bigsum_div : forall n c f, bigsum n (fun i => f i / c) = bigsum n f / c.
Proof. intros. unfold Rdiv. apply bigsum_scal_r. Qed.
Lemma bigsum_nonneg : forall n f, (forall i, (i < n)%nat -> 0 <= f i) -> 0 <= bigsum n f.
Proof. induction n; simpl; intros; [lra|]. assert (0 <= bigsum n f) by (apply IHn; intros; apply H; lia).
  assert (0 <= f n) by (apply H; lia). lra. Qed.
Lemma bigsum_le : forall n f g, (forall i, (i < n)%nat -> f i <= g i) -> bigsum n f <= bigsum n g.
Proof. induction n; simpl; intros; [lra|]. assert (bigsum n f <= bigsum n g) by (apply IHn; intros; apply H; lia).
  assert (f n <= g n) by (apply H; lia). lra. Qed.
Lemma bigsum_ge_term : forall n f i, (forall k, (k < n)%nat -> 0 <= f k) -> (i < n)%nat -> f i <= bigsum n f.
Proof.
  induction n; simpl; intros; [lia|].
  assert (Hs : 0 <= bigsum n f) by (apply bigsum_nonneg; intros; apply H; lia).
  assert (Hn : 0 <= f n) by (apply H; lia).
  destruct (Nat.eq_dec i n) as [->|]; [lra|].
  assert (f i <= bigsum n f) by (apply IHn; [intros; apply H; lia | lia]). lra.
Qed.
Lemma bigsum_pos : forall n f i, (forall k, (k < n)%nat -> 0 <= f k) -> (i < n)%nat -> 0 < f i -> 0 < bigsum n f.
Proof. intros. pose proof (bigsum_ge_term n f i H H0). lra. Qed.
Lemma bigsum_eq0 : forall n f, (forall i, (i < n)%nat -> 0 <= f i) -> bigsum n f = 0 ->
  forall i, (i < n)%nat -> f i = 0.
Proof. intros n f H E i Hi. pose proof (bigsum_ge_term n f i H Hi). specialize (H i Hi). lra. Qed.
Lemma bigsum_swap : forall n m f,
  bigsum n (fun i => bigsum m (fun j => f i j)) = bigsum m (fun j => bigsum n (fun i => f i j)).
Proof.
  induction n; simpl; intros; [symmetry; apply bigsum_0|]. rewrite IHn, <- bigsum_plus. auto.
Qed.
Lemma bigsum_split : forall n m f, bigsum (n + m) f = bigsum n f + bigsum m (fun i => f (n + i)%nat).
Proof.
  induction m; simpl; intros; [rewrite Nat.add_0_r; lra|].
  rewrite Nat.add_succ_r; simpl. rewrite IHm; lra.
Qed.
Lemma bigsum_S_l : forall n f, bigsum (S n) f = f O + bigsum n (fun i => f (S i)).
Proof. intros. replace (S n) with (1 + n)%nat by lia. rewrite bigsum_split. simpl. lra. Qed.
Lemma bigsum_rev : forall n f, bigsum n f = bigsum n (fun i => f (n - 1 - i)%nat).
Proof.
  induction n; intros; auto. rewrite bigsum_S_l. simpl bigsum at 2.
  rewrite (IHn (fun i => f (S i))). rewrite Rplus_comm. f_equal.
  - apply bigsum_ext; intros; f_equal; lia.
  - f_equal; lia.
Qed.
Lemma bigsum_delta : forall n k f, (k < n)%nat ->
  bigsum n (fun i => if Nat.eqb i k then f i else 0) = f k.
Proof.
  induction n; simpl; intros; [lia|].
  destruct (Nat.eqb_spec n k) as [->|].
  - rewrite bigsum_zero; [lra|]. intros i Hi. destruct (Nat.eqb_spec i k); [lia|auto].
  - rewrite IHn by lia. lra.
Qed.
Lemma bigsum_telescope : forall n f, bigsum n (fun i => f i - f (S i)) = f O - f n.
Proof. induction n; simpl; intros; [lra|]. rewrite IHn. lra. Qed.
Lemma bigsum_Rabs : forall n f, Rabs (bigsum n f) <= bigsum n (fun i => Rabs (f i)).
Proof.
  induction n; simpl; intros; [rewrite Rabs_R0; lra|].
  eapply Rle_trans; [apply Rabs_triang|]. specialize (IHn f). lra.
Qed.
Lemma bigsum_mult : forall n m f g,
  bigsum n f * bigsum m g = bigsum n (fun i => bigsum m (fun j => f i * g j)).
Proof.
  intros. rewrite <- bigsum_scal_r. apply bigsum_ext; intros. rewrite bigsum_scal; auto.
Qed.
Lemma bigsum_const' : forall n c f, (forall i, (i < n)%nat -> f i = c) -> bigsum n f = INR n * c.
Proof. intros. rewrite (bigsum_ext n f (fun _ => c)) by auto. apply bigsum_const. Qed.
(** sum over a grid, seen through a flat index *)
Lemma bigsum_flat : forall n m f, (0 < m)%nat ->
  bigsum (n * m) (fun k => f (k / m)%nat (k mod m)%nat) = bigsum n (fun i => bigsum m (f i)).
Proof.
  induction n; simpl; intros; auto. rewrite Nat.add_comm, bigsum_split, IHn by auto. f_equal.
  apply bigsum_ext; intros j Hj.
  rewrite Nat.add_comm, Nat.div_add, Nat.mod_add by lia.
  rewrite Nat.div_small, Nat.mod_small by lia. auto.
Qed.
(** Cauchy-Schwarz *)
Lemma bigsum_sq_nonneg : forall n f, 0 <= bigsum n (fun i => f i * f i).
Proof. intros. apply bigsum_nonneg; intros; nra. Qed.
