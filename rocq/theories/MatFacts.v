(** * Lemmas about finite vectors and matrices *)
From Coq Require Import Reals ZArith List Lia Lra Psatz.
From Verif Require Import Base BaseFacts SpecBase SpecMat BigSum.
Import ListNotations.
Local Open Scope R_scope.

Lemma fvec_length : forall n v, List.length (fvec n v) = n.
Proof. intros; unfold fvec; rewrite map_length, seq_length; auto. Qed.
Lemma fmat_length : forall r c m, List.length (fmat r c m) = r.
Proof. intros; unfold fmat; rewrite map_length, seq_length; auto. Qed.
Lemma fvec_nth : forall n v i d, (i < n)%nat -> nth i (fvec n v) d = Fin (v i).
Proof. intros; unfold fvec; rewrite nth_map_seq; auto. Qed.
Lemma fmat_nth : forall r c m i d, (i < r)%nat -> nth i (fmat r c m) d = fvec c (m i).
Proof. intros; unfold fmat; rewrite nth_map_seq; auto. Qed.
Lemma fvec_ext : forall n v w, (forall i, (i < n)%nat -> v i = w i) -> fvec n v = fvec n w.
Proof. intros; unfold fvec; apply map_ext_in; intros a Ha; apply in_seq in Ha; rewrite H; auto; lia. Qed.
Lemma fmat_ext : forall r c m m', (forall i j, (i < r)%nat -> (j < c)%nat -> m i j = m' i j) ->
  fmat r c m = fmat r c m'.
Proof.
  intros; unfold fmat; apply map_ext_in; intros a Ha; apply in_seq in Ha. apply fvec_ext.
  intros; apply H; lia.
Qed.
Lemma fvec_inj : forall n v w, fvec n v = fvec n w -> forall i, (i < n)%nat -> v i = w i.
Proof.
  intros n v w H i Hi. apply (f_equal (fun l => nth i l NaN)) in H. rewrite !fvec_nth in H by auto.
  apply Fin_inj; auto.
Qed.
Lemma fmat_inj : forall r c m m', fmat r c m = fmat r c m' ->
  forall i j, (i < r)%nat -> (j < c)%nat -> m i j = m' i j.
Proof.
  intros r c m m' H i j Hi Hj. apply (f_equal (fun l => nth i l [])) in H. rewrite !fmat_nth in H by auto.
  eapply fvec_inj; eauto.
Qed.
Lemma fvec_map : forall n v f g, (forall x, f (Fin x) = Fin (g x)) ->
  map f (fvec n v) = fvec n (fun i => g (v i)).
Proof. intros; unfold fvec; rewrite map_map; apply map_ext; auto. Qed.
Lemma fvec_map2 : forall n v w f g, (forall x y, f (Fin x) (Fin y) = Fin (g x y)) ->
  map2 f (fvec n v) (fvec n w) = fvec n (fun i => g (v i) (w i)).
Proof. intros; unfold fvec; rewrite map2_map_same; apply map_ext; auto. Qed.
Lemma fvec_0 : forall v, fvec 0 v = [].
Proof. reflexivity. Qed.
Lemma fvec_S : forall n v, fvec (S n) v = Fin (v O) :: fvec n (fun i => v (S i)).
Proof. intros; unfold fvec; simpl. rewrite <- seq_shift, map_map. auto. Qed.
Lemma fvec_app : forall n m v, fvec (n + m) v = fvec n v ++ fvec m (fun i => v (n + i)%nat).
Proof.
  intros; unfold fvec. rewrite seq_app, map_app. f_equal. simpl.
  apply (list_eq_nth _ NaN); [rewrite !map_length, !seq_length; auto|].
  rewrite map_length, seq_length. intros i Hi.
  rewrite (nth_map _ _ _ _ _ O) by (rewrite seq_length; lia).
  rewrite seq_nth by lia. rewrite nth_map_seq by lia. auto.
Qed.
Lemma fvec_finite : forall n v, Forall finite (fvec n v).
Proof. intros; unfold fvec; apply Forall_forall; intros x Hx; apply in_map_iff in Hx as [i [<- _]]; auto. Qed.
Lemma fvec_of_list : forall l, map Fin l = fvec (List.length l) (fun i => nth i l 0).
Proof.
  intros; unfold fvec. apply (list_eq_nth _ NaN); rewrite ?map_length, ?seq_length; auto.
  intros i Hi. rewrite nth_map_seq by auto. rewrite (nth_map _ _ _ _ _ 0) by auto. auto.
Qed.
Lemma finite_fvec : forall l, Forall finite l -> l = fvec (List.length l) (fun i => toR (nth i l NaN)).
Proof.
  intros l H. apply (list_eq_nth _ NaN); rewrite ?fvec_length; auto.
  intros i Hi. rewrite fvec_nth by auto. apply finite_toR. eapply Forall_forall; eauto. apply nth_In; auto.
Qed.
(** every finite matrix of shape r x c is an [fmat] *)
Lemma finite_fmat : forall m r c, has_shape m r c -> Forall (Forall finite) m ->
  m = fmat r c (fun i j => toR (nth j (nth i m []) NaN)).
Proof.
  intros m r c [Hr Hc] Hf. apply (list_eq_nth _ []); rewrite ?fmat_length; auto.
  intros i Hi. rewrite fmat_nth by lia.
  assert (Hin : In (nth i m []) m) by (apply nth_In; auto).
  rewrite Forall_forall in Hc, Hf. rewrite <- (Hc _ Hin). apply finite_fvec. auto.
Qed.
Lemma fvec_repeat : forall n c, repeat (Fin c) n = fvec n (fun _ => c).
Proof. induction n; simpl; intros; auto. rewrite fvec_S, IHn; auto. Qed.
Lemma fvec_firstn : forall k n v, (k <= n)%nat -> firstn k (fvec n v) = fvec k v.
Proof.
  intros. replace n with (k + (n - k))%nat by lia. rewrite fvec_app.
  rewrite firstn_app, fvec_length, Nat.sub_diag. simpl. rewrite app_nil_r.
  rewrite <- (fvec_length k v) at 1. apply firstn_all.
Qed.
Lemma fvec_skipn : forall k n v, (k <= n)%nat -> skipn k (fvec n v) = fvec (n - k) (fun i => v (k + i)%nat).
Proof.
  intros. replace n with (k + (n - k))%nat at 1 by lia. rewrite fvec_app.
  rewrite skipn_app, fvec_length, Nat.sub_diag. simpl.
  rewrite <- (fvec_length k v) at 1. rewrite skipn_all. auto.
Qed.
Lemma fvec_rev : forall n v, rev (fvec n v) = fvec n (fun i => v (n - 1 - i)%nat).
Proof.
  intros. apply (list_eq_nth _ NaN); rewrite ?rev_length, ?fvec_length; auto.
  intros i Hi. rewrite rev_nth by (rewrite fvec_length; auto). rewrite fvec_length.
  rewrite !fvec_nth by lia. do 2 f_equal; lia.
Qed.

Lemma fsum_fvec : forall n v, fsum (fvec n v) = Fin (bigsum n v).
Proof.
  induction n; intros; [reflexivity|]. rewrite fvec_S, bigsum_S_l. unfold fsum in *; simpl.
  rewrite IHn. auto.
Qed.
Lemma fsum_app : forall l m, fsum (l ++ m) = fadd (fsum l) (fsum m).
Proof.
  induction l; intros; unfold fsum in *; simpl.
  - destruct (fold_right fadd f0 m); simpl; auto. f_equal; lra.
  - rewrite IHl. destruct a, (fold_right fadd f0 l), (fold_right fadd f0 m); simpl; auto. f_equal; lra.
Qed.
Lemma fdot_fvec : forall n v w, fdot (fvec n v) (fvec n w) = Fin (bigsum n (fun i => v i * w i)).
Proof. intros; unfold fdot. rewrite (fvec_map2 n v w fmul Rmult) by auto. apply fsum_fvec. Qed.
Lemma fmean_fvec : forall n v, (0 < n)%nat -> fmean (fvec n v) = Fin (bigsum n v / INR n).
Proof.
  intros. unfold fmean, fnat. rewrite fsum_fvec, fvec_length. apply fdiv_Fin.
  apply not_0_INR; lia.
Qed.

Lemma ncols_fmat : forall r c m, (0 < r)%nat -> ncols (fmat r c m) = c.
Proof. intros. destruct r; [lia|]. simpl. apply fvec_length. Qed.
Lemma has_shape_fmat : forall r c m, has_shape (fmat r c m) r c.
Proof.
  intros; split; [apply fmat_length|]. apply Forall_forall; intros x Hx.
  unfold fmat in Hx; apply in_map_iff in Hx as [i [<- _]]. apply fvec_length.
Qed.
Lemma column_fmat : forall r c m j, (j < c)%nat -> column NaN (fmat r c m) j = fvec r (fun i => m i j).
Proof.
  intros; unfold column, fmat, fvec at 2. rewrite map_map. apply map_ext; intros. apply fvec_nth; auto.
Qed.
Lemma fmat_map : forall r c m f g, (forall x, f (Fin x) = Fin (g x)) ->
  map (map f) (fmat r c m) = fmat r c (fun i j => g (m i j)).
Proof.
  intros; unfold fmat; rewrite map_map; apply map_ext; intros. apply fvec_map; auto.
Qed.
Lemma fmat_map_rows : forall r c c' m f g,
  (forall i, (i < r)%nat -> f (fvec c (m i)) = fvec c' (g i)) ->
  map f (fmat r c m) = fmat r c' g.
Proof.
  intros; unfold fmat; rewrite map_map; apply map_ext_in; intros i Hi. apply in_seq in Hi. apply H; lia.
Qed.
Lemma fmat_finite : forall r c m, Forall (Forall finite) (fmat r c m).
Proof.
  intros; apply Forall_forall; intros x Hx. unfold fmat in Hx; apply in_map_iff in Hx as [i [<- _]].
  apply fvec_finite.
Qed.

(** the flattened matrix *)
Definition flat (c : nat) (m : nat -> nat -> R) : nat -> R := fun k => m (k / c)%nat (k mod c)%nat.
Lemma concat_fmat : forall r c m, (0 < c)%nat -> List.concat (fmat r c m) = fvec (r * c) (flat c m).
Proof.
  induction r; intros; [reflexivity|].
  unfold fmat. rewrite seq_S, map_app, concat_app. fold (fmat r c m). rewrite IHr by auto.
  simpl Nat.mul. rewrite (Nat.add_comm c), fvec_app. f_equal. simpl. rewrite app_nil_r.
  apply fvec_ext; intros i Hi. unfold flat.
  rewrite Nat.add_comm, Nat.div_add, Nat.mod_add by lia.
  rewrite Nat.div_small, Nat.mod_small by lia. auto.
Qed.
Lemma flat_at : forall c m i j, (j < c)%nat -> flat c m (i * c + j) = m i j.
Proof.
  intros; unfold flat. rewrite Nat.add_comm, Nat.div_add, Nat.mod_add by lia.
  rewrite Nat.div_small, Nat.mod_small by lia. auto.
Qed.
Lemma flat_idx : forall r c k, (k < r * c)%nat -> (k / c < r)%nat /\ (k mod c < c)%nat.
Proof.
  intros. assert (c <> 0)%nat by (intro; subst; lia). split.
  - apply Nat.div_lt_upper_bound; auto. lia.
  - apply Nat.mod_upper_bound; auto.
Qed.
Lemma bigsum_flat' : forall r c m, (0 < c)%nat ->
  bigsum (r * c) (flat c m) = bigsum r (fun i => bigsum c (fun j => m i j)).
Proof. intros. apply (bigsum_flat r c m); auto. Qed.

(** maximum and minimum of a finite non-empty vector *)
Lemma fmaxl_fold : forall l a, exists b, fold_left fmax2 (map Fin l) (Fin a) = Fin b /\
  (b = a \/ In b l) /\ a <= b /\ (forall x, In x l -> x <= b).
Proof.
  induction l; intros a0; simpl.
  - exists a0. repeat split; auto; try lra. intros x [].
  - simpl. unfold Rleb. destruct (Rle_dec a0 a).
    + destruct (IHl a) as [b [H1 [H2 [H3 H4]]]]. exists b. repeat split; auto; try lra.
      * destruct H2; auto.
      * intros x [->|Hx]; auto.
    + destruct (IHl a0) as [b [H1 [H2 [H3 H4]]]]. exists b. repeat split; auto; try lra.
      * destruct H2; auto.
      * intros x [->|Hx]; auto. lra.
Qed.
Lemma fminl_fold : forall l a, exists b, fold_left fmin2 (map Fin l) (Fin a) = Fin b /\
  (b = a \/ In b l) /\ b <= a /\ (forall x, In x l -> b <= x).
Proof.
  induction l; intros a0; simpl.
  - exists a0. repeat split; auto; try lra. intros x [].
  - simpl. unfold Rleb. destruct (Rle_dec a0 a).
    + destruct (IHl a0) as [b [H1 [H2 [H3 H4]]]]. exists b. repeat split; auto; try lra.
      * destruct H2; auto.
      * intros x [->|Hx]; auto. lra.
    + destruct (IHl a) as [b [H1 [H2 [H3 H4]]]]. exists b. repeat split; auto; try lra.
      * destruct H2; auto.
      * intros x [->|Hx]; auto.
Qed.
Lemma fmaxl_fvec : forall n v, (0 < n)%nat ->
  exists k, (k < n)%nat /\ fmaxl (fvec n v) = Ok (Fin (v k)) /\ forall i, (i < n)%nat -> v i <= v k.
Proof.
  intros n v Hn. destruct n; [lia|]. rewrite fvec_S. simpl.
  unfold fvec. rewrite <- (map_map (fun i => v (S i)) Fin).
  destruct (fmaxl_fold (map (fun i => v (S i)) (seq 0 n)) (v O)) as [b [H1 [H2 [H3 H4]]]].
  assert (Hk : exists k, (k < S n)%nat /\ v k = b).
  { destruct H2 as [->|H2]; [exists O; split; auto; lia|].
    apply in_map_iff in H2 as [i [Hi Hs]]. apply in_seq in Hs. exists (S i); split; auto; lia. }
  destruct Hk as [k [Hk Hb]]. exists k. rewrite H1, Hb. repeat split; auto.
  intros i Hi. destruct i; auto. apply H4. apply in_map_iff. exists i; split; auto. apply in_seq; lia.
Qed.
Lemma fminl_fvec : forall n v, (0 < n)%nat ->
  exists k, (k < n)%nat /\ fminl (fvec n v) = Ok (Fin (v k)) /\ forall i, (i < n)%nat -> v k <= v i.
Proof.
  intros n v Hn. destruct n; [lia|]. rewrite fvec_S. simpl.
  unfold fvec. rewrite <- (map_map (fun i => v (S i)) Fin).
  destruct (fminl_fold (map (fun i => v (S i)) (seq 0 n)) (v O)) as [b [H1 [H2 [H3 H4]]]].
  assert (Hk : exists k, (k < S n)%nat /\ v k = b).
  { destruct H2 as [->|H2]; [exists O; split; auto; lia|].
    apply in_map_iff in H2 as [i [Hi Hs]]. apply in_seq in Hs. exists (S i); split; auto; lia. }
  destruct Hk as [k [Hk Hb]]. exists k. rewrite H1, Hb. repeat split; auto.
  intros i Hi. destruct i; auto. apply H4. apply in_map_iff. exists i; split; auto. apply in_seq; lia.
Qed.
