(** * Arrays in memory: loads, stores and allocation *)
From Coq Require Import Reals ZArith List String Bool Lia FinFun.
From Flocq Require Import Core.Raux.
From Verif Require Import Base BaseFacts Cplx Preprocessing PreprocessingFacts Cepstral Fourier Features FeaturesMore Memory.
Import ListNotations.

(** ** lists *)
Lemma set_nth_length : forall A (l : list A) i x, (i < List.length l)%nat -> List.length (set_nth l i x) = List.length l.
Proof. intros. unfold set_nth. rewrite app_length, firstn_length. cbn [List.length]. rewrite skipn_length. lia. Qed.
Lemma set_nth_same : forall A (l : list A) i x d, (i < List.length l)%nat -> nth i (set_nth l i x) d = x.
Proof.
  intros. unfold set_nth. rewrite app_nth2 by (rewrite firstn_length; lia).
  rewrite firstn_length. replace (i - Nat.min i (List.length l))%nat with 0%nat by lia. reflexivity.
Qed.
Lemma nth_skip : forall A (l : list A) i k d, nth k (skipn i l) d = nth (i + k) l d.
Proof. induction l as [|y l IH]; intros [|i] k d; simpl; auto. destruct k; auto. Qed.
Lemma set_nth_other : forall A (l : list A) i k x d, (i < List.length l)%nat -> k <> i -> nth k (set_nth l i x) d = nth k l d.
Proof.
  intros A l i k x d Hi Hk. unfold set_nth. destruct (Nat.lt_ge_cases k i).
  - rewrite app_nth1 by (rewrite firstn_length; lia). apply firstn_nth_lt. lia.
  - rewrite app_nth2 by (rewrite firstn_length; lia). rewrite firstn_length.
    replace (k - Nat.min i (List.length l))%nat with (S (k - S i)) by lia. cbn [nth].
    rewrite nth_skip. f_equal. lia.
Qed.
(** ** running programs *)
Lemma exec_bind : forall A B (p : prog A) (k : A -> prog B) h,
  exec (pbind p k) h = match exec p h with (Ok a, h') => exec (k a) h' | (Raise e, h') => (Raise e, h') end.
Proof.
  intros A B p k. induction p as [r|d q IH|b i q IH|b i x q IH]; intros h; cbn [pbind exec].
  - destruct r; reflexivity.
  - apply IH.
  - apply IH.
  - destruct (_ && _)%bool; apply IH.
Qed.
Lemma exec_mapP : forall A B (f : A -> prog B) (g : A -> result B) l h, (forall x, exec (f x) h = (g x, h)) ->
  exec (mapP f l) h = (mapM g l, h).
Proof.
  intros A B f g l h H. induction l as [|a l IH]; auto. cbn [mapP mapM]. rewrite exec_bind, H. destruct (g a); cbn [rbind]; auto.
  rewrite exec_bind, IH. destruct (mapM g l); reflexivity.
Qed.
Lemma exec_read1 : forall v h, exec (read1 v) h = (load1 h v, h).
Proof. intros. apply exec_mapP. intros. reflexivity. Qed.
Lemma exec_read_row : forall v i h, exec (read_row v i) h = (mapM (fun j => read_buf (buffer h (b2 v)) (cell2 v i j)) (seq 0 (c2 v)), h).
Proof. intros. apply exec_mapP. intros. reflexivity. Qed.
Lemma exec_read2 : forall v h, exec (read2 v) h = (load2 h v, h).
Proof. intros. apply exec_mapP. intros. apply exec_read_row. Qed.
(** steps and runs agree *)
Lemma exec_step : forall A (p : prog A) h, exec (fst (step p h)) (snd (step p h)) = exec p h.
Proof. intros A p h. destruct p; cbn [step exec]; auto. destruct (_ && _)%bool; auto. Qed.

(** every store of the run goes to a buffer from n on *)
Fixpoint safe {A} (n : nat) (p : prog A) (h : heap) : Prop :=
  match p with
  | Done _ => True
  | Alloc d k => safe n (k (List.length h)) (h ++ [d])
  | Load b i k => safe n (k (read_buf (buffer h b) i)) h
  | Store b i x k =>
      (n <= b)%nat /\
      let d := buffer h b in
      if ((0 <=? i) && (i <? zlen d))%Z then safe n (k (Ok tt)) (set_nth h b (set_nth d (Z.to_nat i) x))
      else safe n (k (Raise OutOfBoundsRead)) h
  end.
Lemma safe_bind : forall n A B (p : prog A) (k : A -> prog B) h,
  safe n p h -> (forall a h', exec p h = (Ok a, h') -> safe n (k a) h') -> safe n (pbind p k) h.
Proof.
  intros n A B p k. induction p as [r|d q IH|b i q IH|b i x q IH]; intros h Hs Hk; cbn [pbind safe exec] in *.
  - destruct r; [apply Hk; auto|exact I].
  - apply IH; auto.
  - apply IH; auto.
  - destruct Hs as [Hb Hs]. split; auto. destruct (_ && _)%bool; apply IH; auto.
Qed.
Lemma safe_weaken : forall n n' A (p : prog A) h, (n' <= n)%nat -> safe n p h -> safe n' p h.
Proof.
  intros n n' A p. induction p as [r|d q IH|b i q IH|b i x q IH]; intros h Hn Hs; cbn [safe] in *; auto.
  destruct Hs as [Hb Hs]. split; [lia|]. destruct (_ && _)%bool; auto.
Qed.
Lemma safe_step : forall n A (p : prog A) h, safe n p h -> safe n (fst (step p h)) (snd (step p h)).
Proof. intros n A p h. destruct p; cbn [step safe]; auto. intros [_ Hs]. destruct (_ && _)%bool; auto. Qed.
(** the buffers a program may store to, whatever it reads *)
Fixpoint pokes {A} (ok : nat -> Prop) (p : prog A) : Prop :=
  match p with
  | Done _ => True
  | Alloc d k => forall b, pokes ok (k b)
  | Load b i k => forall r, pokes ok (k r)
  | Store b i x k => ok b /\ forall r, pokes ok (k r)
  end.
Lemma pokes_bind : forall (ok : nat -> Prop) A B (p : prog A) (k : A -> prog B), pokes ok p -> (forall a, pokes ok (k a)) -> pokes ok (pbind p k).
Proof.
  intros ok A B p k. induction p as [r|d q IH|b i q IH|b i x q IH]; intros Hp Hk; cbn [pbind pokes] in *; auto.
  - destruct r; cbn [pokes]; auto.
  - destruct Hp. split; auto.
Qed.
Lemma pokes_safe : forall (ok : nat -> Prop) n A (p : prog A) h, (forall b, ok b -> (n <= b)%nat) -> pokes ok p -> safe n p h.
Proof.
  intros ok n A p. induction p as [r|d q IH|b i q IH|b i x q IH]; intros h Hn Hp; cbn [pokes safe] in *; auto.
  destruct Hp as [Hb Hp]. split; auto. destruct (_ && _)%bool; auto.
Qed.
Lemma pokes_mapP : forall (ok : nat -> Prop) A B (f : A -> prog B) l, (forall x, pokes ok (f x)) -> pokes ok (mapP f l).
Proof. intros ok A B f l H. induction l; cbn [mapP]; [exact I|]. repeat (apply pokes_bind; auto; intros). exact I. Qed.
Lemma pokes_forM : forall (ok : nat -> Prop) A (f : A -> prog unit) l, (forall x, pokes ok (f x)) -> pokes ok (forM l f).
Proof. intros ok A f l H. induction l; cbn [forM]; [exact I|]. apply pokes_bind; auto. Qed.
Lemma pokes_read1 : forall ok v, pokes ok (read1 v).
Proof. intros. apply pokes_mapP. intros. cbn. auto. Qed.
Lemma pokes_read_row : forall ok v i, pokes ok (read_row v i).
Proof. intros. apply pokes_mapP. intros. cbn. auto. Qed.
Lemma pokes_read2 : forall ok v, pokes ok (read2 v).
Proof. intros. apply pokes_mapP. intros. apply pokes_read_row. Qed.
Lemma pokes_write2 : forall v i j x, pokes (eq (b2 v)) (write2 v i j x).
Proof. intros. unfold write2. destruct (_ && _)%bool; cbn; auto. Qed.
Lemma pokes_write_row : forall v i xs, pokes (eq (b2 v)) (write_row v i xs).
Proof.
  intros. unfold write_row. destruct (Nat.eqb _ _); [apply pokes_forM; intros; apply pokes_write2|].
  destruct xs as [|x [|y xs]]; try exact I. apply pokes_forM. intros. apply pokes_write2.
Qed.
Lemma pokes_write_col0 : forall v xs, pokes (eq (b2 v)) (write_col0 v xs).
Proof.
  intros. unfold write_col0. destruct (Nat.eqb _ 0); [exact I|]. destruct (Nat.eqb _ _); [apply pokes_forM; intros; apply pokes_write2|].
  destruct xs as [|x [|y xs]]; try exact I. apply pokes_forM. intros. apply pokes_write2.
Qed.
Lemma pokes_write_where : forall v mask x, pokes (eq (b2 v)) (write_where v mask x).
Proof.
  intros. unfold write_where. apply pokes_bind; [apply pokes_read2|]. intros m. apply pokes_forM. intros ij.
  destruct (mask _); [apply pokes_write2|exact I].
Qed.

Lemma mapM_seq : forall B (f : nat -> result B) d n l,
  mapM f (seq 0 n) = Ok l <-> List.length l = n /\ forall i, (i < n)%nat -> f i = Ok (nth i l d).
Proof.
  intros B f d n l. split.
  - intros H. pose proof (mapM_length _ _ _ _ _ H) as Hl. rewrite seq_length in Hl. split; auto. intros i Hi.
    rewrite <- (mapM_nth _ _ f _ _ 0%nat d i H) by (rewrite seq_length; auto). rewrite seq_nth by auto. reflexivity.
  - intros [Hl Hf]. rewrite (mapM_ok_map _ _ f (fun i => nth i l d)).
    + f_equal. apply (list_eq_nth _ d); [rewrite map_length, seq_length; auto|].
      intros i Hi. rewrite map_length, seq_length in Hi. rewrite nth_map_seq by auto. reflexivity.
    + intros i Hi. apply in_seq in Hi. apply Hf. lia.
Qed.
Lemma concat_nth : forall A (m : list (list A)) r c i j d, has_shape m r c -> (i < r)%nat -> (j < c)%nat ->
  nth (i * c + j) (List.concat m) d = nth j (nth i m []) d.
Proof.
  intros A m r c i j d [Hl Hf] Hi Hj. subst r. revert i Hi. induction m as [|row m IH]; intros i Hi; [simpl in Hi; lia|].
  inversion Hf as [|? ? Hr Hm]; subst. simpl. destruct i.
  - rewrite app_nth1 by lia. simpl. reflexivity.
  - rewrite app_nth2 by lia. replace (S i * List.length row + j - List.length row)%nat with (i * List.length row + j)%nat by lia.
    apply IH; auto. simpl in Hi. lia.
Qed.
Lemma concat_shape_length : forall A (m : list (list A)) r c, has_shape m r c -> List.length (List.concat m) = (r * c)%nat.
Proof.
  intros A m r c [Hl Hf]. subst r. induction m as [|row m IH]; auto. inversion Hf; subst. simpl. rewrite app_length, IH; auto.
Qed.
(** an entry of a matrix *)
Definition entry (m : list (list F)) (i j : nat) : F := nth j (nth i m []) NaN.
Lemma mat_ext : forall m m' r c, has_shape m r c -> has_shape m' r c ->
  (forall i j, (i < r)%nat -> (j < c)%nat -> entry m i j = entry m' i j) -> m = m'.
Proof.
  intros m m' r c H H' He. destruct H as [Hl Hf], H' as [Hl' Hf']. apply (list_eq_nth _ []); [lia|].
  intros i Hi. rewrite Forall_forall in Hf, Hf'.
  assert (L1 : List.length (nth i m []) = c) by (apply Hf, nth_In; lia).
  assert (L2 : List.length (nth i m' []) = c) by (apply Hf', nth_In; lia).
  apply (list_eq_nth _ NaN); [lia|]. intros j Hj. apply He; lia.
Qed.
(** m with entry (i, j) replaced *)
Definition upd (m : list (list F)) (i j : nat) (x : F) : list (list F) := set_nth m i (set_nth (nth i m []) j x).
Lemma upd_shape : forall m r c i j x, has_shape m r c -> (i < r)%nat -> (j < c)%nat -> has_shape (upd m i j x) r c.
Proof.
  intros m r c i j x [Hl Hf] Hi Hj. unfold upd. split; [rewrite set_nth_length; lia|].
  rewrite Forall_forall in Hf. apply Forall_forall. intros row Hrow. unfold set_nth in Hrow at 1.
  apply in_app_or in Hrow as [Hr|[Hr|Hr]].
  - apply Hf. rewrite <- (firstn_skipn i m). apply in_or_app. auto.
  - subst row. assert (List.length (nth i m []) = c) by (apply Hf, nth_In; lia). rewrite set_nth_length; lia.
  - apply Hf. rewrite <- (firstn_skipn (S i) m). apply in_or_app. auto.
Qed.
Lemma upd_entry : forall m r c i j x i' j', has_shape m r c -> (i < r)%nat -> (j < c)%nat ->
  entry (upd m i j x) i' j' = if (Nat.eqb i' i && Nat.eqb j' j)%bool then x else entry m i' j'.
Proof.
  intros m r c i j x i' j' [Hl Hf] Hi Hj. unfold entry, upd. rewrite Forall_forall in Hf.
  assert (List.length (nth i m []) = c) by (apply Hf, nth_In; lia).
  destruct (Nat.eqb_spec i' i).
  - subst i'. rewrite set_nth_same by lia. destruct (Nat.eqb_spec j' j).
    + subst j'. simpl. rewrite set_nth_same by lia. auto.
    + simpl. rewrite set_nth_other by lia. auto.
  - simpl. rewrite set_nth_other by lia. auto.
Qed.

(** ** heaps *)
Definition grows (h h' : heap) : Prop := exists ext, h' = h ++ ext.
Lemma grows_refl : forall h, grows h h.
Proof. intros. exists []. rewrite app_nil_r. auto. Qed.
Lemma grows_trans : forall a b c, grows a b -> grows b c -> grows a c.
Proof. intros a b c [x ->] [y ->]. exists (x ++ y). rewrite app_assoc. auto. Qed.
Lemma grows_length : forall h h', grows h h' -> (List.length h <= List.length h')%nat.
Proof. intros h h' [x ->]. rewrite app_length. lia. Qed.
Lemma grows_buffer : forall h h' b, grows h h' -> (b < List.length h)%nat -> buffer h' b = buffer h b.
Proof. intros h h' b [x ->] Hb. unfold buffer. apply app_nth1. auto. Qed.
(** the first n buffers are the same *)
Definition keeps (n : nat) (h h' : heap) : Prop :=
  (List.length h <= List.length h')%nat /\ forall b, (b < n)%nat -> buffer h' b = buffer h b.
Lemma keeps_refl : forall n h, keeps n h h.
Proof. split; auto. Qed.
Lemma keeps_trans : forall n a b c, keeps n a b -> keeps n b c -> keeps n a c.
Proof. intros n a b c [H1 H2] [H3 H4]. split; [lia|]. intros. rewrite H4, H2; auto. Qed.
Lemma grows_keeps : forall n h h', (n <= List.length h)%nat -> grows h h' -> keeps n h h'.
Proof. intros n h h' Hn H. split; [apply grows_length; auto|]. intros. apply grows_buffer; auto. lia. Qed.
Lemma keeps_grows : forall h h', keeps (List.length h) h h' -> grows h h'.
Proof.
  intros h h' [H1 H2]. exists (skipn (List.length h) h'). apply (list_eq_nth _ []).
  - rewrite app_length, skipn_length. lia.
  - intros i Hi. destruct (Nat.lt_ge_cases i (List.length h)).
    + rewrite app_nth1 by auto. apply H2. auto.
    + rewrite app_nth2 by auto. rewrite nth_skip. f_equal. lia.
Qed.

(** what a view shows *)
Lemma set_nth_keeps : forall n h b d, (n <= b)%nat -> (n <= List.length h)%nat -> (b < List.length h)%nat -> keeps n h (set_nth h b d).
Proof.
  intros n h b d Hn Hh Hb. split; [rewrite set_nth_length; auto|]. intros b' Hb'. unfold buffer. apply set_nth_other; lia.
Qed.
Lemma safe_keeps : forall n A (p : prog A) h, (n <= List.length h)%nat -> safe n p h -> keeps n h (snd (exec p h)).
Proof.
  intros n A p. induction p as [r|d q IH|b i q IH|b i x q IH]; intros h Hn Hs; cbn [safe exec] in *.
  - apply keeps_refl.
  - eapply keeps_trans; [|apply IH; auto; rewrite app_length; lia]. apply grows_keeps; auto. exists [d]. auto.
  - apply IH; auto.
  - destruct Hs as [Hb Hs]. destruct (_ && _)%bool eqn:Ei; [|apply IH; auto].
    assert (Hl : (b < List.length h)%nat).
    { apply Nat.lt_nge. intros Hge. apply andb_prop in Ei as [E1 E2]. apply Z.leb_le in E1. apply Z.ltb_lt in E2.
      unfold buffer in E2. rewrite nth_overflow in E2 by auto. cbn in E2. lia. }
    eapply keeps_trans; [|apply IH; auto; rewrite set_nth_length; auto]. apply set_nth_keeps; auto.
Qed.
Lemma safe_grows : forall A (p : prog A) h, safe (List.length h) p h -> grows h (snd (exec p h)).
Proof. intros. apply keeps_grows, safe_keeps; auto. Qed.
Lemma sees1_grows : forall h h' v x, grows h h' -> sees1 h v x -> sees1 h' v x.
Proof.
  intros h h' v x Hg [Hb Hl]. pose proof (grows_length _ _ Hg). split; [lia|]. unfold load1. rewrite (grows_buffer h h') by auto. exact Hl.
Qed.
Lemma sees2_grows : forall h h' v x, grows h h' -> sees2 h v x -> sees2 h' v x.
Proof.
  intros h h' v x Hg [Hb Hl]. pose proof (grows_length _ _ Hg). split; [lia|]. unfold load2. rewrite (grows_buffer h h') by auto. exact Hl.
Qed.
Lemma sees2_same : forall h h' v m, buffer h' (b2 v) = buffer h (b2 v) -> (b2 v < List.length h')%nat -> sees2 h v m -> sees2 h' v m.
Proof. intros h h' v m Hb Hl [_ H]. split; auto. unfold load2. rewrite Hb. exact H. Qed.
Lemma load2_iff : forall h v m, load2 h v = Ok m <-> has_shape m (r2 v) (c2 v) /\
  forall i j, (i < r2 v)%nat -> (j < c2 v)%nat -> read_buf (buffer h (b2 v)) (cell2 v i j) = Ok (entry m i j).
Proof.
  intros h v m. unfold load2. rewrite (mapM_seq _ _ []). split.
  - intros [Hl Hr]. assert (Hrow : forall i, (i < r2 v)%nat -> List.length (nth i m []) = c2 v /\
      forall j, (j < c2 v)%nat -> read_buf (buffer h (b2 v)) (cell2 v i j) = Ok (entry m i j)).
    { intros i Hi. specialize (Hr i Hi). rewrite (mapM_seq _ _ NaN) in Hr. exact Hr. }
    split.
    + split; auto. apply Forall_forall. intros row Hin. apply (In_nth _ _ []) in Hin as (i & Hi & <-). apply Hrow. lia.
    + intros i j Hi Hj. apply Hrow; auto.
  - intros [[Hl Hf] He]. split; auto. intros i Hi. rewrite (mapM_seq _ _ NaN). split.
    + rewrite Forall_forall in Hf. apply Hf, nth_In. lia.
    + intros j Hj. apply He; auto.
Qed.
Lemma load2_shape : forall h v m, load2 h v = Ok m -> has_shape m (r2 v) (c2 v).
Proof. intros h v m H. apply load2_iff in H as [H _]. exact H. Qed.
Lemma read_buf_ok : forall d k x, read_buf d k = Ok x <-> (0 <= k < zlen d)%Z /\ x = nth (Z.to_nat k) d NaN.
Proof.
  intros d k x. unfold read_buf. destruct (Z.leb_spec 0 k), (Z.ltb_spec k (zlen d)); simpl; split; intros H1;
    try discriminate; try (destruct H1; lia).
  - inversion H1. split; [lia|auto].
  - destruct H1 as [_ ->]. auto.
Qed.
(** a view with rows of consecutive cells that do not overlap, from the start of its buffer *)
Definition tidy (h : heap) (v : arr2) : Prop :=
  o2 v = 0%Z /\ cs2 v = 1%Z /\ (Z.of_nat (c2 v) <= rs2 v)%Z /\ (Z.of_nat (r2 v) * rs2 v <= zlen (buffer h (b2 v)))%Z.
Lemma tidy_cell : forall h v i j, tidy h v -> (i < r2 v)%nat -> (j < c2 v)%nat ->
  (0 <= cell2 v i j < zlen (buffer h (b2 v)))%Z.
Proof.
  intros h v i j (Ho & Hc & Hr & Hb) Hi Hj. unfold cell2. rewrite Ho, Hc.
  assert (Z.of_nat i * rs2 v <= (Z.of_nat (r2 v) - 1) * rs2 v)%Z by (apply Z.mul_le_mono_nonneg_r; lia).
  assert (0 <= Z.of_nat i * rs2 v)%Z by (apply Z.mul_nonneg_nonneg; lia). lia.
Qed.
Lemma tidy_inj : forall h v i j i' j', tidy h v -> (j < c2 v)%nat -> (j' < c2 v)%nat ->
  cell2 v i j = cell2 v i' j' -> i = i' /\ j = j'.
Proof.
  intros h v i j i' j' (Ho & Hc & Hr & Hb) Hj Hj' He. unfold cell2 in He. rewrite Ho, Hc in He.
  assert (Z.of_nat i = Z.of_nat i').
  { apply (Z.div_mod_unique (rs2 v) (Z.of_nat i) (Z.of_nat i') (Z.of_nat j) (Z.of_nat j')); lia. }
  nia.
Qed.
Lemma tidy_load : forall h v, tidy h v -> exists m, load2 h v = Ok m.
Proof.
  intros h v Ht. exists (map (fun i => map (fun j => nth (Z.to_nat (cell2 v i j)) (buffer h (b2 v)) NaN) (seq 0 (c2 v))) (seq 0 (r2 v))).
  apply load2_iff. split.
  - split; [rewrite map_length, seq_length; auto|]. apply Forall_map, Forall_forall. intros. rewrite map_length, seq_length. auto.
  - intros i j Hi Hj. apply read_buf_ok. split; [apply tidy_cell; auto|].
    unfold entry. rewrite nth_map_seq, nth_map_seq by auto. reflexivity.
Qed.
Lemma tidy_grows : forall h h' v, grows h h' -> (b2 v < List.length h)%nat -> tidy h v -> tidy h' v.
Proof. intros h h' v Hg Hb Ht. unfold tidy in *. rewrite (grows_buffer h h') by auto. exact Ht. Qed.
(** a view of an array allocated after the first n buffers *)
Definition owned (n : nat) (h : heap) (v : arr2) (m : list (list F)) : Prop :=
  (n <= b2 v)%nat /\ tidy h v /\ sees2 h v m.
Lemma owned_grows : forall n h h' v m, grows h h' -> owned n h v m -> owned n h' v m.
Proof.
  intros n h h' v m Hg (H1 & H2 & H3). split; auto. split; [eapply tidy_grows; eauto; apply H3|eapply sees2_grows; eauto].
Qed.
Lemma owned_weaken : forall n n' h v m, (n' <= n)%nat -> owned n h v m -> owned n' h v m.
Proof. intros n n' h v m Hn (H1 & H2 & H3). split; auto. lia. Qed.

(** allocation *)
Lemma buffer_new : forall h d, buffer (h ++ [d]) (List.length h) = d.
Proof. intros. unfold buffer. rewrite app_nth2, Nat.sub_diag by lia. reflexivity. Qed.
Lemma new1_sees : forall h x, exists v h', exec (new1 x) h = (Ok v, h') /\ grows h h' /\ sees1 h' v x /\ (List.length h <= b1 v)%nat /\
  v = mkA1 (List.length h) 0 (List.length x) 1 /\ h' = h ++ [x].
Proof.
  intros h x. do 2 eexists. split; [reflexivity|]. split; [exists [x]; auto|].
  split; [|split; [simpl; lia|auto]]. split.
  - cbn [b1]. rewrite app_length. simpl. lia.
  - unfold load1. cbn [b1 n1]. rewrite buffer_new. rewrite (mapM_seq _ _ NaN). split; auto. intros i Hi.
    apply read_buf_ok. unfold cell1. cbn [o1 s1]. unfold zlen. split; [lia|]. f_equal. lia.
Qed.
Lemma new2_owned : forall h m r c, has_shape m r c -> exists v h', exec (new2 m) h = (Ok v, h') /\ grows h h' /\ owned (List.length h) h' v m /\
  r2 v = r /\ ((0 < r)%nat -> c2 v = c) /\ h' = h ++ [List.concat m] /\ b2 v = List.length h.
Proof.
  intros h m r c Hs. do 2 eexists. split; [reflexivity|]. split; [exists [List.concat m]; auto|].
  assert (Hs' : has_shape m (List.length m) (ncols m)).
  { destruct Hs as [_ Hf]. split; auto. destruct m as [|row m]; [constructor|]. simpl.
    inversion Hf; subst. auto. }
  split; [|cbn [r2 c2 b2]; split; [apply Hs|split; [intros Hr; eapply shape_ncols; eauto|split; auto]]].
  assert (Ht : tidy (h ++ [List.concat m]) (mkA2 (List.length h) 0 (List.length m) (ncols m) (Z.of_nat (ncols m)) 1)).
  { unfold tidy. cbn [o2 cs2 c2 rs2 r2 b2]. rewrite buffer_new. unfold zlen. rewrite (concat_shape_length _ _ _ _ Hs'). lia. }
  split; [simpl; lia|]. split; [exact Ht|]. split; [cbn [b2]; rewrite app_length; simpl; lia|].
  apply load2_iff. cbn [r2 c2]. split; auto. intros i j Hi Hj. apply read_buf_ok.
  split; [apply (tidy_cell _ _ i j Ht); auto|]. cbn [b2]. rewrite buffer_new. unfold cell2, entry. cbn [o2 rs2 cs2].
  replace (Z.to_nat (0 + Z.of_nat i * Z.of_nat (ncols m) + Z.of_nat j * 1)) with (i * ncols m + j)%nat by lia.
  rewrite (concat_nth _ _ _ _ _ _ _ Hs') by auto. reflexivity.
Qed.
Lemma zeros2_owned : forall h r c, exists v h', exec (zeros2 r c) h = (Ok v, h') /\ grows h h' /\
  owned (List.length h) h' v (repeat (repeat f0 c) r) /\ r2 v = r /\ c2 v = c /\ b2 v = List.length h /\ h' = h ++ [repeat f0 (r * c)].
Proof.
  intros h r c. do 2 eexists. split; [reflexivity|]. split; [exists [repeat f0 (r * c)]; auto|].
  split; [|cbn [r2 c2 b2]; auto].
  assert (Ht : tidy (h ++ [repeat f0 (r * c)]) (mkA2 (List.length h) 0 r c (Z.of_nat c) 1)).
  { unfold tidy. cbn [o2 cs2 c2 rs2 r2 b2]. rewrite buffer_new. unfold zlen. rewrite repeat_length. lia. }
  split; [simpl; lia|]. split; [exact Ht|]. split; [cbn [b2]; rewrite app_length; simpl; lia|].
  apply load2_iff. cbn [r2 c2]. split.
  - split; [apply repeat_length|]. apply Forall_forall. intros row Hr. apply repeat_spec in Hr. subst. apply repeat_length.
  - intros i j Hi Hj. apply read_buf_ok. split; [apply (tidy_cell _ _ i j Ht); auto|]. cbn [b2]. rewrite buffer_new.
    unfold entry. pose proof (tidy_cell _ _ i j Ht Hi Hj) as Hc. cbn [b2] in Hc. rewrite buffer_new in Hc. unfold zlen in Hc. rewrite repeat_length in Hc.
    rewrite (nth_indep (repeat f0 (r * c)) NaN f0) by (rewrite repeat_length; lia). rewrite nth_repeat.
    rewrite (nth_indep (repeat (repeat f0 c) r) [] (repeat f0 c)) by (rewrite repeat_length; auto). rewrite nth_repeat.
    rewrite (nth_indep (repeat f0 c) NaN f0) by (rewrite repeat_length; auto). rewrite nth_repeat. auto.
Qed.
(** slices *)
Lemma py_take_map : forall A B (f : A -> B) k l, py_take k (map f l) = map f (py_take k l).
Proof. intros. unfold py_take, zlen. rewrite map_length, !firstn_map. destruct (k <? 0)%Z; auto. Qed.
Lemma py_take_nth : forall A k (l : list A) j d, (j < List.length (py_take k l))%nat -> nth j (py_take k l) d = nth j l d.
Proof.
  intros A k l j d Hj. unfold py_take in *. destruct (k <? 0)%Z; rewrite firstn_length in Hj; apply firstn_nth_lt; lia.
Qed.
Lemma columns_upto_owned : forall n h v m k, owned n h v m -> owned n h (columns_upto v k) (map (py_take k) m).
Proof.
  intros n h v m k (Hn & Ht & Hs & Hl). set (K := List.length (py_take k (seq 0 (c2 v)))).
  assert (HK : (K <= c2 v)%nat).
  { unfold K. rewrite py_take_length_any, seq_length. destruct (k <? 0)%Z; lia. }
  assert (Hlen : forall row : list F, List.length row = c2 v -> List.length (py_take k row) = K).
  { intros row Hr. unfold K. rewrite !py_take_length_any, seq_length. unfold zlen. rewrite seq_length, Hr. auto. }
  pose proof (load2_shape _ _ _ Hl) as Hsh.
  split; [exact Hn|]. split.
  - destruct Ht as (H1 & H2 & H3 & H4). unfold tidy, columns_upto. cbn [o2 cs2 c2 rs2 r2 b2]. fold K. repeat split; auto. lia.
  - split; [exact Hs|]. apply load2_iff. unfold columns_upto. cbn [r2 c2 b2]. fold K. split.
    + eapply shape_map; eauto.
    + intros i j Hi Hj. apply load2_iff in Hl as [_ Hl].
      change (cell2 _ i j) with (cell2 v i j). rewrite Hl by lia. unfold entry. f_equal.
      destruct Hsh as [Hl1 Hf]. rewrite (nth_map _ _ _ _ _ []) by lia.
      rewrite py_take_nth; auto. rewrite Hlen; auto. rewrite Forall_forall in Hf. apply Hf, nth_In. lia.
Qed.

(** ** writes *)
(** the heaps differ in buffer b only, whose size is the same *)
Definition only (b : nat) (h h' : heap) : Prop :=
  List.length h' = List.length h /\ List.length (buffer h' b) = List.length (buffer h b) /\
  forall b', b' <> b -> buffer h' b' = buffer h b'.
Lemma only_refl : forall b h, only b h h.
Proof. repeat split. Qed.
Lemma only_trans : forall b h1 h2 h3, only b h1 h2 -> only b h2 h3 -> only b h1 h3.
Proof.
  intros b h1 h2 h3 (A1 & A2 & A3) (B1 & B2 & B3). split; [congruence|]. split; [congruence|]. intros. rewrite B3, A3; auto.
Qed.
Lemma only_keeps : forall n b h h', (n <= b)%nat -> only b h h' -> keeps n h h'.
Proof. intros n b h h' Hn (H1 & H2 & H3). split; [lia|]. intros. apply H3. lia. Qed.
Lemma only_sees : forall b h h' v m, only b h h' -> b2 v <> b -> sees2 h v m -> sees2 h' v m.
Proof.
  intros b h h' v m (H1 & H2 & H3) Hb Hs. apply (sees2_same h); auto. rewrite H1. apply Hs.
Qed.
Lemma only_sees1 : forall b h h' v m, only b h h' -> b1 v <> b -> sees1 h v m -> sees1 h' v m.
Proof.
  intros b h h' v m (H1 & H2 & H3) Hb [Hl Hs]. split; [lia|]. unfold load1. rewrite H3 by auto. exact Hs.
Qed.
Lemma only_tidy : forall b h h' v, only b h h' -> tidy h v -> tidy h' v.
Proof.
  intros b h h' v (H1 & H2 & H3) Ht. unfold tidy in *. destruct (Nat.eq_dec (b2 v) b) as [Eb|Hb].
  - rewrite Eb in *. unfold zlen in *. rewrite H2. exact Ht.
  - rewrite H3 by auto. exact Ht.
Qed.
Lemma poke_ok : forall h b k x, (b < List.length h)%nat -> (0 <= k < zlen (buffer h b))%Z ->
  exists h', exec (poke b k x) h = (Ok tt, h') /\ only b h h' /\
    forall k', (0 <= k')%Z -> read_buf (buffer h' b) k' = if (k' =? k)%Z then Ok x else read_buf (buffer h b) k'.
Proof.
  intros h b k x Hb Hk. unfold poke. cbn [exec]. destruct (Z.leb_spec 0 k), (Z.ltb_spec k (zlen (buffer h b))); try lia. simpl.
  eexists. split; [reflexivity|]. unfold zlen in Hk.
  assert (E : buffer (set_nth h b (set_nth (buffer h b) (Z.to_nat k) x)) b = set_nth (buffer h b) (Z.to_nat k) x).
  { unfold buffer at 1. apply set_nth_same. auto. }
  split; [split; [apply set_nth_length; auto|]; rewrite E; split; [apply set_nth_length; lia|]|].
  - intros b' Hb'. unfold buffer. apply set_nth_other; auto.
  - intros k' Hk'. rewrite E. unfold read_buf, zlen. rewrite set_nth_length by lia.
    destruct (Z.eqb_spec k' k).
    + subst k'. destruct (Z.leb_spec 0 k), (Z.ltb_spec k (Z.of_nat (List.length (buffer h b)))); try lia. simpl.
      rewrite set_nth_same by lia. auto.
    + rewrite set_nth_other by lia. auto.
Qed.
Lemma write2_ok : forall h v m i j x, tidy h v -> sees2 h v m -> (i < r2 v)%nat -> (j < c2 v)%nat ->
  exists h', exec (write2 v i j x) h = (Ok tt, h') /\ only (b2 v) h h' /\ sees2 h' v (upd m i j x).
Proof.
  intros h v m i j x Ht [Hb Hl] Hi Hj. unfold write2.
  rewrite (proj2 (Nat.ltb_lt _ _) Hi), (proj2 (Nat.ltb_lt _ _) Hj). simpl.
  destruct (poke_ok h (b2 v) (cell2 v i j) x Hb (tidy_cell _ _ _ _ Ht Hi Hj)) as (h' & H1 & H2 & H3).
  exists h'. split; auto. split; auto. split; [rewrite (proj1 H2); auto|].
  apply load2_iff. apply load2_iff in Hl as [Hs Hl]. split; [apply upd_shape; auto|].
  intros i' j' Hi' Hj'. rewrite H3 by apply (tidy_cell _ _ _ _ Ht Hi' Hj').
  rewrite (upd_entry m (r2 v) (c2 v)) by auto.
  destruct (Z.eqb_spec (cell2 v i' j') (cell2 v i j)) as [E|E].
  - apply (tidy_inj h) in E as [-> ->]; auto. rewrite !Nat.eqb_refl. auto.
  - destruct (Nat.eqb_spec i' i), (Nat.eqb_spec j' j); simpl; auto. subst. congruence.
Qed.
(** a loop of assignments to different entries *)
Lemma forM_writes : forall (l : list (nat * nat * F)) v h m, tidy h v -> sees2 h v m ->
  Forall (fun w => (fst (fst w) < r2 v)%nat /\ (snd (fst w) < c2 v)%nat) l -> NoDup (map fst l) ->
  exists h' m', exec (forM l (fun w => write2 v (fst (fst w)) (snd (fst w)) (snd w))) h = (Ok tt, h') /\ only (b2 v) h h' /\
    tidy h' v /\ sees2 h' v m' /\
    (forall i j x, In ((i, j), x) l -> entry m' i j = x) /\
    (forall i j, ~ In (i, j) (map fst l) -> entry m' i j = entry m i j).
Proof.
  induction l as [|[[i j] x] l IH]; intros v h m Ht Hs Hl Hnd.
  - exists h, m. simpl. split; [reflexivity|]. split; [apply only_refl|]. split; auto. split; auto. split; [tauto|auto].
  - inversion Hl as [|? ? [Hi Hj] Hl']; subst. simpl in Hi, Hj. inversion Hnd as [|? ? Hni Hnd']; subst. simpl in Hni.
    destruct (write2_ok h v m i j x Ht Hs Hi Hj) as (h1 & W1 & O1 & S1).
    destruct (IH v h1 (upd m i j x)) as (h' & m' & W2 & O2 & T2 & S2 & E1 & E2); auto.
    { eapply only_tidy; eauto. }
    exists h', m'. simpl. rewrite exec_bind, W1. split; [exact W2|]. split; [eapply only_trans; eauto|].
    split; auto. split; auto. pose proof (load2_shape _ _ _ (proj2 Hs)) as Hsh. split.
    + intros i' j' x' [E|Hin]; [|eauto]. inversion E; subst. rewrite E2 by auto.
      rewrite (upd_entry m (r2 v) (c2 v)), !Nat.eqb_refl by auto. reflexivity.
    + intros i' j' Hn. rewrite E2 by tauto. rewrite (upd_entry m (r2 v) (c2 v)) by auto.
      destruct (Nat.eqb_spec i' i), (Nat.eqb_spec j' j); simpl; auto. subst. tauto.
Qed.
Lemma forM_map : forall A B (f : A -> B) g (l : list A), forM (map f l) g = forM l (fun x => g (f x)).
Proof. induction l; simpl; auto. rewrite IHl. auto. Qed.
Lemma forM_ext : forall A (f g : A -> prog unit) l, (forall x, In x l -> f x = g x) -> forM l f = forM l g.
Proof. intros A f g l. induction l as [|a l IH]; intros H; simpl; auto. rewrite (H a) by (left; auto). rewrite IH; auto. intros. apply H. right; auto. Qed.
Lemma combine_seq : forall A (xs : list A) d s, combine (seq s (List.length xs)) xs = map (fun i => ((s + i)%nat, nth i xs d)) (seq 0 (List.length xs)).
Proof.
  intros A xs d. induction xs as [|x xs IH]; intros s; auto. simpl. rewrite Nat.add_0_r. f_equal.
  rewrite IH, <- seq_shift, map_map. apply map_ext. intros i. f_equal. lia.
Qed.
(** the result of [v[:, 0] = xs] *)
Lemma write_col0_ok : forall h v m xs, tidy h v -> sees2 h v m -> (0 < c2 v)%nat -> List.length xs = r2 v ->
  exists h', exec (write_col0 v xs) h = (Ok tt, h') /\ only (b2 v) h h' /\ tidy h' v /\
    sees2 h' v (map2 (fun row x => x :: tl row) m xs).
Proof.
  intros h v m xs Ht Hs Hc Hx. unfold write_col0. destruct (Nat.eqb_spec (c2 v) 0); [lia|].
  rewrite Hx, Nat.eqb_refl. rewrite <- Hx, (combine_seq _ xs NaN 0), forM_map. cbn [fst snd].
  destruct (forM_writes (map (fun i => ((i, 0%nat), nth i xs NaN)) (seq 0 (r2 v))) v h m Ht Hs) as (h' & m' & W & O & T & S & E1 & E2).
  - apply Forall_map, Forall_forall. intros i Hi. apply in_seq in Hi. simpl. lia.
  - rewrite map_map. cbn [fst]. apply Injective_map_NoDup; [|apply seq_NoDup]. intros a b Hab. congruence.
  - rewrite forM_map in W. cbn [fst snd] in W. rewrite Hx. exists h'. split; [exact W|]. split; auto. split; auto.
    pose proof (load2_shape _ _ _ (proj2 Hs)) as Hsh. pose proof (load2_shape _ _ _ (proj2 S)) as Hsh'.
    replace (map2 (fun row x => x :: tl row) m xs) with m'; auto.
    assert (Hlen : List.length m = r2 v) by apply Hsh.
    apply (mat_ext _ _ (r2 v) (c2 v)); auto.
    + destruct Hsh as [Hm Hf]. split; [rewrite map2_length; lia|]. rewrite Forall_forall in Hf. apply Forall_forall. intros row Hr.
      apply (In_nth _ _ []) in Hr as (i & Hi & <-). rewrite map2_length in Hi.
      rewrite (map2_nth _ _ _ _ _ _ [] NaN) by lia.
      assert (List.length (nth i m []) = c2 v) by (apply Hf, nth_In; lia). simpl. destruct (nth i m []); simpl in *; lia.
    + intros i j Hi Hj. unfold entry at 2. rewrite (map2_nth _ _ _ _ _ _ [] NaN) by lia.
      destruct j.
      * simpl. apply E1. apply in_map_iff. exists i. split; auto. apply in_seq. lia.
      * rewrite E2.
        { unfold entry. cbn [nth]. destruct (nth i m []); simpl; auto. destruct j; auto. }
        { rewrite map_map. intros Hin. apply in_map_iff in Hin as (? & He & _). discriminate. }
Qed.
(** the result of [v[i, :] = xs] *)
Lemma write_row_ok : forall h v m i xs, tidy h v -> sees2 h v m -> (i < r2 v)%nat -> List.length xs = c2 v ->
  exists h', exec (write_row v i xs) h = (Ok tt, h') /\ only (b2 v) h h' /\ tidy h' v /\ sees2 h' v (set_nth m i xs).
Proof.
  intros h v m i xs Ht Hs Hi Hx. unfold write_row. rewrite Hx, Nat.eqb_refl. rewrite <- Hx, (combine_seq _ xs NaN 0), forM_map. cbn [fst snd].
  destruct (forM_writes (map (fun j => ((i, j), nth j xs NaN)) (seq 0 (c2 v))) v h m Ht Hs) as (h' & m' & W & O & T & S & E1 & E2).
  - apply Forall_map, Forall_forall. intros j Hj. apply in_seq in Hj. simpl. lia.
  - rewrite map_map. cbn [fst]. apply Injective_map_NoDup; [|apply seq_NoDup]. intros a b Hab. congruence.
  - rewrite forM_map in W. cbn [fst snd] in W. rewrite Hx. exists h'. split; [exact W|]. split; auto. split; auto.
    pose proof (load2_shape _ _ _ (proj2 Hs)) as Hsh. pose proof (load2_shape _ _ _ (proj2 S)) as Hsh'.
    replace (set_nth m i xs) with m'; auto. destruct Hsh as [Hm Hf].
    apply (mat_ext _ _ (r2 v) (c2 v)); auto.
    + split; [rewrite set_nth_length; lia|]. rewrite Forall_forall in Hf. apply Forall_forall. intros row Hr.
      apply (In_nth _ _ []) in Hr as (k & Hk & <-). rewrite set_nth_length in Hk by lia. destruct (Nat.eq_dec k i) as [->|Hne].
      * rewrite set_nth_same by lia. auto.
      * rewrite set_nth_other by lia. apply Hf, nth_In. auto.
    + intros k j Hk Hj. unfold entry at 2. destruct (Nat.eq_dec k i) as [->|Hne].
      * rewrite set_nth_same by lia. apply E1. apply in_map_iff. exists j. split; auto. apply in_seq. lia.
      * rewrite set_nth_other by lia. rewrite E2; auto.
        rewrite map_map. intros Hin. apply in_map_iff in Hin as (? & He & _). cbn [fst] in He. congruence.
Qed.
(** the result of [v[mask(v)] = x] *)
Lemma forM_if : forall A (b : A -> bool) (f : A -> prog unit) l h,
  exec (forM l (fun x => if b x then f x else ret tt)) h = exec (forM (filter b l) f) h.
Proof.
  intros A b f. induction l as [|a l IH]; intros h; auto. simpl. destruct (b a); simpl; [|apply IH].
  rewrite !exec_bind. destruct (exec (f a) h) as [[u|e] h']; auto.
Qed.
Lemma NoDup_append : forall A (l m : list A), NoDup l -> NoDup m -> (forall x, In x l -> In x m -> False) -> NoDup (l ++ m).
Proof.
  intros A l m Hl Hm Hd. induction Hl as [|a l Ha Hl IH]; simpl; auto. constructor.
  - intros Hin. apply in_app_or in Hin as [Hin|Hin]; [auto|]. apply (Hd a); [left; auto|auto].
  - apply IH. intros x Hx. apply Hd. right; auto.
Qed.
Lemma NoDup_prod : forall A B (l : list A) (m : list B), NoDup l -> NoDup m -> NoDup (list_prod l m).
Proof.
  intros A B l m Hl Hm. induction Hl as [|a l Ha Hl IH]; simpl; [constructor|].
  apply NoDup_append; auto.
  - apply Injective_map_NoDup; auto. intros x y E. congruence.
  - intros [x y] H1 H2. apply in_map_iff in H1 as (z & E & _). inversion E; subst. apply in_prod_iff in H2. tauto.
Qed.
Lemma write_where_ok : forall h v m mask x, tidy h v -> sees2 h v m ->
  exists h', exec (write_where v mask x) h = (Ok tt, h') /\ only (b2 v) h h' /\ tidy h' v /\
    sees2 h' v (map (map (fun y => if mask y then x else y)) m).
Proof.
  intros h v m mask x Ht Hs. unfold write_where. rewrite exec_bind, exec_read2, (proj2 Hs).
  rewrite forM_if.
  set (l := filter (fun ij => mask (nth (snd ij) (nth (fst ij) m []) NaN)) (list_prod (seq 0 (r2 v)) (seq 0 (c2 v)))).
  destruct (forM_writes (map (fun ij => (ij, x)) l) v h m Ht Hs) as (h' & m' & W & O & T & S & E1 & E2).
  - apply Forall_map, Forall_forall. intros [i j] Hin. apply filter_In in Hin as [Hin _]. apply in_prod_iff in Hin.
    rewrite !in_seq in Hin. simpl. lia.
  - rewrite map_map. cbn [fst]. rewrite map_id. apply NoDup_filter, NoDup_prod; apply seq_NoDup.
  - rewrite forM_map in W. cbn [fst snd] in W. exists h'. split; [exact W|]. split; auto. split; auto.
    pose proof (load2_shape _ _ _ (proj2 Hs)) as Hsh. pose proof (load2_shape _ _ _ (proj2 S)) as Hsh'.
    replace (map (map (fun y => if mask y then x else y)) m) with m'; auto.
    apply (mat_ext _ _ (r2 v) (c2 v)); auto.
    + eapply shape_map; eauto. intros. rewrite map_length. auto.
    + intros i j Hi Hj. destruct Hsh as [Hm Hf]. unfold entry at 2. rewrite (nth_map _ _ _ _ _ []) by lia.
      assert (Hlr : List.length (nth i m []) = c2 v) by (rewrite Forall_forall in Hf; apply Hf, nth_In; lia).
      rewrite (nth_map _ _ _ _ _ NaN) by lia. destruct (mask (nth j (nth i m []) NaN)) eqn:Em.
      * apply E1. apply in_map_iff. exists (i, j). split; auto. apply filter_In. split; [|exact Em].
        apply in_prod_iff. rewrite !in_seq. lia.
      * apply E2. rewrite map_map. cbn [fst]. rewrite map_id. intros Hin. apply filter_In in Hin as [_ Hin]. simpl in Hin. congruence.
Qed.
