(** * The programs of Memory.v compute the values of the other model files *)
From Coq Require Import Reals ZArith List String Bool Lia.
From Flocq Require Import Core.Raux.
From Verif Require Import Base BaseFacts Cplx SpecBase SpecMat SpecFilters MatFacts Preprocessing PreprocessingFacts Filters FiltersFacts
  Cepstral CepstralFacts MelBanks MelBanksFacts MelBanksMore BarkBank Gammatone Fourier Features FeaturesFacts FeaturesMore LinAlg Lpc LpcLaws InvarianceFacts InvarianceMore
  Memory MemoryFacts.
Import ListNotations.

(** ** program p on heap h computes r: same result or same exception, related by P; nothing below buffer n is stored to *)
Definition impl {A B} (n : nat) (P : heap -> A -> B -> Prop) (h : heap) (p : prog A) (r : result B) : Prop :=
  (n <= List.length h)%nat /\ safe n p h /\
  ((exists a b h', exec p h = (Ok a, h') /\ r = Ok b /\ P h' a b) \/ (exists e h', exec p h = (Raise e, h') /\ r = Raise e)).

Lemma impl_bind_keeps : forall n A B A' B' (P : heap -> A -> B -> Prop) (Q : heap -> A' -> B' -> Prop) h p r k k',
  impl n P h p r -> (forall h' a b, keeps n h h' -> r = Ok b -> P h' a b -> impl n Q h' (k a) (k' b)) ->
  impl n Q h (pbind p k) (rbind r k').
Proof.
  intros n A B A' B' P Q h p r k k' (Hn & Hs & H) Hk. split; auto. pose proof (safe_keeps _ _ _ _ Hn Hs) as Hg.
  destruct H as [(a & b & h1 & H1 & -> & H3)|(e & h1 & H1 & ->)]; rewrite H1 in Hg; cbn [snd] in Hg.
  - destruct (Hk h1 a b Hg eq_refl H3) as (Hn1 & Hs1 & Hr). split.
    + apply safe_bind; auto. intros a' h' E'. rewrite H1 in E'. inversion E'; subst. auto.
    + rewrite exec_bind, H1. exact Hr.
  - split.
    + apply safe_bind; auto. intros a' h' E'. rewrite H1 in E'. discriminate.
    + right. exists e, h1. rewrite exec_bind, H1. auto.
Qed.
Lemma impl_lower : forall n n' A B (P : heap -> A -> B -> Prop) h p r, (n' <= n)%nat -> impl n P h p r -> impl n' P h p r.
Proof. intros n n' A B P h p r Hn (H1 & H2 & H3). split; [lia|]. split; auto. eapply safe_weaken; eauto. Qed.
Lemma impl_bind : forall n A B A' B' (P : heap -> A -> B -> Prop) (Q : heap -> A' -> B' -> Prop) h p r k k', (n <= List.length h)%nat ->
  impl (List.length h) P h p r -> (forall h' a b, grows h h' -> r = Ok b -> P h' a b -> impl n Q h' (k a) (k' b)) ->
  impl n Q h (pbind p k) (rbind r k').
Proof.
  intros n A B A' B' P Q h p r k k' Hn Hp Hk.
  apply (impl_bind_keeps _ _ _ _ _ (fun h' a b => P h' a b /\ grows h h')).
  - apply (impl_lower (List.length h)); auto. destruct Hp as (H1 & H2 & H3). split; auto. split; auto.
    pose proof (safe_grows _ _ _ H2) as Hg.
    destruct H3 as [(a & b & h1 & E1 & E2 & E3)|(e & h1 & E1 & E2)]; rewrite E1 in Hg; [left|right]; eauto 9.
  - intros h' a b _ E [HP Hg]. eauto.
Qed.
Lemma impl_weaken : forall A B (P Q : heap -> A -> B -> Prop) h p r,
  (forall h' a b, grows h h' -> r = Ok b -> P h' a b -> Q h' a b) -> impl (List.length h) P h p r -> impl (List.length h) Q h p r.
Proof.
  intros A B P Q h p r H (H1 & H2 & H3). split; auto. split; auto. pose proof (safe_grows _ _ _ H2) as Hg.
  destruct H3 as [(a & b & h1 & E1 & E2 & E3)|(e & h1 & E1 & E2)]; rewrite E1 in Hg; [left|right; eauto]. exists a, b, h1. eauto.
Qed.
Lemma impl_ret : forall n A B (P : heap -> A -> B -> Prop) h a b, (n <= List.length h)%nat -> P h a b -> impl n P h (ret a) (Ok b).
Proof. intros. split; auto. split; [exact I|]. left. exists a, b, h. auto. Qed.
Lemma impl_raise : forall n A B (P : heap -> A -> B -> Prop) h e, (n <= List.length h)%nat -> impl n P h (lift (Raise e)) (Raise e).
Proof. intros. split; auto. split; [exact I|]. right. exists e, h. auto. Qed.
Lemma impl_lift : forall n A B A' (Q : heap -> A' -> B -> Prop) h (r : result A) k (k' : A -> result B), (n <= List.length h)%nat ->
  (forall b, r = Ok b -> impl n Q h (k b) (k' b)) -> impl n Q h (pbind (lift r) k) (rbind r k').
Proof. intros n A B A' Q h r k k' Hn H. destruct r as [b|e]; [apply H; auto|apply impl_raise; auto]. Qed.
Lemma impl_lift0 : forall n A B (Q : heap -> A -> B -> Prop) h (r : result A) k (r' : result B), (n <= List.length h)%nat ->
  (forall b, r = Ok b -> impl n Q h (k b) r') -> (forall e, r = Raise e -> r' = Raise e) -> impl n Q h (pbind (lift r) k) r'.
Proof. intros n A B Q h r k r' Hn H He. destruct r as [b|e]; [apply H; auto|]. rewrite (He e eq_refl). apply impl_raise; auto. Qed.
Lemma impl_read2 : forall n A B (Q : heap -> A -> B -> Prop) h v m k r, sees2 h v m ->
  impl n Q h (k m) r -> impl n Q h (pbind (read2 v) k) r.
Proof.
  intros n A B Q h v m k r Hs (Hn & Hsafe & H). split; auto. rewrite exec_bind, exec_read2, (proj2 Hs). split; auto.
  apply safe_bind; [apply (pokes_safe (fun _ => False)); [tauto|apply pokes_read2]|].
  intros a h' E. rewrite exec_read2, (proj2 Hs) in E. inversion E; subst. auto.
Qed.
Lemma impl_read1 : forall n A B (Q : heap -> A -> B -> Prop) h v m k r, sees1 h v m ->
  impl n Q h (k m) r -> impl n Q h (pbind (read1 v) k) r.
Proof.
  intros n A B Q h v m k r Hs (Hn & Hsafe & H). split; auto. rewrite exec_bind, exec_read1, (proj2 Hs). split; auto.
  apply safe_bind; [apply (pokes_safe (fun _ => False)); [tauto|apply pokes_read1]|].
  intros a h' E. rewrite exec_read1, (proj2 Hs) in E. inversion E; subst. auto.
Qed.
(** a read that fails *)
Lemma impl_read2_raise : forall n A B (Q : heap -> A -> B -> Prop) h v e k, (n <= List.length h)%nat -> load2 h v = Raise e ->
  impl n Q h (pbind (read2 v) k) (Raise e).
Proof.
  intros n A B Q h v e k Hn He. split; auto. split.
  - apply safe_bind; [apply (pokes_safe (fun _ => False)); [tauto|apply pokes_read2]|]. intros a h' E. rewrite exec_read2, He in E. discriminate.
  - right. exists e, h. rewrite exec_bind, exec_read2, He. auto.
Qed.
Lemma impl_new2 : forall n h m r c, (n <= List.length h)%nat -> has_shape m r c ->
  impl n (fun h' v m' => owned (List.length h) h' v m' /\ grows h h') h (new2 m) (Ok m).
Proof.
  intros n h m r c Hn Hs. destruct (new2_owned h m r c Hs) as (v & h' & H1 & H2 & H3 & _). split; auto. split; [exact I|].
  left. exists v, m, h'. auto.
Qed.
Lemma owned_shape : forall n h v m, owned n h v m -> has_shape m (r2 v) (c2 v).
Proof. intros n h v m (_ & _ & _ & H). eapply load2_shape; eauto. Qed.
Lemma sees2_shape : forall h v m, sees2 h v m -> has_shape m (r2 v) (c2 v).
Proof. intros h v m [_ H]. eapply load2_shape; eauto. Qed.

(** ** shapes of the values *)
Lemma mapM_shape : forall A B (f : list A -> result (list B)) (m : list (list A)) r c c' M, has_shape m r c ->
  (forall row y, In row m -> f row = Ok y -> List.length row = c -> List.length y = c') -> mapM f m = Ok M -> has_shape M r c'.
Proof.
  intros A B f m r c c' M [Hl Hf] H HM. pose proof (mapM_length _ _ _ _ _ HM) as Hlen. split; [congruence|].
  apply Forall_forall. intros y Hy. destruct (mapM_In_rev _ _ _ _ _ _ HM Hy) as (row & Hr & Hfr).
  rewrite Forall_forall in Hf. eapply H; eauto.
Qed.
Lemma bcast_length : forall A B (f : A -> B -> B) w row y, bcast f w row = Ok y ->
  List.length y = if Nat.eqb (List.length w) (List.length row) then List.length row
                  else if Nat.eqb (List.length w) 1 then List.length row else List.length w.
Proof.
  intros A B f w row y H. unfold bcast in H. destruct (Nat.eqb_spec (List.length w) (List.length row)) as [E|E].
  - apply Ok_inj in H. subst y. rewrite map2_length. lia.
  - destruct w as [|a [|a' w]].
    + destruct row as [|b [|b' row]]; try discriminate; apply Ok_inj in H; subst y; reflexivity.
    + apply Ok_inj in H. subst y. rewrite map_length. reflexivity.
    + destruct row as [|b [|b' row]]; try discriminate. apply Ok_inj in H. subst y. rewrite map_length. reflexivity.
Qed.
Lemma windowing_shape : forall m r c L wt w, has_shape m r c -> windowing m L wt = Ok w -> exists c', has_shape w r c'.
Proof.
  intros m r c L wt w Hs H. unfold windowing in H.
  set (f := fun at_ => let n := List.length (mk_window at_ L) in if Nat.eqb n c then c else if Nat.eqb n 1 then c else n).
  assert (Hn : forall a1 a2, List.length (mk_window a1 L) = List.length (mk_window a2 L)).
  { intros. unfold mk_window. destruct (L <? 1)%Z; auto. destruct (L =? 1)%Z; auto. rewrite !map_length. auto. }
  exists (f hanning_at). eapply mapM_shape; eauto. intros row y _ Hy Hr. unfold windowing_row, window_row in Hy.
  assert (Hb : forall at_ z, bcast fmul (mk_window at_ L) row = Ok z -> List.length z = f hanning_at).
  { intros at_ z Hz. rewrite (bcast_length _ _ _ _ _ _ Hz). unfold f. rewrite Hr, (Hn at_ hanning_at). reflexivity. }
  apply rbind_Ok in Hy as (y1 & H1 & Hy). apply rbind_Ok in Hy as (y2 & H2 & Hy). apply rbind_Ok in Hy as (y3 & H3 & Hy).
  apply rbind_Ok in Hy as (y4 & H4 & Hy). apply rbind_Ok in Hy as (y5 & H5 & Hy).
  repeat (destruct (String.eqb _ _); [inversion Hy; subst; eauto|]). discriminate.
Qed.
Lemma fft_shape : forall w nfft X, np_fft w nfft = Ok X -> has_shape (map (map cabs) X) (List.length w) (Z.to_nat nfft).
Proof.
  intros w nfft X H. unfold np_fft in H. destruct (nfft <? 1)%Z; [discriminate|]. inversion H.
  split; [rewrite !map_length; auto|]. rewrite map_map. apply Forall_map, Forall_forall. intros. rewrite !map_length, seq_length. auto.
Qed.
Lemma rfft_shape : forall w nfft X, np_rfft w nfft = Ok X -> has_shape (map (map cabs) X) (List.length w) (S (Z.to_nat nfft / 2)).
Proof.
  intros w nfft X H. unfold np_rfft in H. destruct (nfft <? 1)%Z; [discriminate|]. apply Ok_inj in H. subst X.
  split; [rewrite !map_length; auto|]. rewrite map_map. apply Forall_map, Forall_forall. intros. rewrite !map_length, seq_length. auto.
Qed.
Lemma dot_shape : forall A (f : A -> list F) (a : list A) b d, np_dot_T (map f a) b = Ok d -> has_shape d (List.length a) (List.length b).
Proof.
  intros A f a b d H. apply np_dot_T_rows in H. subst d. rewrite map_map. split; [apply map_length|].
  apply Forall_map, Forall_forall. intros. apply map_length.
Qed.
Lemma map_entries_shape : forall (f : F -> F) m r c, has_shape m r c -> has_shape (map (map f) m) r c.
Proof. intros. eapply shape_map; eauto. intros. rewrite map_length. auto. Qed.
Lemma log_shape : forall m r c, has_shape m r c -> has_shape (log_features m) r c.
Proof. intros. unfold log_features, zero_handling. eapply shape_map; eauto. intros. rewrite !map_length. auto. Qed.
Lemma dct_shape : forall x t d r c, has_shape x r c -> sp_dct x t = Ok d -> has_shape d r c.
Proof.
  intros x t d r c Hs H. unfold sp_dct in H. destruct (_ || _)%bool; [discriminate|]. destruct (Nat.ltb _ _); [discriminate|].
  inversion H. eapply shape_map; eauto. intros. rewrite dct_row_length. auto.
Qed.
Lemma lifter_shape : forall m r c l m', has_shape m r c -> lifter_ceps m l = Ok m' -> has_shape m' r c.
Proof.
  intros m r c l m' Hs H. destruct r as [|r].
  - destruct Hs as [Hl _]. destruct m; [|discriminate]. unfold lifter_ceps in H.
    destruct (_ || _)%bool; [inversion H; split; [auto|constructor]|].
    destruct (Rltb 0 l); [discriminate|]. inversion H. split; [auto|constructor].
  - rewrite (lifter_rows m (S r) c l m' Hs ltac:(lia) H). eapply shape_map; eauto. intros. rewrite lift_row_length. auto.
Qed.
Lemma norm_shape : forall m r c t m', has_shape m r c -> normalize_ceps m t = Ok m' -> has_shape m' r c.
Proof.
  intros m r c t m' Hs H. destruct r as [|r]; [|eapply normalize_shape; eauto; lia].
  destruct Hs as [Hl _]. destruct m; [|discriminate]. rewrite norm_empty in H by reflexivity. discriminate.
Qed.
Lemma fir_length : forall b x, List.length (fir b x) = List.length x.
Proof. intros. unfold fir. rewrite map_length, seq_length. auto. Qed.
Lemma deltas_shape : forall m r c w m', has_shape m r c -> deltas m w = Ok m' -> has_shape m' r c.
Proof.
  intros m r c w m' Hs H. unfold deltas in H. destruct (Nat.eqb_spec (ncols m) 0); [discriminate|].
  destruct (w / 2 <? 0)%Z; [discriminate|]. inversion H. eapply shape_map; eauto. intros row Hr.
  assert (ncols m = c). { apply (shape_ncols _ _ _ _ Hs). destruct Hs as [Hl _]. destruct m; [simpl in *; lia|]. simpl in Hl. lia. }
  rewrite firstn_length, skipn_length, fir_length, !app_length, !repeat_length, Hr. lia.
Qed.

(** ** banks *)
Definition rectangular (m : list (list F)) : Prop := exists r c, has_shape m r c.
Lemma mel_rect : forall nfilts nfft fs low high scale t a B, rmap fst (mel_filter_banks_helper nfilts nfft fs low high scale t a) = Ok B -> rectangular B.
Proof.
  intros nfilts nfft fs low high scale t a B H. destruct (mel_filter_banks_helper _ _ _ _ _ _ _ _) as [[B0 c]|e] eqn:E; inversion H; subst.
  apply helper_shape in E as [E _]. do 2 eexists. exact E.
Qed.
Lemma lin_rect : forall nfilts nfft fs low high scale B, rmap fst (linear_filter_banks nfilts nfft fs low high scale) = Ok B -> rectangular B.
Proof.
  intros nfilts nfft fs low high scale B H. unfold linear_filter_banks in H.
  destruct (mel_filter_banks_helper _ _ _ _ _ _ _ _) as [[B0 c]|e] eqn:E; inversion H; subst.
  apply helper_shape in E as [E _]. do 2 eexists. apply map_map_shape. exact E.
Qed.
Lemma imel_rect : forall nfilts nfft fs low high scale a B, rmap fst (inverse_mel_filter_banks nfilts nfft fs low high scale a) = Ok B -> rectangular B.
Proof.
  intros nfilts nfft fs low high scale a B H. destruct (inverse_mel_filter_banks _ _ _ _ _ _ _) as [[B0 c]|e] eqn:E; inversion H; subst.
  apply inverse_inv in E as (sc' & B1 & c0 & _ & E & -> & _).
  apply helper_shape in E as [E _]. do 2 eexists. apply map_map_shape, map_rev_shape. exact E.
Qed.
Lemma scale_rows_rect : forall scale nfilts s B r c, scale_fbank scale nfilts = Ok s -> has_shape B r c -> rectangular (scale_rows s B).
Proof.
  intros scale nfilts s B r c _ [Hl Hf]. exists (List.length (scale_rows s B)), c. split; auto.
  apply Forall_forall. intros row Hr. unfold scale_rows in Hr. apply map2_In in Hr as (x & y & _ & Hy & ->).
  rewrite map_length. rewrite Forall_forall in Hf. auto.
Qed.
Lemma gam_rect : forall nfilts nfft fs low high scale o a B, rmap fst (gammatone_filter_banks nfilts nfft fs low high scale o a) = Ok B -> rectangular B.
Proof.
  intros nfilts nfft fs low high scale o a B H. unfold gammatone_filter_banks in H.
  repeat (match type of H with rmap fst (if ?b then _ else _) = _ => destruct b; [discriminate|] end).
  set (fcs := generate_center_frequencies _ _ _) in *.
  assert (Hs : has_shape (map (gammatone_row nfft fs o) fcs) (List.length fcs) (Z.to_nat (nfft / 2 + 1))).
  { split; [apply map_length|]. apply Forall_map, Forall_forall. intros. unfold gammatone_row, compute_gain. rewrite map_length, seq_length. auto. }
  destruct (scale_fbank scale nfilts) as [s|e] eqn:Es; [|discriminate]. cbn [rbind rmap fst] in H. apply Ok_inj in H. subst B.
  destruct (mapM normalise_row _) as [b|e] eqn:Eb; eapply scale_rows_rect; eauto.
  eapply (mapM_shape _ _ _ _ _ _ (Z.to_nat (nfft / 2 + 1))); eauto. intros row y _ Hy Hr. unfold normalise_row in Hy. apply rbind_Ok in Hy as (mm & _ & Hy).
  inversion Hy. rewrite map_length. auto.
Qed.
Lemma bark_rect : forall `{Env} nfilts nfft fs low high scale a B, rmap fst (bark_filter_banks nfilts nfft fs low high scale a) = Ok B -> rectangular B.
Proof.
  intros E nfilts nfft fs low high scale a B H. unfold bark_filter_banks in H.
  repeat (match type of H with rmap fst (if ?b then _ else _) = _ => destruct b; [discriminate|] end).
  destruct (mapM _ _) as [fb|e] eqn:Eb; [|discriminate]. cbn [rbind] in H.
  destruct (scale_fbank scale nfilts) as [s|e] eqn:Es; [|discriminate]. cbn [rbind rmap fst] in H. apply Ok_inj in H. subst B.
  apply (scale_rows_rect scale nfilts s fb (List.length fb) (Z.to_nat (nfft / 2 + 1))); auto. split; auto.
  apply Forall_forall. intros y Hy. destruct (mapM_In_rev _ _ _ _ _ _ Eb Hy) as (fc & _ & Hr).
  apply rbind_Ok in Hr as (lo & _ & Hr). apply rbind_Ok in Hr as (hi & _ & Hr). unfold bark_row in Hr.
  apply (foldM_inv _ _ (fun l : list F => List.length l = Z.to_nat (nfft / 2 + 1))) in Hr; auto.
  - intros l i l' Hl Hstep. destruct (nfft + 1 =? 0)%Z; [discriminate|]. apply py_set_length in Hstep. congruence.
  - apply repeat_length.
Qed.

(** ** preprocessing *)
Lemma impl_pre : forall h sig x coeff, sees1 h sig x ->
  impl (List.length h) (fun h' v y => sees1 h' v y /\ v = mkA1 (List.length h) 0 (List.length y) 1 /\ buffer h' (List.length h) = y) h
    (pre_emphasis_mem sig coeff) (pre_emphasis x coeff).
Proof.
  intros h sig x coeff Hs. unfold pre_emphasis_mem. eapply impl_read1; eauto. destruct (pre_emphasis x coeff) as [y|e]; [|apply impl_raise; auto].
  destruct (new1_sees h y) as (v & h' & H1 & H2 & H3 & H4 & H5 & H6). split; auto. split; [exact I|]. left. exists v, y, h'.
  split; [exact H1|]. split; auto. split; auto. subst v h'. split; auto. apply buffer_new.
Qed.
Lemma zrange0 : forall n, zrange 0 n = map Z.of_nat (seq 0 (Z.to_nat n)).
Proof. intros. unfold zrange. rewrite Z.sub_0_r. apply map_ext. intros; lia. Qed.
Lemma mapM_map : forall A B C (f : A -> B) (g : B -> result C) l, mapM g (map f l) = mapM (fun x => g (f x)) l.
Proof. induction l as [|a l IH]; auto. simpl. rewrite IH. auto. Qed.
Lemma mapM_ext' : forall A B (f g : A -> result B) l, (forall x, f x = g x) -> mapM f l = mapM g l.
Proof. induction l as [|a l IH]; intros Hx; auto. simpl. rewrite Hx, IH; auto. Qed.
(** reading the view made by as_strided gives the rows of the value model *)
Lemma load_strided : forall h b x r L rs, buffer h b = x -> (0 <= r)%Z -> (0 <= L)%Z ->
  load2 h (mkA2 b 0 (Z.to_nat r) (Z.to_nat L) (rs * 1) 1) = as_strided x r L (rs * 1) 1.
Proof.
  intros h b x r L rs Hb Hr HL. unfold load2, as_strided. cbn [b2 r2 c2]. rewrite Hb.
  destruct (Z.ltb_spec r 0), (Z.ltb_spec L 0); try lia. cbn [orb]. rewrite !zrange0, mapM_map. apply mapM_ext'. intros i.
  rewrite mapM_map. apply mapM_ext'. intros j. unfold cell2. cbn [o2 rs2 cs2]. f_equal.
Qed.
(** the frames seen by a caller and the windowed frames *)
Definition PF (n : nat) (h : heap) (p : arr2 * arr2) (q : list (list F) * list (list F)) : Prop :=
  sees2 h (fst p) (fst q) /\ (n <= b2 (fst p))%nat /\ owned n h (snd p) (snd q) /\ r2 (snd p) = r2 (fst p) /\ (0 < r2 (fst p))%nat.

(** framing: the view, before anything reads it *)
Lemma stride_trick_run : forall h sig x L step, sees1 h sig x ->
  let h' := h ++ [x] in let r := ((zlen x - L) / step + 1)%Z in
  exec (stride_trick_mem sig L step) h =
    (if (step =? 0)%Z then Raise ZeroDivisionError else if ((r <? 0) || (L <? 0))%Z then Raise ValueError
     else Ok (mkA2 (List.length h) 0 (Z.to_nat r) (Z.to_nat L) (step * 1) 1), h').
Proof.
  intros h sig x L step Hs. unfold stride_trick_mem. rewrite exec_bind, exec_read1, (proj2 Hs).
  destruct (new1_sees h x) as (v & h' & E & _ & _ & _ & -> & ->). rewrite exec_bind, E. cbn [n1 b1 s1].
  destruct (step =? 0)%Z; [reflexivity|]. unfold zlen. destruct (_ || _)%bool; reflexivity.
Qed.
(** framing never stores to memory: the short last frame of preprocessing.py:136 does not occur *)
Lemma framing_run : forall `{Env} h sig x fs wl wh, sees1 h sig x ->
  let L := Ztrunc (rnd (wl * IZR fs)) in let step := Ztrunc (rnd (wh * IZR fs)) in let r := ((zlen x - L) / step + 1)%Z in
  exec (framing_mem sig fs wl wh) h =
    if Rltb wl wh then (Raise (ParameterError msg_win), h)
    else (if (step =? 0)%Z then Raise ZeroDivisionError else if ((r <? 0) || (L <? 0))%Z then Raise ValueError
          else if (r =? 0)%Z then Raise IndexError
          else Ok (mkA2 (List.length h) 0 (Z.to_nat r) (Z.to_nat L) (step * 1) 1, L), h ++ [x]).
Proof.
  intros E h sig x fs wl wh Hs L step r. unfold framing_mem. destruct (Rltb wl wh); [reflexivity|].
  fold L step. rewrite exec_bind, (stride_trick_run h sig x L step Hs). cbv zeta. fold r.
  destruct (step =? 0)%Z; [reflexivity|]. destruct (Z.ltb_spec r 0); [reflexivity|]. destruct (Z.ltb_spec L 0); [reflexivity|].
  cbn [orb r2 c2]. destruct (Z.eqb_spec r 0) as [->|Hr]; [reflexivity|].
  destruct (Nat.eqb_spec (Z.to_nat r) 0); [lia|]. rewrite Z2Nat.id by lia. rewrite Z.ltb_irrefl. reflexivity.
Qed.

Lemma framing_pokes : forall `{Env} sig fs wl wh n h x, sees1 h sig x -> safe n (framing_mem sig fs wl wh) h.
Proof.
  intros E sig fs wl wh n h x Hs. unfold framing_mem. destruct (Rltb wl wh); [exact I|].
  set (L := Ztrunc (rnd (wl * IZR fs))). set (step := Ztrunc (rnd (wh * IZR fs))).
  apply safe_bind.
  - apply (pokes_safe (fun _ => False)); [tauto|]. unfold stride_trick_mem. apply pokes_bind; [apply pokes_read1|]. intros y.
    apply pokes_bind; [cbn; auto|]. intros v. destruct (step =? 0)%Z; [exact I|]. destruct (_ || _)%bool; exact I.
  - intros v h' Hr. rewrite (stride_trick_run h sig x L step Hs) in Hr. cbv zeta in Hr.
    destruct (step =? 0)%Z; [discriminate|]. destruct (_ || _)%bool eqn:Eb; [discriminate|]. inversion Hr; subst. cbn [r2 c2].
    destruct (Nat.eqb _ 0); [exact I|]. apply orb_false_elim in Eb as [_ El]. apply Z.ltb_ge in El.
    rewrite Z2Nat.id by auto. rewrite Z.ltb_irrefl. exact I.
Qed.
Lemma impl_windows : forall `{Env} n h sig x fs wl wh wt, (n <= List.length h)%nat -> sees1 h sig x ->
  impl (List.length h) (PF n) h
    (pdo (frames, fl) <- framing_mem sig fs wl wh; pdo windows <- windowing_mem frames fl wt; ret (frames, windows))
    (do (frames, fl) <- framing x fs wl wh; do windows <- windowing frames fl wt; Ok (frames, windows)).
Proof.
  intros E n h sig x fs wl wh wt Hn Hs. pose proof (framing_run h sig x fs wl wh Hs) as Hrun. pose proof (framing_pokes sig fs wl wh (List.length h) h x Hs) as Hsafe.
  cbv zeta in Hrun. revert Hrun.
  unfold framing, framing_strided, stride_trick. set (L := Ztrunc (rnd (wl * IZR fs))). set (step := Ztrunc (rnd (wh * IZR fs))).
  set (r := ((zlen x - L) / step + 1)%Z). intros Hrun.
  assert (Hraise : forall e h', exec (framing_mem sig fs wl wh) h = (Raise e, h') -> impl (List.length h) (PF n) h
    (pdo (frames, fl) <- framing_mem sig fs wl wh; pdo windows <- windowing_mem frames fl wt; ret (frames, windows)) (Raise e)).
  { intros e h' He. split; auto. split; [apply safe_bind; auto; intros a h1 E1; rewrite He in E1; discriminate|].
    right. exists e, h'. rewrite exec_bind, He. auto. }
  destruct (Rltb wl wh); [apply (Hraise _ _ Hrun)|].
  assert (G : grows h (h ++ [x])) by (exists [x]; auto).
  destruct (step =? 0)%Z; [apply (Hraise _ _ Hrun)|].
  assert (Ha : ((r <? 0) || (L <? 0))%Z = true -> as_strided x r L (step * 1) 1 = Raise ValueError).
  { intros Hb. unfold as_strided. rewrite Hb. auto. }
  destruct ((r <? 0) || (L <? 0))%Z eqn:Eb. { rewrite (Ha eq_refl). apply (Hraise _ _ Hrun). }
  apply orb_false_elim in Eb as [Er El]. apply Z.ltb_ge in Er, El.
  assert (Hbuf : buffer (h ++ [x]) (List.length h) = x) by apply buffer_new.
  pose proof (load_strided (h ++ [x]) (List.length h) x r L step Hbuf Er El) as Hload.
  destruct (Z.eqb_spec r 0) as [Hr|Hr].
  { rewrite <- Hload, Hr. apply (Hraise _ _ Hrun). }
  set (v := mkA2 (List.length h) 0 (Z.to_nat r) (Z.to_nat L) (step * 1) 1) in *.
  assert (Hgo : forall (q : result (list (list F) * list (list F))),
    impl (List.length h) (PF n) (h ++ [x]) (pdo windows <- windowing_mem v L wt; ret (v, windows)) q ->
    impl (List.length h) (PF n) h (pdo (frames, fl) <- framing_mem sig fs wl wh; pdo windows <- windowing_mem frames fl wt; ret (frames, windows)) q).
  { intros q (K1 & K2 & K3). split; auto. split; [apply safe_bind; auto; intros a h1 E1; rewrite Hrun in E1; inversion E1; subst; exact K2|].
    rewrite exec_bind, Hrun. exact K3. }
  assert (Hn1 : (List.length h <= List.length (h ++ [x]))%nat) by (rewrite app_length; lia).
  destruct (as_strided x r L (step * 1) 1) as [fr|e] eqn:Est; cbn [rbind]; apply Hgo.
  2: { unfold windowing_mem. apply (impl_bind_keeps _ _ _ _ _ (fun _ (_ : arr2) (_ : list (list F)) => False) _ _ _ (Raise e) _ (fun w => Ok (w, w)));
         [apply impl_read2_raise; auto|intros; tauto]. }
  pose proof (load2_shape _ _ _ Hload) as [Hlen Hrows]. cbn [r2 c2 v] in Hlen, Hrows.
  destruct fr as [|f0' fr']; [simpl in Hlen; lia|]. set (fr := f0' :: fr') in *.
  assert (Hlast : zlen (last fr []) = L).
  { unfold zlen. rewrite Forall_forall in Hrows. rewrite (Hrows (last fr [])); [lia|].
    rewrite last_nth. apply nth_In. rewrite Hlen. lia. }
  rewrite Hlast, Z.ltb_irrefl. cbn [rbind].
  assert (Hsv : sees2 (h ++ [x]) v fr). { split; [simpl; rewrite app_length; simpl; lia|auto]. }
  apply (impl_bind _ _ _ _ _ (fun h' vw w => owned (List.length (h ++ [x])) h' vw w /\ grows (h ++ [x]) h')); auto.
  - unfold windowing_mem. eapply impl_read2; eauto. destruct (windowing fr L wt) as [w|e] eqn:Ew; [|apply impl_raise; auto].
    destruct (windowing_shape fr (Z.to_nat r) (Z.to_nat L) L wt w (conj Hlen Hrows) Ew) as (c' & Hw).
    exact (impl_new2 _ _ _ _ _ (le_n _) Hw).
  - intros h' vw w G' Ew [Hw _]. apply impl_ret; [apply grows_length in G'; lia|]. unfold PF. cbn [fst snd].
    split; [eapply sees2_grows; eauto|]. split; [cbn [b2 v]; lia|]. split; [eapply owned_weaken; [|exact Hw]; lia|].
    destruct (windowing_shape fr (Z.to_nat r) (Z.to_nat L) L wt w (conj Hlen Hrows) Ew) as (c' & Hws & _).
    destruct (owned_shape _ _ _ _ Hw) as [Hws' _]. cbn [r2 v]. lia.
Qed.
Lemma framed_impl : forall `{Env} n h sig x fs pe coeff win, (n <= List.length h)%nat -> sees1 h sig x ->
  impl (List.length h) (PF n) h (framed_mem sig fs pe coeff win) (framed x fs pe coeff win).
Proof.
  intros E n h sig x fs pe coeff win Hn Hs. unfold framed_mem, framed.
  apply (impl_bind _ _ _ _ _ (fun h' v y => sees1 h' v y)); auto.
  - destruct pe; [|apply impl_ret; auto]. eapply impl_weaken; [|apply impl_pre; eauto]. simpl. tauto.
  - intros h' v y Hg _ Hv. pose proof (grows_length _ _ Hg). apply (impl_lower (List.length h')); auto. apply impl_windows; auto. lia.
Qed.
