(** * The programs of MemoryMore.v compute the values of the other model files *)
From Coq Require Import Reals ZArith List String Bool Lia.
From Flocq Require Import Core.Raux.
From Verif Require Import Base BaseFacts Cplx SpecBase SpecMat SpecFilters MatFacts Preprocessing PreprocessingFacts Filters FiltersFacts
  Cepstral CepstralFacts MelBanks MelBanksFacts BarkBank Gammatone Fourier Features FeaturesFacts FeaturesMore Extractors LinAlg Lpc LpcLaws
  Pncc Rplp Yin Dominant Cqt SpFeats PnccMore InvarianceFacts SpecMemory Memory MemoryFacts MemoryLaws MemoryClient MemoryRuns MemoryLoops MemoryMore.
Import ListNotations.

(** ** loops *)
Lemma forM_foldM : forall A B n (body : A -> prog unit) (f : B -> A -> result B) (I : heap -> B -> Prop) l,
  (forall h b x, In x l -> I h b -> impl n (fun h' (_ : unit) b' => I h' b') h (body x) (f b x)) ->
  (forall h b, I h b -> (n <= List.length h)%nat) ->
  forall h b, I h b -> impl n (fun h' (_ : unit) b' => I h' b') h (forM l body) (foldM f l b).
Proof.
  intros A B n body f I l. induction l as [|x l IH]; intros Hb Hn h b HI; cbn [forM foldM].
  - apply impl_ret; eauto.
  - eapply impl_bind_keeps; [apply Hb; [left; auto|auto]|]. cbv beta. intros h' u b' _ _ HI'. apply IH; auto. intros. apply Hb; auto. right; auto.
Qed.
Lemma forM_acc : forall A B n (body : A -> prog unit) (g : A -> result B) (I : heap -> list B -> Prop) l,
  (forall h ys x, I h ys -> nth_error l (List.length ys) = Some x -> impl n (fun h' (_ : unit) y => I h' (ys ++ [y])) h (body x) (g x)) ->
  (forall h ys, I h ys -> (n <= List.length h)%nat) ->
  forall h, I h [] -> impl n (fun h' (_ : unit) ys => I h' ys) h (forM l body) (mapM g l).
Proof.
  intros A B n body g I l Hb Hn.
  assert (HG : forall m k h ys, l = k ++ m -> List.length k = List.length ys -> I h ys ->
    impl n (fun h' (_ : unit) zs => I h' (ys ++ zs)) h (forM m body) (mapM g m)).
  { induction m as [|x m IH]; intros k h ys El Hy HI; cbn [forM mapM].
    - apply impl_ret; [eauto|]. rewrite app_nil_r. auto.
    - eapply impl_bind_keeps.
      { apply Hb; [exact HI|]. rewrite El, <- Hy, nth_error_app2, Nat.sub_diag by lia. reflexivity. }
      cbv beta. intros h' u y _ _ HI'.
      specialize (IH (k ++ [x]) h' (ys ++ [y])). rewrite <- app_assoc, !app_length in IH. cbn [app List.length] in IH. specialize (IH El ltac:(lia) HI').
      destruct IH as (J1 & J2 & J3). split; auto. split; auto.
      destruct J3 as [(a & zs & h2 & E1 & E2 & E3)|(e & h2 & E1 & E2)]; rewrite E2; cbn [rbind]; [left|right; eauto].
      exists a, (y :: zs), h2. split; auto. split; auto. rewrite <- app_assoc in E3. exact E3. }
  intros h HI. apply (HG l [] h []); auto.
Qed.
Lemma zrange_at : forall a b k x, nth_error (zrange a b) k = Some x -> x = (a + Z.of_nat k)%Z /\ (k < Z.to_nat (b - a))%nat.
Proof.
  intros a b k x H. assert (Hk : (k < Z.to_nat (b - a))%nat). { rewrite <- zrange_length. apply nth_error_Some. congruence. }
  apply nth_error_nth with (d := 0%Z) in H. rewrite zrange_nth in H by auto. auto.
Qed.

(** ** indices *)
Lemma index_nth : forall A (l : list A) i d, py_nth l i = do k <- py_index (List.length l) i; Ok (nth k l d).
Proof.
  intros A l i d. unfold py_nth, py_index, zlen. set (j := if (i <? 0)%Z then _ else _).
  destruct (Z.leb_spec 0 j), (Z.ltb_spec j (Z.of_nat (List.length l))); try reflexivity. cbn [andb rbind].
  rewrite (nth_error_nth' l d) by lia. reflexivity.
Qed.
Lemma index_lt : forall n i k, py_index n i = Ok k -> (k < n)%nat.
Proof.
  intros n i k H. unfold py_index in H. set (j := if (i <? 0)%Z then _ else _) in *.
  destruct (Z.leb_spec 0 j), (Z.ltb_spec j (Z.of_nat n)); try discriminate. cbn [andb] in H. apply Ok_inj in H. lia.
Qed.
Lemma upd_set_nth : forall A (l : list A) i x, (i < List.length l)%nat -> Base.upd l i x = set_nth l i x.
Proof.
  induction l as [|a l IH]; intros [|i] x Hi; cbn [List.length] in Hi; try lia; auto.
  cbn [Base.upd]. rewrite IH by lia. reflexivity.
Qed.
Lemma index_set : forall A (l : list A) i x, py_set l i x = do k <- py_index (List.length l) i; Ok (set_nth l k x).
Proof.
  intros A l i x. unfold py_set, py_index, zlen. set (j := if (i <? 0)%Z then _ else _).
  destruct (Z.leb_spec 0 j), (Z.ltb_spec j (Z.of_nat (List.length l))); try reflexivity. cbn [andb rbind].
  rewrite upd_set_nth by lia. reflexivity.
Qed.
Lemma index_nat : forall n i, (i < n)%nat -> py_index n (Z.of_nat i) = Ok i.
Proof.
  intros n i Hi. unfold py_index. destruct (Z.ltb_spec (Z.of_nat i) 0); [lia|].
  destruct (Z.leb_spec 0 (Z.of_nat i)), (Z.ltb_spec (Z.of_nat i) (Z.of_nat n)); try lia. cbn [andb]. rewrite Nat2Z.id. auto.
Qed.

(** ** 1-D arrays allocated after the first n buffers *)
Definition line (n : nat) (h : heap) (v : arr1) (x : list F) : Prop :=
  ((n <= b1 v)%nat /\ o1 v = 0%Z /\ s1 v = 1%Z /\ (Z.of_nat (n1 v) <= zlen (buffer h (b1 v)))%Z) /\ sees1 h v x.
Lemma sees1_length : forall h v x, sees1 h v x -> List.length x = n1 v.
Proof. intros h v x [_ H]. unfold load1 in H. apply mapM_length in H. rewrite seq_length in H. auto. Qed.
Lemma write1_line : forall n h v x i y, line n h v x -> (i < n1 v)%nat ->
  exists h', exec (write1 v i y) h = (Ok tt, h') /\ only (b1 v) h h' /\ line n h' v (set_nth x i y).
Proof.
  intros n h v x i y ((Hn & Ho & Hs1 & Hz) & Hb & Hl) Hi. unfold write1. rewrite (proj2 (Nat.ltb_lt _ _) Hi).
  assert (Hc : forall k, (k < n1 v)%nat -> (0 <= cell1 v k < zlen (buffer h (b1 v)))%Z) by (intros k Hk; unfold cell1; rewrite Ho, Hs1; lia).
  destruct (poke_ok h (b1 v) (cell1 v i) y Hb (Hc i Hi)) as (h' & P1 & P2 & P3). exists h'. split; auto. split; auto.
  split; [split; auto; split; auto; split; auto; unfold zlen in *; rewrite (proj1 (proj2 P2)); auto|].
  split; [rewrite (proj1 P2); auto|]. unfold load1 in *. apply (mapM_seq _ _ NaN) in Hl as [Hlen Hl]. apply (mapM_seq _ _ NaN).
  split; [rewrite set_nth_length; lia|]. intros k Hk. rewrite P3 by apply (Hc k Hk).
  destruct (Nat.eq_dec k i) as [->|Hne].
  - rewrite Z.eqb_refl, set_nth_same by lia. auto.
  - rewrite set_nth_other by lia. destruct (Z.eqb_spec (cell1 v k) (cell1 v i)) as [E|E]; [|auto].
    unfold cell1 in E. rewrite Ho, Hs1 in E. lia.
Qed.
Lemma write1_safe : forall n h v i x, (n <= b1 v)%nat -> safe n (write1 v i x) h.
Proof. intros. unfold write1. destruct (Nat.ltb i (n1 v)); [|exact I]. cbn. split; auto. destruct (_ && _)%bool; exact I. Qed.
Lemma line_grows : forall n h h' v x, grows h h' -> line n h v x -> line n h' v x.
Proof. intros n h h' v x G (H1 & H2). split; [|eapply sees1_grows; eauto]. rewrite (grows_buffer h h'); auto. apply H2. Qed.
Lemma line_weaken : forall n n' h v x, (n' <= n)%nat -> line n h v x -> line n' h v x.
Proof. intros n n' h v x Hn ((H1 & H2) & H3). split; auto. split; [lia|auto]. Qed.
Lemma only_line : forall n b h h' v x, only b h h' -> b1 v <> b -> line n h v x -> line n h' v x.
Proof. intros n b h h' v x O Hb (H1 & H2). split; [|eapply only_sees1; eauto]. destruct O as (_ & _ & O). rewrite O; auto. Qed.
Lemma new1_impl : forall n h x, (n <= List.length h)%nat ->
  impl n (fun h' v y => line (List.length h) h' v y /\ b1 v = List.length h /\ n1 v = List.length y /\ List.length h' = S (List.length h)) h (new1 x) (Ok x).
Proof.
  intros n h x Hn. destruct (new1_sees h x) as (v & h' & H1 & H2 & H3 & H4 & Ev & Eh). split; auto. split; [exact I|].
  left. exists v, x, h'. split; auto. split; auto. subst v h'. split; [|split; [|split; [|rewrite app_length; simpl; lia]]]; auto.
  split; auto. cbn. split; auto. split; auto. split; auto. rewrite buffer_new. unfold zlen. lia.
Qed.

(** a pure value bound on the model side *)
Ltac also r := match goal with |- impl _ _ _ _ ?q => change q with (do x' <- Ok r; (fun _ => q) x') end.

(** ** accesses by index *)
Lemma impl_get_row : forall n A B (Q : heap -> A -> B -> Prop) h v m i k k', (n <= List.length h)%nat -> sees2 h v m ->
  (forall row, py_nth m i = Ok row -> List.length row = c2 v -> impl n Q h (k row) (k' row)) ->
  impl n Q h (pbind (get_row v i) k) (rbind (py_nth m i) k').
Proof.
  intros n A B Q h v m i k k' Hn Hs Hk. pose proof (sees2_shape _ _ _ Hs) as [Hl Hf]. revert Hk. unfold get_row. rewrite (index_nth _ m i []), Hl.
  destruct (py_index (r2 v) i) as [j|e] eqn:Ei; cbn [rbind pbind lift]; intros Hk; [|apply impl_raise; auto].
  pose proof (index_lt _ _ _ Ei) as Hj. apply (row_impl _ _ _ _ _ _ m); auto. apply Hk; auto.
  rewrite Forall_forall in Hf. apply Hf, nth_In. lia.
Qed.
Lemma impl_set_row : forall n h v m i xs, (n <= List.length h)%nat -> owned n h v m -> List.length xs = c2 v ->
  impl n (fun h' (_ : unit) m' => owned n h' v m' /\ only (b2 v) h h') h (set_row v i xs) (py_set m i xs).
Proof.
  intros n h v m i xs Hn Ho Hx. pose proof (owned_shape _ _ _ _ Ho) as [Hl Hf]. unfold set_row. rewrite index_set, Hl.
  destruct (py_index (r2 v) i) as [j|e] eqn:Ei; cbn [rbind pbind lift]; [|apply impl_raise; auto].
  pose proof (index_lt _ _ _ Ei) as Hj. destruct Ho as (O1 & O2 & O3). destruct (write_row_ok h v m j xs O2 O3 Hj Hx) as (h' & W & O & T & S).
  split; auto. split; [apply write_row_safe; auto|]. left. exists tt, (set_nth m j xs), h'. split; auto. split; auto. split; auto. split; auto.
Qed.
Lemma impl_get_item : forall n A B (Q : heap -> A -> B -> Prop) h v x i k k', (n <= List.length h)%nat -> sees1 h v x ->
  (forall y, py_nth x i = Ok y -> impl n Q h (k y) (k' y)) ->
  impl n Q h (pbind (get_item v i) k) (rbind (py_nth x i) k').
Proof.
  intros n A B Q h v x i k k' Hn Hs Hk. pose proof (sees1_length _ _ _ Hs) as Hl. revert Hk. unfold get_item. rewrite (index_nth _ x i NaN), Hl.
  destruct (py_index (n1 v) i) as [j|e] eqn:Ei; cbn [rbind pbind lift]; intros Hk; [|apply impl_raise; auto].
  pose proof (index_lt _ _ _ Ei) as Hj. destruct Hs as [_ Hs]. unfold load1 in Hs. apply (mapM_seq _ _ NaN) in Hs as [_ Hs].
  specialize (Hs j Hj). specialize (Hk _ eq_refl). destruct Hk as (K1 & K2 & K3). split; auto. cbn [peek pbind exec safe]. rewrite Hs. auto.
Qed.
Lemma impl_set_item : forall n h v x i y, (n <= List.length h)%nat -> line n h v x ->
  impl n (fun h' (_ : unit) x' => line n h' v x' /\ only (b1 v) h h') h (set_item v i y) (py_set x i y).
Proof.
  intros n h v x i y Hn Ho. pose proof (sees1_length _ _ _ (proj2 Ho)) as Hl. unfold set_item. rewrite index_set, Hl.
  destruct (py_index (n1 v) i) as [j|e] eqn:Ei; cbn [rbind pbind lift]; [|apply impl_raise; auto].
  pose proof (index_lt _ _ _ Ei) as Hj. destruct (write1_line n h v x j y Ho Hj) as (h' & W & O & S).
  split; auto. split; [apply write1_safe; apply Ho|]. left. exists tt, (set_nth x j y), h'. auto.
Qed.
Lemma map_const : forall A B (b : B) (l : list A), map (fun _ => b) l = repeat b (List.length l).
Proof. induction l as [|a l IH]; auto. simpl. rewrite IH. auto. Qed.
Lemma zeros_like : forall (q : list (list F)) r c, has_shape q r c -> map (map (fun _ => f0)) q = repeat (repeat f0 c) r.
Proof.
  intros q r c [<- Hf]. induction q as [|row q IH]; auto. inversion Hf; subst. simpl. rewrite IH by auto. rewrite map_const. auto.
Qed.
(** a new array on both sides *)
Lemma impl_zeros : forall n A B (Q : heap -> A -> B -> Prop) h r c k q, (n <= List.length h)%nat ->
  (forall h' v, grows h h' -> owned n h' v (repeat (repeat f0 c) r) -> r2 v = r -> c2 v = c -> b2 v = List.length h -> (List.length h < List.length h')%nat -> impl n Q h' (k v) q) ->
  impl n Q h (pbind (zeros2 r c) k) q.
Proof.
  intros n A B Q h r c k q Hn Hk. destruct (zeros_impl h r c) as (v & h' & _ & G & O & H2 & H3 & H4 & HQ). apply HQ; auto.
  apply Hk; auto; [eapply owned_weaken; eauto|]. destruct O as (_ & _ & O & _). lia.
Qed.
Lemma impl_new : forall n A B (Q : heap -> A -> B -> Prop) h m r c k q, (n <= List.length h)%nat -> has_shape m r c ->
  (forall h' v, grows h h' -> owned (List.length h) h' v m -> (List.length h < List.length h')%nat -> impl n Q h' (k v) q) ->
  impl n Q h (pbind (new2 m) k) q.
Proof.
  intros n A B Q h m r c k q Hn Hs Hk. also m. eapply impl_bind; [auto|exact (impl_new2 _ _ _ _ _ (le_n _) Hs)|].
  cbv beta. intros h' v b G E [O _]. apply Ok_inj in E. subst b. apply Hk; auto. destruct O as (O & _ & O' & _). lia.
Qed.
Lemma map2_shape : forall A B C (f : A -> B -> C) m m' r c, has_shape m r c -> has_shape m' r c -> has_shape (map2 (map2 f) m m') r c.
Proof.
  intros A B C f m m' r c [H1 H2] [H3 H4]. split; [rewrite map2_length; lia|]. apply Forall_forall. intros row Hr.
  apply map2_In in Hr as (x & y & Hx & Hy & ->). rewrite Forall_forall in H2, H4. rewrite map2_length, (H2 x), (H4 y); auto; lia.
Qed.

(** ** the stages of pncc *)
Lemma medium_shape : forall P M r c, has_shape P r c -> exists c', has_shape (medium_time_power_calculation P M) r c'.
Proof.
  intros P M r c [H1 H2]. exists (ncols P). split; [unfold medium_time_power_calculation; rewrite map_length, seq_length; auto|].
  unfold medium_time_power_calculation. apply Forall_map, Forall_forall. intros. rewrite map_length, seq_length. auto.
Qed.
Lemma medium_impl : forall h P p M, sees2 h P p ->
  impl (List.length h) (owned (List.length h)) h (medium_mem P M) (Ok (medium_time_power_calculation p M)).
Proof.
  intros h P p M Hs. unfold medium_mem. eapply impl_read2; eauto. destruct (medium_shape p M _ _ (sees2_shape _ _ _ Hs)) as (c & Hc).
  eapply impl_weaken; [|exact (impl_new2 _ _ _ _ _ (le_n _) Hc)]. cbv beta. tauto.
Qed.
Lemma asym_impl : forall h Q q a b, sees2 h Q q ->
  impl (List.length h) (fun h' v m => owned (List.length h) h' v m /\ has_shape m (r2 Q) (c2 Q)) h (asymmetric_lowpass_mem Q a b) (asymmetric_lowpass_filtering q a b).
Proof.
  intros h Q q a b Hs. unfold asymmetric_lowpass_mem, asymmetric_lowpass_filtering. set (n := List.length h).
  rewrite (zeros_like _ _ _ (sees2_shape _ _ _ Hs)).
  apply impl_zeros; [auto|]. intros h1 out G1 O1 R1 C1 B1 L1. pose proof (sees2_grows _ _ _ _ G1 Hs) as Hs1. assert (Hne : b2 Q <> b2 out) by (destruct Hs; lia).
  apply impl_get_row; [lia|auto|]. intros q0 _ Hq0.
  eapply impl_bind_keeps; [apply impl_set_row; [lia|exact O1|rewrite map_length; lia]|]. cbv beta. intros h2 u m K2 _ [O2 Y2].
  destruct (owned_shape _ _ _ _ O2) as [Lm _]. unfold zlen. rewrite Lm.
  match goal with |- impl _ _ _ _ (foldM ?f ?l ?b) => replace (foldM f l b) with (do r <- foldM f l b; Ok r) by (destruct (foldM f l b); reflexivity) end.
  apply (impl_bind_keeps _ _ _ _ _ (fun h' (_ : unit) m' => (n <= List.length h')%nat /\ sees2 h' Q q /\ owned n h' out m')).
  - apply (forM_foldM _ _ n _ _ (fun h' m' => (n <= List.length h')%nat /\ sees2 h' Q q /\ owned n h' out m')).
    + intros hh mm i _ (J1 & J2 & J3). apply impl_get_row; [auto|apply J3|]. intros prev _ Hp. apply impl_get_row; [auto|exact J2|]. intros qr _ Hqr.
      assert (Hw : List.length (asym_row a b prev qr) = c2 out) by (unfold asym_row; rewrite map2_length; lia).
      destruct (impl_set_row n hh out mm i (asym_row a b prev qr) J1 J3 Hw) as (W1 & W2 & W3). split; auto. split; auto.
      destruct W3 as [(u' & m' & h' & E1 & E2 & E3 & E4)|W3]; [left|right; auto]. exists u', m', h'. split; auto. split; auto.
      split; [rewrite (proj1 E4); auto|]. split; auto. eapply only_sees; eauto.
    + intros hh mm J. apply J.
    + split; [destruct K2; lia|]. split; auto. eapply only_sees; eauto.
  - intros h3 u' m' _ _ (J1 & J2 & J3). apply impl_ret; auto. split; auto. rewrite <- R1, <- C1. eapply owned_shape; eauto.
Qed.
Lemma mask_impl : forall h Q q a b, sees2 h Q q ->
  impl (List.length h) (fun h' v m => owned (List.length h) h' v m /\ has_shape m (r2 Q) (c2 Q)) h (temporal_masking_mem Q a b) (temporal_masking q a b).
Proof.
  intros h Q q a b Hs. unfold temporal_masking_mem, temporal_masking. set (n := List.length h).
  rewrite (zeros_like _ _ _ (sees2_shape _ _ _ Hs)). assert (Lq : zlen q = Z.of_nat (r2 Q)) by (unfold zlen; destruct (sees2_shape _ _ _ Hs) as [-> _]; auto). rewrite Lq.
  apply impl_zeros; [auto|]. intros h1 tm G1 O1 R1 C1 B1 L1. pose proof (sees2_grows _ _ _ _ G1 Hs) as Hs1. assert (Hne1 : b2 Q <> b2 tm) by (destruct Hs; lia).
  apply impl_zeros; [lia|]. intros h2 pk G2 O2 R2 C2 B2 L2. pose proof (sees2_grows _ _ _ _ G2 Hs1) as Hs2. assert (Hne2 : b2 Q <> b2 pk) by (destruct Hs1; lia).
  assert (Hne3 : b2 tm <> b2 pk) by (destruct O1 as (_ & _ & O1 & _); lia). pose proof (owned_grows _ _ _ _ _ G2 O1) as O1'.
  apply impl_get_row; [lia|auto|]. intros q0 _ Hq0.
  eapply impl_bind_keeps; [apply impl_set_row; [lia|exact O1'|lia]|]. cbv beta. intros h3 u m K3 _ [O3 Y3].
  eapply impl_bind_keeps; [apply impl_set_row; [destruct Y3; lia|exact (only_owned _ _ _ _ _ _ Y3 (not_eq_sym Hne3) O2)|lia]|]. cbv beta. intros h4 u' m' K4 _ [O4 Y4].
  eapply (impl_bind_keeps _ _ _ _ _ (fun h' (_ : unit) s => (n <= List.length h')%nat /\ sees2 h' Q q /\ owned n h' tm (fst s) /\ owned n h' pk (snd s))).
  - apply (forM_foldM _ _ n _ _ (fun h' s => (n <= List.length h')%nat /\ sees2 h' Q q /\ owned n h' tm (fst s) /\ owned n h' pk (snd s))).
    + intros hh [tmm pkm] i _ (J1 & J2 & J3 & J4). cbn [fst snd] in *. apply impl_get_row; [auto|apply J4|]. intros prev _ Hp. apply impl_get_row; [auto|exact J2|]. intros qr _ Hqr.
      eapply impl_bind_keeps; [apply impl_set_row; [auto|exact J4|rewrite map2_length; lia]|]. cbv beta. intros h5 v5 m5 K5 _ [O5 Y5].
      match goal with |- impl _ _ _ _ (do tm' <- ?r; Ok (tm', m5)) => assert (HW : impl n (fun h' (_ : unit) m6 => owned n h' tm m6 /\ only (b2 tm) h5 h') h5 (set_row tm i (map2 (fun p x => if fgeb x (fmul (Fin a) p) then x else fmul (Fin b) p) prev qr)) r) end.
      { apply impl_set_row; [destruct Y5; lia|exact (only_owned _ _ _ _ _ _ Y5 Hne3 J3)|rewrite map2_length; lia]. }
      destruct HW as (W1 & W2 & W3). split; auto. split; auto.
      destruct W3 as [(u6 & m6 & h6 & E1 & E2 & E3 & E4)|(e & h6 & E1 & E2)]; rewrite E2; cbn [rbind]; [left|right; eauto]. exists u6, (m6, m5), h6. split; auto. split; auto. cbn [fst snd].
      split; [rewrite (proj1 E4); auto|]. split; [eapply only_sees; [exact E4|auto|]; eapply only_sees; eauto|]. split; auto. exact (only_owned _ _ _ _ _ _ E4 (not_eq_sym Hne3) O5).
    + intros hh mm J. apply J.
    + cbn [fst snd]. split; [destruct Y3, Y4; lia|]. split; [eapply only_sees; [exact Y4|auto|]; eapply only_sees; eauto|]. split; auto. exact (only_owned _ _ _ _ _ _ Y4 Hne3 O3).
  - intros h5 u5 s _ _ (J1 & J2 & J3 & J4). apply impl_ret; auto. split; auto. rewrite <- R1, <- C1. eapply owned_shape; eauto.
Qed.

Lemma set_nth_mid : forall A (xs : list A) z zs y, set_nth (xs ++ z :: zs) (List.length xs) y = xs ++ y :: zs.
Proof.
  intros. unfold set_nth. rewrite skipn_past. f_equal. rewrite firstn_app, Nat.sub_diag. cbn [firstn]. rewrite app_nil_r. apply firstn_all.
Qed.
Lemma smooth_impl : forall h Rv R Qv Q L N, sees2 h Rv R -> sees2 h Qv Q ->
  impl (List.length h) (fun h' v m => owned (List.length h) h' v m /\ has_shape m (r2 Rv) (c2 Rv)) h (weight_smoothing_mem Rv Qv L N) (weight_smoothing R Q L N).
Proof.
  intros h Rv R Qv Q L N HR HQ. unfold weight_smoothing_mem, weight_smoothing. set (n := List.length h).
  pose proof (sees2_shape _ _ _ HR) as HRs. assert (Lr : zlen R = Z.of_nat (r2 Rv)) by (unfold zlen; destruct HRs as [-> _]; auto). rewrite Lr.
  apply impl_zeros; [auto|]. intros h1 S G1 O1 R1 C1 B1 L1. set (r := r2 Rv) in *. set (c := c2 Rv) in *.
  pose proof (sees2_grows _ _ _ _ G1 HR) as HR1. pose proof (sees2_grows _ _ _ _ G1 HQ) as HQ1.
  assert (Hne1 : b2 Rv <> b2 S) by (destruct HR; lia). assert (Hne2 : b2 Qv <> b2 S) by (destruct HQ; lia).
  match goal with |- impl _ _ _ _ (mapM ?f ?l) => replace (mapM f l) with (do r <- mapM f l; Ok r) by (destruct (mapM f l); reflexivity) end.
  set (I := fun (h' : heap) (ys : list (list F)) => (n <= List.length h')%nat /\ sees2 h' Rv R /\ sees2 h' Qv Q /\
              owned n h' S (ys ++ repeat (repeat f0 c) (r - List.length ys))).
  eapply (impl_bind_keeps _ _ _ _ _ (fun h' (_ : unit) ys => I h' ys)).
  - apply (forM_acc _ _ n _ _ I).
    + intros hh ys x (J1 & J2 & J3 & J4) Hx. apply zrange_at in Hx as [-> Hx]. rewrite Z.add_0_l, Z.sub_0_r, Nat2Z.id in *. set (i := List.length ys) in *.
      apply impl_get_row; [auto|exact J2|]. intros rr _ Hrr. apply impl_get_row; [auto|exact J3|]. intros qq _ Hqq.
      assert (En : ncols R = c) by (apply (shape_ncols _ _ _ _ HRs); lia). rewrite En.
      match goal with |- impl _ _ _ _ (mapM ?f ?l) => replace (mapM f l) with (do r <- mapM f l; Ok r) by (destruct (mapM f l); reflexivity) end.
      match goal with |- impl _ _ _ ?p _ => assert (HI : impl n (fun h' (_ : unit) row => I h' (ys ++ [row])) hh p (mapM (smoothing_entry rr qq L N) (zrange 0 (Z.of_nat c)))) end.
      2: { destruct HI as (W1 & W2 & W3). split; auto. split; auto. destruct W3 as [(u6 & m6 & h6 & E1 & E2 & E3)|(e & h6 & E1 & E2)]; rewrite E2; [left|right; eauto]. exists u6, m6, h6. auto. }
      set (K := fun (h' : heap) (zs : list F) => (n <= List.length h')%nat /\ sees2 h' Rv R /\ sees2 h' Qv Q /\
                  owned n h' S (ys ++ (zs ++ repeat f0 (c - List.length zs)) :: repeat (repeat f0 c) (r - (i + 1)))).
      match goal with |- impl _ _ _ ?p ?q => assert (HK : impl n (fun h' (_ : unit) zs => K h' zs) hh p q) end.
      { apply (forM_acc _ _ n _ _ K).
        - intros hk zs y (M1 & M2 & M3 & M4) Hy. apply zrange_at in Hy as [-> Hy]. rewrite Z.add_0_l, Z.sub_0_r, Nat2Z.id in *. set (j := List.length zs) in *.
          destruct (smoothing_entry rr qq L N (Z.of_nat j)) as [x|e]; cbn [pbind lift]; [|apply impl_raise; auto].
          destruct (write2_ok hk S _ i j x (proj1 (proj2 M4)) (proj2 (proj2 M4))) as (h2 & W & O & S2); [lia|lia|].
          split; auto. split; [eapply pokes_safe; [|apply pokes_write2]; intros b <-; apply M4|]. left. exists tt, x, h2. split; auto. split; auto.
          unfold K. split; [rewrite (proj1 O); auto|]. split; [eapply only_sees; eauto|]. split; [eapply only_sees; eauto|].
          split; [apply M4|]. split; [eapply only_tidy; eauto; apply M4|]. unfold upd in S2. unfold i in S2 at 1 2. rewrite set_nth_mid in S2.
          rewrite app_nth2, Nat.sub_diag in S2 by lia. cbn [nth] in S2. rewrite set_nth_app in S2 by lia. rewrite app_length. cbn [List.length].
          replace (c - (List.length zs + 1))%nat with (c - Datatypes.S j)%nat by lia. exact S2.
        - intros hk zs J. apply J.
        - unfold K. split; auto. split; auto. split; auto. cbn [app List.length]. rewrite Nat.sub_0_r. 
          replace (r - i)%nat with (Datatypes.S (r - (i + 1))) in J4 by lia. exact J4. }
      destruct HK as (W1 & W2 & W3). split; auto. split; auto. destruct W3 as [(u6 & m6 & h6 & E1 & E2 & E3)|(e & h6 & E1 & E2)]; [left|right; eauto]. exists u6, m6, h6. split; auto. split; auto.
      apply mapM_length in E2. rewrite zrange_length, Z.sub_0_r, Nat2Z.id in E2. destruct E3 as (F1 & F2 & F3 & F4). rewrite E2, Nat.sub_diag in F4. cbn [repeat] in F4. rewrite app_nil_r in F4.
      unfold I. split; auto. split; auto. split; auto. rewrite app_length. cbn [List.length]. rewrite <- app_assoc. exact F4.
    + intros hh ys J. apply J.
    + unfold I. cbn [app List.length]. rewrite Nat.sub_0_r. split; [lia|]. auto.
  - intros h2 u ys _ Ey (J1 & J2 & J3 & J4). apply mapM_length in Ey. rewrite zrange_length, Z.sub_0_r, Nat2Z.id in Ey. rewrite Ey, Nat.sub_diag in J4. cbn [repeat] in J4. rewrite app_nil_r in J4.
    apply impl_ret; auto. split; auto. rewrite <- R1, <- C1. eapply owned_shape; eauto.
Qed.
Lemma mean_power_shape : forall (g : F -> F -> F) u (T : list (list F)) r c, has_shape T r c -> List.length u = r -> has_shape (map2 (fun u row => map (fun t => g t u) row) u T) r c.
Proof.
  intros g u T r c [H1 H2] Hu. split; [rewrite map2_length; lia|]. apply Forall_forall. intros row Hr.
  apply map2_In in Hr as (x & y & _ & Hy & ->). rewrite map_length. rewrite Forall_forall in H2. auto.
Qed.
Lemma mean_impl : forall h Tv T lam nf k, sees2 h Tv T ->
  impl (List.length h) (fun h' v m => owned (List.length h) h' v m /\ has_shape m (r2 Tv) (c2 Tv)) h (mean_power_mem Tv lam nf k) (mean_power_normalization T lam nf k).
Proof.
  intros h Tv T lam nf k Hs. unfold mean_power_mem, mean_power_normalization. set (n := List.length h).
  pose proof (sees2_shape _ _ _ Hs) as HTs. assert (Lt : zlen T = Z.of_nat (r2 Tv)) by (unfold zlen; destruct HTs as [-> _]; auto). rewrite Lt.
  rewrite map_const, (proj1 HTs). unfold zeros1. also (repeat f0 (r2 Tv)).
  eapply impl_bind; [auto|apply new1_impl; auto|]. cbv beta. intros h1 mv m0 G1 E1 (O1 & B1 & N1 & L1). apply Ok_inj in E1. subst m0. fold n in O1, B1, L1.
  pose proof (sees2_grows _ _ _ _ G1 Hs) as Hs1. assert (Hne : b2 Tv <> b1 mv) by (destruct Hs as [Hs _]; fold n in Hs; lia).
  eapply impl_bind_keeps; [apply impl_set_item; [lia|exact O1]|]. cbv beta. intros h2 u m1 K2 _ [O2 Y2].
  set (I := fun (h' : heap) (m : list F) => (n <= List.length h')%nat /\ sees2 h' Tv T /\ line n h' mv m).
  eapply (impl_bind_keeps _ _ _ _ _ (fun h' (_ : unit) m => I h' m)).
  - apply (forM_foldM _ _ n _ _ I).
    + intros hh mm i _ (J1 & J2 & J3). apply impl_get_item; [auto|apply J3|]. intros p _.
      apply impl_lift; auto. intros w _. apply impl_get_row; [auto|exact J2|]. intros row _ _. apply impl_lift; auto. intros s _.
      match goal with |- impl _ _ _ (set_item _ _ ?y) _ => destruct (impl_set_item n hh mv mm i y J1 J3) as (W1 & W2 & W3) end. split; auto. split; auto.
      destruct W3 as [(u' & m' & h' & E2 & E3 & E4 & E5)|W3]; [left|right; auto]. exists u', m', h'. split; auto. split; auto.
      unfold I. split; [rewrite (proj1 E5); auto|]. split; auto. eapply only_sees; eauto.
    + intros hh mm J. apply J.
    + unfold I. split; [rewrite (proj1 Y2); lia|]. split; auto. eapply only_sees; eauto.
  - intros h3 u' m _ _ (J1 & J2 & J3). eapply impl_read1; [apply J3|]. eapply impl_read2; [exact J2|].
    match goal with |- impl _ _ _ (new2 ?m) _ => assert (Hsh : has_shape m (r2 Tv) (c2 Tv)) end.
    { apply (mean_power_shape (fun t u => fdiv (fmul (Fin k) t) u)); [exact HTs|]. pose proof (sees1_length _ _ _ (proj2 J3)) as E. rewrite repeat_length in N1. lia. }
    apply (impl_lower (List.length h3)); auto. eapply impl_weaken; [|exact (impl_new2 _ _ _ _ _ (le_n _) Hsh)].
    cbv beta. intros h' v b _ E [O _]. split; [eapply owned_weaken; [|exact O]; auto|]. apply Ok_inj in E. subst b. exact Hsh.
Qed.
Lemma impl_new_last : forall n h m r c, (n <= List.length h)%nat -> has_shape m r c ->
  impl n (fun h' v m' => owned n h' v m' /\ has_shape m' r c) h (new2 m) (Ok m).
Proof.
  intros n h m r c Hn Hs. apply (impl_lower (List.length h)); auto. eapply impl_weaken; [|exact (impl_new2 _ _ _ _ _ (le_n _) Hs)].
  cbv beta. intros h' v b _ E [O _]. split; [eapply owned_weaken; [|exact O]; auto|]. apply Ok_inj in E. subst b. exact Hs.
Qed.
Lemma noise_impl : forall h Q q th, sees2 h Q q ->
  impl (List.length h) (fun h' v m => owned (List.length h) h' v m /\ has_shape m (r2 Q) (c2 Q)) h (noise_suppression_mem Q th) (noise_suppression q th).
Proof.
  intros h Q q th Hs. unfold noise_suppression_mem, noise_suppression. set (n := List.length h). pose proof (sees2_shape _ _ _ Hs) as Hq.
  eapply impl_bind; [auto|apply asym_impl; exact Hs|]. cbv beta. intros h1 lv le G1 _ [O1 S1]. pose proof (grows_length _ _ G1) as L1.
  pose proof (sees2_grows _ _ _ _ G1 Hs) as Hs1. eapply impl_read2; [exact Hs1|]. eapply impl_read2; [apply O1|]. cbv zeta.
  set (sub := map2 (map2 fsub) q le). assert (Ssub : has_shape sub (r2 Q) (c2 Q)) by (apply map2_shape; auto).
  eapply impl_new; [auto|exact Ssub|]. intros h2 sv G2 O2 L2. eapply impl_read2; [apply O2|].
  set (q0 := map (map (fun v => if fltb v (Fin th) then f0 else v)) sub). assert (Sq0 : has_shape q0 (r2 Q) (c2 Q)) by (apply map_entries_shape; auto).
  eapply impl_new; [lia|exact Sq0|]. intros h3 q0v G3 O3 L3.
  eapply impl_bind; [lia|apply asym_impl; apply O3|]. cbv beta. intros h4 qfv qf G4 _ [O4 S4]. pose proof (grows_length _ _ G4) as L4.
  eapply impl_bind; [lia|apply mask_impl; eapply sees2_grows; [exact G4|apply O3]|]. cbv beta. intros h5 tmv tm G5 _ [O5 S5]. pose proof (grows_length _ _ G5) as L5.
  assert (Eq : r2 q0v = r2 Q /\ (0 < r2 Q -> c2 q0v = c2 Q)%nat).
  { destruct (owned_shape _ _ _ _ O3) as [A1 A2]. destruct Sq0 as [B1 B2]. split; [lia|]. intros H0. destruct q0 as [|row q0]; [simpl in B1; lia|].
    inversion A2; inversion B2; subst; lia. }
  assert (S4' : has_shape qf (r2 Q) (c2 Q)).
  { destruct Eq as [E1 E2]. rewrite E1 in S4. destruct (r2 Q) as [|k] eqn:Ek; [destruct S4 as [S4 _]; destruct qf; [split; auto|discriminate]|]. rewrite <- E2 by lia. exact S4. }
  assert (S5' : has_shape tm (r2 Q) (c2 Q)).
  { destruct Eq as [E1 E2]. rewrite E1 in S5. destruct (r2 Q) as [|k] eqn:Ek; [destruct S5 as [S5 _]; destruct tm; [split; auto|discriminate]|]. rewrite <- E2 by lia. exact S5. }
  eapply impl_read2; [exact (sees2_grows _ _ _ _ G5 (sees2_grows _ _ _ _ G4 (sees2_grows _ _ _ _ G3 (sees2_grows _ _ _ _ G2 Hs1))))|].
  eapply impl_read2; [exact (sees2_grows _ _ _ _ G5 (sees2_grows _ _ _ _ G4 (sees2_grows _ _ _ _ G3 (sees2_grows _ _ _ _ G2 (proj2 (proj2 O1))))))|].
  eapply impl_read2; [apply O5|]. eapply impl_read2; [exact (sees2_grows _ _ _ _ G5 (proj2 (proj2 O4)))|].
  apply impl_new_last; [lia|]. apply map2_shape; apply map2_shape; auto.
Qed.
Lemma core_impl : forall h Pv P L, sees2 h Pv P ->
  impl (List.length h) (fun h' v m => owned (List.length h) h' v m /\ List.length m = r2 Pv) h (pncc_core_mem Pv L) (pncc_core P L).
Proof.
  intros h Pv P L Hs. unfold pncc_core_mem, pncc_core. set (n := List.length h). pose proof (sees2_shape _ _ _ Hs) as HP.
  cbv zeta. set (Q := medium_time_power_calculation P 2). also Q.
  eapply impl_bind; [auto|apply medium_impl; exact Hs|]. cbv beta. intros h1 Qv Q' G1 EQ O1. apply Ok_inj in EQ. fold Q in EQ. subst Q'. pose proof (grows_length _ _ G1) as L1.
  assert (HQ : has_shape Q (r2 Pv) (ncols P)).
  { destruct HP as [HP _]. unfold Q, medium_time_power_calculation. split; [rewrite map_length, seq_length; auto|]. apply Forall_map, Forall_forall. intros. rewrite map_length, seq_length. auto. }
  assert (HP' : has_shape P (r2 Pv) (ncols P)).
  { destruct (r2 Pv) as [|k] eqn:Ek; [destruct HP as [HP _]; destruct P; [split; auto|discriminate]|]. rewrite (shape_ncols _ _ _ _ HP) by lia. exact HP. }
  pose proof (owned_shape _ _ _ _ O1) as HQ'.
  assert (Er : r2 Qv = r2 Pv) by (destruct HQ, HQ'; lia).
  assert (fix_shape : forall m : list (list F), has_shape m (r2 Qv) (c2 Qv) -> has_shape m (r2 Pv) (ncols P)).
  { intros m Hm. rewrite Er in Hm. destruct (r2 Pv) as [|k] eqn:Ek; [destruct Hm as [Hm _]; destruct m; [split; auto|discriminate]|].
    replace (ncols P) with (c2 Qv); auto. destruct HQ as [B1 B2], HQ' as [_ A2]. destruct Q as [|row Q0]; [simpl in B1; lia|]. inversion A2; inversion B2; subst; lia. }
  eapply impl_bind; [auto|apply noise_impl; apply O1|]. cbv beta. intros h2 Rv Rt G2 _ [O2 S2]. pose proof (grows_length _ _ G2) as L2.
  eapply impl_bind; [lia|apply smooth_impl; [apply O2|eapply sees2_grows; [exact G2|apply O1]]|]. cbv beta. intros h3 Sv St G3 _ [O3 S3]. pose proof (grows_length _ _ G3) as L3.
  assert (HS : has_shape St (r2 Pv) (ncols P)).
  { apply fix_shape. pose proof (owned_shape _ _ _ _ O2) as HR. assert (E1 : r2 Rv = r2 Qv) by (destruct HR, S2; lia). rewrite E1 in S3.
    destruct (r2 Qv) as [|k] eqn:Ek; [destruct S3 as [S3 _]; destruct St; [split; auto|discriminate]|].
    replace (c2 Qv) with (c2 Rv); auto. destruct S2 as [B1 B2], HR as [_ A2]. destruct Rt as [|row R0]; [simpl in B1; lia|]. inversion A2; inversion B2; subst; lia. }
  eapply impl_read2; [exact (sees2_grows _ _ _ _ G3 (sees2_grows _ _ _ _ G2 (sees2_grows _ _ _ _ G1 Hs)))|]. eapply impl_read2; [apply O3|].
  set (T := map2 (map2 fmul) P St). assert (HT : has_shape T (r2 Pv) (ncols P)) by (apply map2_shape; auto).
  eapply impl_new; [lia|exact HT|]. intros h4 Tv G4 O4 L4.
  eapply impl_bind; [lia|apply mean_impl; apply O4|]. cbv beta. intros h5 Uv U G5 _ [O5 S5]. pose proof (grows_length _ _ G5) as L5.
  apply (impl_lower (List.length h5)); [lia|]. eapply impl_weaken; [|apply map_impl; [apply O5|intros; apply map_entries_shape; auto]].
  cbv beta. intros h' v b _ E O. split; [eapply owned_weaken; [|exact O]; lia|]. apply Ok_inj in E. subst b. rewrite map_length.
  destruct (owned_shape _ _ _ _ O4) as [A _], S5 as [B _]. destruct HT. lia.
Qed.
Lemma pncc_impl : forall `{Env} h sig x a power c fb b, sees1 h sig x -> sees_bank h fb b ->
  impl (List.length h) (owned (List.length h)) h (pncc_mem sig a power c fb) (pncc x (with_bank a b) power c).
Proof.
  intros E h sig x a power c fb b Hs Hb. unfold pncc_mem, pncc. cbn [s_nfilts s_fbanks with_bank s_nfft s_fs s_low s_high s_scale s_approach s_pre_emph s_coeff s_window].
  destruct (_ <? _)%Z; [apply impl_raise; auto|]. set (n := List.length h).
  eapply impl_bind; [auto|apply bank_impl; eauto; intros B; apply gam_rect|]. intros h1 bv B G1 _ HB. pose proof (grows_length _ _ G1) as L1.
  eapply impl_bind; [auto|apply (framed_impl n); [auto|eapply sees1_grows; eauto]|].
  intros h2 p q G2 _ HP. apply PF_inv in HP as (fr & fv & w & wv & -> & -> & H1 & H2 & H3 & H4 & H5). pose proof (grows_length _ _ G2) as L2.
  eapply impl_bind; [lia|apply fft_mag_impl; apply H3|]. cbv beta. intros h3 mv m G3 _ [O3 M3]. pose proof (grows_length _ _ G3) as L3.
  eapply impl_read2; [apply O3|]. eapply impl_read2; [exact (sees2_grows _ _ _ _ G3 (sees2_grows _ _ _ _ G2 HB))|]. cbv zeta.
  apply impl_lift; [lia|]. intros d Hd. pose proof (dot_shape _ _ _ _ _ Hd) as Sd.
  eapply impl_new; [lia|exact Sd|]. intros h4 Pv G4 O4 L4.
  eapply impl_bind; [lia|apply core_impl; apply O4|]. cbv beta. intros h5 Vv V G5 _ [O5 S5]. pose proof (grows_length _ _ G5) as L5.
  match goal with |- impl _ _ _ _ (finish ?c ?k V []) => change (finish c k V []) with (finish c k V V) end.
  apply finish_impl; [lia|apply O5|apply O5|auto|]. destruct (owned_shape _ _ _ _ O4) as [A _]. destruct Sd. lia.
Qed.

(** ** rasta_filter, plp, rplp *)
Lemma lfilter_state_length : forall b a x z, List.length (fst (lfilter_state b a z x)) = List.length x.
Proof.
  intros b a x. induction x as [|v x IH]; intros z; [reflexivity|]. cbn [lfilter_state]. destruct (df2t_step b a z v) as [y z'].
  specialize (IH z'). destruct (lfilter_state b a z' x) as [ys z2]. cbn [fst List.length] in *. lia.
Qed.
Lemma rasta_row_length : forall z row y z', rasta_row z row = Ok (y, z') -> List.length y = List.length row.
Proof.
  intros z row y z' H. unfold rasta_row in H. destruct (py_nth row 0) as [x0|]; [|discriminate]. cbn [rbind] in H.
  match type of H with context[lfilter_state ?b ?a ?z (firstn 4 row)] => pose proof (lfilter_state_length b a (firstn 4 row) z) as H1; destruct (lfilter_state b a z (firstn 4 row)) as [y1 z1] end.
  match type of H with context[lfilter_state ?b ?a ?z (skipn 4 row)] => pose proof (lfilter_state_length b a (skipn 4 row) z) as H2; destruct (lfilter_state b a z (skipn 4 row)) as [y2 z2] end.
  apply Ok_inj in H. inversion H; subst. cbn [fst] in *. rewrite app_length, map_length, H1, H2, <- app_length, firstn_skipn. auto.
Qed.
Lemma skipn_nth : forall A (d : A) l s, (s < List.length l)%nat -> skipn s l = nth s l d :: skipn (S s) l.
Proof. induction l as [|a l IH]; intros s Hs; [simpl in Hs; lia|]. destruct s; auto. apply IH. simpl in Hs. lia. Qed.
Lemma rasta_loop_impl : forall n xv x yv R c, r2 xv = R -> c2 xv = c -> r2 yv = R -> c2 yv = c -> b2 xv <> b2 yv -> forall k s z h ys,
  (s + k = R)%nat -> List.length ys = s -> (n <= List.length h)%nat -> sees2 h xv x -> owned n h yv (ys ++ repeat (repeat f0 c) (R - s)) ->
  impl n (fun h' (_ : unit) zs => sees2 h' xv x /\ (n <= List.length h')%nat /\ owned n h' yv (ys ++ zs)) h (rasta_loop xv yv z (seq s k)) (rasta_rows z (skipn s x)).
Proof.
  intros n xv x yv R c R1 C1 R2 C2 Hne. induction k as [|k IH]; intros s z h ys Hk Hy Hn Hx Ho; pose proof (sees2_shape _ _ _ Hx) as [Lx Fx].
  - rewrite skipn_all2 by lia. cbn [seq rasta_loop rasta_rows]. replace (R - s)%nat with 0%nat in Ho by lia. apply impl_ret; auto.
  - rewrite (skipn_nth _ [] x s) by lia. cbn [seq rasta_loop rasta_rows]. apply (row_impl _ _ _ _ _ _ x); auto; [lia|].
    apply impl_lift; auto. intros [y z'] Hr. pose proof (rasta_row_length _ _ _ _ Hr) as Ly. cbn [fst snd].
    rewrite Forall_forall in Fx. rewrite (Fx (nth s x [])) in Ly by (apply nth_In; lia).
    destruct (write_row_ok h yv _ s y (proj1 (proj2 Ho)) (proj2 (proj2 Ho))) as (h2 & W & O & T & S2); [lia|lia|].
    rewrite set_nth_app in S2 by lia.
    assert (HI := IH (S s) z' h2 (ys ++ [y]) ltac:(lia) ltac:(rewrite app_length; simpl; lia) ltac:(rewrite (proj1 O); auto) (only_sees _ _ _ _ _ O Hne Hx)
                    (conj (proj1 Ho) (conj T S2))).
    destruct HI as (J1 & J2 & J3). split; auto. split; [apply safe_bind; [apply write_row_safe, Ho|]; intros u h' Eu; rewrite W in Eu; inversion Eu; subst; auto|].
    rewrite exec_bind, W. destruct J3 as [(u & zs & h3 & E1 & E2 & E3)|(e & h3 & E1 & E2)]; rewrite E2; cbn [rbind]; [left|right; eauto].
    exists u, (y :: zs), h3. split; auto. split; auto. rewrite <- app_assoc in E3. exact E3.
Qed.
Lemma rasta_impl : forall h xv x, sees2 h xv x ->
  impl (List.length h) (owned (List.length h)) h (rasta_filter_mem xv) (rasta_filter x).
Proof.
  intros h xv x Hs. unfold rasta_filter_mem, rasta_filter. set (n := List.length h).
  apply impl_zeros; [auto|]. intros h1 yv G1 O1 R1 C1 B1 L1.
  match goal with |- impl _ _ _ _ ?r => replace r with (do m <- r; Ok m) by (destruct r; reflexivity) end.
  eapply impl_bind_keeps.
  - apply (rasta_loop_impl n xv x yv (r2 xv) (c2 xv) eq_refl eq_refl R1 C1 ltac:(destruct Hs; lia) (r2 xv) 0 _ h1 []); [lia|auto|lia|eapply sees2_grows; eauto|].
    rewrite Nat.sub_0_r. exact O1.
  - cbv beta. intros h2 u m _ _ (J1 & J2 & J3). apply impl_ret; auto.
Qed.
Lemma lifter_any : forall n h v m l, (n <= List.length h)%nat -> owned n h v m ->
  impl n (owned n) h (lifter_ceps_mem v l) (lifter_ceps m l).
Proof.
  intros n h v m l Hn Ho. destruct (Reqb l 0 || Rltb 10 l)%bool eqn:El.
  - unfold lifter_ceps_mem, lifter_ceps. rewrite El. apply impl_ret; auto.
  - apply (impl_lower (List.length h)); auto. eapply impl_weaken; [|apply lifter_impl; [apply Ho|auto]]. intros. eapply owned_weaken; eauto.
Qed.
Lemma ifft_shape : forall w nfft X, np_ifft w nfft = Ok X -> has_shape (map (map cabs) X) (List.length w) (Z.to_nat nfft).
Proof.
  intros w nfft X H. unfold np_ifft in H. destruct (nfft <? 1)%Z; [discriminate|]. inversion H.
  split; [rewrite !map_length; auto|]. rewrite map_map. apply Forall_map, Forall_forall. intros. rewrite !map_length, seq_length. auto.
Qed.
Lemma rastaplp_impl : forall `{Env} h sig x a order r l t fb b, sees1 h sig x -> sees_bank h fb b -> (2 <= order)%Z ->
  impl (List.length h) (owned (List.length h)) h (rastaplp_mem sig a order r l t fb) (rastaplp x (with_bank a b) order r l t).
Proof.
  intros E h sig x a order r l t fb b Hs Hb Ho. unfold rastaplp_mem, rastaplp. cbn [s_nfilts s_fbanks with_bank s_nfft s_fs s_low s_high s_scale s_approach s_pre_emph s_coeff s_window].
  destruct (_ <? _)%Z; [apply impl_raise; auto|]. set (n := List.length h).
  eapply impl_bind; [auto|apply bank_impl; eauto; intros B; apply bark_rect|]. intros h1 bv B G1 _ HB. pose proof (grows_length _ _ G1) as L1.
  eapply impl_bind; [auto|apply (framed_impl n); [auto|eapply sees1_grows; eauto]|].
  intros h2 p q G2 _ HP. apply PF_inv in HP as (fr & fv & w & wv & -> & -> & H1 & H2 & H3 & H4 & H5). pose proof (grows_length _ _ G2) as L2.
  eapply impl_bind; [lia|apply fft_mag_impl; apply H3|]. cbv beta. intros h3 mv m G3 _ [O3 M3]. pose proof (grows_length _ _ G3) as L3.
  eapply impl_bind; [lia|apply bands_impl; [apply O3|exact (sees2_grows _ _ _ _ G3 (sees2_grows _ _ _ _ G2 HB))]|]. cbv beta. intros h4 av au G4 _ [O4 M4]. pose proof (grows_length _ _ G4) as L4.
  eapply (impl_bind _ _ _ _ _ (fun h' v m => sees2 h' v m)); [lia| |].
  { unfold rasta_step. destruct r; [|apply impl_ret; [auto|apply O4]].
    also (map (map flog) au). eapply impl_bind; [auto|apply map_impl; [apply O4|intros; apply map_entries_shape; auto]|]. cbv beta. intros h5 lv lg G5 El O5. apply Ok_inj in El. subst lg. pose proof (grows_length _ _ G5) as L5.
    eapply impl_bind; [auto|apply rasta_impl; apply O5|]. cbv beta. intros h6 rv rm G6 _ O6. pose proof (grows_length _ _ G6) as L6.
    apply (impl_lower (List.length h6)); [lia|]. eapply impl_weaken; [|apply map_impl; [apply O6|intros; apply map_entries_shape; auto]]. cbv beta. intros h' v b' _ _ O. apply O. }
  cbv beta. intros h5 cv cm G5 _ H5'. pose proof (grows_length _ _ G5) as L5.
  also (map (map compressed) cm). eapply impl_bind; [lia|apply map_impl; [exact H5'|intros; apply map_entries_shape; auto]|]. cbv beta. intros h6 Lv Lm G6 El O6. apply Ok_inj in El. subst Lm. pose proof (grows_length _ _ G6) as L6.
  eapply impl_read2; [apply O6|]. apply impl_lift; [lia|]. intros X HX. pose proof (ifft_shape _ _ _ HX) as SX.
  set (inv := map (map cabs) X) in *.
  eapply impl_new; [lia|exact SX|]. intros h7 iv G7 O7 L7.
  destruct (Z.ltb_spec order 0); [lia|]. set (P := Z.to_nat order).
  set (R := r2 Lv). assert (RL : List.length inv = R) by (destruct (owned_shape _ _ _ _ O6) as [A _]; destruct SX as [B' _]; unfold R; lia).
  assert (Ri : r2 iv = R) by (destruct (owned_shape _ _ _ _ O7) as [A _]; lia).
  apply impl_zeros; [lia|]. intros h8 lcv G8 O8 R8 C8 B8 L8. apply impl_zeros; [lia|]. intros h9 ccv G9 O9 R9 C9 B9 L9.
  pose proof (owned_grows _ _ _ _ _ G9 O8) as O8'. pose proof (sees2_grows _ _ _ _ G9 (sees2_grows _ _ _ _ G8 (proj2 (proj2 O7)))) as O7'.
  assert (N1 : b2 iv <> b2 lcv) by (destruct O7 as (_ & _ & O7 & _); lia). assert (N2 : b2 iv <> b2 ccv) by (destruct O7 as (_ & _ & O7 & _); lia).
  assert (N3 : b2 lcv <> b2 ccv) by (destruct O8 as (_ & _ & O8 & _); lia).
  set (I := fun (h' : heap) (rows : list (list F)) => (n <= List.length h')%nat /\ sees2 h' iv inv /\ (exists lm, owned n h' lcv lm) /\
    owned n h' ccv (rows ++ repeat (repeat f0 P) (R - List.length rows))).
  eapply (impl_bind_keeps _ _ _ _ _ (fun h' (_ : unit) rows => I h' rows)).
  { rewrite <- RL. apply forM_mapM.
    - intros hh i ys (J1 & J2 & (lm & J3) & J4) Hy Hi. apply (row_impl _ _ _ _ _ _ inv); auto; [lia|]. unfold plp_row.
      destruct (lpc_helper (nth i inv []) (order - 1)) as [[ac e]|ex] eqn:Eh; [|apply impl_raise; auto]. cbn [pbind lift rbind].
      pose proof (lpc_helper_length _ _ _ _ Eh ltac:(lia)) as Hla. unfold zlen in Hla.
      destruct (write_row_ok hh lcv _ i ac (proj1 (proj2 J3)) (proj2 (proj2 J3))) as (hb & W1 & O1' & T1 & S1); [lia|unfold P in C8; lia|].
      pose proof (only_owned _ _ _ _ _ _ O1' (not_eq_sym N3) J4) as J4'.
      match goal with |- impl _ _ _ _ ?q => change q with (do x' <- Ok tt; (fun _ => q) x') end.
      eapply (impl_bind_keeps _ _ _ _ _ (fun h' _ _ => h' = hb)).
      { split; auto. split; [apply write_row_safe, J3|]. left. exists tt, tt, hb. auto. }
      cbv beta. intros h' u u' _ _ ->. assert (Lb : (n <= List.length hb)%nat) by (rewrite (proj1 O1'); auto).
      destruct (lpc2lpcc ac e order) as [cc|ex] eqn:Ec; [|apply impl_raise; auto]. cbn [pbind lift].
      pose proof (lpc2lpcc_length _ _ _ _ Ec) as Hlc.
      destruct (write_row_ok hb ccv _ i cc (proj1 (proj2 J4')) (proj2 (proj2 J4'))) as (hc & W2 & O2' & T2 & S2); [lia|unfold P in C9; lia|].
      split; auto. split; [apply write_row_safe, J4'|]. left. exists tt, cc, hc. split; auto. split; auto.
      rewrite Hy in S2. rewrite set_nth_app in S2 by lia. unfold I. rewrite app_length. cbn [List.length].
      replace (R - (List.length ys + 1))%nat with (R - S i)%nat by lia.
      split; [rewrite (proj1 O2'); auto|]. split; [eapply only_sees; [exact O2'|auto|]; eapply only_sees; eauto|].
      split; [|split; [apply J4|auto]]. eexists. apply (only_owned _ _ hb _ _ _ O2' N3). split; [apply J3|]. split; [exact T1|exact S1].
    - intros hh ys J. apply J.
    - unfold I. cbn [app List.length]. rewrite Nat.sub_0_r. split; [lia|]. split; [exact O7'|]. split; [eexists; exact O8'|exact O9]. }
  cbv beta. intros ha u rows Ka Hrows (J1 & J2 & _ & J4). apply mapM_length in Hrows. rewrite Hrows, RL, Nat.sub_diag in J4. cbn [repeat] in J4. rewrite app_nil_r in J4.
  eapply (impl_bind_keeps _ _ _ _ _ (owned n)).
  { destruct l as [l|]; [|apply impl_ret; auto]. apply lifter_any; auto. }
  intros hb v m' Kb _ Hv. assert (Lb : (n <= List.length hb)%nat) by (destruct Kb; lia). destruct t as [t|]; [|apply impl_ret; auto]. destruct (String.eqb t ""); [apply impl_ret; auto|].
  apply (impl_lower (List.length hb)); auto. eapply impl_weaken; [|apply norm_impl; apply Hv]. intros. eapply owned_weaken; eauto.
Qed.

(** ** slices *)
Lemma slice_index_length : forall A B (l : list A) (m : list B) i, List.length l = List.length m -> slice_index l i = slice_index m i.
Proof. intros A B l m i H. unfold slice_index, zlen. rewrite H. reflexivity. Qed.
Lemma skipn_seq : forall k s n, skipn k (seq s n) = seq (s + k) (n - k).
Proof. induction k as [|k IH]; intros s [|n]; cbn [skipn seq Nat.sub]; rewrite ?Nat.add_0_r; auto. rewrite IH. f_equal; lia. Qed.
Lemma firstn_seq : forall k s n, firstn k (seq s n) = seq s (Nat.min k n).
Proof. induction k as [|k IH]; intros s [|n]; cbn [firstn seq Nat.min]; auto. rewrite IH. auto. Qed.
Lemma slice_sees : forall h v x a b, sees1 h v x -> sees1 h (slice1 v a b) (py_slice a b x).
Proof.
  intros h v x a b Hs. pose proof (sees1_length _ _ _ Hs) as Hl. destruct Hs as [Hb Hs]. split; [exact Hb|].
  unfold slice1, py_slice. rewrite !(slice_index_length _ _ (seq 0 (n1 v)) x) by (rewrite seq_length; auto).
  set (A := slice_index x a). set (k := (slice_index x b - A)%nat). rewrite skipn_seq, firstn_seq. cbn [Nat.add].
  unfold load1 in *. cbn [b1 n1]. apply (mapM_seq _ _ NaN) in Hs as [_ Hs]. apply (mapM_seq _ _ NaN).
  rewrite seq_length. split; [rewrite firstn_length, skipn_length; lia|]. intros i Hi.
  rewrite firstn_nth_lt by lia. rewrite skipn_nth_add. rewrite <- Hs by lia. f_equal. unfold cell1. cbn [o1 s1].
  destruct (Nat.min k (n1 v - A)) eqn:Em; [lia|]. cbn [seq hd]. lia.
Qed.

(** ** compute_yin *)
Lemma mapM_combine : forall A B C (f : B -> result C) (l : list B) (idx : list A), List.length idx = List.length l ->
  mapM (fun it => f (snd it)) (combine idx l) = mapM f l.
Proof.
  induction l as [|b l IH]; intros [|a idx] H; cbn [List.length] in H; try lia; auto. cbn [combine mapM snd]. rewrite IH by lia. auto.
Qed.
Lemma impl_write1 : forall n h v x i y, (n <= List.length h)%nat -> line n h v x -> (i < n1 v)%nat ->
  impl n (fun h' (_ : unit) (_ : unit) => line n h' v (set_nth x i y) /\ only (b1 v) h h') h (write1 v i y) (Ok tt).
Proof.
  intros n h v x i y Hn Hx Hi. destruct (write1_line n h v x i y Hx Hi) as (h' & W & O & S). split; auto. split; [apply write1_safe, Hx|].
  left. exists tt, tt, h'. auto.
Qed.
Lemma set_nth_zero : forall (xs : list F) R i, List.length xs = i -> (i < R)%nat -> set_nth (xs ++ repeat f0 (R - i)) i f0 = xs ++ repeat f0 (R - i).
Proof.
  intros xs R i Hx Hi. rewrite set_nth_app by auto. rewrite <- app_assoc. f_equal. replace (R - i)%nat with (S (R - S i)) by lia. reflexivity.
Qed.
Lemma zeros1_impl : forall n A B (Q : heap -> A -> B -> Prop) h r k q, (n <= List.length h)%nat ->
  (forall h' v, grows h h' -> line n h' v (repeat f0 r) -> n1 v = r -> b1 v = List.length h -> (List.length h < List.length h')%nat -> impl n Q h' (k v) q) ->
  impl n Q h (pbind (zeros1 r) k) q.
Proof.
  intros n A B Q h r k q Hn Hk. unfold zeros1. also (repeat f0 r). eapply impl_bind; [auto|apply new1_impl; auto|].
  cbv beta. intros h' v b G E (O & B1 & N1 & L). apply Ok_inj in E. subst b. rewrite repeat_length in N1. apply Hk; auto; [eapply line_weaken; eauto|lia].
Qed.
Section YinTurn.
Variables (n : nat) (pv rv av : arr1) (R : nat).
Hypotheses (Np : n1 pv = R) (Nr : n1 rv = R) (Na : n1 av = R) (D1 : b1 pv <> b1 rv) (D2 : b1 pv <> b1 av) (D3 : b1 rv <> b1 av).
Definition filled (h : heap) (out : list (F * F * F)) : Prop :=
  line n h pv (map (fun o => fst (fst o)) out ++ repeat f0 (R - List.length out)) /\
  line n h rv (map (fun o => snd (fst o)) out ++ repeat f0 (R - List.length out)) /\
  line n h av (map snd out ++ repeat f0 (R - List.length out)).
Definition others (h h' : heap) : Prop :=
  List.length h' = List.length h /\ forall b, b <> b1 pv -> b <> b1 rv -> b <> b1 av -> buffer h' b = buffer h b.
Lemma others_only : forall h h' b, only b h h' -> b = b1 pv \/ b = b1 rv \/ b = b1 av -> others h h'.
Proof. intros h h' b (O1 & _ & O3) Hb. split; auto. intros c H1 H2 H3. apply O3. intuition congruence. Qed.
Lemma others_trans : forall a b c, others a b -> others b c -> others a c.
Proof. intros a b c [H1 H2] [H3 H4]. split; [lia|]. intros. rewrite H4, H2; auto. Qed.
Lemma filled_snoc : forall h out p r a, (List.length out < R)%nat ->
  line n h pv ((map (fun o : F * F * F => fst (fst o)) out ++ [p]) ++ repeat f0 (R - S (List.length out))) ->
  line n h rv ((map (fun o : F * F * F => snd (fst o)) out ++ [r]) ++ repeat f0 (R - S (List.length out))) ->
  line n h av ((map (fun o : F * F * F => snd o) out ++ [a]) ++ repeat f0 (R - S (List.length out))) ->
  filled h (out ++ [(p, r, a)]).
Proof.
  intros h out p r a Hl H1 H2 H3. unfold filled. rewrite !map_app, app_length. cbn [map fst snd List.length]. rewrite Nat.add_1_r. auto.
Qed.
Lemma turn_impl : forall h fv x fs tmin tmax th out, (n <= List.length h)%nat -> sees1 h fv x -> filled h out -> (List.length out < R)%nat ->
  impl n (fun h' (_ : unit) o => filled h' (out ++ [o]) /\ others h h') h
    (yin_turn fv fs tmin tmax th pv rv av (List.length out)) (yin_frame x fs tmin tmax th).
Proof.
  intros h fv x fs tmin tmax th out Hn Hx (F1 & F2 & F3) Hi. unfold yin_turn, yin_frame. set (i := List.length out) in *. cbv zeta.
  eapply impl_read1; [exact Hx|]. apply impl_lift; auto. intros c _. apply impl_lift; auto. intros p _. apply impl_lift; auto. intros am _.
  set (argm := if (tmin <? Z.of_nat am)%Z then fdiv (fZ fs) (fnat am) else f0).
  also tt. eapply (impl_bind_keeps _ _ _ _ _ (fun h' _ _ => line n h' av ((map snd out ++ [argm]) ++ repeat f0 (R - S i)) /\ (h' = h \/ only (b1 av) h h'))).
  { unfold argm. destruct (tmin <? Z.of_nat am)%Z.
    - destruct (impl_write1 n h av _ i (fdiv (fZ fs) (fnat am)) Hn F3) as (W1 & W2 & W3); [lia|]. split; auto. split; auto.
      destruct W3 as [(u & u' & h' & E1 & E2 & E3 & E4)|(e & h' & E1 & E2)]; [|discriminate]. left. exists u, u', h'. rewrite set_nth_app in E3 by (rewrite ?map_length; auto). auto.
    - apply impl_ret; auto. split; auto. rewrite <- set_nth_app by (rewrite ?map_length; auto). rewrite set_nth_zero by (rewrite ?map_length; auto). exact F3. }
  cbv beta. intros h1 u u' _ _ (A1 & A2).
  assert (L1 : (n <= List.length h1)%nat) by (destruct A2 as [->|A2]; [auto|rewrite (proj1 A2); auto]).
  assert (T1 : others h h1) by (destruct A2 as [->|A2]; [split; auto|eapply others_only; eauto]).
  assert (G1 : line n h1 pv (map (fun o => fst (fst o)) out ++ repeat f0 (R - i))) by (destruct A2 as [->|A2]; [auto|eapply only_line; eauto]).
  assert (G2 : line n h1 rv (map (fun o => snd (fst o)) out ++ repeat f0 (R - i))) by (destruct A2 as [->|A2]; [auto|eapply only_line; eauto]).
  destruct (negb (p =? 0)%Z).
  - also tt. eapply impl_bind_keeps; [apply (impl_write1 n h1 pv _ i (fdiv (fZ fs) (fZ p)) L1 G1); lia|]. cbv beta. intros h2 v v' _ _ (B1 & B2).
    rewrite set_nth_app in B1 by (rewrite ?map_length; auto). assert (L2 : (n <= List.length h2)%nat) by (rewrite (proj1 B2); auto).
    destruct (py_nth c p) as [r|e]; [|apply impl_raise; auto]. cbn [pbind lift rbind].
    pose proof (only_line _ _ _ _ _ _ B2 (not_eq_sym D1) G2) as G2'.
    destruct (write1_line n h2 rv _ i r G2') as (h3 & W & O & S); [lia|]. rewrite set_nth_app in S by (rewrite ?map_length; auto).
    split; auto. split; [apply write1_safe, G2'|]. left. exists tt, (fdiv (fZ fs) (fZ p), r, argm), h3. split; auto. split; auto.
    split; [|eapply others_trans; [exact T1|]; eapply others_trans; eapply others_only; eauto].
    apply filled_snoc; auto; [eapply only_line; eauto|]. eapply only_line; [exact O|auto|]. eapply only_line; [exact B2|auto|exact A1].
  - destruct (py_min c) as [r|e]; [|apply impl_raise; auto]. cbn [pbind lift rbind].
    destruct (write1_line n h1 rv _ i r G2) as (h3 & W & O & S); [lia|]. rewrite set_nth_app in S by (rewrite ?map_length; auto).
    split; auto. split; [apply write1_safe, G2|]. left. exists tt, (f0, r, argm), h3. split; auto. split; auto.
    split; [|eapply others_trans; [exact T1|]; eapply others_only; eauto].
    apply filled_snoc; auto; [|eapply only_line; eauto].
    rewrite <- set_nth_app by (rewrite ?map_length; auto). rewrite set_nth_zero by (rewrite ?map_length; auto). eapply only_line; eauto.
Qed.
End YinTurn.
Definition lines4 (n : nat) (h : heap) (p : arr1 * arr1 * arr1 * arr1) (q : list F * list F * list F * list F) : Prop :=
  let '(a, b, c, d) := p in let '(x, y, z, t) := q in
  line n h a x /\ line n h b y /\ line n h c z /\ line n h d t /\ NoDup [b1 a; b1 b; b1 c; b1 d].
Lemma others_sees1 : forall pv rv av h h' v x, others pv rv av h h' -> b1 v <> b1 pv -> b1 v <> b1 rv -> b1 v <> b1 av -> sees1 h v x -> sees1 h' v x.
Proof. intros pv rv av h h' v x [O1 O2] H1 H2 H3 [S1 S2]. split; [lia|]. unfold load1 in *. rewrite O2; auto. Qed.
Lemma others_line : forall pv rv av h h' n v x, others pv rv av h h' -> b1 v <> b1 pv -> b1 v <> b1 rv -> b1 v <> b1 av -> line n h v x -> line n h' v x.
Proof. intros pv rv av h h' n v x O H1 H2 H3 [S1 S2]. split; [|eapply others_sees1; eauto]. destruct O as [_ O]. rewrite O; auto. Qed.
Lemma yin_impl : forall `{Env} h sig x fs wlen whop low high th, sees1 h sig x ->
  impl (List.length h) (lines4 (List.length h)) h (compute_yin_mem sig fs wlen whop low high th) (compute_yin x fs wlen whop low high th).
Proof.
  intros E h sig x fs wlen whop low high th Hs. unfold compute_yin_mem, compute_yin. set (n := List.length h).
  destruct (Req_EM_T high 0); [apply impl_raise; auto|]. destruct (Req_EM_T low 0); [apply impl_raise; auto|]. cbv zeta.
  set (tmin := Ztrunc (rnd (IZR fs / high))). set (tmax := Ztrunc (rnd (IZR fs / low))). set (wl := Ztrunc (rnd (wlen * IZR fs))). set (ws := Ztrunc (rnd (whop * IZR fs))).
  unfold zlen. rewrite (sees1_length _ _ _ Hs). apply impl_lift; auto. intros ts _. apply impl_lift; auto. intros times _. set (R := List.length ts).
  also times. eapply impl_bind; [auto|apply new1_impl; auto|]. cbv beta. intros h1 tv tx G1 Et (T1 & BT & NT & LT). apply Ok_inj in Et. subst tx. fold n in T1, BT, LT.
  apply zeros1_impl; [lia|]. intros h2 pv G2 P2 N2 B2 L2. apply zeros1_impl; [lia|]. intros h3 rv G3 P3 N3 B3 L3. apply zeros1_impl; [lia|]. intros h4 av G4 P4 N4 B4 L4.
  assert (Hsb : (b1 sig < n)%nat) by apply Hs.
  assert (LR : (List.length h1 < List.length h3 /\ List.length h2 < List.length h3)%nat) by lia.
  pose proof (sees1_grows _ _ _ _ G4 (sees1_grows _ _ _ _ G3 (sees1_grows _ _ _ _ G2 (sees1_grows _ _ _ _ G1 Hs)))) as Hs4.
  pose proof (line_grows _ _ _ _ _ G4 (line_grows _ _ _ _ _ G3 (line_grows _ _ _ _ _ G2 T1))) as T4.
  pose proof (line_grows _ _ _ _ _ G4 (line_grows _ _ _ _ _ G3 P2)) as P24. pose proof (line_grows _ _ _ _ _ G4 P3) as P34.
  set (I := fun (h' : heap) (out : list (F * F * F)) => (n <= List.length h')%nat /\ sees1 h' sig x /\ line n h' tv times /\ filled n pv rv av R h' out).
  set (g := fun t => yin_frame (py_slice t (t + wl) x) fs tmin tmax th).
  assert (Eg : mapM (fun frame => yin_frame frame fs tmin tmax th) (map (fun t => py_slice t (t + wl) x) ts) = mapM (fun it : nat * Z => g (snd it)) (combine (seq 0 R) ts)).
  { rewrite mapM_combine by apply seq_length. rewrite mapM_map. reflexivity. }
  rewrite Eg. eapply (impl_bind_keeps _ _ _ _ _ (fun h' (_ : unit) out => I h' out)).
  - apply (forM_acc _ _ n _ _ I).
    + intros hh out it (J1 & J2 & J3 & J4) Hit.
      assert (Hlt : (List.length out < R)%nat). { assert (Hc : (List.length out < List.length (combine (seq 0 R) ts))%nat) by (apply nth_error_Some; congruence). rewrite combine_length, seq_length in Hc. unfold R in *. lia. }
      assert (Ef : fst it = List.length out).
      { apply nth_error_nth with (d := (0%nat, 0%Z)) in Hit. rewrite combine_nth in Hit by apply seq_length. rewrite seq_nth in Hit by auto. subst it. reflexivity. }
      rewrite Ef. destruct (turn_impl n pv rv av R N2 N3 N4 ltac:(lia) ltac:(lia) ltac:(lia) hh (slice1 sig (snd it) (snd it + wl)) (py_slice (snd it) (snd it + wl) x) fs tmin tmax th out J1 (slice_sees _ _ _ _ _ J2) J4 Hlt) as (W1 & W2 & W3).
      split; auto. split; auto. destruct W3 as [(u & o & h' & E1 & E2 & E3 & E4)|W3]; [left|right; auto]. exists u, o, h'. split; auto. split; auto.
      unfold I. split; [rewrite (proj1 E4); auto|]. split; [eapply others_sees1; eauto; lia|]. split; [eapply others_line; eauto; lia|auto].
    + intros hh out J. apply J.
    + unfold I, filled. cbn [map app List.length]. rewrite Nat.sub_0_r. split; [lia|]. auto.
  - intros h5 u out _ Eo (J1 & J2 & J3 & J4 & J5 & J6). apply mapM_length in Eo. rewrite combine_length, seq_length in Eo. replace (R - List.length out)%nat with 0%nat in J4, J5, J6 by (unfold R in *; lia).
    cbn [repeat] in J4, J5, J6. rewrite app_nil_r in J4, J5, J6. apply impl_ret; auto. cbn [lines4]. do 4 (split; [assumption|]).
    repeat constructor; cbn [In]; lia.
Qed.

(** ** get_dominant_frequencies *)
Lemma safe_assoc : forall n A B C (p : prog A) (f : A -> prog B) (g : B -> prog C) (k : A -> prog C),
  (forall a h, safe n (pbind (f a) g) h -> safe n (k a) h) -> forall h, safe n (pbind (pbind p f) g) h -> safe n (pbind p k) h.
Proof.
  intros n A B C p f g k Hk. induction p as [[a|e]| | |]; intros h0; cbn [pbind safe]; auto.
  - intros [H1 H2]. split; auto. destruct (_ && _)%bool; auto.
Qed.
Lemma windows_assoc : forall n A B C (Q : heap -> A -> B -> Prop) h (p : prog (arr2 * C)) (f : arr2 -> C -> prog arr2) (k : arr2 -> prog A) r,
  impl n Q h (pbind (pdo (x, y) <- p; pdo w <- f x y; ret (x, w)) (fun xw => let (_, w) := xw in k w)) r ->
  impl n Q h (pdo (x, y) <- p; pdo w <- f x y; k w) r.
Proof.
  intros n A B C Q h p f k r (H1 & H2 & H3). split; auto. split.
  - revert H2. apply safe_assoc. intros [x y] h'. apply safe_assoc. intros w h2 H. exact H.
  - rewrite !exec_bind in *. destruct (exec p h) as [[[x y]|e] h']; [|exact H3]. rewrite !exec_bind in *. destruct (exec (f x y) h') as [[w|e] h2]; exact H3.
Qed.
Lemma rows_impl : forall n h v m (g : list F -> result F), (n <= List.length h)%nat -> sees2 h v m ->
  impl n (fun h' d d' => h' = h /\ d = d') h (mapP (fun i => pdo w <- read_row v i; lift (g w)) (seq 0 (r2 v))) (mapM g m).
Proof.
  intros n h v m g Hn Hs. pose proof (sees2_shape _ _ _ Hs) as [Hl _].
  assert (HG : forall k s, (s + k = r2 v)%nat -> impl n (fun h' d d' => h' = h /\ d = d') h (mapP (fun i => pdo w <- read_row v i; lift (g w)) (seq s k)) (mapM g (skipn s m))).
  { induction k as [|k IH]; intros s Hk; [rewrite skipn_all2 by lia; apply impl_ret; auto|]. rewrite (skipn_nth _ [] m s) by lia. cbn [seq mapP mapM].
    eapply (impl_bind_keeps _ _ _ _ _ (fun h' d d' => h' = h /\ d = d')).
    - apply (row_impl _ _ _ _ _ _ m); auto; [lia|]. destruct (g (nth s m [])); [apply impl_ret; auto|apply impl_raise; auto].
    - intros h' y y' _ _ [-> ->]. eapply impl_bind_keeps; [apply IH; lia|]. cbv beta. intros h' ys ys' _ _ [-> ->]. apply impl_ret; auto. }
  apply (HG (r2 v) 0%nat). lia.
Qed.
Lemma dominant_impl : forall `{Env} h sig x fs butter nfft wlen whop wt pos, sees1 h sig x ->
  impl (List.length h) (line (List.length h)) h (dominant_mem sig fs butter nfft wlen whop wt pos) (get_dominant_frequencies x fs butter nfft wlen whop wt pos).
Proof.
  intros E h sig x fs butter nfft wlen whop wt pos Hs. unfold dominant_mem, get_dominant_frequencies. set (n := List.length h). cbv zeta.
  set (y := match butter with Some (b, a) => lfilter b a x | None => x end).
  also y. eapply (impl_bind _ _ _ _ _ (fun h' v z => sees1 h' v z)); [auto| |].
  { unfold y. destruct butter as [[b a]|]; [|apply impl_ret; auto]. eapply impl_read1; [exact Hs|]. eapply impl_weaken; [|apply new1_impl; auto]. cbv beta. intros h' v b' _ _ (O & _). apply O. }
  cbv beta. intros h1 sv z G1 Ez Hv. apply Ok_inj in Ez. subst z. pose proof (grows_length _ _ G1) as L1.
  apply windows_assoc.
  assert (Er : forall K : list (list F) -> result (list F), (do (frames, fl) <- framing y fs wlen whop; do windows <- windowing frames fl wt; K windows) =
    rbind (do (frames, fl) <- framing y fs wlen whop; do windows <- windowing frames fl wt; Ok (frames, windows)) (fun fw => let (_, w) := fw in K w)).
  { intros K. destruct (framing y fs wlen whop) as [[fr fl]|e]; [|reflexivity]. cbn [rbind]. destruct (windowing fr fl wt); reflexivity. }
  rewrite Er. eapply impl_bind; [auto|apply (impl_windows n); [auto|exact Hv]|].
  intros h2 p q G2 _ HP. apply PF_inv in HP as (fr & fv & w & wv & -> & -> & H1 & H2 & H3 & H4 & H5). pose proof (grows_length _ _ G2) as L2.
  eapply impl_bind_keeps; [apply (rows_impl n); [lia|apply H3]|]. cbv beta. intros h3 d d' _ _ [-> ->].
  apply (impl_lower (List.length h2)); [lia|]. eapply impl_weaken; [|apply new1_impl; auto]. cbv beta. intros h' v b' _ _ (O & _). eapply line_weaken; [|exact O]. lia.
Qed.

(** ** zero_handling *)
Lemma zero_impl : forall h v x, sees1 h v x -> impl (List.length h) (line (List.length h)) h (zero_handling_mem v) (Ok (zero_handling x)).
Proof.
  intros h v x Hs. unfold zero_handling_mem. eapply impl_read1; [exact Hs|]. eapply impl_weaken; [|apply new1_impl; auto]. cbv beta. tauto.
Qed.

(** ** cqt_spectrogram, cqcc, extract_feats *)
Lemma transposed_shape : forall A (d : A) m, has_shape (transposed d m) (ncols m) (List.length m).
Proof.
  intros A d m. unfold transposed. split; [rewrite map_length, seq_length; reflexivity|]. apply Forall_map, Forall_forall. intros j _. rewrite map_length. reflexivity.
Qed.
Lemma map_shape : forall A B (f : A -> B) m r c, has_shape m r c -> has_shape (map (map f) m) r c.
Proof. intros A B f m r c [H1 H2]. split; [rewrite map_length; exact H1|]. apply Forall_map. eapply Forall_impl; [|exact H2]. cbv beta. intros row Hr. rewrite map_length. exact Hr. Qed.
Lemma cqt_values_impl : forall `{Env} h sig x a, sees1 h sig x ->
  impl (List.length h) (fun h' q q' => q = q' /\ exists r c, has_shape q r c) h (cqt_values_mem sig a) (cqt_spectrogram x a).
Proof.
  intros E h sig x a Hs. unfold cqt_values_mem, cqt_spectrogram. cbv zeta. destruct (Rltb _ _); [apply impl_raise; auto|].
  eapply impl_bind; [auto|apply (framed_impl (List.length h)); [auto|exact Hs]|].
  intros h1 p q G1 _ HP. apply PF_inv in HP as (fr & fv & w & wv & -> & -> & H1 & H2 & H3 & H4 & H5). pose proof (grows_length _ _ G1) as L1.
  eapply impl_read2; [apply H3|]. destruct (compute_constant_qtransform _ _ _ _ _ _ _ _ _ _ _) as [q|e] eqn:Eq; [|apply impl_raise; lia].
  apply impl_ret; [lia|]. split; [reflexivity|]. unfold compute_constant_qtransform in Eq. destruct (cqt_frames _ _ _ _ _ _ _ _ _ _ _) as [m|e]; [|discriminate].
  apply Ok_inj in Eq. subst q. eexists _, _. apply transposed_shape.
Qed.
Lemma cqt_impl : forall `{Env} h sig x a, sees1 h sig x ->
  impl (List.length h) (PL (List.length h)) h (cqt_spectrogram_mem sig a) (rmap (fun q => (map (map fst) q, map (map snd) q)) (cqt_spectrogram x a)).
Proof.
  intros E h sig x a Hs. unfold cqt_spectrogram_mem.
  replace (rmap _ _) with (do q <- cqt_spectrogram x a; Ok (map (map (@fst F F)) q, map (map (@snd F F)) q)) by (destruct (cqt_spectrogram x a); reflexivity).
  eapply impl_bind; [auto|apply cqt_values_impl; exact Hs|]. cbv beta. intros h1 q q' G1 _ [-> (r & c & S1)]. pose proof (grows_length _ _ G1) as L1.
  eapply impl_new; [lia|exact (map_shape _ _ fst _ _ _ S1)|]. intros h2 rv G2 O2 L2. pose proof (grows_length _ _ G2).
  eapply impl_new; [lia|exact (map_shape _ _ snd _ _ _ S1)|]. intros h3 iv G3 O3 L3. apply impl_ret; [lia|]. unfold PL. cbn [fst snd].
  pose proof (owned_grows _ _ _ _ _ G3 O2) as O2'. split; [eapply owned_weaken; [|exact O2']; lia|]. split; [eapply owned_weaken; [|exact O3]; lia|].
  destruct O2 as (_ & _ & B2 & _). destruct O3 as (B3 & _). lia.
Qed.
Lemma cqcc_impl : forall `{Env} h sig x a ratio c, sees1 h sig x ->
  impl (List.length h) (owned (List.length h)) h (cqcc_mem sig a ratio c) (cqcc x a ratio c).
Proof.
  intros E h sig x a ratio c Hs. unfold cqcc_mem, cqcc. set (n := List.length h).
  eapply impl_bind; [auto|apply cqt_values_impl; exact Hs|]. cbv beta zeta. intros h1 q q' G1 _ [-> (r & k & S1)]. pose proof (grows_length _ _ G1) as L1.
  eapply impl_new; [lia|exact (map_shape _ _ (fun z => fpown (cabs z) 2) _ _ _ S1)|]. intros h2 pv G2 O2 L2. set (P := map (map (fun z => fpown (cabs z) 2)) q') in *.
  match goal with |- impl _ _ _ _ ?rhs => change rhs with (do l <- Ok (log_features P);
    do r0 <- resample (transposed NaN l) (Ztrunc (rnd (INR (List.length (transposed NaN l)) * ratio)));
    finish (mkC (c_num_ceps c) (c_dct_type c) false (c_lifter c) (c_normalize c)) (q_nfft a) r0 []) end.
  eapply impl_bind; [lia|apply map_impl; [apply O2|intros; apply log_shape; auto]|]. cbv beta. intros h3 lv l G3 El O3. pose proof (grows_length _ _ G3) as L3.
  eapply impl_read2; [apply O3|]. apply impl_lift; [lia|]. intros R HR.
  assert (SR : has_shape R (List.length R) (ncols (transposed NaN l)) /\ (0 < List.length R)%nat).
  { unfold resample in HR. destruct (_ <? 1)%Z eqn:E1; [discriminate|]. apply Z.ltb_ge in E1. apply Ok_inj in HR. subst R. split.
    - split; [reflexivity|]. apply Forall_map, Forall_forall. intros t _. rewrite map_length, seq_length. reflexivity.
    - rewrite map_length, seq_length. lia. }
  eapply impl_new; [lia|apply SR|]. intros h4 Rv G4 O4 L4.
  match goal with |- impl _ _ _ _ (finish ?c ?k R []) => change (finish c k R []) with (finish c k R R) end.
  apply finish_impl; [lia|apply O4|apply O4|reflexivity|apply SR].
Qed.
Lemma feats_impl : forall h sig x fs nfft numbers, sees1 h sig x ->
  impl (List.length h) (line (List.length h)) h (extract_feats_mem sig fs nfft numbers) (rmap numbers (extract_feats x fs nfft)).
Proof.
  intros h sig x fs nfft numbers Hs. unfold extract_feats_mem. eapply impl_read1; [exact Hs|]. destruct (extract_feats x fs nfft) as [f|e]; [|apply impl_raise; auto].
  cbn [lift pbind rmap]. eapply impl_weaken; [|apply new1_impl; auto]. cbv beta. tauto.
Qed.
