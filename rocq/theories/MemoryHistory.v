(** * Value semantics of histories *)
From Coq Require Import Reals ZArith List String Bool Lia Lra.
From Flocq Require Import Core.Raux.
From Verif Require Import Base BaseFacts Cplx SpecBase SpecMat SpecFilters MatFacts Preprocessing PreprocessingFacts Filters FiltersFacts
  Cepstral CepstralFacts MelBanks MelBanksFacts BarkBank Gammatone Fourier Features FeaturesFacts FeaturesMore Extractors LinAlg Lpc LpcLaws
  SpecMemory Memory MemoryFacts MemoryLaws MemoryClient MemoryRuns MemoryLoops MemoryMore MemoryMoreFacts.
Import ListNotations.

(** ** exceptions caught *)
Lemma exec_attempt : forall A (p : prog A) h, exec (attempt p) h = (Ok (fst (exec p h)), snd (exec p h)).
Proof.
  intros A p. induction p as [r|d q IH|b i q IH|b i x q IH]; intros h; cbn [attempt exec]; auto. destruct (_ && _)%bool; auto.
Qed.
Lemma safe_attempt : forall n A (p : prog A) h, safe n p h -> safe n (attempt p) h.
Proof.
  intros n A p. induction p as [r|d q IH|b i q IH|b i x q IH]; intros h Hs; cbn [attempt safe] in *; auto.
  destruct Hs as [Hb Hs]. split; auto. destruct (_ && _)%bool; auto.
Qed.

(** ** what a handle shows *)
(** not self-overlapping, from buffer n on *)
Definition own (n : nat) (h : heap) (hd : handle) : Prop :=
  match hd with
  | H1 a => (n <= b1 a)%nat /\ o1 a = 0%Z /\ s1 a = 1%Z /\ (Z.of_nat (n1 a) <= zlen (buffer h (b1 a)))%Z
  | H2 a => (n <= b2 a)%nat /\ tidy h a
  end.
Lemma shows_buf : forall h hd v, shows h hd v -> (buf hd < List.length h)%nat.
Proof. intros h [a|a] [x|m] H; simpl in *; try tauto; apply H. Qed.
Lemma shows_grows : forall h h' hd v, grows h h' -> shows h hd v -> shows h' hd v.
Proof. intros h h' [a|a] [x|m] Hg H; simpl in *; auto; [eapply sees1_grows|eapply sees2_grows]; eauto. Qed.
Lemma own_grows : forall n h h' hd, grows h h' -> (buf hd < List.length h)%nat -> own n h hd -> own n h' hd.
Proof.
  intros n h h' [a|a] Hg Hb H; simpl in *.
  - rewrite (grows_buffer h h'); auto.
  - destruct H. split; auto. eapply tidy_grows; eauto.
Qed.
Lemma shows_only : forall b h h' hd v, only b h h' -> buf hd <> b -> shows h hd v -> shows h' hd v.
Proof. intros b h h' [a|a] [x|m] O Hb H; simpl in *; auto; [eapply only_sees1|eapply only_sees]; eauto. Qed.
Lemma own_only : forall n b h h' hd, only b h h' -> own n h hd -> own n h' hd.
Proof.
  intros n b h h' [a|a] O H; simpl in *.
  - destruct O as (_ & O2 & O3). destruct (Nat.eq_dec (b1 a) b) as [Eb|Hb]; [rewrite Eb in *; unfold zlen in *; rewrite O2; auto|rewrite O3; auto].
  - destruct H. split; auto. eapply only_tidy; eauto.
Qed.

(** ** the invariant: the first s arrays are views of the first n buffers, the others are apart *)
Record Inv (n s : nat) (h : heap) (hs : list handle) (st : list value) : Prop := {
  inv_n : (n <= List.length h)%nat;
  inv_s : (s <= List.length hs)%nat;
  inv_shows : Forall2 (shows h) hs st;
  inv_shared : Forall (fun hd => (buf hd < n)%nat) (firstn s hs);
  inv_own : Forall (own n h) (skipn s hs);
  inv_apart : NoDup (map buf (skipn s hs)) }.
Lemma inv_grows : forall n s h h' hs st, grows h h' -> Inv n s h hs st -> Inv n s h' hs st.
Proof.
  intros n s h h' hs st Hg [H1 H2 H3 H4 H5 H6]. pose proof (grows_length _ _ Hg). constructor; auto; try lia.
  - clear -H3 Hg. induction H3; constructor; auto. eapply shows_grows; eauto.
  - rewrite Forall_forall in *. intros hd Hd. eapply own_grows; eauto.
    assert (Hin : In hd hs) by (rewrite <- (firstn_skipn s hs); apply in_or_app; auto).
    clear -H3 Hin. induction H3; [inversion Hin|]. destruct Hin as [->|Hin]; auto. eapply shows_buf; eauto.
Qed.
(** new arrays at the end *)
Lemma inv_add : forall n s h h' hs st hd v, Inv n s h hs st -> grows h h' -> shows h' hd v -> own n h' hd -> (List.length h <= buf hd)%nat ->
  Inv n s h' (hs ++ [hd]) (st ++ [v]).
Proof.
  intros n s h h' hs st hd v I Hg Hs Ho Hb. pose proof (inv_grows _ _ _ _ _ _ Hg I) as [H1 H2 H3 H4 H5 H6]. constructor; auto.
  - rewrite app_length. lia.
  - apply Forall2_app; auto.
  - rewrite List.firstn_app. replace (s - List.length hs)%nat with 0%nat by lia. rewrite app_nil_r. auto.
  - rewrite List.skipn_app. replace (s - List.length hs)%nat with 0%nat by lia. apply Forall_app. split; [auto|cbn [skipn]; auto].
  - rewrite List.skipn_app. replace (s - List.length hs)%nat with 0%nat by lia. rewrite map_app. apply NoDup_append; auto.
    + simpl. constructor; [simpl; tauto|constructor].
    + intros b Hb1 [Hb2|[]]. subst b. apply in_map_iff in Hb1 as (hd' & Eb & Hin).
      assert (Hin' : In hd' hs) by (rewrite <- (firstn_skipn s hs); apply in_or_app; auto).
      destruct I as [_ _ K _ _ _]. assert (Hlt : (buf hd' < List.length h)%nat).
      { clear -K Hin'. induction K; [inversion Hin'|]. destruct Hin' as [->|Hin']; auto. eapply shows_buf; eauto. }
      lia.
Qed.
Lemma inv_adds : forall n s h h' hs st new vals, Inv n s h hs st -> grows h h' -> Forall2 (shows h') new vals -> Forall (own n h') new ->
  Forall (fun hd => List.length h <= buf hd)%nat new -> NoDup (map buf new) -> Inv n s h' (hs ++ new) (st ++ vals).
Proof.
  intros n s h h' hs st new vals I Hg Hs Ho Hb Hd. pose proof (inv_grows _ _ _ _ _ _ Hg I) as [H1 H2 H3 H4 H5 H6]. constructor; auto.
  - rewrite app_length. lia.
  - apply Forall2_app; auto.
  - rewrite List.firstn_app. replace (s - List.length hs)%nat with 0%nat by lia. rewrite app_nil_r. auto.
  - rewrite List.skipn_app. replace (s - List.length hs)%nat with 0%nat by lia. apply Forall_app. split; [auto|cbn [skipn]; auto].
  - rewrite List.skipn_app. replace (s - List.length hs)%nat with 0%nat by lia. cbn [skipn]. rewrite map_app. apply NoDup_append; auto.
    intros b Hb1 Hb2. apply in_map_iff in Hb1 as (hd' & Eb & Hin). apply in_map_iff in Hb2 as (hd2 & Eb2 & Hin2).
    assert (Hin' : In hd' hs) by (rewrite <- (firstn_skipn s hs); apply in_or_app; auto).
    destruct I as [_ _ K _ _ _]. assert (Hlt : (buf hd' < List.length h)%nat).
    { clear -K Hin'. induction K; [inversion Hin'|]. destruct Hin' as [->|Hin']; auto. eapply shows_buf; eauto. }
    rewrite Forall_forall in Hb. specialize (Hb hd2 Hin2). cbv beta in Hb. lia.
Qed.
Lemma Forall2_nth : forall A B (R : A -> B -> Prop) l m k, Forall2 R l m ->
  match nth_error l k, nth_error m k with Some x, Some y => R x y | None, None => True | _, _ => False end.
Proof. intros A B R l m k H. revert k. induction H; intros [|k]; simpl; auto. apply IHForall2. Qed.
Lemma hvec_vec : forall h hs st k, Forall2 (shows h) hs st ->
  (exists a x, hvec hs k = Ok a /\ vec st k = Ok x /\ sees1 h a x) \/ (hvec hs k = Raise TypeError /\ vec st k = Raise TypeError).
Proof.
  intros h hs st k H. apply (Forall2_nth _ _ _ _ _ k) in H. unfold hvec, vec.
  destruct (nth_error hs k) as [[a|a]|], (nth_error st k) as [[x|m]|]; simpl in H; try tauto; auto. left. eauto.
Qed.
Lemma hmat_mat : forall h hs st k, Forall2 (shows h) hs st ->
  (exists a x, hmat hs k = Ok a /\ mat st k = Ok x /\ sees2 h a x) \/ (hmat hs k = Raise TypeError /\ mat st k = Raise TypeError).
Proof.
  intros h hs st k H. apply (Forall2_nth _ _ _ _ _ k) in H. unfold hmat, mat.
  destruct (nth_error hs k) as [[a|a]|], (nth_error st k) as [[x|m]|]; simpl in H; try tauto; auto. left. eauto.
Qed.
Lemma hopt_opt : forall h hs st fb, Forall2 (shows h) hs st ->
  (exists a x, hopt hs fb = Ok a /\ optmat st fb = Ok x /\ sees_bank h a x) \/ (hopt hs fb = Raise TypeError /\ optmat st fb = Raise TypeError).
Proof.
  intros h hs st [k|] H; unfold hopt, optmat; [|left; exists None, None; simpl; auto].
  destruct (hmat_mat h hs st k H) as [(a & x & -> & -> & Hs)|[-> ->]]; simpl; [left|right; auto]. exists (Some a), (Some x). auto.
Qed.

(** ** one action *)
Definition agrees (n s : nat) (hs : list handle) (st : list value) (h : heap) (p : prog (list handle)) (r : result (list value)) : Prop :=
  safe n p h /\
  ((exists hs' st' h', exec p h = (Ok hs', h') /\ r = Ok st' /\ Inv n s h' hs' st') \/
   (exists e h', exec p h = (Raise e, h') /\ r = Raise e /\ Inv n s h' hs st)).
Lemma impl_agrees : forall n s h hs st p r, Inv n s h hs st ->
  impl (List.length h) (fun h' hs' st' => Inv n s h' hs' st') h p r -> agrees n s hs st h p r.
Proof.
  intros n s h hs st p r I (H1 & H2 & H3). split; [eapply safe_weaken; [apply I|eauto]|]. pose proof (safe_grows _ _ _ H2) as Hg.
  destruct H3 as [(a & b & h' & E1 & E2 & E3)|(e & h' & E1 & E2)]; [left; eauto 9|right]. rewrite E1 in Hg. exists e, h'.
  split; auto. split; auto. eapply inv_grows; eauto.
Qed.
Lemma agrees_raise : forall n s h hs st e, Inv n s h hs st -> agrees n s hs st h (lift (Raise e)) (Raise e).
Proof. intros. split; [exact I|]. right. exists e, h. auto. Qed.
(** a call with one new matrix *)
Lemma call_mat : forall n s h hs st (p : prog arr2) r, Inv n s h hs st ->
  impl (List.length h) (owned (List.length h)) h p r ->
  agrees n s hs st h (pdo w <- p; ret (hs ++ [H2 w])) (do w <- r; Ok (st ++ [V2 w])).
Proof.
  intros n s h hs st p r I Hp. apply impl_agrees; auto. eapply impl_bind; [auto|exact Hp|]. intros h' a b Hg _ Ho.
  pose proof (grows_length _ _ Hg). apply impl_ret; auto. eapply inv_add; eauto; [apply Ho|split; [|apply Ho]|apply Ho].
  destruct Ho as (Ho & _). destruct I. lia.
Qed.
(** a call with two new matrices *)
Lemma call_two : forall n s h hs st (p : prog (arr2 * arr2)) r, Inv n s h hs st ->
  impl (List.length h) (PL (List.length h)) h p r ->
  agrees n s hs st h (pdo (f, m) <- p; ret (hs ++ [H2 f; H2 m])) (do (f, m) <- r; Ok (st ++ [V2 f; V2 m])).
Proof.
  intros n s h hs st p r I Hp. apply impl_agrees; auto. eapply impl_bind; [auto|exact Hp|]. intros h' [f m] [fv mv] Hg _ (Ho1 & Ho2 & Hb). cbn [fst snd] in *.
  pose proof (grows_length _ _ Hg). apply impl_ret; auto.
  pose proof (inv_grows _ _ _ _ _ _ Hg I) as [K1 K2 K3 K4 K5 K6]. pose proof (inv_n _ _ _ _ _ I).
  assert (Hno : forall b, (List.length h <= b)%nat -> ~ In b (map buf (skipn s hs))).
  { intros b Hlb Hin. apply in_map_iff in Hin as (hd' & Eb & Hin).
    assert (Hin' : In hd' hs) by (rewrite <- (firstn_skipn s hs); apply in_or_app; auto).
    destruct I as [_ _ K _ _ _]. assert (Hlt : (buf hd' < List.length h)%nat).
    { clear -K Hin'. induction K; [inversion Hin'|]. destruct Hin' as [->|Hin']; auto. eapply shows_buf; eauto. }
    lia. }
  constructor.
  - lia.
  - rewrite app_length. lia.
  - apply Forall2_app; auto. constructor; [apply Ho1|]. constructor; [apply Ho2|constructor].
  - rewrite List.firstn_app. replace (s - List.length hs)%nat with 0%nat by lia. rewrite app_nil_r. auto.
  - rewrite List.skipn_app. replace (s - List.length hs)%nat with 0%nat by lia. apply Forall_app. split; [auto|cbn [skipn]].
    constructor; [|constructor; [|constructor]]; (split; [|first [apply Ho1|apply Ho2]]); destruct Ho1 as (Ho1 & _), Ho2 as (Ho2 & _); lia.
  - rewrite List.skipn_app. replace (s - List.length hs)%nat with 0%nat by lia. rewrite map_app. apply NoDup_append; auto.
    + simpl. constructor; [simpl; intuition congruence|]. constructor; [simpl; tauto|constructor].
    + intros b Hb1 Hb2. revert Hb1. apply Hno. simpl in Hb2. destruct Ho1 as (Ho1 & _), Ho2 as (Ho2 & _). intuition lia.
Qed.
(** a call with one new vector *)
Lemma call_vec : forall n s h hs st (p : prog arr1) r, Inv n s h hs st ->
  impl (List.length h) (line (List.length h)) h p r ->
  agrees n s hs st h (pdo w <- p; ret (hs ++ [H1 w])) (do w <- r; Ok (st ++ [V1 w])).
Proof.
  intros n s h hs st p r I Hp. apply impl_agrees; auto. eapply impl_bind; [auto|exact Hp|]. intros h' a b Hg _ ((O1 & O2) & O3).
  pose proof (grows_length _ _ Hg). apply impl_ret; auto. eapply inv_add; eauto. split; auto. destruct I. lia.
Qed.
(** a call with four new vectors *)
Lemma call_four : forall n s h hs st (p : prog (arr1 * arr1 * arr1 * arr1)) r, Inv n s h hs st ->
  impl (List.length h) (lines4 (List.length h)) h p r ->
  agrees n s hs st h (pdo (abc, d) <- p; let '(a, b, c) := abc in ret (hs ++ [H1 a; H1 b; H1 c; H1 d]))
    (do (abc, d) <- r; let '(a, b, c) := abc in Ok (st ++ [V1 a; V1 b; V1 c; V1 d])).
Proof.
  intros n s h hs st p r I Hp. apply impl_agrees; auto. eapply impl_bind; [auto|exact Hp|]. intros h' [[[a b] c] d] [[[x y] z] t] Hg _ (O1 & O2 & O3 & O4 & HD).
  pose proof (grows_length _ _ Hg). pose proof (inv_n _ _ _ _ _ I). apply impl_ret; auto. eapply inv_adds; eauto.
  - repeat constructor; first [apply O1|apply O2|apply O3|apply O4].
  - destruct O1 as [O1 _], O2 as [O2 _], O3 as [O3 _], O4 as [O4 _]. repeat (apply Forall_cons; [cbn; intuition lia|]). constructor.
  - destruct O1 as [O1 _], O2 as [O2 _], O3 as [O3 _], O4 as [O4 _]. repeat (apply Forall_cons; [cbn; lia|]). constructor.
Qed.
