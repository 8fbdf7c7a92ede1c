(** * psrcc, lpc and lpcc on a heap: loops and assignments in place *)
From Coq Require Import Reals ZArith List String Bool Lia.
From Flocq Require Import Core.Raux.
From Verif Require Import Base BaseFacts Cplx SpecBase SpecMat SpecFilters MatFacts Preprocessing PreprocessingFacts Filters FiltersFacts
  Cepstral CepstralFacts MelBanks MelBanksFacts BarkBank Gammatone Fourier Features FeaturesFacts FeaturesMore Extractors LinAlg Lpc LpcLaws InvarianceFacts InvarianceMore
  SpecMemory Memory MemoryFacts MemoryLaws MemoryClient MemoryRuns.
Import ListNotations.

Lemma where_impl : forall n h v m mask x, (n <= List.length h)%nat -> owned n h v m ->
  impl n (fun h' (_ : unit) m' => owned n h' v m') h (write_where v mask x) (Ok (map (map (fun y => if mask y then x else y)) m)).
Proof.
  intros n h v m mask x Hn (H1 & H2 & H3). split; auto.
  split; [eapply pokes_safe; [|apply pokes_write_where]; intros b <-; auto|].
  destruct (write_where_ok h v m mask x H2 H3) as (h' & W & O & T & S). left. eexists _, _, h'. split; [exact W|]. split; [reflexivity|].
  split; auto.
Qed.
Lemma psrcc_impl : forall `{Env} h sig x a g c fb b, sees1 h sig x -> sees_bank h fb b ->
  impl (List.length h) (owned (List.length h)) h (psrcc_mem sig a g c fb) (psrcc x (with_bank a b) g c).
Proof.
  intros E h sig x a g c fb b Hs Hb. unfold psrcc_mem, psrcc. cbn [s_nfilts s_fbanks with_bank s_nfft s_fs s_low s_high s_scale s_approach s_pre_emph s_coeff s_window].
  destruct (_ <? _)%Z; [apply impl_raise; auto|].
  eapply impl_bind; [auto|apply bank_impl; eauto; intros B; apply mel_rect|]. intros h1 bv B G1 _ HB. pose proof (grows_length _ _ G1) as L1.
  eapply impl_bind; [auto|apply (framed_impl (List.length h)); [auto|eapply sees1_grows; eauto]|].
  intros h2 p q G2 _ HP. apply PF_inv in HP as (fr & fv & w & wv & -> & -> & H1 & H2 & H3 & H4 & H5). pose proof (grows_length _ _ G2) as L2.
  eapply impl_read2; [apply H3|]. unfold psrcc_features.
  destruct (np_rfft w (s_nfft a)) as [X|e] eqn:EX; cbn [rbind]; [|apply impl_raise; lia]. cbn [pbind lift].
  eapply impl_read2; [eapply sees2_grows; eauto|].
  destruct (np_dot_T _ B) as [d|e] eqn:Ed; cbn [rbind]; [|apply impl_raise; lia]. cbn [pbind lift].
  pose proof (dot_shape _ _ _ _ _ Ed) as Hd. pose proof (rfft_shape _ _ _ EX) as HX.
  assert (LX : List.length X = List.length w) by (destruct HX as [HX _]; rewrite map_length in HX; auto).
  set (m0 := map (map (fun v => fpow v g)) d). assert (Hm0 : has_shape m0 (List.length X) (List.length B)) by (apply map_entries_shape; auto).
  set (m1 := map (map (fun v => if is_nan v then f0 else v)) m0).
  match goal with |- impl _ _ _ _ ?q => change q with (do m' <- Ok m0; (fun _ => q) m') end.
  eapply impl_bind; [lia|exact (impl_new2 _ _ _ _ _ (le_n _) Hm0)|]. cbv beta. intros h3 mv m' G3 Em [Hm _]. apply Ok_inj in Em. subst m'. pose proof (grows_length _ _ G3) as L3.
  match goal with |- impl _ _ _ _ ?q => change q with (do m' <- Ok m1; (fun _ => q) m') end.
  eapply impl_bind_keeps; [apply where_impl; [lia|eapply owned_weaken; [|exact Hm]; lia]|]. cbv beta. intros h4 u m' K4 Em H4'. apply Ok_inj in Em. subst m'.
  change (map (map (fun y => if is_nan y then f0 else y)) m0) with m1 in H4'.
  eapply impl_read2; [apply H4'|]. destruct K4 as [K4 _].
  destruct (fmaxl (List.concat m1)) as [mx|e]; cbn [rbind]; [|apply impl_raise; lia]. cbn [pbind lift].
  set (m2 := map (map (fun v => if is_inf v then mx else v)) m1).
  match goal with |- impl _ _ _ _ ?q => change q with (do m' <- Ok m2; (fun _ => q) m') end.
  eapply impl_bind_keeps; [apply where_impl; [lia|exact H4']|]. cbv beta. intros h5 u' m' K5 Em H5'. apply Ok_inj in Em. subst m'.
  change (map (map (fun y => if is_inf y then mx else y)) m1) with m2 in H5'. destruct K5 as [K5 _].
  match goal with |- impl _ _ _ _ ?q => change q with (do m' <- Ok (map (map cabs) X); (fun _ => q) m') end.
  eapply impl_bind; [lia|exact (impl_new2 _ _ _ _ _ (le_n _) HX)|]. cbv beta. intros h6 gv gm G6 Eg [Hg _]. apply Ok_inj in Eg. subst gm. pose proof (grows_length _ _ G6).
  assert (Lm : List.length m2 = List.length X) by (unfold m2, m1; rewrite !map_length; apply Hm0).
  apply finish_impl; [lia|eapply sees2_grows; [exact G6|apply H5']|apply Hg|rewrite map_length; lia|lia].
Qed.

(** ** a loop over the frames *)
Lemma forM_mapM : forall B n (body : nat -> prog unit) (g : list F -> result B) (fr : list (list F)) (I : heap -> list B -> Prop),
  (forall h i ys, I h ys -> List.length ys = i -> (i < List.length fr)%nat ->
     impl n (fun h' (_ : unit) y => I h' (ys ++ [y])) h (body i) (g (nth i fr []))) ->
  (forall h ys, I h ys -> (n <= List.length h)%nat) ->
  forall h, I h [] -> impl n (fun h' (_ : unit) ys => I h' ys) h (forM (seq 0 (List.length fr)) body) (mapM g fr).
Proof.
  intros B n body g fr I Hbody Hn.
  assert (HG : forall k s h ys, (s + k = List.length fr)%nat -> List.length ys = s -> I h ys ->
    impl n (fun h' (_ : unit) zs => I h' (ys ++ zs)) h (forM (seq s k) body) (mapM g (skipn s fr))).
  { induction k as [|k IH]; intros s h ys Hk Hy HI.
    - rewrite skipn_all2 by lia. cbn [seq forM mapM]. apply impl_ret; [eauto|]. rewrite app_nil_r. auto.
    - assert (E : skipn s fr = nth s fr [] :: skipn (S s) fr).
      { clear -Hk. revert s Hk. induction fr as [|r fr IH]; intros s Hk; [simpl in Hk; lia|]. destruct s; auto. apply IH. simpl in Hk. lia. }
      rewrite E. cbn [seq forM mapM]. eapply impl_bind_keeps; [apply Hbody; eauto; lia|].
      cbv beta. intros h' u y K _ HI'. assert (Hl : List.length (ys ++ [y]) = S s) by (rewrite app_length; simpl; lia).
      specialize (IH (S s) h' (ys ++ [y]) ltac:(lia) Hl HI'). destruct IH as (J1 & J2 & J3). split; auto. split; auto.
      destruct J3 as [(a & zs & h2 & E1 & E2 & E3)|(e & h2 & E1 & E2)]; rewrite E2; cbn [rbind]; [left|right; eauto].
      exists a, (y :: zs), h2. split; auto. split; auto. rewrite <- app_assoc in E3. exact E3. }
  intros h HI. apply (HG (List.length fr) 0%nat h []); auto.
Qed.
Lemma skipn_past : forall A (xs : list A) z t, skipn (S (List.length xs)) (xs ++ z :: t) = t.
Proof. induction xs as [|a xs IH]; intros z t; [reflexivity|]. exact (IH z t). Qed.
Lemma set_nth_app : forall A (xs : list A) z R i y, List.length xs = i -> (i < R)%nat ->
  set_nth (xs ++ repeat z (R - i)) i y = (xs ++ [y]) ++ repeat z (R - S i).
Proof.
  intros A xs z R i y Hx Hi. unfold set_nth. replace (R - i)%nat with (S (R - S i)) by lia. cbn [repeat].
  rewrite firstn_app, Hx, Nat.sub_diag. cbn [firstn]. rewrite app_nil_r, (firstn_all2 xs) by lia.
  replace (skipn (S i) (xs ++ z :: repeat z (R - S i))) with (repeat z (R - S i)).
  - rewrite <- app_assoc. reflexivity.
  - subst i. rewrite skipn_past. reflexivity.
Qed.
Lemma exec_row : forall h v m i, sees2 h v m -> (i < r2 v)%nat -> exec (read_row v i) h = (Ok (nth i m []), h).
Proof.
  intros h v m i [_ Hl] Hi. rewrite exec_read_row. f_equal. unfold load2 in Hl. apply (mapM_seq _ _ []) in Hl as [_ Hl]. apply Hl. auto.
Qed.
Lemma row_impl : forall n A B (Q : heap -> A -> B -> Prop) h v m i k r, sees2 h v m -> (i < r2 v)%nat ->
  impl n Q h (k (nth i m [])) r -> impl n Q h (pbind (read_row v i) k) r.
Proof.
  intros n A B Q h v m i k r Hs Hi (Hn & Hsafe & H). split; auto. rewrite exec_bind, (exec_row _ _ _ _ Hs Hi). split; auto.
  apply safe_bind; [apply (pokes_safe (fun _ => False)); [tauto|apply pokes_read_row]|].
  intros a h' E. rewrite (exec_row _ _ _ _ Hs Hi) in E. inversion E; subst. auto.
Qed.
Lemma write_row_safe : forall n h v i xs, (n <= b2 v)%nat -> safe n (write_row v i xs) h.
Proof. intros. eapply pokes_safe; [|apply pokes_write_row]. intros b <-. auto. Qed.
Lemma only_owned : forall n b h h' v m, only b h h' -> b2 v <> b -> owned n h v m -> owned n h' v m.
Proof. intros n b h h' v m O Hb (H1 & H2 & H3). split; auto. split; [eapply only_tidy; eauto|eapply only_sees; eauto]. Qed.

(** the two arrays returned by lpc *)
Definition PL (n : nat) (h : heap) (p : arr2 * arr2) (q : list (list F) * list (list F)) : Prop :=
  owned n h (fst p) (fst q) /\ owned n h (snd p) (snd q) /\ b2 (fst p) <> b2 (snd p).
Lemma zeros_impl : forall h r c,
  exists v h', exec (zeros2 r c) h = (Ok v, h') /\ grows h h' /\ owned (List.length h) h' v (repeat (repeat f0 c) r) /\ r2 v = r /\ c2 v = c /\ b2 v = List.length h /\
  forall A B n (Q : heap -> A -> B -> Prop) k q, (n <= List.length h)%nat -> impl n Q h' (k v) q -> impl n Q h (pbind (zeros2 r c) k) q.
Proof.
  intros h r c. destruct (zeros2_owned h r c) as (v & h' & H1 & H2 & H3 & H4 & H5 & H6 & H7). exists v, h'. do 6 (split; [assumption|]).
  intros A B n Q k q Hn (K1 & K2 & K3). split; auto. split; [apply safe_bind; [exact I|]; intros a h1 E1; rewrite H1 in E1; inversion E1; subst; auto|].
  rewrite exec_bind, H1. exact K3.
Qed.
Lemma lpc_impl : forall `{Env} h sig x fs order pe co w, sees1 h sig x -> (2 <= order)%Z ->
  impl (List.length h) (PL (List.length h)) h (lpc_mem sig fs order pe co w) (lpc x fs order pe co w).
Proof.
  intros E h sig x fs order pe co w Hs Ho. unfold lpc_mem, lpc. set (n := List.length h).
  eapply impl_bind; [auto|apply (framed_impl n); [auto|eauto]|].
  intros h2 p q G2 _ HP. apply PF_inv in HP as (fr & fv & ws & wv & -> & -> & H1 & H2 & H3 & H4 & H5). pose proof (grows_length _ _ G2) as L2.
  destruct (Z.ltb_spec (order - 1 + 1) 0); [lia|]. set (P := Z.to_nat (order - 1 + 1)).
  assert (Rw : r2 wv = List.length fr) by (destruct (owned_shape _ _ _ _ H3) as [<- _]; auto).
  assert (Rf : r2 fv = List.length fr) by (destruct (sees2_shape _ _ _ H1) as [<- _]; auto).
  rewrite Rw, Rf. set (R := List.length fr) in *.
  destruct (zeros_impl h2 R P) as (av & h3 & _ & G3 & A1 & A2 & A3 & A4 & HA). apply HA; [unfold n; lia|]. clear HA. pose proof (grows_length _ _ G3) as L3.
  destruct (zeros_impl h3 R 1) as (ev & h4 & _ & G4 & E1 & E2 & E3 & E4 & HE). apply HE; [unfold n; lia|]. clear HE. pose proof (grows_length _ _ G4) as L4.
  set (I := fun (h' : heap) (rows : list (list F * F)) => (n <= List.length h')%nat /\ sees2 h' fv fr /\
    owned n h' av (map fst rows ++ repeat (repeat f0 P) (R - List.length rows)) /\
    owned n h' ev (map (fun ae => [snd ae]) rows ++ repeat [f0] (R - List.length rows))).
  assert (Hbfa : b2 fv <> b2 av) by (destruct H1; lia). assert (Hbfe : b2 fv <> b2 ev) by (destruct H1; lia).
  assert (Hbae : b2 av <> b2 ev) by (destruct A1 as (_ & _ & A1 & _); lia).
  apply (impl_bind_keeps _ _ _ _ _ (fun h' (_ : unit) rows => I h' rows)).
  { apply forM_mapM.
    - intros hh i ys (J1 & J2 & J3 & J4) Hy Hi. apply (row_impl _ _ _ _ _ _ fr); auto; [lia|].
      destruct (lpc_helper (nth i fr []) (order - 1)) as [[a e]|ex] eqn:Eh; [|apply impl_raise; auto]. cbn [pbind lift].
      pose proof (lpc_helper_length _ _ _ _ Eh ltac:(lia)) as Hla. unfold zlen in Hla.
      destruct (write_row_ok hh av _ i a (proj1 (proj2 J3)) (proj2 (proj2 J3))) as (h5 & W1 & O1 & T1 & S1); [lia|unfold P in A3; lia|].
      pose proof (only_owned _ _ _ _ _ _ O1 (not_eq_sym Hbae) J4) as J4'.
      destruct (write_row_ok h5 ev _ i [e] (proj1 (proj2 J4')) (proj2 (proj2 J4'))) as (h6 & W2 & O2 & T2 & S2); [lia|simpl; lia|].
      split; auto. split.
      + apply safe_bind; [apply write_row_safe; apply J3|]. intros u h' Eu. apply write_row_safe, J4.
      + left. exists tt, (a, e), h6. split; [rewrite exec_bind, W1; exact W2|]. split; auto.
        unfold I. rewrite !map_app, !app_length. cbn [List.length map fst snd]. replace (R - (List.length ys + 1))%nat with (R - S i)%nat by lia.
        rewrite Hy in S1, S2. rewrite set_nth_app in S1 by (rewrite ?map_length; auto). rewrite set_nth_app in S2 by (rewrite ?map_length; auto).
        split; [destruct O1, O2; lia|]. split; [eapply only_sees; [exact O2|auto|]; eapply only_sees; eauto|].
        split; [|split; [apply J4|auto]]. apply (only_owned _ _ h5 _ _ _ O2 Hbae). split; [apply J3|auto].
    - intros hh ys J. apply J.
    - unfold I. cbn [map app List.length]. rewrite Nat.sub_0_r. split; [lia|]. split; [eapply sees2_grows; [exact G4|]; eapply sees2_grows; eauto|].
      split; [eapply owned_weaken; [|eapply owned_grows; [exact G4|exact A1]]; lia|]. eapply owned_weaken; [|exact E1]. lia. }
  intros h5 u rows K5 Hrows (J1 & J2 & J3 & J4). apply mapM_length in Hrows. rewrite Hrows in J3, J4. fold R in J3, J4. rewrite Nat.sub_diag in J3, J4. cbn [repeat] in J3, J4. rewrite app_nil_r in J3, J4.
  eapply impl_read2; [apply J3|].
  match goal with |- impl _ _ _ _ ?q => change q with (do m' <- Ok (map fst rows); (fun _ => q) m') end.
  eapply impl_bind; [auto|exact (impl_new2 _ _ _ _ _ (le_n _) (owned_shape _ _ _ _ J3))|]. cbv beta. intros h6 rv rm G6 Er [Hr _]. apply Ok_inj in Er. subst rm. pose proof (grows_length _ _ G6).
  eapply impl_read2; [eapply sees2_grows; [exact G6|apply J4]|].
  match goal with |- impl _ _ _ _ ?q => change q with (do m' <- Ok (map (fun ae : list F * F => [snd ae]) rows); (fun _ => q) m') end.
  eapply impl_bind; [lia|exact (impl_new2 _ _ _ _ _ (le_n _) (owned_shape _ _ _ _ J4))|]. cbv beta. intros h7 sv sm G7 Es [Hsv _]. apply Ok_inj in Es. subst sm. pose proof (grows_length _ _ G7).
  apply impl_ret; [lia|]. split; cbn [fst snd]; [eapply owned_weaken; [|eapply owned_grows; [exact G7|exact Hr]]; lia|].
  split; [eapply owned_weaken; [|exact Hsv]; lia|]. destruct Hr as (_ & _ & Hr & _). destruct Hsv as (Hsv & _). lia.
Qed.
Lemma lpcc_impl : forall `{Env} h sig x fs order pe co w l t, sees1 h sig x -> (2 <= order)%Z ->
  impl (List.length h) (owned (List.length h)) h (lpcc_mem sig fs order pe co w l t) (lpcc x fs order pe co w l t).
Proof.
  intros E h sig x fs order pe co w l t Hs Ho. unfold lpcc_mem, lpcc. set (n := List.length h).
  eapply impl_bind; [auto|apply (framed_impl n); [auto|eauto]|].
  intros h2 p q G2 _ HP. apply PF_inv in HP as (fr & fv & ws & wv & -> & -> & H1 & H2 & H3 & H4 & H5). pose proof (grows_length _ _ G2) as L2.
  destruct (Z.ltb_spec (order - 1 + 1) 0); [lia|]. set (P := Z.to_nat (order - 1 + 1)).
  assert (Rw : r2 wv = List.length fr) by (destruct (owned_shape _ _ _ _ H3) as [<- _]; auto).
  assert (Rf : r2 fv = List.length fr) by (destruct (sees2_shape _ _ _ H1) as [<- _]; auto).
  rewrite Rw, Rf. set (R := List.length fr) in *.
  destruct (zeros_impl h2 R P) as (av & h3 & _ & G3 & A1 & A2 & A3 & A4 & HA). apply HA; [unfold n; lia|]. clear HA. pose proof (grows_length _ _ G3) as L3.
  set (I := fun (h' : heap) (rows : list (list F)) => (n <= List.length h')%nat /\ sees2 h' fv fr /\
    owned n h' av (rows ++ repeat (repeat f0 P) (R - List.length rows))).
  assert (Hbfa : b2 fv <> b2 av) by (destruct H1; lia).
  apply (impl_bind_keeps _ _ _ _ _ (fun h' (_ : unit) rows => I h' rows)).
  { apply forM_mapM.
    - intros hh i ys (J1 & J2 & J3) Hy Hi. apply (row_impl _ _ _ _ _ _ fr); auto; [lia|].
      destruct (lpc_helper (nth i fr []) (order - 1)) as [[a e]|ex] eqn:Eh; [|apply impl_raise; auto]. cbn [pbind lift rbind].
      destruct (lpc2lpcc a e (order - 1 + 1)) as [c|ex] eqn:Ec; [|apply impl_raise; auto]. cbn [pbind lift].
      pose proof (lpc2lpcc_length _ _ _ _ Ec) as Hlc.
      destruct (write_row_ok hh av _ i c (proj1 (proj2 J3)) (proj2 (proj2 J3))) as (h5 & W1 & O1 & T1 & S1); [lia|unfold P in A3; lia|].
      split; auto. split; [apply write_row_safe; apply J3|].
      left. exists tt, c, h5. split; [exact W1|]. split; auto.
      rewrite Hy in S1. rewrite set_nth_app in S1 by auto. unfold I. rewrite app_length. cbn [List.length].
      replace (R - (List.length ys + 1))%nat with (R - S i)%nat by lia.
      split; [destruct O1; lia|]. split; [eapply only_sees; eauto|]. split; [apply J3|auto].
    - intros hh ys J. apply J.
    - unfold I. cbn [app List.length]. rewrite Nat.sub_0_r. split; [lia|]. split; [eapply sees2_grows; eauto|].
      eapply owned_weaken; [|exact A1]. lia. }
  intros h5 u rows K5 Hrows (J1 & J2 & J3). apply mapM_length in Hrows. rewrite Hrows in J3. fold R in J3. rewrite Nat.sub_diag in J3. cbn [repeat] in J3. rewrite app_nil_r in J3.
  apply (tail_impl n h5 l t av rows); auto.
Qed.
