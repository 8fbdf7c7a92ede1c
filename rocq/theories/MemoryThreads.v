(** * Histories and schedules *)
From Coq Require Import Reals ZArith List String Bool Lia Lra.
From Flocq Require Import Core.Raux.
From Verif Require Import Base BaseFacts Cplx SpecBase SpecMat SpecFilters MatFacts Preprocessing PreprocessingFacts Filters FiltersFacts
  Cepstral CepstralFacts MelBanks MelBanksFacts BarkBank Gammatone Fourier Features FeaturesFacts FeaturesMore Extractors LinAlg Lpc LpcLaws Pncc Rplp Yin Dominant
  SpecMemory Memory MemoryFacts MemoryLaws MemoryClient MemoryRuns MemoryLoops MemoryMore MemoryMoreFacts MemoryHistory.
Import ListNotations.

(** ** assignments by the caller *)
Lemma write1_ok : forall n h v x i y, own n h (H1 v) -> sees1 h v x -> (i < n1 v)%nat ->
  exists h', exec (write1 v i y) h = (Ok tt, h') /\ only (b1 v) h h' /\ sees1 h' v (put x i y).
Proof.
  intros n h v x i y (Hn & Ho & Hs1 & Hz) [Hb Hl] Hi. unfold write1. rewrite (proj2 (Nat.ltb_lt _ _) Hi).
  assert (Hc : forall k, (k < n1 v)%nat -> (0 <= cell1 v k < zlen (buffer h (b1 v)))%Z) by (intros k Hk; unfold cell1; rewrite Ho, Hs1; lia).
  destruct (poke_ok h (b1 v) (cell1 v i) y Hb (Hc i Hi)) as (h' & P1 & P2 & P3). exists h'. split; auto. split; auto.
  split; [rewrite (proj1 P2); auto|]. unfold load1 in *. apply (mapM_seq _ _ NaN) in Hl as [Hlen Hl]. apply (mapM_seq _ _ NaN).
  change (put x i y) with (set_nth x i y). split; [rewrite set_nth_length; lia|]. intros k Hk. rewrite P3 by apply (Hc k Hk).
  destruct (Nat.eq_dec k i) as [->|Hne].
  - rewrite Z.eqb_refl, set_nth_same by lia. auto.
  - rewrite set_nth_other by lia. destruct (Z.eqb_spec (cell1 v k) (cell1 v i)) as [E|E]; [|auto].
    unfold cell1 in E. rewrite Ho, Hs1 in E. lia.
Qed.
Lemma put_length : forall A (l : list A) k x, (k < List.length l)%nat -> List.length (put l k x) = List.length l.
Proof. intros. apply set_nth_length. auto. Qed.
Lemma Forall2_put : forall A B (R R' : A -> B -> Prop) l m k x y, Forall2 R l m -> nth_error l k = Some x ->
  (forall i a b, nth_error l i = Some a -> i <> k -> R a b -> R' a b) -> R' x y -> Forall2 R' l (put m k y).
Proof.
  intros A B R R' l m k x y H. revert k. induction H as [|a b l m Hab H IH]; intros k Hk Ho Hx; [destruct k; discriminate|].
  destruct k as [|k]; cbn [nth_error] in Hk.
  - inversion Hk; subst. cbn. constructor; auto. clear IH. revert Ho. intros Ho.
    assert (Ho' : forall i a' b', nth_error l i = Some a' -> R a' b' -> R' a' b') by (intros i a' b' Hi; apply (Ho (S i)); auto).
    clear -H Ho'. induction H as [|a b l m Hab H IH]; constructor; [apply (Ho' 0%nat); auto|].
    apply IH. intros i a' b' Hi. apply (Ho' (S i)). auto.
  - cbn. constructor; [apply (Ho 0%nat); auto|]. apply (IH k Hk); auto. intros i a' b' Hi Hne. apply (Ho (S i)); auto.
Qed.
Lemma nth_skipn_error : forall A (l : list A) s i, nth_error (skipn s l) i = nth_error l (s + i).
Proof. induction l as [|a l IH]; intros [|s] i; simpl; auto. destruct i; auto. Qed.
(** a store through one of the caller's own arrays *)
Lemma inv_put : forall n s h h' hs st k hd v', Inv n s h hs st -> (s <= k)%nat -> nth_error hs k = Some hd ->
  only (buf hd) h h' -> shows h' hd v' -> Inv n s h' hs (put st k v').
Proof.
  intros n s h h' hs st k hd v' [H1 H2 H3 H4 H5 H6] Hk Hhd O Hs. constructor; auto.
  - destruct O. lia.
  - apply (Forall2_put _ _ (shows h) _ _ _ _ hd); auto. intros i a b Hi Hne Ha. eapply shows_only; eauto. intros Eb.
    assert (Hin : nth_error (skipn s hs) (k - s) = Some hd) by (rewrite nth_skipn_error; replace (s + (k - s))%nat with k by lia; auto).
    destruct (Nat.lt_ge_cases i s).
    + rewrite Forall_forall in H4, H5. specialize (H5 hd (nth_error_In _ _ Hin)).
      assert (Ha4 : In a (firstn s hs)).
      { rewrite <- (firstn_skipn s hs) in Hi. rewrite nth_error_app1 in Hi by (rewrite firstn_length; lia). eapply nth_error_In; eauto. }
      specialize (H4 a Ha4). destruct hd; simpl in *; lia.
    + assert (Hia : nth_error (skipn s hs) (i - s) = Some a) by (rewrite nth_skipn_error; replace (s + (i - s))%nat with i by lia; auto).
      apply (map_nth_error buf) in Hin, Hia. rewrite <- Eb in Hin.
      assert ((i - s)%nat = (k - s)%nat); [|lia].
      apply (proj1 (NoDup_nth_error _) H6); [|congruence]. apply nth_error_Some. congruence.
  - rewrite Forall_forall in *. intros x Hx. eapply own_only; eauto.
Qed.
Lemma own_nth : forall n s h hs st k hd, Inv n s h hs st -> (s <= k)%nat -> nth_error hs k = Some hd -> own n h hd.
Proof.
  intros n s h hs st k hd I Hk Hhd. pose proof (inv_own _ _ _ _ _ I) as Ho. rewrite Forall_forall in Ho. apply Ho.
  apply (nth_error_In _ (k - s)). rewrite nth_skipn_error. replace (s + (k - s))%nat with k by lia. auto.
Qed.

(** ** framing without overlap *)
Lemma framing_impl : forall `{Env} h sig x fs wl wh, sees1 h sig x ->
  Ztrunc (rnd (wl * IZR fs)) = Ztrunc (rnd (wh * IZR fs)) ->
  impl (List.length h) (fun h' p q => owned (List.length h) h' (fst p) (fst q)) h (framing_mem sig fs wl wh) (framing x fs wl wh).
Proof.
  intros E h sig x fs wl wh Hs Heq. pose proof (framing_run h sig x fs wl wh Hs) as Hrun. pose proof (framing_pokes sig fs wl wh (List.length h) h x Hs) as Hsafe.
  cbv zeta in Hrun. revert Hrun. unfold framing, framing_strided, stride_trick. rewrite <- Heq. set (L := Ztrunc (rnd (wl * IZR fs))).
  set (r := ((zlen x - L) / L + 1)%Z). intros Hrun. split; auto. split; auto.
  destruct (Rltb wl wh); [right; eauto|]. destruct (Z.eqb_spec L 0) as [|HL]; [right; eauto|].
  assert (Ha : ((r <? 0) || (L <? 0))%Z = true -> as_strided x r L (L * 1) 1 = Raise ValueError).
  { intros Hb. unfold as_strided. rewrite Hb. auto. }
  destruct ((r <? 0) || (L <? 0))%Z eqn:Eb. { rewrite (Ha eq_refl). right; eauto. }
  apply orb_false_elim in Eb as [Er El]. apply Z.ltb_ge in Er, El.
  assert (Hbuf : buffer (h ++ [x]) (List.length h) = x) by apply buffer_new.
  pose proof (load_strided (h ++ [x]) (List.length h) x r L L Hbuf Er El) as Hload. rewrite <- Hload.
  set (v := mkA2 (List.length h) 0 (Z.to_nat r) (Z.to_nat L) (L * 1) 1) in *.
  assert (Ht : tidy (h ++ [x]) v).
  { unfold tidy. cbn [o2 cs2 c2 rs2 r2 b2 v]. rewrite Hbuf. split; auto. split; auto. split; [lia|]. rewrite Z2Nat.id by lia. rewrite Z.mul_1_r.
    unfold r. pose proof (Z.mul_div_le (zlen x - L) L ltac:(lia)). lia. }
  destruct (tidy_load _ _ Ht) as [fr Hfr]. rewrite Hfr. cbn [rbind].
  destruct (Z.eqb_spec r 0) as [Hr|Hr].
  { right. exists IndexError, (h ++ [x]). split; auto. apply load2_shape in Hfr as [Hl _]. cbn [r2 v] in Hl. rewrite Hr in Hl. destruct fr; [reflexivity|discriminate]. }
  pose proof (load2_shape _ _ _ Hfr) as [Hlen Hrows]. cbn [r2 c2 v] in Hlen, Hrows.
  destruct fr as [|f0' fr']; [simpl in Hlen; lia|]. set (fr := f0' :: fr') in *.
  assert (Hlast : zlen (last fr []) = L).
  { unfold zlen. rewrite Forall_forall in Hrows. rewrite (Hrows (last fr [])); [lia|].
    rewrite last_nth. apply nth_In. rewrite Hlen. lia. }
  rewrite Hlast, Z.ltb_irrefl. left. exists (v, L), (fr, L), (h ++ [x]). split; auto. split; auto. cbn [fst snd].
  split; [cbn [b2 v]; auto|]. split; auto. split; auto. cbn [b2 v]. rewrite app_length. simpl. lia.
Qed.
Lemma extractor_bank_rect : forall `{Env} e a B, extractor_bank e (with_bank a None) = Ok B -> rectangular B.
Proof.
  intros E e a B H. destruct e; cbn [extractor_bank spectro_bank with_bank s_fbanks] in H;
    eauto using mel_rect, lin_rect, bark_rect, gam_rect, imel_rect.
Qed.
Lemma bank_owned : forall h own, (forall B, own = Ok B -> rectangular B) ->
  impl (List.length h) (owned (List.length h)) h (bank_mem own None) own.
Proof.
  intros h own Hr. unfold bank_mem. destruct own as [B|e]; [|apply impl_raise; auto]. destruct (Hr B eq_refl) as (r & c & Hs).
  eapply impl_weaken; [|exact (impl_new2 _ _ _ _ _ (le_n _) Hs)]. cbv beta. tauto.
Qed.

(** ** one action, a history *)
Lemma step_agrees : forall `{Env} n s h hs st act, Inv n s h hs st -> plain s act -> agrees n s hs st h (cstep hs act) (vstep st act).
Proof.
  intros E n s h hs st act I Hp. pose proof (inv_shows _ _ _ _ _ I) as Hsh. pose proof (inv_n _ _ _ _ _ I) as Hn. destruct act; cbn [cstep vstep plain] in *.
  - (* new1 *) apply impl_agrees; auto. split; auto. split; [exact Logic.I|]. left.
    destruct (new1_sees h x) as (v & h' & E1 & G & S1 & B1 & Ev & Eh). eexists _, _, h'. rewrite exec_bind, E1. split; [reflexivity|]. split; [reflexivity|].
    eapply inv_add; eauto. subst v h'. cbn. split; [lia|]. split; auto. split; auto. rewrite buffer_new. unfold zlen. lia.
  - (* new2 *) destruct (forallb _ m) eqn:Ef; [|apply agrees_raise; auto].
    assert (Hs : has_shape (row :: m) (S (List.length m)) (List.length row)).
    { split; auto. constructor; auto. rewrite forallb_forall in Ef. apply Forall_forall. intros r Hr. apply Nat.eqb_eq. auto. }
    pose proof (call_mat n s h hs st (new2 (row :: m)) (Ok (row :: m)) I) as HC. cbn [rbind] in HC. apply HC.
    eapply impl_weaken; [|exact (impl_new2 _ _ _ _ _ (le_n _) Hs)]. cbv beta. tauto.
  - (* put1 *) destruct (hvec_vec h hs st k Hsh) as [(a & v & E1 & E2 & S1)|[E1 E2]]; rewrite E1, E2; cbn [rbind pbind lift]; [|apply agrees_raise; auto].
    assert (Hh : nth_error hs k = Some (H1 a)) by (unfold hvec in E1; destruct (nth_error hs k) as [[a'|a']|]; congruence).
    assert (Hlen : List.length v = n1 a). { destruct S1 as [_ S1]. unfold load1 in S1. apply mapM_length in S1. rewrite seq_length in S1. auto. }
    pose proof (own_nth _ _ _ _ _ _ _ I Hp Hh) as Ho. unfold agrees. rewrite Hlen. destruct (Nat.ltb_spec i (n1 a)) as [Hi|Hi].
    + destruct (write1_ok n h a v i x Ho S1 Hi) as (h' & W & O & S2). split.
      * apply safe_bind; [|intros; exact Logic.I]. unfold write1. destruct (Nat.ltb i (n1 a)); [|exact Logic.I]. cbn. split; [apply Ho|]. destruct (_ && _)%bool; exact Logic.I.
      * left. exists hs, (put st k (V1 (put v i x))), h'. split; [rewrite exec_bind, W; reflexivity|]. split; auto. eapply inv_put; eauto.
    + split; [|right; exists IndexError, h; split; auto]; unfold write1; destruct (Nat.ltb_spec i (n1 a)); try lia; auto. exact Logic.I.
  - (* put2 *) destruct (hmat_mat h hs st k Hsh) as [(a & v & E1 & E2 & S1)|[E1 E2]]; rewrite E1, E2; cbn [rbind pbind lift]; [|apply agrees_raise; auto].
    assert (Hh : nth_error hs k = Some (H2 a)) by (unfold hmat in E1; destruct (nth_error hs k) as [[a'|a']|]; congruence).
    pose proof (sees2_shape _ _ _ S1) as [Hlen Hrows].
    pose proof (own_nth _ _ _ _ _ _ _ I Hp Hh) as Ho. unfold agrees. rewrite Hlen. destruct (Nat.ltb_spec i (r2 a)) as [Hi|Hi].
    + cbn [andb]. assert (Hr : List.length (nth i v []) = c2 a) by (rewrite Forall_forall in Hrows; apply Hrows, nth_In; lia).
      rewrite Hr. destruct (Nat.ltb_spec j (c2 a)) as [Hj|Hj].
      * destruct (write2_ok h a v i j x (proj2 Ho) S1 Hi Hj) as (h' & W & O & S2). split.
        { apply safe_bind; [eapply pokes_safe; [|apply pokes_write2]; intros b <-; apply Ho|intros; exact Logic.I]. }
        left. exists hs. eexists. exists h'. split; [rewrite exec_bind, W; reflexivity|]. split; [reflexivity|]. eapply inv_put; eauto.
      * split; [|right; exists IndexError, h; split; auto]; unfold write2; destruct (Nat.ltb_spec i (r2 a)), (Nat.ltb_spec j (c2 a)); try lia; auto. exact Logic.I.
    + cbn [andb]. split; [|right; exists IndexError, h; split; auto]; unfold write2; destruct (Nat.ltb_spec i (r2 a)); try lia; auto. exact Logic.I.
  - (* pre_emphasis *) destruct (hvec_vec h hs st k Hsh) as [(a & v & -> & -> & S1)|[-> ->]]; cbn [rbind pbind lift]; [|apply agrees_raise; auto].
    apply impl_agrees; auto. eapply impl_bind; [auto|apply impl_pre; eauto|]. cbv beta. intros h' b y G _ (S2 & -> & Eb). pose proof (grows_length _ _ G). apply impl_ret; auto.
    eapply inv_add; eauto. cbn. split; [lia|]. split; auto. split; auto. rewrite Eb. unfold zlen. lia.
  - (* framing *) destruct (hvec_vec h hs st k Hsh) as [(a & v & -> & -> & S1)|[-> ->]]; cbn [rbind pbind lift]; [|apply agrees_raise; auto].
    apply impl_agrees; auto. eapply impl_bind; [auto|apply framing_impl; eauto|]. intros h' [fv L] [fr L'] G _ Ho. cbn [fst] in Ho. pose proof (grows_length _ _ G). apply impl_ret; auto.
    eapply inv_add; eauto; [apply Ho|split; [|apply Ho]|apply Ho]. destruct Ho as (Ho & _). lia.
  - destruct (hmat_mat h hs st k Hsh) as [(a & v & -> & -> & S1)|[-> ->]]; cbn [rbind pbind lift]; [|apply agrees_raise; auto].
    apply call_mat; auto. apply windowing_impl; auto.
  - destruct (hmat_mat h hs st k Hsh) as [(a & v & -> & -> & S1)|[-> ->]]; cbn [rbind pbind lift]; [|apply agrees_raise; auto].
    apply call_mat; auto. apply norm_impl; auto.
  - destruct (hmat_mat h hs st k Hsh) as [(a & v & -> & -> & S1)|[-> ->]]; cbn [rbind pbind lift]; [|apply agrees_raise; auto].
    apply call_mat; auto. apply lifter_impl; auto. destruct Hp as [Hp1 Hp2]. unfold Reqb, Rltb.
    destruct (Req_EM_T l 0), (Rlt_dec 10 l); auto; lra.
  - destruct (hmat_mat h hs st k Hsh) as [(a & v & -> & -> & S1)|[-> ->]]; cbn [rbind pbind lift]; [|apply agrees_raise; auto].
    apply call_mat; auto. apply deltas_impl; auto.
  - apply call_mat; auto. apply bank_owned. intros B. apply extractor_bank_rect.
  - destruct (hvec_vec h hs st k Hsh) as [(v & x & -> & -> & S1)|[-> ->]]; cbn [rbind pbind lift]; [|apply agrees_raise; auto].
    destruct (hopt_opt h hs st fb Hsh) as [(bv & b & -> & -> & S2)|[-> ->]]; cbn [rbind pbind lift]; [|apply agrees_raise; auto].
    apply call_two; auto. eapply impl_weaken; [|apply spectrogram_impl; eauto]. unfold PS, PL. tauto.
  - destruct (hvec_vec h hs st k Hsh) as [(v & x & -> & -> & S1)|[-> ->]]; cbn [rbind pbind lift]; [|apply agrees_raise; auto].
    destruct (hopt_opt h hs st fb Hsh) as [(bv & b & -> & -> & S2)|[-> ->]]; cbn [rbind pbind lift]; [|apply agrees_raise; auto].
    apply call_mat; auto. apply run_impl; auto.
  - destruct (hvec_vec h hs st k Hsh) as [(v & x & -> & -> & S1)|[-> ->]]; cbn [rbind pbind lift]; [|apply agrees_raise; auto].
    destruct (hopt_opt h hs st fb Hsh) as [(bv & b & -> & -> & S2)|[-> ->]]; cbn [rbind pbind lift]; [|apply agrees_raise; auto].
    apply call_mat; auto. apply psrcc_impl; auto.
  - destruct (hvec_vec h hs st k Hsh) as [(v & x & -> & -> & S1)|[-> ->]]; cbn [rbind pbind lift]; [|apply agrees_raise; auto].
    apply call_two; auto. apply lpc_impl; auto.
  - destruct (hvec_vec h hs st k Hsh) as [(v & x & -> & -> & S1)|[-> ->]]; cbn [rbind pbind lift]; [|apply agrees_raise; auto].
    apply call_mat; auto. apply lpcc_impl; auto.
  - destruct (hmat_mat h hs st k Hsh) as [(a0 & m0 & -> & -> & S0)|[-> ->]]; cbn [rbind pbind lift]; [|apply agrees_raise; auto].
    apply (call_mat n s h hs st _ (Ok (medium_time_power_calculation m0 M))); auto. apply medium_impl; auto.
  - destruct (hmat_mat h hs st k Hsh) as [(a0 & m0 & -> & -> & S0)|[-> ->]]; cbn [rbind pbind lift]; [|apply agrees_raise; auto].
    apply call_mat; auto. eapply impl_weaken; [|apply asym_impl; eauto]. cbv beta. tauto.
  - destruct (hmat_mat h hs st k Hsh) as [(a0 & m0 & -> & -> & S0)|[-> ->]]; cbn [rbind pbind lift]; [|apply agrees_raise; auto].
    apply call_mat; auto. eapply impl_weaken; [|apply mask_impl; eauto]. cbv beta. tauto.
  - destruct (hmat_mat h hs st r Hsh) as [(a0 & m0 & -> & -> & S0)|[-> ->]]; cbn [rbind pbind lift]; [|apply agrees_raise; auto].
    destruct (hmat_mat h hs st q Hsh) as [(a1 & m1 & -> & -> & S1)|[-> ->]]; cbn [rbind pbind lift]; [|apply agrees_raise; auto].
    apply call_mat; auto. eapply impl_weaken; [|apply smooth_impl; eauto]. cbv beta. tauto.
  - destruct (hmat_mat h hs st k Hsh) as [(a0 & m0 & -> & -> & S0)|[-> ->]]; cbn [rbind pbind lift]; [|apply agrees_raise; auto].
    apply call_mat; auto. eapply impl_weaken; [|apply mean_impl; eauto]. cbv beta. tauto.
  - destruct (hmat_mat h hs st k Hsh) as [(a0 & m0 & -> & -> & S0)|[-> ->]]; cbn [rbind pbind lift]; [|apply agrees_raise; auto].
    apply call_mat; auto. eapply impl_weaken; [|apply noise_impl; eauto]. cbv beta. tauto.
  - destruct (hvec_vec h hs st k Hsh) as [(v & x & -> & -> & S1)|[-> ->]]; cbn [rbind pbind lift]; [|apply agrees_raise; auto].
    destruct (hopt_opt h hs st fb Hsh) as [(bv & b & -> & -> & S2)|[-> ->]]; cbn [rbind pbind lift]; [|apply agrees_raise; auto].
    apply call_mat; auto. apply pncc_impl; auto.
  - destruct (hmat_mat h hs st k Hsh) as [(a0 & m0 & -> & -> & S0)|[-> ->]]; cbn [rbind pbind lift]; [|apply agrees_raise; auto].
    apply call_mat; auto. apply rasta_impl; auto.
  - destruct (hvec_vec h hs st k Hsh) as [(v & x & -> & -> & S1)|[-> ->]]; cbn [rbind pbind lift]; [|apply agrees_raise; auto].
    destruct (hopt_opt h hs st fb Hsh) as [(bv & b & -> & -> & S2)|[-> ->]]; cbn [rbind pbind lift]; [|apply agrees_raise; auto].
    apply call_mat; auto. apply rastaplp_impl; auto.
  - destruct (hvec_vec h hs st k Hsh) as [(v & x & -> & -> & S1)|[-> ->]]; cbn [rbind pbind lift]; [|apply agrees_raise; auto].
    apply call_four; auto. apply yin_impl; auto.
  - destruct (hvec_vec h hs st k Hsh) as [(v & x & -> & -> & S1)|[-> ->]]; cbn [rbind pbind lift]; [|apply agrees_raise; auto].
    apply call_vec; auto. apply dominant_impl; auto.
  - destruct (hvec_vec h hs st k Hsh) as [(v & x & -> & -> & S1)|[-> ->]]; cbn [rbind pbind lift]; [|apply agrees_raise; auto].
    apply (call_vec n s h hs st _ (Ok (zero_handling x))); auto. apply zero_impl; auto.
  - destruct (hvec_vec h hs st k Hsh) as [(v & x & -> & -> & S1)|[-> ->]]; cbn [rbind pbind lift]; [|apply agrees_raise; auto].
    apply call_two; auto. apply cqt_impl; auto.
  - destruct (hvec_vec h hs st k Hsh) as [(v & x & -> & -> & S1)|[-> ->]]; cbn [rbind pbind lift]; [|apply agrees_raise; auto].
    apply call_mat; auto. apply cqcc_impl; auto.
  - destruct (hvec_vec h hs st k Hsh) as [(v & x & -> & -> & S1)|[-> ->]]; cbn [rbind pbind lift]; [|apply agrees_raise; auto].
    apply call_vec; auto. apply feats_impl; auto.
Qed.
(** the whole history *)
Lemma run_agrees : forall `{Env} n s acts h hs st, Inv n s h hs st -> Forall (plain s) acts ->
  safe n (crun hs acts) h /\
  exists hs' h', exec (crun hs acts) h = (Ok (fst (vrun st acts), hs'), h') /\ Inv n s h' hs' (snd (vrun st acts)).
Proof.
  intros E n s acts. induction acts as [|act acts IH]; intros h hs st I Hp; cbn [crun vrun].
  - split; [exact Logic.I|]. exists hs, h. auto.
  - inversion Hp as [|? ? Hp1 Hp2]; subst. destruct (step_agrees n s h hs st act I Hp1) as [Hsafe [(hs1 & st1 & h1 & E1 & E2 & I1)|(e & h1 & E1 & E2 & I1)]].
    + destruct (IH h1 hs1 st1 I1 Hp2) as (S1 & hs2 & h2 & R1 & R2). rewrite E2. split.
      * apply safe_bind; [apply safe_attempt; auto|]. intros r h' Er. rewrite exec_attempt, E1 in Er. inversion Er; subst.
        apply safe_bind; [exact S1|]. intros [os hs3] h3 _. exact Logic.I.
      * exists hs2, h2. rewrite exec_bind, exec_attempt, E1. cbn [fst snd]. rewrite exec_bind, R1. destruct (vrun st1 acts) as [os st2]. split; [reflexivity|exact R2].
    + destruct (IH h1 hs st I1 Hp2) as (S1 & hs2 & h2 & R1 & R2). rewrite E2. split.
      * apply safe_bind; [apply safe_attempt; auto|]. intros r h' Er. rewrite exec_attempt, E1 in Er. inversion Er; subst.
        apply safe_bind; [exact S1|]. intros [os hs3] h3 _. exact Logic.I.
      * exists hs2, h2. rewrite exec_bind, exec_attempt, E1. cbn [fst snd]. rewrite exec_bind, R1. destruct (vrun st acts) as [os st2]. split; [reflexivity|exact R2].
Qed.
Lemma inv_start : forall h hs st, Forall2 (shows h) hs st -> Inv (List.length h) (List.length hs) h hs st.
Proof.
  intros h hs st H. constructor; auto.
  - rewrite firstn_all. apply Forall_forall. intros hd Hin. induction H; [inversion Hin|]. destruct Hin as [->|Hin]; auto. eapply shows_buf; eauto.
  - rewrite skipn_all. constructor.
  - rewrite skipn_all. constructor.
Qed.

(** ** read-only arguments *)
Lemma exec_readonly_safe : forall n A (p : prog A) h, safe n p h -> exec_readonly n p h = exec p h.
Proof.
  intros n A p. induction p as [r|d q IH|b i q IH|b i x q IH]; intros h Hs; cbn [safe exec exec_readonly] in *; auto.
  destruct Hs as [Hb Hs]. destruct (Nat.ltb_spec b n); [lia|]. destruct (_ && _)%bool; auto.
Qed.

(** ** schedules *)
Fixpoint steps {A} (p : prog A) (h : heap) : nat :=
  match p with
  | Done _ => 0
  | Alloc d k => S (steps (k (List.length h)) (h ++ [d]))
  | Load b i k => S (steps (k (read_buf (buffer h b) i)) h)
  | Store b i x k =>
      S (let d := buffer h b in
         if ((0 <=? i) && (i <? zlen d))%Z then steps (k (Ok tt)) (set_nth h b (set_nth d (Z.to_nat i) x))
         else steps (k (Raise OutOfBoundsRead)) h)
  end.
Lemma steps_step : forall A (p : prog A) h, steps (fst (step p h)) (snd (step p h)) = Nat.pred (steps p h).
Proof. intros A p h. destruct p; cbn [step steps fst snd Nat.pred]; auto. destruct (_ && _)%bool; auto. Qed.
Lemma step_keeps : forall n A (p : prog A) h, (n <= List.length h)%nat -> safe n p h -> keeps n h (snd (step p h)).
Proof.
  intros n A p h Hn Hs. destruct p as [r|d k|b i k|b i x k]; cbn [step snd]; try apply keeps_refl.
  - apply grows_keeps; auto. exists [d]. auto.
  - destruct Hs as [Hb _]. destruct (_ && _)%bool eqn:Ei; cbn [snd]; [|apply keeps_refl].
    assert (Hl : (b < List.length h)%nat).
    { apply Nat.lt_nge. intros Hge. apply andb_prop in Ei as [E1 E2]. apply Z.leb_le in E1. apply Z.ltb_lt in E2.
      unfold buffer in E2. rewrite nth_overflow in E2 by auto. cbn in E2. lia. }
    apply set_nth_keeps; auto.
Qed.
Lemma keeps_firstn : forall h0 ar h', keeps (List.length h0) (h0 ++ ar) h' -> firstn (List.length h0) h' = h0.
Proof.
  intros h0 ar h' [H1 H2]. rewrite app_length in H1. apply (list_eq_nth _ []); [rewrite firstn_length; lia|].
  intros i Hi. rewrite firstn_length in Hi. rewrite firstn_nth_lt by lia. specialize (H2 i ltac:(lia)). unfold buffer in H2. rewrite H2.
  apply app_nth1. lia.
Qed.
(** whatever the others do, a thread is where it would be alone *)
Definition tinv {A} (h0 : heap) (ps : list (prog A)) (cnt : nat -> nat) (M : process A) : Prop :=
  shared M = h0 /\ List.length (threads M) = List.length ps /\
  forall t p ar, nth_error (threads M) t = Some (p, ar) -> exists p0, nth_error ps t = Some p0 /\
    safe (List.length h0) p (h0 ++ ar) /\ exec p (h0 ++ ar) = exec p0 h0 /\ (steps p (h0 ++ ar) <= steps p0 h0 - cnt t)%nat.
Lemma tick_tinv : forall A h0 (ps : list (prog A)) cnt M t, tinv h0 ps cnt M ->
  tinv h0 ps (fun u => if Nat.eqb u t then S (cnt u) else cnt u) (tick M t).
Proof.
  intros A h0 ps cnt M t (H1 & H2 & H3). unfold tick. rewrite H1. destruct (nth_error (threads M) t) as [[p ar]|] eqn:Et.
  - destruct (step p (h0 ++ ar)) as [p' h'] eqn:Es. destruct (H3 t p ar Et) as (p0 & Hp0 & Hs & He & Hst).
    assert (Hn : (List.length h0 <= List.length (h0 ++ ar))%nat) by (rewrite app_length; lia).
    pose proof (step_keeps _ _ p _ Hn Hs) as K. pose proof (safe_step _ _ p _ Hs) as Hs'. pose proof (exec_step _ p (h0 ++ ar)) as He'. pose proof (steps_step _ p (h0 ++ ar)) as Hst'.
    rewrite Es in K, Hs', He', Hst'. cbn [fst snd] in K, Hs', He', Hst'. pose proof (keeps_firstn _ _ _ K) as Ef.
    assert (Hh : h0 ++ skipn (List.length h0) h' = h') by (rewrite <- Ef at 1; apply firstn_skipn).
    assert (Ht : (t < List.length (threads M))%nat) by (apply nth_error_Some; congruence).
    unfold tinv. cbn [shared threads]. split; auto. split; [rewrite set_nth_length; auto|].
    intros u q br Hu. destruct (Nat.eqb_spec u t) as [->|Hne].
    + assert (E : (q, br) = (p', skipn (List.length h0) h')).
      { apply nth_error_nth with (d := (q, br)) in Hu. rewrite set_nth_same in Hu by auto. auto. }
      inversion E; subst. exists p0. rewrite Hh. split; auto. split; auto. split; [congruence|]. lia.
    + destruct (H3 u q br) as (q0 & Q); [|exists q0; auto].
      assert (Hul : (u < List.length (threads M))%nat) by (rewrite <- (set_nth_length _ (threads M) t (p', skipn (List.length h0) h')) by auto; apply nth_error_Some; congruence).
      rewrite (nth_error_nth' _ (q, br)) by auto. f_equal. apply nth_error_nth with (d := (q, br)) in Hu. rewrite set_nth_other in Hu by auto. auto.
  - split; auto. split; auto. intros u q br Hu. destruct (H3 u q br Hu) as (q0 & Q1 & Q2 & Q3 & Q4). exists q0. split; auto. split; auto. split; auto.
    destruct (Nat.eqb_spec u t); [congruence|auto].
Qed.
Lemma schedule_tinv : forall A h0 (ps : list (prog A)) ts cnt M, tinv h0 ps cnt M ->
  tinv h0 ps (fun u => (cnt u + count_occ Nat.eq_dec ts u)%nat) (schedule M ts).
Proof.
  intros A h0 ps ts. induction ts as [|t ts IH]; intros cnt M H; cbn [schedule fold_left].
  - destruct H as (H1 & H2 & H3). split; auto. split; auto. intros u q br Hu. destruct (H3 u q br Hu) as (q0 & Q1 & Q2 & Q3 & Q4). exists q0. cbn [count_occ]. rewrite Nat.add_0_r. auto.
  - specialize (IH _ _ (tick_tinv _ _ _ _ _ t H)). destruct IH as (H1 & H2 & H3). split; auto. split; auto.
    intros u q br Hu. destruct (H3 u q br Hu) as (q0 & Q1 & Q2 & Q3 & Q4). exists q0. split; auto. split; auto. split; auto.
    cbn [count_occ]. destruct (Nat.eqb_spec u t), (Nat.eq_dec t u); try congruence; lia.
Qed.
Lemma schedule_ok : forall A h0 (ps : list (prog A)) ts, Forall (fun p => safe (List.length h0) p h0) ps ->
  let M := schedule (mkP h0 (map (fun p => (p, [])) ps)) ts in
  shared M = h0 /\ forall t p0, nth_error ps t = Some p0 ->
    (forall r ar, nth_error (threads M) t = Some (Done r, ar) -> exec p0 h0 = (r, h0 ++ ar)) /\
    ((steps p0 h0 <= count_occ Nat.eq_dec ts t)%nat -> exists ar, exec p0 h0 = (fst (exec p0 h0), h0 ++ ar) /\ nth_error (threads M) t = Some (Done (fst (exec p0 h0)), ar)).
Proof.
  intros A h0 ps ts Hs M.
  assert (I0 : tinv h0 ps (fun _ => 0%nat) (mkP h0 (map (fun p => (p, [])) ps))).
  { split; auto. cbn [threads]. split; [apply map_length|]. intros t p ar Ht. rewrite nth_error_map in Ht. destruct (nth_error ps t) as [p0|] eqn:Ep; [|discriminate].
    simpl in Ht. inversion Ht; subst. exists p. rewrite app_nil_r. split; auto. split; [|split; auto; lia].
    rewrite Forall_forall in Hs. apply Hs. eapply nth_error_In; eauto. }
  destruct (schedule_tinv _ _ _ ts _ _ I0) as (H1 & H2 & H3). fold M in H1, H2, H3. split; auto. intros t p0 Ht. split.
  - intros r ar Hr. destruct (H3 t _ _ Hr) as (q0 & Q1 & Q2 & Q3 & Q4). rewrite Ht in Q1. inversion Q1; subst q0. rewrite <- Q3. reflexivity.
  - intros Hc. assert (Hl : (t < List.length (threads M))%nat) by (rewrite H2; apply nth_error_Some; congruence).
    destruct (nth_error (threads M) t) as [[p ar]|] eqn:Em; [|apply nth_error_None in Em; lia].
    destruct (H3 t p ar Em) as (q0 & Q1 & Q2 & Q3 & Q4). rewrite Ht in Q1. inversion Q1; subst q0. cbn in Q4.
    assert (S0 : steps p (h0 ++ ar) = 0%nat) by lia.
    destruct p as [r|d k|b i k|b i x k]; try discriminate. cbn [exec] in Q3. exists ar. rewrite <- Q3. auto.
Qed.

(** ** clients in threads *)
Lemma threads_agree : forall `{Env} h0 hs0 st0 (sessions : list (list action)), Forall2 (shows h0) hs0 st0 ->
  Forall (Forall (plain (List.length hs0))) sessions ->
  exists need : nat -> nat, forall ts,
  let M := schedule (mkP h0 (map (fun acts => (crun hs0 acts, [])) sessions)) ts in
  shared M = h0 /\ forall t acts, nth_error sessions t = Some acts ->
    (forall r ar, nth_error (threads M) t = Some (Done r, ar) ->
       exists hs, r = Ok (fst (vrun st0 acts), hs) /\ Forall2 (shows (h0 ++ ar)) hs (snd (vrun st0 acts))) /\
    ((need t <= count_occ Nat.eq_dec ts t)%nat -> exists r ar, nth_error (threads M) t = Some (Done r, ar)).
Proof.
  intros E h0 hs0 st0 sessions Hs Hp. exists (fun t => match nth_error sessions t with Some acts => steps (crun hs0 acts) h0 | None => 0%nat end).
  intros ts M. pose proof (inv_start _ _ _ Hs) as I.
  destruct (schedule_ok _ h0 (map (crun hs0) sessions) ts) as [K1 K2].
  { apply Forall_map. eapply Forall_impl; [|exact Hp]. intros acts Ha. apply (run_agrees _ _ acts _ _ _ I Ha). }
  rewrite map_map in K1, K2. split; [exact K1|]. intros t acts Ht.
  assert (Ht' : nth_error (map (crun hs0) sessions) t = Some (crun hs0 acts)) by (rewrite nth_error_map, Ht; auto).
  destruct (K2 t _ Ht') as [J1 J2]. rewrite Ht. split.
  - intros r ar Hr. specialize (J1 r ar Hr). rewrite Forall_forall in Hp.
    destruct (run_agrees _ _ acts _ _ _ I (Hp acts (nth_error_In _ _ Ht))) as (_ & hs & h' & R1 & R2).
    rewrite R1 in J1. inversion J1; subst. exists hs. split; auto. apply R2.
  - intros Hc. destruct (J2 Hc) as (ar & _ & Hm). eauto.
Qed.
