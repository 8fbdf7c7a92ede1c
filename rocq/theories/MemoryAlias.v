(** * One call on arbitrary arguments; results that share memory *)
From Coq Require Import Reals ZArith List String Bool Lia Lra.
From Flocq Require Import Core.Raux.
From Verif Require Import Base BaseFacts SpecBase Preprocessing PreprocessingFacts Cepstral CepstralFacts Features Extractors
  SpecMemory Memory MemoryFacts MemoryLaws MemoryClient MemoryHistory MemoryThreads.
Import ListNotations.

(** ** one call *)
Lemma call_pure : forall `{Env} h hs st act, Forall2 (shows h) hs st -> plain (List.length hs) act ->
  exec_readonly (List.length h) (cstep hs act) h = exec (cstep hs act) h /\
  exists fresh, snd (exec (cstep hs act) h) = h ++ fresh /\
  match fst (exec (cstep hs act) h), vstep st act with
  | Ok hs', Ok st' => exists new, hs' = hs ++ new /\ Forall2 (shows (h ++ fresh)) hs' st' /\
                        Forall (fun hd => List.length h <= buf hd)%nat new /\ NoDup (map buf new)
  | Raise e, Raise e' => e = e'
  | _, _ => False
  end.
Proof.
  intros E h hs st act Hs Hp. pose proof (inv_start _ _ _ Hs) as I. destruct (step_agrees _ _ _ _ _ _ I Hp) as [S1 S2].
  split; [apply exec_readonly_safe; auto|]. pose proof (safe_keeps _ _ _ _ (le_n _) S1) as K.
  assert (K' : keeps (List.length h) (h ++ []) (snd (exec (cstep hs act) h))) by (rewrite app_nil_r; auto).
  pose proof (keeps_firstn _ _ _ K') as Ef. set (h1 := snd (exec (cstep hs act) h)) in *.
  exists (skipn (List.length h) h1). assert (Eh : h ++ skipn (List.length h) h1 = h1) by (rewrite <- Ef at 1; apply firstn_skipn).
  rewrite Eh. split; auto. destruct S2 as [(hs' & st' & h' & E1 & E2 & I')|(e & h' & E1 & E2 & I')]; rewrite E2; subst h1; rewrite E1 in *; cbn [fst snd] in *; auto.
  assert (Epre : firstn (List.length hs) hs' = hs).
  { clear -E1.
    assert (G : forall A (q : prog A) (f : A -> list handle), (forall a, firstn (List.length hs) (f a) = hs) ->
      exec (pbind q (fun a => ret (f a))) h = (Ok hs', h') -> firstn (List.length hs) hs' = hs).
    { intros A q f Hf Hx. rewrite exec_bind in Hx. destruct (exec q h) as [[a|e] h2]; inversion Hx; subst; auto. }
    assert (Ha : forall l, firstn (List.length hs) (hs ++ l) = hs) by (intros l; rewrite firstn_app, Nat.sub_diag, firstn_all, app_nil_r; auto).
    assert (GL : forall A (r : result A) (q : A -> prog (list handle)), (forall a, r = Ok a -> exec (q a) h = (Ok hs', h') -> firstn (List.length hs) hs' = hs) ->
      exec (pbind (lift r) q) h = (Ok hs', h') -> firstn (List.length hs) hs' = hs).
    { intros A r q Hq Hx. rewrite exec_bind in Hx. destruct r as [a|e]; cbn in Hx; [eauto|discriminate]. }
    destruct act; cbn [cstep] in E1; try (revert E1; apply GL; intros a1 Ea1 E1); try (revert E1; apply GL; intros a2 Ea2 E1);
      try (revert E1; apply G; intros; try destruct a; auto; fail).
    - destruct (forallb _ _); [|discriminate]. revert E1; apply G; auto.
    - revert E1; apply G; intros. apply firstn_all.
    - revert E1; apply G; intros. apply firstn_all.
    - revert E1. rewrite exec_bind. destruct (exec _ h) as [[[f m]|e] h2]; intros Hx; inversion Hx; auto.
    - revert E1. rewrite exec_bind. destruct (exec _ h) as [[[f m]|e] h2]; intros Hx; inversion Hx; auto.
    - revert E1. rewrite exec_bind. destruct (exec _ h) as [[[f m]|e] h2]; intros Hx; inversion Hx; auto.
    - revert E1. rewrite exec_bind. destruct (exec _ h) as [[[[[q1 q2] q3] q4]|e] h2]; intros Hx; inversion Hx; auto.
    - revert E1. rewrite exec_bind. destruct (exec _ h) as [[[f m]|e] h2]; intros Hx; inversion Hx; auto. }
  exists (skipn (List.length hs) hs'). split; [rewrite <- Epre at 1; symmetry; apply firstn_skipn|]. split; [apply I'|].
  split; [|apply I']. pose proof (inv_own _ _ _ _ _ I') as Ho. rewrite Forall_forall in *. intros hd Hd. specialize (Ho hd Hd).
  destruct hd; apply Ho.
Qed.

Lemma load2_total : forall h v, (forall i j, (i < r2 v)%nat -> (j < c2 v)%nat -> (0 <= cell2 v i j < zlen (buffer h (b2 v)))%Z) ->
  exists m, load2 h v = Ok m.
Proof.
  intros h v Hc. exists (map (fun i => map (fun j => nth (Z.to_nat (cell2 v i j)) (buffer h (b2 v)) NaN) (seq 0 (c2 v))) (seq 0 (r2 v))).
  apply load2_iff. split.
  - split; [rewrite map_length, seq_length; auto|]. apply Forall_map, Forall_forall. intros. rewrite map_length, seq_length. auto.
  - intros i j Hi Hj. apply read_buf_ok. split; [apply Hc; auto|].
    unfold entry. rewrite nth_map_seq, nth_map_seq by auto. reflexivity.
Qed.

(** ** framing: the rows of the result are windows on one buffer *)
Lemma framing_view : forall `{Env} h sig x fs wl wh fr L, sees1 h sig x -> framing x fs wl wh = Ok (fr, L) ->
  let L := Ztrunc (rnd (wl * IZR fs)) in let step := Ztrunc (rnd (wh * IZR fs)) in (0 <= step)%Z ->
  let v := mkA2 (List.length h) 0 (List.length fr) (Z.to_nat L) step 1 in
  exec (framing_mem sig fs wl wh) h = (Ok (v, L), h ++ [x]) /\ sees2 (h ++ [x]) v fr /\ (0 < step)%Z /\ (0 <= L)%Z /\
  Z.of_nat (List.length fr) = ((zlen x - L) / step + 1)%Z /\
  forall i j, (i < List.length fr)%nat -> (j < Z.to_nat L)%nat -> (0 <= Z.of_nat i * step + Z.of_nat j < zlen x)%Z.
Proof.
  intros E h sig x fs wl wh fr L0 Hs. pose proof (framing_run h sig x fs wl wh Hs) as Hrun.
  cbv zeta in Hrun. revert Hrun. unfold framing, framing_strided, stride_trick. set (L := Ztrunc (rnd (wl * IZR fs))).
  set (step := Ztrunc (rnd (wh * IZR fs))). set (r := ((zlen x - L) / step + 1)%Z). intros Hrun Hf. cbv zeta. intros Hstep.
  destruct (Rltb wl wh); [discriminate|]. destruct (Z.eqb_spec step 0) as [|H0]; [discriminate|].
  unfold as_strided in Hf at 1. destruct ((r <? 0) || (L <? 0))%Z eqn:Eb; [discriminate|].
  replace (mapM _ (zrange 0 r)) with (as_strided x r L (step * 1) 1) in Hf by (unfold as_strided; rewrite Eb; auto).
  apply orb_false_elim in Eb as [Er El]. apply Z.ltb_ge in Er, El.
  assert (Hbuf : buffer (h ++ [x]) (List.length h) = x) by apply buffer_new.
  pose proof (load_strided (h ++ [x]) (List.length h) x r L step Hbuf Er El) as Hload. rewrite <- Hload in Hf.
  destruct (load2 _ _) as [fr0|e] eqn:Hl; [|discriminate]. cbn [rbind] in Hf. clear Hload.
  pose proof (load2_shape _ _ _ Hl) as [Hlen Hrows]. cbn [r2 c2] in Hlen, Hrows.
  destruct fr0 as [|f0' fr0']; [discriminate|]. set (fr0 := f0' :: fr0') in *.
  assert (Hlast : zlen (last fr0 []) = L).
  { unfold zlen. rewrite Forall_forall in Hrows. rewrite (Hrows (last fr0 [])); [lia|].
    rewrite last_nth. apply nth_In. rewrite Hlen. simpl in Hlen. lia. }
  rewrite Hlast, Z.ltb_irrefl in Hf. inversion Hf; subst fr L0.
  destruct (Z.eqb_spec r 0) as [Hr|Hr]; [rewrite Hr in Hlen; discriminate|].
  rewrite Hlen. rewrite Z.mul_1_r in *. split; auto. split; [split; auto; cbn; rewrite app_length; cbn; lia|]. split; [lia|]. split; [lia|].
  split; [rewrite Z2Nat.id; auto|]. intros i j Hi Hj.
  assert (Z.of_nat i * step <= (r - 1) * step)%Z by (apply Z.mul_le_mono_nonneg_r; lia).
  unfold r in *. pose proof (Z.mul_div_le (zlen x - L) step ltac:(lia)).
  assert (0 <= Z.of_nat i * step)%Z by (apply Z.mul_nonneg_nonneg; lia). lia.
Qed.
Lemma framing_alias : forall `{Env} h hs st k x fs wl wh fr L, Forall2 (shows h) hs st -> vec st k = Ok x ->
  framing x fs wl wh = Ok (fr, L) -> let hop := Ztrunc (rnd (wh * IZR fs)) in (0 <= hop)%Z ->
  exists v h1, exec (cstep hs (AFraming k fs wl wh)) h = (Ok (hs ++ [H2 v]), h1) /\
    Forall2 (shows h1) (hs ++ [H2 v]) (st ++ [V2 fr]) /\
    forall i j y, (i < List.length fr)%nat -> (j < List.length (nth i fr []))%nat ->
    exists h2 fr', exec (cstep (hs ++ [H2 v]) (APut2 (List.length hs) i j y)) h1 = (Ok (hs ++ [H2 v]), h2) /\
      Forall2 (shows h2) (hs ++ [H2 v]) (st ++ [V2 fr']) /\
      List.length fr' = List.length fr /\ forall i' j', (i' < List.length fr)%nat ->
        List.length (nth i' fr' []) = List.length (nth i' fr []) /\ 
        ((j' < List.length (nth i' fr []))%nat ->
         nth j' (nth i' fr' []) NaN = if (Z.of_nat i' * hop + Z.of_nat j' =? Z.of_nat i * hop + Z.of_nat j)%Z then y else nth j' (nth i' fr []) NaN).
Proof.
  intros E h hs st k x fs wl wh fr L Hs Hk Hf hop Hh.
  destruct (hvec_vec h hs st k Hs) as [(a & x' & E1 & E2 & S1)|[E1 E2]]; [|congruence]. rewrite Hk in E2. apply Ok_inj in E2. subst x'.
  destruct (framing_view h a x fs wl wh fr L S1 Hf Hh) as (V1 & V2 & V3 & V4 & V5 & V6). fold hop in V1, V2, V3, V5, V6.
  set (Ln := Ztrunc (rnd (wl * IZR fs))) in *. set (v := mkA2 (List.length h) 0 (List.length fr) (Z.to_nat Ln) hop 1) in *.
  exists v, (h ++ [x]). cbn [cstep]. rewrite E1. rewrite exec_bind. cbn [lift exec]. rewrite exec_bind, V1. cbn [ret exec].
  split; auto. assert (G : grows h (h ++ [x])) by (exists [x]; auto).
  assert (Hshow : Forall2 (shows (h ++ [x])) hs st) by (clear -Hs G; induction Hs; constructor; auto; eapply shows_grows; eauto).
  split; [apply Forall2_app; auto; constructor; auto; exact V2|].
  intros i j y Hi Hj. pose proof (load2_shape _ _ _ (proj2 V2)) as Hsh. assert (Hrow : forall i', (i' < List.length fr)%nat -> List.length (nth i' fr []) = Z.to_nat Ln).
  { intros i' Hi'. destruct Hsh as [_ Hr]. rewrite Forall_forall in Hr. apply Hr, nth_In. auto. }
  rewrite Hrow in Hj by auto. assert (Hbuf : buffer (h ++ [x]) (List.length h) = x) by apply buffer_new.
  assert (Hc : forall i' j', (i' < List.length fr)%nat -> (j' < Z.to_nat Ln)%nat -> (0 <= cell2 v i' j' < zlen (buffer (h ++ [x]) (b2 v)))%Z).
  { intros i' j' Hi' Hj'. cbn [b2 v]. rewrite Hbuf. unfold cell2. cbn [o2 rs2 cs2 v]. specialize (V6 i' j' Hi' Hj'). lia. }
  destruct (poke_ok (h ++ [x]) (b2 v) (cell2 v i j) y (proj1 V2) (Hc i j Hi Hj)) as (h2 & P1 & P2 & P3).
  assert (Hl2 : exists fr', load2 h2 v = Ok fr').
  { apply (load2_total h2 v). intros i' j' Hi' Hj'. cbn [r2 c2 v] in Hi', Hj'. specialize (Hc i' j' Hi' Hj').
    unfold zlen in *. rewrite (proj1 (proj2 P2)). auto. }
  destruct Hl2 as [fr' Hl2]. exists h2, fr'.
  assert (Hm : hmat (hs ++ [H2 v]) (List.length hs) = Ok v) by (unfold hmat; rewrite nth_error_app2, Nat.sub_diag by lia; auto).
  rewrite Hm. rewrite exec_bind. cbn [lift exec]. rewrite exec_bind. unfold write2. cbn [r2 c2 v].
  rewrite (proj2 (Nat.ltb_lt _ _) Hi), (proj2 (Nat.ltb_lt _ _) Hj). cbn [andb]. fold v. rewrite P1. cbn [ret exec]. split; auto.
  pose proof (load2_shape _ _ _ Hl2) as [Hsl Hsr]. cbn [r2 c2 v] in Hsl, Hsr. split.
  { apply Forall2_app.
    - clear -Hs P2. induction Hs as [|hd w hs st Hw Hs IH]; constructor; auto. apply (shows_only (b2 v) (h ++ [x])); [exact P2| |].
      + apply shows_buf in Hw. cbn [b2 v]. lia.
      + eapply shows_grows; [|exact Hw]. exists [x]; auto.
    - constructor; auto. split; auto. rewrite (proj1 P2). apply V2. }
  split; auto. intros i' j' Hi'. rewrite Hrow by auto. split.
  { rewrite Forall_forall in Hsr. apply Hsr, nth_In. lia. }
  intros Hj'. apply load2_iff in Hl2 as [_ Hl2]. specialize (Hl2 i' j' Hi' Hj'). rewrite P3 in Hl2 by apply (Hc i' j' Hi' Hj').
  destruct V2 as [_ V2]. apply load2_iff in V2 as [_ V2]. specialize (V2 i' j' Hi' Hj'). rewrite V2 in Hl2. unfold entry in Hl2.
  unfold cell2 in Hl2. cbn [o2 rs2 cs2 v] in Hl2.
  destruct (Z.eqb_spec (Z.of_nat i' * hop + Z.of_nat j') (Z.of_nat i * hop + Z.of_nat j)) as [Eq|Nq];
  destruct (Z.eqb_spec (0 + Z.of_nat i' * hop + Z.of_nat j' * 1) (0 + Z.of_nat i * hop + Z.of_nat j * 1)); try lia; apply Ok_inj in Hl2; auto.
Qed.

Lemma crun_cons : forall `{Env} hs a rest h hs1 h1 os hs2 h2, exec (cstep hs a) h = (Ok hs1, h1) ->
  exec (crun hs1 rest) h1 = (Ok (os, hs2), h2) -> exec (crun hs (a :: rest)) h = (Ok (Ok tt :: os, hs2), h2).
Proof.
  intros E hs a rest h hs1 h1 os hs2 h2 H1 H2. cbn [crun]. rewrite exec_bind, exec_attempt, H1. cbn [fst snd].
  rewrite exec_bind, H2. reflexivity.
Qed.
Lemma shows_fun : forall h hd v w, shows h hd v -> shows h hd w -> v = w.
Proof. intros h [a|a] [x|m] [y|n]; simpl; intros H1 H2; try tauto; destruct H1 as [_ H1], H2 as [_ H2]; congruence. Qed.
Lemma shows_funs : forall h hs st st', Forall2 (shows h) hs st -> Forall2 (shows h) hs st' -> st = st'.
Proof.
  intros h hs st st' H. revert st'. induction H as [|hd v hs st Hv H IH]; intros st' H'; inversion H'; subst; auto.
  f_equal; [eapply shows_fun; eauto|auto].
Qed.
(** assigning to a frame that overlaps its neighbour changes the neighbour *)
Lemma framing_overlap : forall `{Env} x fs wl wh y, let L := Ztrunc (rnd (wl * IZR fs)) in let hop := Ztrunc (rnd (wh * IZR fs)) in
  (wh <= wl)%R -> (0 < hop < L)%Z -> (L + hop <= zlen x)%Z -> y <> nth (Z.to_nat hop) x NaN ->
  let acts := [ANew1 x; AFraming 0 fs wl wh; APut2 1 1 0 y] in
  ~ exists hs h, exec (crun [] acts) [] = (Ok (fst (vrun [] acts), hs), h) /\ Forall2 (shows h) hs (snd (vrun [] acts)).
Proof.
  intros E x fs wl wh y L hop Hw Hh HN Hy acts (hs & h & Hx & Hs).
  assert (HL : (0 <= L)%Z) by lia. assert (HN' : (L <= zlen x)%Z) by lia.
  destruct (proj2 (proj2 (framing_outcomes x fs wl wh Hw (proj1 Hh) HL)) HN') as (fr & Hf & _). change (flen fs wl) with L in Hf.
  destruct (framing_content _ _ _ _ _ _ Hf) as (C1 & C2 & C3 & C4). change (flen fs wh) with hop in C2, C4.
  assert (Hn2 : (2 <= List.length fr)%nat).
  { unfold zlen at 1 in C2. assert (1 <= (zlen x - L) / hop)%Z by (apply Z.div_le_lower_bound; lia). lia. }
  assert (Hrow : forall i, (i < List.length fr)%nat -> Z.of_nat (List.length (nth i fr [])) = L).
  { intros i Hi. rewrite Forall_forall in C3. apply C3, nth_In. auto. }
  set (a0 := mkA1 0 0 (List.length x) 1).
  assert (S0 : Forall2 (shows [x]) [H1 a0] [V1 x]).
  { constructor; auto. destruct (new1_sees [] x) as (v & h' & _ & _ & S1 & _ & -> & ->). exact S1. }
  destruct (framing_alias [x] [H1 a0] [V1 x] 0 x fs wl wh fr L S0 eq_refl Hf ltac:(fold hop; lia)) as (v & h1 & E1 & E2 & E3).
  destruct (E3 1%nat 0%nat y) as (h2 & fr' & E4 & E5 & E6 & E7); [lia|specialize (Hrow 1%nat); lia|].
  assert (Hrun : exec (crun [] acts) [] = (Ok ([Ok tt; Ok tt; Ok tt], [H1 a0; H2 v]), h2)).
  { unfold acts. eapply crun_cons; [reflexivity|]. eapply crun_cons; [exact E1|]. eapply crun_cons; [exact E4|]. reflexivity. }
  rewrite Hx in Hrun. inversion Hrun; subst hs h. 
  pose proof (shows_funs _ _ _ _ E5 Hs) as Eq.
  assert (Hv : snd (vrun [] acts) = [V1 x; V2 (put fr 1 (put (nth 1 fr []) 0 y))]).
  { unfold acts. cbn [vrun vstep vec nth_error app rbind]. rewrite Hf. cbn [rbind app vstep mat nth_error].
    rewrite (proj2 (Nat.ltb_lt _ _)) by lia. rewrite (proj2 (Nat.ltb_lt _ _)) by (specialize (Hrow 1%nat); lia). reflexivity. }
  rewrite Hv in Eq. inversion Eq as [Efr]. destruct (E7 0%nat (Z.to_nat hop)) as [_ E8]; [lia|].
  specialize (E8 ltac:(specialize (Hrow 0%nat); lia)). rewrite Efr in E8.
  assert (Hp : nth 0 (put fr 1 (put (nth 1 fr []) 0 y)) [] = nth 0 fr []) by (destruct fr; [simpl in Hn2; lia|reflexivity]).
  rewrite Hp in E8. fold hop in E8. rewrite Z2Nat.id in E8 by lia. rewrite (proj2 (Z.eqb_eq _ _)) in E8 by lia.
  destruct (C4 0%Z hop) as [_ C5]; [unfold zlen; lia|lia|]. change (Z.to_nat 0) with 0%nat in C5. rewrite C5 in E8. apply Hy. rewrite <- E8. f_equal.
Qed.

(** ** lifter_ceps with lift 0 or above 10 *)
Lemma lifter_same : forall `{Env} h hs st k m l, Forall2 (shows h) hs st -> mat st k = Ok m -> (l = 0 \/ 10 < l)%R ->
  exists hd, nth_error hs k = Some hd /\ exec (cstep hs (ALifter k l)) h = (Ok (hs ++ [hd]), h).
Proof.
  intros E h hs st k m l Hs Hm Hl. destruct (hmat_mat h hs st k Hs) as [(a & m' & E1 & E2 & S1)|[E1 E2]]; [|congruence].
  exists (H2 a). split; [unfold hmat in E1; destruct (nth_error hs k) as [[b|b]|]; congruence|].
  cbn [cstep]. rewrite E1, exec_bind. cbn [lift exec]. unfold lifter_ceps_mem.
  assert (El : (Reqb l 0 || Rltb 10 l)%bool = true) by (destruct Hl as [Hl|Hl]; [rewrite Hl, Reqb_refl|rewrite (Rltb_true _ _ Hl)]; auto using orb_true_r); rewrite El; clear El. reflexivity.
Qed.
Lemma lifter_shares : forall `{Env} row m l i j y, Forall (fun r => List.length r = List.length row) m -> (l = 0 \/ 10 < l)%R ->
  (i <= List.length m)%nat -> (j < List.length row)%nat ->
  let acts := [ANew2 row m; ALifter 0 l; APut2 1 i j y] in
  let changed := put (row :: m) i (put (nth i (row :: m) []) j y) in
  snd (vrun [] acts) = [V2 (row :: m); V2 changed] /\
  exists os hs h, exec (crun [] acts) [] = (Ok (os, hs), h) /\ os = [Ok tt; Ok tt; Ok tt] /\ Forall2 (shows h) hs [V2 changed; V2 changed].
Proof.
  intros E row m l i j y Hm Hl Hi Hj acts changed.
  assert (Hf : forallb (fun r => Nat.eqb (List.length r) (List.length row)) m = true).
  { rewrite Forall_forall in Hm. apply forallb_forall. intros r Hr. apply Nat.eqb_eq. auto. }
  assert (Hsh : has_shape (row :: m) (S (List.length m)) (List.length row)) by (split; auto).
  assert (Hrow : List.length (nth i (row :: m) []) = List.length row).
  { destruct Hsh as [_ Hr]. rewrite Forall_forall in Hr. apply Hr, nth_In. cbn [List.length]. lia. }
  split.
  - unfold acts. cbn [vrun vstep app mat nth_error rbind]. rewrite Hf. cbn [rbind app vstep mat nth_error].
    unfold lifter_ceps. assert (El : (Reqb l 0 || Rltb 10 l)%bool = true) by (destruct Hl as [Hl|Hl]; [rewrite Hl, Reqb_refl|rewrite (Rltb_true _ _ Hl)]; auto using orb_true_r); rewrite El; clear El.
    cbn [rbind app vstep mat nth_error]. rewrite (proj2 (Nat.ltb_lt _ _)) by (cbn [List.length]; lia).
    rewrite (proj2 (Nat.ltb_lt _ _)) by lia. reflexivity.
  - pose proof (impl_new2 0 [] (row :: m) _ _ (le_n _) Hsh) as (_ & _ & [(v & b & h1 & N1 & N2 & N3)|(e & h1 & N1 & N2)]); [|discriminate].
    apply Ok_inj in N2. subst b. destruct N3 as [(O1 & O2 & O3) _].
    destruct (load2_shape _ _ _ (proj2 O3)) as [L1 L2]. cbn [List.length] in L1.
    assert (Hc : c2 v = List.length row) by (inversion L2; auto).
    destruct (write2_ok h1 v (row :: m) i j y) as (h2 & W1 & W2 & W3); auto; try lia.
    exists [Ok tt; Ok tt; Ok tt], [H2 v; H2 v], h2. split; [|split; [reflexivity|constructor; [exact W3|constructor; [exact W3|constructor]]]].
    unfold acts. eapply crun_cons. { cbn [cstep]. rewrite Hf, exec_bind, N1. reflexivity. }
    assert (S1 : Forall2 (shows h1) ([] ++ [H2 v]) [V2 (row :: m)]) by (constructor; auto; exact O3).
    destruct (lifter_same h1 ([] ++ [H2 v]) _ 0 (row :: m) l S1 eq_refl Hl) as (hd & Hd & Hx). inversion Hd; subst hd.
    eapply crun_cons; [exact Hx|]. eapply crun_cons; [|reflexivity].
    cbn [cstep app hmat nth_error]. rewrite exec_bind. cbn [lift exec]. rewrite exec_bind, W1. reflexivity.
Qed.
