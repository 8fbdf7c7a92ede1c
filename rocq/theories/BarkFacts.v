(** * Lemmas about the Bark filter bank *)
From Coq Require Import Reals ZArith List String Bool Lia Lra Psatz.
From Flocq Require Import Core.Raux.
From Verif Require Import Base BaseFacts SpecBase SpecMat SpecFilters SpecBanks BigSum MatFacts
  Preprocessing Converters ConvertersFacts Filters FiltersFacts MelBanks MelBanksFacts MelBanksMore BarkBank.
Import ListNotations.
Local Open Scope R_scope.

(** ** masking curve *)
Lemma Fm_eq : forall a b, Fm (Fin a) (Fin b) = Fin (spec_Fm (a - b)).
Proof.
  intros. unfold Fm, fsub. cbn [fneg fadd fltb fleb fmul fexp10]. replace (a + - b) with (a - b) by ring.
  set (d := a - b). unfold spec_Fm.
  destruct (Rlt_dec d (-1.3)); [rewrite Rltb_true by auto; auto|]. rewrite Rltb_false by lra. cbn [orb].
  destruct (Rlt_dec 2.5 d).
  { rewrite Rltb_true by auto. destruct (Rle_dec d (-0.5)); [lra|]. destruct (Rlt_dec d 0.5); [lra|].
    destruct (Rle_dec d 2.5); [lra|auto]. }
  rewrite Rltb_false by lra. rewrite Rleb_true by lra. cbn [andb].
  destruct (Rle_dec d (-0.5)); [rewrite Rleb_true by auto; auto|]. rewrite Rleb_false by lra.
  rewrite Rltb_true by lra. cbn [andb].
  destruct (Rlt_dec d 0.5); [rewrite Rltb_true by auto; auto|]. rewrite Rltb_false by lra.
  destruct (Rle_dec d 2.5); [|lra]. do 2 f_equal. ring.
Qed.

Lemma Rpower10_incr : forall x y, x < y -> Rpower 10 x < Rpower 10 y.
Proof. intros. apply Rpower_lt; lra. Qed.
Lemma Rpower10_le : forall x y, x <= y -> Rpower 10 x <= Rpower 10 y.
Proof. intros x y [H| ->]; [left; apply Rpower10_incr; auto|lra]. Qed.
Lemma Rpower10_m2 : Rpower 10 (-2) = 0.01.
Proof.
  replace (-2) with (- (INR 2)) by (simpl; lra). rewrite Rpower_Ropp, Rpower_pow by lra. simpl. lra.
Qed.
Lemma Rpower10_0 : Rpower 10 0 = 1.
Proof. apply Rpower_O; lra. Qed.

Lemma spec_Fm_outside : forall d, d < -1.3 \/ 2.5 < d -> spec_Fm d = 0.
Proof.
  intros d H. unfold spec_Fm. destruct (Rlt_dec d (-1.3)); auto.
  destruct (Rle_dec d (-0.5)); [lra|]. destruct (Rlt_dec d 0.5); [lra|]. destruct (Rle_dec d 2.5); [lra|auto].
Qed.
Lemma spec_Fm_inside : forall d, -1.3 <= d <= 2.5 -> 0.01 <= spec_Fm d <= 1.
Proof.
  intros d H. unfold spec_Fm. destruct (Rlt_dec d (-1.3)); [lra|].
  destruct (Rle_dec d (-0.5)).
  - rewrite <- Rpower10_m2, <- Rpower10_0. split; apply Rpower10_le; lra.
  - destruct (Rlt_dec d 0.5); [lra|]. destruct (Rle_dec d 2.5); [|lra].
    rewrite <- Rpower10_m2, <- Rpower10_0. split; apply Rpower10_le; lra.
Qed.
Lemma spec_Fm_range : forall d, 0 <= spec_Fm d <= 1.
Proof.
  intros d. destruct (Rlt_dec d (-1.3)); [rewrite spec_Fm_outside by lra; lra|].
  destruct (Rlt_dec 2.5 d); [rewrite spec_Fm_outside by lra; lra|].
  pose proof (spec_Fm_inside d). lra.
Qed.
Lemma spec_Fm_plateau : forall d, -0.5 <= d <= 0.5 -> spec_Fm d = 1.
Proof.
  intros d H. unfold spec_Fm. destruct (Rlt_dec d (-1.3)); [lra|].
  destruct (Rle_dec d (-0.5)).
  - replace (2.5 * (d + 0.5)) with 0 by lra. apply Rpower10_0.
  - destruct (Rlt_dec d 0.5); auto. destruct (Rle_dec d 2.5); [|lra].
    replace (0.5 - d) with 0 by lra. apply Rpower10_0.
Qed.
Lemma spec_Fm_left : forall d e, d <= e -> e <= 0.5 -> spec_Fm d <= spec_Fm e.
Proof.
  intros d e H1 H2. destruct (Rlt_dec d (-1.3)).
  { rewrite (spec_Fm_outside d) by lra. apply spec_Fm_range. }
  destruct (Rle_dec (-0.5) e). { rewrite (spec_Fm_plateau e) by lra. apply spec_Fm_range. }
  unfold spec_Fm. destruct (Rlt_dec d (-1.3)); [lra|]. destruct (Rlt_dec e (-1.3)); [lra|].
  destruct (Rle_dec d (-0.5)); [|lra]. destruct (Rle_dec e (-0.5)); [|lra]. apply Rpower10_le; lra.
Qed.
Lemma spec_Fm_right : forall d e, d <= e -> -0.5 <= d -> spec_Fm e <= spec_Fm d.
Proof.
  intros d e H1 H2. destruct (Rlt_dec 2.5 e).
  { rewrite (spec_Fm_outside e) by lra. apply spec_Fm_range. }
  destruct (Rle_dec d 0.5). { rewrite (spec_Fm_plateau d) by lra. apply spec_Fm_range. }
  unfold spec_Fm. destruct (Rlt_dec d (-1.3)); [lra|]. destruct (Rlt_dec e (-1.3)); [lra|].
  destruct (Rle_dec d (-0.5)); [lra|]. destruct (Rle_dec e (-0.5)); [lra|].
  destruct (Rlt_dec d 0.5); [lra|]. destruct (Rlt_dec e 0.5); [lra|].
  destruct (Rle_dec d 2.5); [|lra]. destruct (Rle_dec e 2.5); [|lra]. apply Rpower10_le; lra.
Qed.

(** ** filling a row *)
Lemma foldM_set : forall (v : Z -> F) is row,
  (forall i, In i is -> (0 <= i < zlen row)%Z) ->
  exists r', foldM (fun r i => py_set r i (v i)) is row = Ok r' /\
    List.length r' = List.length row /\
    forall k d, (k < List.length row)%nat ->
      nth k r' d = if existsb (Z.eqb (Z.of_nat k)) is then v (Z.of_nat k) else nth k row d.
Proof.
  intros v is. induction is as [|i t IH]; intros row Hin; simpl.
  - exists row. repeat split; auto.
  - assert (Hi : (0 <= i < zlen row)%Z) by (apply Hin; left; auto).
    unfold py_set at 1. destruct (Z.ltb_spec i 0); [lia|].
    destruct (Z.leb_spec 0 i); [|lia]. destruct (Z.ltb_spec i (zlen row)); [|lia]. cbn [andb rbind].
    destruct (IH (upd row (Z.to_nat i) (v i))) as (r' & E & L & N).
    { intros j Hj. unfold zlen. rewrite upd_length. apply Hin; right; auto. }
    exists r'. rewrite upd_length in L, N. repeat split; auto.
    intros k d Hk. rewrite (N k d Hk). destruct (existsb (Z.eqb (Z.of_nat k)) t) eqn:Et.
    + rewrite orb_true_r. auto.
    + rewrite orb_false_r. destruct (Z.eqb_spec (Z.of_nat k) i) as [<-|Hne].
      * rewrite Nat2Z.id. apply upd_nth_same; auto.
      * apply upd_nth_other. lia.
Qed.

Lemma foldM_set_raise : forall (v : Z -> F) is row i,
  In i is -> (zlen row <= i)%Z ->
  foldM (fun r i => py_set r i (v i)) is row = Raise IndexError.
Proof.
  intros v is. induction is as [|j t IH]; intros row i Hin Hi; simpl; [destruct Hin|].
  unfold py_set at 1. set (jj := if (j <? 0)%Z then (zlen row + j)%Z else j).
  destruct ((0 <=? jj) && (jj <? zlen row))%Z eqn:E; cbn [rbind]; [|auto].
  destruct Hin as [->|Hin].
  - exfalso. apply andb_prop in E as [E1 E2]. apply Z.leb_le in E1. apply Z.ltb_lt in E2.
    unfold jj in E2. destruct (Z.ltb_spec i 0); unfold zlen in *; lia.
  - apply (IH _ i); auto. unfold zlen in *. rewrite upd_length. auto.
Qed.

Lemma existsb_zrange : forall k a b, existsb (Z.eqb k) (zrange a b) = ((a <=? k) && (k <? b))%Z.
Proof.
  intros. apply eq_iff_eq_true. rewrite existsb_exists, andb_true_iff, Z.leb_le, Z.ltb_lt. split.
  - intros [x [Hx E]]. apply Z.eqb_eq in E. subst. apply zrange_In in Hx. lia.
  - intros H. exists k. split; [apply zrange_In; lia | apply Z.eqb_refl].
Qed.

Lemma bark_row_ext : forall nfft fs lo hi a fc row, (nfft + 1 <> 0)%Z ->
  bark_row nfft fs lo hi a fc row
  = foldM (fun r i => py_set r i (Fm (hz2bark (Fin (IZR (i * fs) / IZR (nfft + 1))) a) fc)) (zrange lo hi) row.
Proof.
  intros. unfold bark_row. destruct (Z.eqb_spec (nfft + 1) 0); [lia|]. auto.
Qed.

(** a row with finite entries *)
Lemma bark_row_fvec : forall nfft fs lo hi a s fc m,
  (nfft + 1 <> 0)%Z -> (0 <= lo)%Z -> (hi <= Z.of_nat m)%Z ->
  (forall f, hz2bark (Fin f) a = Fin (fwd s f)) ->
  bark_row nfft fs lo hi a (Fin fc) (repeat f0 m)
  = Ok (fvec m (fun k => if ((lo <=? Z.of_nat k) && (Z.of_nat k <? hi))%Z
        then spec_Fm (fwd s (INR k * IZR fs / IZR (nfft + 1)) - fc) else 0)).
Proof.
  intros nfft fs lo hi a s fc m H1 H2 H3 Hs. rewrite bark_row_ext by auto.
  destruct (foldM_set (fun i => Fm (hz2bark (Fin (IZR (i * fs) / IZR (nfft + 1))) a) (Fin fc)) (zrange lo hi) (repeat f0 m)) as (r' & E & L & N).
  { intros i Hi. apply zrange_In in Hi. unfold zlen. rewrite repeat_length. lia. }
  rewrite repeat_length in L, N.
  rewrite E. f_equal. apply (list_eq_nth _ NaN); [rewrite L, fvec_length; auto|].
  intros k Hk. rewrite L in Hk. rewrite (N k NaN Hk), fvec_nth by auto. rewrite existsb_zrange.
  destruct ((lo <=? Z.of_nat k) && (Z.of_nat k <? hi))%Z.
  - rewrite Hs, Fm_eq. do 4 f_equal. rewrite mult_IZR, <- INR_IZR_INZ. auto.
  - apply nth_repeat_lt || (rewrite (nth_indep _ NaN f0) by (rewrite repeat_length; auto); apply nth_repeat).
Qed.

(** ** scales *)
Lemma bark_scale_maps : forall a s, spec_bark_scale a s ->
  (forall f, hz2bark (Fin f) a = Fin (fwd s f)) /\ (forall b, bark2hz (Fin b) a = Fin (bwd s b)) /\
  (forall f, bwd s (fwd s f) = f) /\ (forall f g, f < g -> fwd s f < fwd s g).
Proof.
  intros a s Hs.
  assert (H1 : (forall f, hz2bark (Fin f) a = Fin (fwd s f)) /\ (forall b, bark2hz (Fin b) a = Fin (bwd s b))
     /\ (forall f, bark2hz (hz2bark (Fin f) a) a = Fin f) /\ a <> "Zwicker"%string).
  { destruct Hs as [[-> ->]|[[-> ->]|[Ha ->]]].
    - repeat split; [apply hz2bark_Tjomov|apply bark2hz_Tjomov|apply bark_roundtrip_Tjomov|discriminate].
    - repeat split; [apply hz2bark_Schroeder|apply bark2hz_Schroeder|apply bark_roundtrip_Schroeder|discriminate].
    - repeat split; intros.
      + apply hz2bark_Wang; auto.
      + apply bark2hz_Wang; auto.
      + apply bark_roundtrip_Wang; auto.
      + intros ->. apply Ha. simpl; auto 6. }
  destruct H1 as (H1 & H2 & H3 & H4). repeat split; auto.
  - intros f. apply Fin_inj. rewrite <- H2, <- H1. apply H3.
  - intros f g Hfg. destruct (bark_incr a f g Hfg) as (x & y & Ex & Ey & Hxy); [tauto|].
    rewrite H1 in Ex, Ey. injection Ex as ->. injection Ey as ->. auto.
Qed.

Lemma bark_bin_eq : forall `{Env} nfft fs a b h, bark2hz (Fin b) a = Fin h -> fs <> 0%Z ->
  bark_bin nfft fs a (Fin b) = Fin (IZR (Zfloor (rnd (IZR (nfft + 1) * (h / IZR fs))))).
Proof.
  intros E nfft fs a b h Hb Hfs. unfold bark_bin, fZ. rewrite Hb. rewrite fdiv_Fin by (apply not_0_IZR; auto).
  cbn [fmul]. auto.
Qed.

Lemma Zfloor_half : forall nfft fs h, (0 <= nfft)%Z -> (0 < fs)%Z -> h <= IZR fs / 2 ->
  (Zfloor (IZR (nfft + 1) * (h / IZR fs)) <= Z.of_nat (S (half nfft)))%Z.
Proof.
  intros nfft fs h Hn Hfs Hh. assert (0 < IZR fs) by (apply IZR_lt; auto).
  apply Z.le_trans with (nfft / 2 + 1)%Z.
  2:{ unfold half. rewrite Nat2Z.inj_succ, Z2Nat.id by (apply Z.div_pos; lia). lia. }
  apply le_IZR. eapply Rle_trans; [apply Zfloor_lb|].
  apply Rle_trans with (IZR (nfft + 1) * / 2).
  - apply Rmult_le_compat_l; [apply IZR_le; lia|].
    apply Rmult_le_reg_r with (IZR fs); auto. unfold Rdiv. rewrite Rmult_assoc, Rinv_l by lra. lra.
  - assert (E : (nfft + 1 <= 2 * (nfft / 2 + 1))%Z) by (pose proof (Z.mod_pos_bound nfft 2); pose proof (Z.div_mod nfft 2); lia).
    apply IZR_le in E. rewrite mult_IZR in E. lra.
Qed.

(** ** the bank, any rounding whose bins stay inside the matrix *)
Lemma bark_bank_eq : forall `{Env} n nfft fs low high h scale a s lo hi,
  spec_bark_scale a s -> In scale scale_names -> spec_high high fs h ->
  (2 <= n)%nat -> (0 <= nfft)%Z -> (0 < fs)%Z -> 0 <= low -> h <= IZR fs / 2 ->
  lo = Zfloor (rnd (IZR (nfft + 1) * (low / IZR fs))) ->
  hi = Zfloor (rnd (IZR (nfft + 1) * (h / IZR fs))) ->
  (0 <= lo)%Z -> (hi <= Z.of_nat (S (half nfft)))%Z ->
  bark_filter_banks (Z.of_nat n) nfft fs low high scale a
  = Ok (fmat n (S (half nfft)) (fun j k =>
          if ((lo <=? Z.of_nat k) && (Z.of_nat k <? hi))%Z
          then spec_scale scale n j * spec_Fm (fwd s (INR k * IZR fs / IZR (nfft + 1)) - spec_bark_centre s low h n j)
          else 0),
        fvec n (spec_bark_centre s low h n)).
Proof.
  intros E n nfft fs low high h scale a s lo hi Hs Hsc Hh Hn Hnf Hfs Hl Hhf Elo Ehi H0 H1.
  pose proof (spec_high_or _ _ _ Hh) as Ho.
  destruct (bark_scale_maps a s Hs) as (M1 & M2 & M3 & M4).
  unfold bark_filter_banks. rewrite Ho. rewrite !Rltb_false by lra.
  replace ((Z.of_nat n <? 0) || (nfft / 2 + 1 <? 0))%Z with false.
  2:{ symmetry. apply orb_false_intro; apply Z.ltb_ge; [lia|].
      assert (0 <= nfft / 2)%Z by (apply Z.div_pos; lia). lia. }
  rewrite Nat2Z.id, rows_of_nfft by auto. rewrite !M1.
  destruct n as [|n']; [lia|]. rewrite flinspace_fvec.
  change (fvec (S n') (spec_col (fwd s low) (fwd s h) n')) with (fvec (S n') (spec_col (fwd s low) (fwd s h) n')).
  assert (Hfirst : nth 0 (map (bark_bin nfft fs a) (fvec (S n') (spec_col (fwd s low) (fwd s h) n'))) NaN = Fin (IZR lo)).
  { rewrite (nth_map _ _ _ _ _ NaN) by (rewrite fvec_length; lia). rewrite fvec_nth by lia.
    rewrite (bark_bin_eq nfft fs a _ low); [rewrite <- Elo; auto| |lia].
    rewrite M2. unfold spec_col. simpl INR. rewrite Rmult_0_l, Rplus_0_r, M3. auto. }
  assert (Hlast : last (map (bark_bin nfft fs a) (fvec (S n') (spec_col (fwd s low) (fwd s h) n'))) NaN = Fin (IZR hi)).
  { rewrite last_nth, map_length, fvec_length. rewrite (nth_map _ _ _ _ _ NaN) by (rewrite fvec_length; lia).
    rewrite fvec_nth by lia. rewrite (bark_bin_eq nfft fs a _ h); [rewrite <- Ehi; auto| |lia].
    rewrite M2. unfold spec_col. replace (S n' - 1)%nat with n' by lia.
    replace (fwd s low + INR n' * ((fwd s h - fwd s low) / INR n')) with (fwd s h).
    - rewrite M3. auto.
    - field. apply not_0_INR; lia. }
  rewrite Hfirst, Hlast. cbn [py_int rbind]. rewrite !Ztrunc_IZR.
  assert (HM : mapM (fun fc => bark_row nfft fs lo hi a fc (repeat f0 (S (half nfft)))) (fvec (S n') (spec_col (fwd s low) (fwd s h) n'))
    = Ok (fmat (S n') (S (half nfft)) (fun j k => if ((lo <=? Z.of_nat k) && (Z.of_nat k <? hi))%Z
        then spec_Fm (fwd s (INR k * IZR fs / IZR (nfft + 1)) - spec_col (fwd s low) (fwd s h) n' j) else 0))).
  { unfold fvec at 1. rewrite mapM_map. unfold fmat. apply mapM_ok_map. intros j _.
    apply bark_row_fvec; auto. lia. }
  rewrite HM. cbn [rbind]. rewrite scale_fbank_ok by auto. cbn [rbind]. rewrite scale_rows_fmat.
  unfold spec_bark_centre. replace (S n' - 1)%nat with n' by lia. do 2 f_equal.
  apply fmat_ext; intros j k _ _. destruct ((lo <=? Z.of_nat k) && (Z.of_nat k <? hi))%Z; ring.
Qed.

(** one filter: the bin range is empty *)
Lemma zrange_empty : forall a, zrange a a = [].
Proof. intros. unfold zrange. rewrite Z.sub_diag. auto. Qed.
Lemma bark_single : forall `{Env} nfft fs low high h scale a s,
  spec_bark_scale a s -> In scale scale_names -> spec_high high fs h ->
  (0 <= nfft)%Z -> (0 < fs)%Z -> 0 <= low -> h <= IZR fs / 2 ->
  bark_filter_banks 1 nfft fs low high scale a
  = Ok ([fvec (S (half nfft)) (fun _ => 0)], [Fin (fwd s low)]).
Proof.
  intros E nfft fs low high h scale a s Hs Hsc Hh Hnf Hfs Hl Hhf.
  pose proof (spec_high_or _ _ _ Hh) as Ho.
  destruct (bark_scale_maps a s Hs) as (M1 & M2 & M3 & M4).
  unfold bark_filter_banks. rewrite Ho. rewrite !Rltb_false by lra.
  replace ((1 <? 0) || (nfft / 2 + 1 <? 0))%Z with false.
  2:{ symmetry. apply orb_false_intro; apply Z.ltb_ge; [lia|].
      assert (0 <= nfft / 2)%Z by (apply Z.div_pos; lia). lia. }
  rewrite rows_of_nfft by auto. rewrite !M1. change (Z.to_nat 1) with 1%nat.
  rewrite flinspace_fvec.
  assert (Ec : fvec 1 (spec_col (fwd s low) (fwd s h) 0) = [Fin (fwd s low)]).
  { unfold fvec. cbn [seq map]. do 2 f_equal. unfold spec_col. simpl. ring. }
  rewrite Ec. cbn [map nth last].
  rewrite (bark_bin_eq nfft fs a _ low) by (try lia; rewrite M2, M3; auto).
  cbn [py_int rbind mapM]. unfold bark_row. rewrite zrange_empty. cbn [foldM rbind].
  change 1%Z with (Z.of_nat 1). rewrite scale_fbank_ok by auto. cbn [rbind].
  do 2 f_equal. unfold scale_rows, fvec at 1. cbn [seq map map2]. f_equal.
  unfold f0. rewrite fvec_repeat. apply (fvec_map _ _ _ (fun v => v * spec_scale scale 1 0)) with (v := fun _ => 0) || idtac.
  rewrite (fvec_map _ _ _ (fun v => v * spec_scale scale 1 0)) by auto. apply fvec_ext; intros. ring.
Qed.

(** Zwicker at low_freq = 0 *)
Lemma hz2bark_Zwicker_0 : hz2bark (Fin 0) "Zwicker" = NInf.
Proof.
  unfold hz2bark. cbn [String.eqb Ascii.eqb Bool.eqb]. rewrite fdiv_Fin by lra.
  replace (0 / 1000) with 0 by lra. unfold flog10. simpl flog.
  destruct (Rlt_dec 0 0); [lra|]. destruct (Req_EM_T 0 0); [|lra].
  cbn [fdiv]. destruct (Rlt_dec (ln 10) 0); [pose proof ln10_pos; lra|].
  cbn [fmul]. unfold finfmul. destruct (Req_EM_T (- (14.2)) 0); [lra|]. destruct (Rlt_dec 0 (- (14.2))); [lra|]. auto.
Qed.

Lemma bark_Zwicker_fails : forall `{Env} nfilts nfft fs high scale,
  (1 <= nfilts)%Z -> or_half high fs <= IZR fs / 2 ->
  bark_filter_banks nfilts nfft fs 0 high scale "Zwicker" = Raise ValueError.
Proof.
  intros E nfilts nfft fs high scale Hn Hh. unfold bark_filter_banks. rewrite !Rltb_false by lra.
  destruct ((nfilts <? 0) || (nfft / 2 + 1 <? 0))%Z; auto.
  rewrite hz2bark_Zwicker_0.
  destruct (Z.to_nat nfilts) as [|n] eqn:En; [lia|].
  assert (Hf : exists t, flinspace NInf (hz2bark (Fin (or_half high fs)) "Zwicker") (S n) = NaN :: t).
  { unfold flinspace. destruct n.
    - exists []. f_equal. destruct (hz2bark (Fin (or_half high fs)) "Zwicker"); simpl; auto;
        unfold finfmul; destruct (Req_EM_T 0 0); auto; lra.
    - cbn [seq map app]. eexists. f_equal. unfold fnat. simpl INR.
      destruct (hz2bark (Fin (or_half high fs)) "Zwicker"); auto;
        unfold fsub; cbn [fneg fadd fdiv];
        try (destruct (Rlt_dec _ _)); cbn [fmul]; unfold finfmul; try (destruct (Req_EM_T _ 0)); auto; lra. }
  destruct Hf as [t Ht]. rewrite Ht. cbn [map nth mapM rbind].
  replace (bark_bin nfft fs "Zwicker" NaN) with NaN by (unfold bark_bin; reflexivity). reflexivity.
Qed.

(** ** validation *)
Lemma py_set_raise : forall A (l : list A) i x e, py_set l i x = Raise e -> e = IndexError.
Proof. intros A l i x e. unfold py_set. destruct (_ && _)%bool; [discriminate|]. intros H; injection H; auto. Qed.
Lemma foldM_raise : forall A B (f : B -> A -> result B) l b e, foldM f l b = Raise e ->
  exists b' x, In x l /\ f b' x = Raise e.
Proof.
  induction l as [|x t IH]; intros b e H; simpl in *; [discriminate|].
  destruct (f b x) eqn:E; cbn [rbind] in H.
  - destruct (IH _ _ H) as (b' & y & Hy & Hf). eauto 6.
  - injection H as ->. eauto 6.
Qed.
Lemma bark_row_raise : forall nfft fs lo hi a fc row e, bark_row nfft fs lo hi a fc row = Raise e ->
  e = IndexError \/ e = ZeroDivisionError.
Proof.
  intros nfft fs lo hi a fc row e H. unfold bark_row in H. apply foldM_raise in H as (b & x & _ & H).
  destruct (nfft + 1 =? 0)%Z; [injection H; auto|]. apply py_set_raise in H. auto.
Qed.
Lemma bark_raise : forall `{Env} nfilts nfft fs low high scale a e,
  bark_filter_banks nfilts nfft fs low high scale a = Raise e ->
  (low < 0 /\ e = ParameterError msg_low_freq) \/
  (0 <= low /\ IZR fs / 2 < or_half high fs /\ e = ParameterError msg_high_freq) \/
  (0 <= low /\ or_half high fs <= IZR fs / 2 /\
   (e = ValueError \/ e = KeyError \/ e = ZeroDivisionError \/ e = IndexError \/ e = OverflowError)).
Proof.
  intros E nfilts nfft fs low high scale a e. unfold bark_filter_banks.
  unfold Rltb at 1. destruct (Rlt_dec low 0). { intros H; injection H; auto. }
  unfold Rltb at 1. destruct (Rlt_dec (IZR fs / 2) (or_half high fs)).
  { intros H; injection H as <-. right; left. repeat split; auto; lra. }
  intros H. right; right. split; [lra|]. split; [lra|].
  destruct ((nfilts <? 0) || (nfft / 2 + 1 <? 0))%Z; [injection H; auto|].
  match type of H with rbind ?r _ = _ => destruct r eqn:Er end; cbn [rbind] in H.
  - match type of H with rbind ?r _ = _ => destruct r eqn:Es end; cbn [rbind] in H; [discriminate|].
    injection H as ->. apply scale_fbank_raise in Es. tauto.
  - injection H as ->. apply mapM_raise in Er as (x & _ & Er).
    assert (Hpi : forall y e', py_int y = Raise e' -> e' = ValueError \/ e' = OverflowError).
    { intros [r| | |] e'; simpl; try discriminate; intros Hx; injection Hx; auto. }
    destruct (py_int (nth 0 (map (bark_bin nfft fs a) (flinspace (hz2bark (Fin low) a) (hz2bark (Fin (or_half high fs)) a) (Z.to_nat nfilts))) NaN)) eqn:E1;
      cbn [rbind] in Er; [|injection Er as ->; apply Hpi in E1; tauto].
    match type of Er with rbind ?r _ = _ => destruct r eqn:E2 end; cbn [rbind] in Er;
      [|injection Er as ->; apply Hpi in E2; tauto].
    apply bark_row_raise in Er. tauto.
Qed.
Lemma bark_validation : forall `{Env} nfilts nfft fs low high h scale a, spec_high high fs h ->
  (bark_filter_banks nfilts nfft fs low high scale a = Raise (ParameterError msg_low_freq) <-> low < 0) /\
  (bark_filter_banks nfilts nfft fs low high scale a = Raise (ParameterError msg_high_freq)
   <-> 0 <= low /\ IZR fs / 2 < h).
Proof.
  intros E nfilts nfft fs low high h scale a Hh. pose proof (spec_high_or _ _ _ Hh) as <-. split; split; intros H.
  - apply bark_raise in H as [[? _]|[(_ & _ & H)|(_ & _ & H)]]; auto; [discriminate|].
    destruct H as [H|[H|[H|[H|H]]]]; discriminate.
  - unfold bark_filter_banks. rewrite Rltb_true by auto. auto.
  - apply bark_raise in H as [[_ H]|[(? & ? & _)|(_ & _ & H)]]; auto; [discriminate|].
    destruct H as [H|[H|[H|[H|H]]]]; discriminate.
  - unfold bark_filter_banks. rewrite Rltb_false, Rltb_true by lra. auto.
Qed.
