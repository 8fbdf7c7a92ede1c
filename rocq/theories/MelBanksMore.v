(** * More lemmas about the triangular filter banks: sums, mirrored banks, edge cases *)
From Coq Require Import Reals ZArith List String Bool Lia Lra Psatz.
From Verif Require Import Base BaseFacts SpecBase SpecMat SpecFilters SpecBanks BigSum MatFacts
  Preprocessing Converters ConvertersFacts Filters FiltersFacts MelBanks MelBanksFacts.
Import ListNotations.
Local Open Scope R_scope.

Lemma spec_high_or : forall high fs h, spec_high high fs h -> or_half high fs = h.
Proof.
  intros high fs h [[-> H]|[[->| ->] ->]]; simpl; auto; destruct (Req_EM_T _ 0); tauto.
Qed.
Lemma or_half_spec : forall high fs, spec_high high fs (or_half high fs).
Proof.
  intros [h|] fs; simpl; [|right; auto]. destruct (Req_EM_T h 0); [subst; right; auto|left; auto].
Qed.

(** ** the points *)
Lemma mel_point_first : forall a s low high n, spec_mel_scale a s -> 0 <= low -> spec_point s low high n 0 = low.
Proof.
  intros a s low high n Hs H. destruct (mel_scale_maps _ _ Hs) as (Ha & Hf & Hb). pose proof (mel_D_pos a).
  unfold spec_point, spec_level. rewrite Hb, !Hf. simpl INR. rewrite Rmult_0_l, Rplus_0_r. apply melinv_mel; lra.
Qed.
Lemma level_last : forall s low high n, spec_level s low high n (n + 1) = fwd s high.
Proof. intros. unfold spec_level. field. apply not_0_INR; lia. Qed.
Lemma mel_point_last : forall a s low high n, spec_mel_scale a s -> 0 <= high -> spec_point s low high n (n + 1) = high.
Proof.
  intros a s low high n Hs H. destruct (mel_scale_maps _ _ Hs) as (Ha & Hf & Hb). pose proof (mel_D_pos a).
  unfold spec_point. rewrite level_last, Hb, !Hf. apply melinv_mel; lra.
Qed.
Lemma lin_point_first : forall low high n, spec_point lin_scale low high n 0 = low.
Proof. intros. unfold spec_point, spec_level. simpl. lra. Qed.
Lemma lin_point_last : forall low high n, spec_point lin_scale low high n (n + 1) = high.
Proof. intros. unfold spec_point. rewrite level_last. auto. Qed.

Lemma level_between : forall s low high n j, fwd s low < fwd s high -> (j < n)%nat ->
  fwd s low < spec_level s low high n (j + 1) < fwd s high.
Proof.
  intros s low high n j H Hj. split.
  - replace (fwd s low) with (spec_level s low high n 0) by (unfold spec_level; simpl; lra).
    apply (incr_lt (spec_level s low high n)); [intros; apply level_incr; auto | lia].
  - rewrite <- (level_last s low high n).
    apply (incr_lt (spec_level s low high n)); [intros; apply level_incr; auto | lia].
Qed.

(** ** column sums *)
Lemma bank_sum : forall s low high n h k,
  (forall i, spec_point s low high n i < spec_point s low high n (S i)) -> (1 <= n)%nat ->
  0 <= bigsum n (fun j => spec_bank s low high n h "constant" j k) <= 1 /\
  (spec_point s low high n 1 <= spec_col low high h k <= spec_point s low high n n ->
   bigsum n (fun j => spec_bank s low high n h "constant" j k) = 1).
Proof.
  intros s low high n h k Hp Hn.
  rewrite (bigsum_ext n _ (fun j => spec_tri (spec_point s low high n j) (spec_point s low high n (j + 1))
             (spec_point s low high n (j + 2)) (spec_col low high h k))).
  2:{ intros j Hj. unfold spec_bank. unfold spec_scale; simpl. ring. }
  split.
  - split.
    + apply bigsum_nonneg; intros j Hj. replace (j + 1)%nat with (S j) by lia. replace (j + 2)%nat with (S (S j)) by lia.
      apply tri_range; auto.
    + rewrite (tri_sum (spec_point s low high n)) by auto.
      pose proof (ramp_range (spec_point s low high n 0) (spec_point s low high n 1) (spec_col low high h k)).
      pose proof (ramp_range (spec_point s low high n n) (spec_point s low high n (S n)) (spec_col low high h k)).
      lra.
  - intros Hb. rewrite (tri_sum (spec_point s low high n)) by auto.
    rewrite ramp_high, ramp_low by (auto; lra). lra.
Qed.

(** ** inverted band *)
Lemma col_le_low : forall low h m k, h <= low -> spec_col low h m k <= low.
Proof.
  intros. unfold spec_col. destruct m.
  - simpl. unfold Rdiv. rewrite Rinv_0. lra.
  - assert (0 < / INR (S m)) by (apply Rinv_0_lt_compat, lt_0_INR; lia). pose proof (pos_INR k).
    unfold Rdiv. assert (0 <= INR k * / INR (S m)) by (apply Rmult_le_pos; lra). nra.
Qed.
Lemma alevel_0 : forall lo hi n, alevel lo hi n 0 = lo.
Proof. intros. unfold alevel. simpl. lra. Qed.
Lemma alevel_ge : forall lo hi n i, lo <> hi -> lo <= alevel lo hi n i.
Proof.
  intros. rewrite <- (alevel_0 lo hi n) at 1. apply (incr_le (alevel lo hi n)); [|lia].
  intros; apply alevel_incr; auto.
Qed.

Lemma mel_inverted : forall n nfft fs low high h scale approach,
  In approach mel_names -> In scale scale_names -> spec_high high fs h ->
  0 < h -> h < low -> h <= IZR fs / 2 -> (0 <= nfft)%Z ->
  exists c, mel_filter_banks (Z.of_nat n) nfft fs low high scale approach
  = Ok (fmat n (S (half nfft)) (fun _ _ => 0), c).
Proof.
  intros n nfft fs low high h scale a Ha Hs Hh H0 H1 H2 Hn. apply spec_high_or in Hh. subst h.
  pose proof (mel_D_pos a).
  assert (Hne : melR a low <> melR a (or_half high fs)).
  { intro E. apply (f_equal (melinvR a)) in E. rewrite !melinv_mel in E by lra. lra. }
  eexists. unfold mel_filter_banks. rewrite helper_mel by (auto; lra). do 2 f_equal.
  apply fmat_ext; intros j k Hj Hk. rewrite tri_below; [ring| |].
  - apply melinvR_incr, alevel_incr; auto.
  - eapply Rle_trans; [apply col_le_low; lra|].
    rewrite <- (melinv_mel a low) at 1 by lra.
    destruct (alevel_ge (melR a low) (melR a (or_half high fs)) n j Hne) as [E|E].
    + left. apply melinvR_incr; auto.
    + rewrite <- E. lra.
Qed.
Lemma lin_inverted : forall n nfft fs low high h scale,
  In scale scale_names -> spec_high high fs h ->
  0 <= low -> h < low -> h <= IZR fs / 2 -> (0 <= nfft)%Z ->
  exists c, linear_filter_banks (Z.of_nat n) nfft fs low high scale
  = Ok (fmat n (S (half nfft)) (fun _ _ => 0), c).
Proof.
  intros n nfft fs low high h scale Hs Hh H0 H1 H2 Hn. apply spec_high_or in Hh. subst h.
  eexists. unfold linear_filter_banks. rewrite helper_lin by (auto; lra). cbn [rbind fst snd]. do 2 f_equal.
  rewrite (fmat_map _ _ _ _ Rabs) by auto.
  apply fmat_ext; intros j k Hj Hk. rewrite tri_below; [rewrite Rmult_0_r; apply Rabs_R0| |].
  - apply alevel_incr; lra.
  - eapply Rle_trans; [apply col_le_low; lra|]. apply alevel_ge; lra.
Qed.

(** ** empty band *)
Lemma map_const_repeat : forall A B (f : A -> B) l b, (forall x, In x l -> f x = b) -> map f l = repeat b (List.length l).
Proof. induction l; intros; simpl; auto. rewrite (H a) by (left; auto). rewrite (IHl b); auto. intros; apply H; right; auto. Qed.
Lemma lin_empty : forall n nfft fs high h scale,
  In scale scale_names -> spec_high high fs h ->
  0 <= h -> h <= IZR fs / 2 -> (0 <= nfft)%Z ->
  exists c, linear_filter_banks (Z.of_nat n) nfft fs h high scale
  = Ok (repeat (repeat NaN (S (half nfft))) n, c).
Proof.
  intros n nfft fs high h scale Hs Hh H0 H1 Hn. apply spec_high_or in Hh.
  eexists. unfold linear_filter_banks, mel_filter_banks_helper. rewrite Hh.
  rewrite !Rltb_false by lra. rewrite Nat2Z.id. cbn [String.eqb Ascii.eqb Bool.eqb].
  destruct (Z.eqb_spec (Z.of_nat n + 1) 0); [lia|].
  rewrite scale_points_fvec.
  destruct (points_split n (alevel h h n)) as (E1 & E2 & E3). rewrite E1, E2, E3. cbn [rbind].
  replace ((nfft / 2 + 1 <? 0) || (Z.of_nat n <? 0))%Z with false.
  2:{ symmetry. apply orb_false_intro; apply Z.ltb_ge; [|lia].
      assert (0 <= nfft / 2)%Z by (apply Z.div_pos; lia). lia. }
  rewrite scale_fbank_ok by auto. cbn [rbind fst snd].
  assert (E : forall i, alevel h h n i = h) by (intros; unfold alevel; rewrite Rminus_diag_eq, Rabs_R0 by auto; unfold Rdiv; ring).
  rewrite rows_of_nfft by auto. rewrite flinspace_fvec.
  rewrite (fvec_ext n (fun i => alevel h h n (S i)) (fun _ => h)) by auto.
  rewrite (fvec_ext n (alevel h h n) (fun _ => h)) by auto.
  rewrite (fvec_ext n (fun i => alevel h h n (S (S i))) (fun _ => h)) by auto.
  unfold fvec. rewrite !map2_map_same. cbn [fst snd].
  do 2 f_equal. unfold scale_rows. rewrite map2_map_same, map_map.
  rewrite (map_const_repeat _ _ _ _ (repeat NaN (S (half nfft)))); [rewrite seq_length; auto|].
  intros j Hj. rewrite map_map. unfold slope_row. rewrite map_map.
  rewrite (map_const_repeat _ _ _ _ NaN); [rewrite map_length, seq_length; auto|].
  intros x Hx. unfold fvec in Hx. apply in_map_iff in Hx as [k [<- Hk]].
  replace (spec_col h h (half nfft) k) with h by (unfold spec_col, Rdiv; ring).
  unfold fgeb; cbn [fleb]. rewrite !Rleb_true by lra. cbn [Bool.eqb fsub fneg fadd fdiv].
  replace (h + - h) with 0 by ring. destruct (Req_EM_T 0 0); [|lra]. unfold finfmul. destruct (Req_EM_T 0 0); [|lra]. auto.
Qed.

(** ** the mirrored bank *)
Lemma inverse_scale_names : forall sc sc', inverse_scale sc = Ok sc' ->
  (sc = "ascendant" /\ sc' = "descendant")%string \/ (sc = "descendant" /\ sc' = "ascendant")%string \/
  (sc = "constant" /\ sc' = "constant")%string.
Proof.
  intros sc sc' H. unfold inverse_scale in H.
  destruct (String.eqb_spec sc "ascendant"); [injection H; auto|].
  destruct (String.eqb_spec sc "descendant"); [injection H; auto|].
  destruct (String.eqb_spec sc "constant"); [injection H; auto 6|discriminate].
Qed.
Lemma inverse_scale_ok : forall sc, In sc scale_names -> exists sc', inverse_scale sc = Ok sc' /\ In sc' scale_names.
Proof.
  intros sc [<-|[<-|[<-|[]]]]; eexists; (split; [reflexivity|]); simpl; auto.
Qed.

Lemma inverse_inv : forall nfilts nfft fs low high sc a B c,
  inverse_mel_filter_banks nfilts nfft fs low high sc a = Ok (B, c) ->
  exists sc' B0 c0, inverse_scale sc = Ok sc' /\
    mel_filter_banks nfilts nfft fs low high sc' a = Ok (B0, c0) /\
    B = map (map fabs) (map (@rev F) B0) /\ List.length c = List.length c0.
Proof.
  intros nfilts nfft fs low high sc a B c H. unfold inverse_mel_filter_banks in H.
  apply rbind_Ok in H as [sc' [Hsc H]]. apply rbind_Ok in H as [[B0 c0] [Hb H]].
  apply rbind_Ok in H as [hz [Hhz H]]. apply rbind_Ok in H as [cc [Hcc H]].
  apply Ok_inj in H. injection H as <- <-. exists sc', B0, c0. repeat split; auto.
  apply mapM_length in Hhz. rewrite <- Hhz. destruct high.
  - apply mapM_length in Hcc. auto.
  - destruct hz; [|discriminate]. apply Ok_inj in Hcc. subst; auto.
Qed.

Lemma inverse_entry : forall B0 r m j k, has_shape B0 r (S m) -> (j < r)%nat -> (k <= m)%nat ->
  nth k (nth j (map (map fabs) (map (@rev F) B0)) []) NaN = fabs (nth (m - k) (nth j B0 []) NaN).
Proof.
  intros B0 r m j k HB Hj Hk. rewrite map_map. destruct HB as [HL HR].
  rewrite (nth_map _ _ _ _ _ []) by lia.
  assert (L : List.length (nth j B0 []) = S m) by (apply (has_shape_rows _ B0 r (S m)); [split; auto|auto]).
  rewrite (nth_map _ _ _ _ _ NaN) by (rewrite rev_length; lia). f_equal.
  rewrite rev_nth by lia. rewrite L. f_equal; lia.
Qed.

Lemma col_mirror : forall low h m k, (1 <= m)%nat -> (k <= m)%nat -> spec_col low h m (m - k) = low + h - spec_col low h m k.
Proof.
  intros. unfold spec_col. rewrite minus_INR by lia. field. apply not_0_INR; lia.
Qed.
Lemma tri_mirror : forall l c u f t, l < c -> c < u ->
  spec_tri l c u (t - f) = spec_tri (t - u) (t - c) (t - l) f.
Proof.
  intros. unfold spec_tri. f_equal. rewrite Rmin_comm. f_equal.
  - replace (t - c - (t - u)) with (u - c) by ring. f_equal; ring.
  - replace (t - l - (t - c)) with (c - l) by ring. f_equal; ring.
Qed.

Lemma inverse_eq : forall n nfft fs low h scale scale' approach s,
  spec_mel_scale approach s -> inverse_scale scale = Ok scale' ->
  0 <= low -> low < h -> h <= IZR fs / 2 -> (0 <= nfft)%Z ->
  inverse_mel_filter_banks (Z.of_nat n) nfft fs low (Some h) scale approach
  = Ok (fmat n (S (half nfft)) (fun j k => spec_bank s low h n (half nfft) scale' j (half nfft - k)),
        fvec n (fun j => fwd s (h - spec_point s low h n (j + 1)))).
Proof.
  intros n nfft fs low h scale scale' approach s Hs Hsc Hl Hlh Hh Hn.
  assert (Hin : In scale' scale_names).
  { apply inverse_scale_names in Hsc as [[_ ->]|[[_ ->]|[_ ->]]]; simpl; auto. }
  assert (Ho : or_half (Some h) fs = h) by (simpl; destruct (Req_EM_T h 0); lra).
  unfold inverse_mel_filter_banks. rewrite Hsc. cbn [rbind].
  pose proof (mel_bank_eq n nfft fs low (Some h) scale' approach s Hs Hin Hl) as E. rewrite Ho in E.
  unfold mel_filter_banks in E. rewrite E by auto. cbn [rbind].
  destruct (mel_scale_maps _ _ Hs) as (Ha & Hf & Hb). pose proof (mel_D_pos approach).
  rewrite (mapM_fvec _ _ (melinvR approach)) by (intros; apply mel2hz_eq; auto). cbn [rbind].
  assert (E2 : mapM (fun f => hz2mel (fsub (Fin h) f) approach)
      (fvec n (fun i => melinvR approach (spec_level s low h n (i + 1))))
      = Ok (fvec n (fun j => fwd s (h - spec_point s low h n (j + 1))))).
  { unfold fvec. rewrite mapM_map.
    rewrite (mapM_ok_map _ _ _ (fun j => Fin (fwd s (h - spec_point s low h n (j + 1))))); auto.
    intros j Hj. apply in_seq in Hj. unfold fsub; cbn [fneg fadd].
    unfold spec_point. rewrite Hb, Hf.
    rewrite hz2mel_eq; auto.
    assert (melinvR approach (spec_level s low h n (j + 1)) < h); [|lra].
    rewrite <- Hb. change (spec_point s low h n (j + 1) < h).
    rewrite <- (mel_point_last approach s low h n Hs) at 2 by lra.
    apply (incr_lt (spec_point s low h n)); [|lia]. intros; apply (mel_point_incr approach); auto; lra. }
  rewrite E2. cbn [rbind]. do 2 f_equal.
  assert (E3 : map (@rev F) (fmat n (S (half nfft)) (spec_bank s low h n (half nfft) scale'))
     = fmat n (S (half nfft)) (fun j k => spec_bank s low h n (half nfft) scale' j (half nfft - k))).
  { apply fmat_map_rows. intros i Hi. rewrite fvec_rev. apply fvec_ext; intros k Hk. f_equal. lia. }
  rewrite E3. apply map_abs_nonneg. intros. apply bank_nonneg; auto.
  intros; apply (mel_point_incr approach); auto; lra.
Qed.

(** the helper of the mel banks never fails on valid input *)
Lemma hz2mel_total : forall a f, In a mel_names -> exists v, hz2mel f a = Ok v.
Proof. intros a f [<-|[<-|[]]]; eexists; reflexivity. Qed.
Lemma mapM_mel2hz_total : forall a l, In a mel_names -> exists v, mapM (fun m => mel2hz m a) l = Ok v.
Proof.
  intros a l Ha. assert (H : exists g, forall m, mel2hz m a = Ok (g m)).
  { destruct Ha as [<-|[<-|[]]]; eexists; intros; reflexivity. }
  destruct H as [g Hg]. exists (map g l). apply mapM_ok_map; auto.
Qed.
Lemma mel_total : forall nfilts nfft fs low high scale a,
  In a mel_names -> In scale scale_names -> 0 <= low -> or_half high fs <= IZR fs / 2 ->
  (0 <= nfilts)%Z -> (0 <= nfft)%Z ->
  exists B c, mel_filter_banks nfilts nfft fs low high scale a = Ok (B, c).
Proof.
  intros nfilts nfft fs low high scale a Ha Hs Hl Hh Hn Hf.
  unfold mel_filter_banks, mel_filter_banks_helper. rewrite !Rltb_false by lra.
  cbn [String.eqb Ascii.eqb Bool.eqb].
  destruct (hz2mel_total a (Fin low) Ha) as [v1 ->]. destruct (hz2mel_total a (Fin (or_half high fs)) Ha) as [v2 ->].
  cbn [rbind].
  match goal with |- context [mapM ?f ?l] => destruct (mapM_mel2hz_total a l Ha) as [w1 ->] end. cbn [rbind].
  match goal with |- context [mapM ?f ?l] => destruct (mapM_mel2hz_total a l Ha) as [w2 ->] end. cbn [rbind].
  match goal with |- context [mapM ?f ?l] => destruct (mapM_mel2hz_total a l Ha) as [w3 ->] end. cbn [rbind].
  replace ((nfft / 2 + 1 <? 0) || (nfilts <? 0))%Z with false.
  2:{ symmetry. apply orb_false_intro; apply Z.ltb_ge; [|lia].
      assert (0 <= nfft / 2)%Z by (apply Z.div_pos; lia). lia. }
  pose proof (scale_fbank_ok scale (Z.to_nat nfilts) Hs) as Es. rewrite Z2Nat.id in Es by auto.
  rewrite Es. cbn [rbind]. eauto.
Qed.

Lemma inverse_none : forall nfilts nfft fs low scale a,
  In a mel_names -> In scale scale_names -> 0 <= low -> (1 <= nfilts)%Z -> (0 <= nfft)%Z ->
  inverse_mel_filter_banks nfilts nfft fs low None scale a = Raise TypeError.
Proof.
  intros nfilts nfft fs low scale a Ha Hs Hl Hn Hf.
  destruct (inverse_scale_ok scale Hs) as (sc' & Hsc & Hin).
  unfold inverse_mel_filter_banks. rewrite Hsc. cbn [rbind].
  destruct (mel_total nfilts nfft fs low None sc' a) as (B & c & E); auto; try (simpl; lra); try lia.
  unfold mel_filter_banks in E. rewrite E. cbn [rbind].
  apply helper_shape in E as (_ & Hc & _).
  destruct (mapM_mel2hz_total a c Ha) as [w Hw]. rewrite Hw. cbn [rbind].
  apply mapM_length in Hw. destruct w; [simpl in Hw; lia|]. auto.
Qed.
Lemma inverse_none_never : forall nfilts nfft fs low scale a B c,
  (1 <= nfilts)%Z -> inverse_mel_filter_banks nfilts nfft fs low None scale a <> Ok (B, c).
Proof.
  intros nfilts nfft fs low scale a B c Hn H. unfold inverse_mel_filter_banks in H.
  apply rbind_Ok in H as [sc' [Hsc H]]. apply rbind_Ok in H as [[B0 c0] [Hb H]].
  apply rbind_Ok in H as [hz [Hhz H]]. apply rbind_Ok in H as [cc [Hcc H]].
  apply mapM_length in Hhz. apply helper_shape in Hb as (_ & Hc & _).
  destruct hz; [simpl in Hhz; lia|discriminate].
Qed.

(** ** scaling commutes with everything *)
Lemma fmul_one : forall x, fmul x (Fin 1) = x.
Proof.
  intros [r| | |]; simpl; auto.
  - f_equal; ring.
  - unfold finfmul. destruct (Req_EM_T 1 0); [lra|]. destruct (Rlt_dec 0 1); [auto|lra].
  - unfold finfmul. destruct (Req_EM_T (- (1)) 0); [lra|]. destruct (Rlt_dec 0 (- (1))); [lra|auto].
Qed.
Lemma fabs_fmul : forall x s, 0 < s -> fabs (fmul x (Fin s)) = fmul (fabs x) (Fin s).
Proof.
  intros [r| | |] s Hs; simpl; auto.
  - rewrite Rabs_mult, (Rabs_pos_eq s) by lra. auto.
  - unfold finfmul. destruct (Req_EM_T s 0); [lra|]. destruct (Rlt_dec 0 s); [auto|lra].
  - unfold finfmul. destruct (Req_EM_T (- s) 0); [lra|]. destruct (Rlt_dec 0 (- s)); [lra|].
    destruct (Req_EM_T s 0); [lra|]. destruct (Rlt_dec 0 s); [auto|lra].
Qed.

Lemma mel_scaled : forall nfilts nfft fs low high scale a B c,
  mel_filter_banks nfilts nfft fs low high scale a = Ok (B, c) ->
  exists B0, mel_filter_banks nfilts nfft fs low high "constant" a = Ok (B0, c) /\
    forall j k, (j < Z.to_nat nfilts)%nat -> (k < Z.to_nat (nfft / 2 + 1))%nat ->
      nth k (nth j B []) NaN = fmul (nth k (nth j B0 []) NaN) (Fin (spec_scale scale (Z.to_nat nfilts) j)).
Proof.
  intros nfilts nfft fs low high scale a B c H. unfold mel_filter_banks in *.
  apply helper_inv in H as (H1 & H2 & Hin & _ & _ & B0 & HB0 & Hc & -> & Hall).
  eexists. split; [apply Hall; simpl; auto|]. intros j k Hj Hk.
  rewrite !(scale_rows_nth _ _ _ _ _ _ HB0) by auto.
  change (spec_scale "constant" (Z.to_nat nfilts) j) with 1. rewrite fmul_one. auto.
Qed.
Lemma lin_scaled : forall nfilts nfft fs low high scale B c,
  linear_filter_banks nfilts nfft fs low high scale = Ok (B, c) ->
  exists B0, linear_filter_banks nfilts nfft fs low high "constant" = Ok (B0, c) /\
    forall j k, (j < Z.to_nat nfilts)%nat -> (k < Z.to_nat (nfft / 2 + 1))%nat ->
      nth k (nth j B []) NaN = fmul (nth k (nth j B0 []) NaN) (Fin (spec_scale scale (Z.to_nat nfilts) j)).
Proof.
  intros nfilts nfft fs low high scale B c H. unfold linear_filter_banks in *.
  apply rbind_Ok in H as [[B1 c1] [H HE]]. cbn [fst snd] in HE. apply Ok_inj in HE. injection HE as <- <-.
  apply helper_inv in H as (H1 & H2 & Hin & _ & _ & B0 & HB0 & Hc & -> & Hall).
  rewrite Hall by (simpl; auto). cbn [rbind fst snd]. eexists. split; [reflexivity|]. intros j k Hj Hk.
  assert (L : forall s, List.length (scale_rows (fvec (Z.to_nat nfilts) s) B0) = Z.to_nat nfilts)
    by (intros s; exact (proj1 (scale_rows_shape _ _ s _ HB0))).
  assert (L2 : forall s, List.length (nth j (scale_rows (fvec (Z.to_nat nfilts) s) B0) []) = Z.to_nat (nfft / 2 + 1)).
  { intros s. apply (has_shape_rows _ _ _ _ _ _ (scale_rows_shape _ _ s _ HB0)); auto. }
  assert (E : forall s, nth k (nth j (map (map fabs) (scale_rows (fvec (Z.to_nat nfilts) s) B0)) []) NaN
    = fabs (nth k (nth j (scale_rows (fvec (Z.to_nat nfilts) s) B0) []) NaN)).
  { intros s. rewrite (nth_map _ _ (map fabs) _ j [] []) by (rewrite L; auto).
    apply nth_map. rewrite L2; auto. }
  rewrite !E.
  rewrite !(scale_rows_nth _ _ _ _ _ _ HB0) by auto.
  change (spec_scale "constant" (Z.to_nat nfilts) j) with 1. rewrite fmul_one.
  apply fabs_fmul. apply spec_scale_range; auto.
Qed.

(** ** columns and FFT bins *)
Lemma col_bin : forall fs nfft k, (2 <= nfft)%Z ->
  spec_col 0 (INR (half nfft) * IZR fs / IZR nfft) (half nfft) k = INR k * IZR fs / IZR nfft.
Proof.
  intros. unfold spec_col, half. assert (1 <= nfft / 2)%Z by (apply Z.div_le_lower_bound; lia).
  field. split; [apply not_0_IZR; lia | apply not_0_INR; lia].
Qed.

Lemma half_even : forall m, half (Z.of_nat (2 * m)) = m.
Proof. intros. unfold half. rewrite Nat2Z.inj_mul, Z.mul_comm. change (Z.of_nat 2) with 2%Z. rewrite Z.div_mul by lia. lia. Qed.
Lemma half_odd : forall m, half (Z.of_nat (2 * m + 1)) = m.
Proof.
  intros. unfold half. replace (Z.of_nat (2 * m + 1)) with (1 + Z.of_nat m * 2)%Z by lia.
  rewrite Z.div_add by lia. simpl. lia.
Qed.

Lemma default_even : forall n fs m scale s approach, (1 <= m)%nat -> (0 < fs)%Z ->
  In scale scale_names -> spec_mel_scale approach s ->
  let nfft := Z.of_nat (2 * m) in
  let entry sc j k := spec_scale scale n j *
    spec_tri (spec_point sc 0 (IZR fs / 2) n j) (spec_point sc 0 (IZR fs / 2) n (j + 1))
             (spec_point sc 0 (IZR fs / 2) n (j + 2)) (INR k * IZR fs / IZR nfft) in
  (exists c, mel_filter_banks (Z.of_nat n) nfft fs 0 None scale approach = Ok (fmat n (S m) (entry s), c)) /\
  (exists c, linear_filter_banks (Z.of_nat n) nfft fs 0 None scale = Ok (fmat n (S m) (entry lin_scale), c)).
Proof.
  intros n fs m scale s approach Hm Hfs Hsc Hs nfft entry.
  assert (0 < IZR fs) by (apply IZR_lt; auto).
  assert (Hcol : forall k, spec_col 0 (IZR fs / 2) (half nfft) k = INR k * IZR fs / IZR nfft).
  { intros k. unfold nfft. rewrite half_even. unfold spec_col. rewrite <- INR_IZR_INZ, mult_INR. simpl (INR 2).
    field. apply not_0_INR. lia. }
  assert (Hn : (0 <= nfft)%Z) by (unfold nfft; lia).
  split; eexists.
  - rewrite mel_bank_eq with (s := s); simpl or_half; auto; try lra. unfold nfft at 1. rewrite half_even. do 2 f_equal.
    apply fmat_ext; intros j k _ _. unfold spec_bank. rewrite Hcol. reflexivity.
  - rewrite lin_bank_eq; simpl or_half; auto; try lra. unfold nfft at 1. rewrite half_even. do 2 f_equal.
    apply fmat_ext; intros j k _ _. unfold spec_bank. rewrite Hcol. reflexivity.
Qed.

Lemma odd_refuted : forall fs m, (1 <= m)%nat -> (0 < fs)%Z ->
  let nfft := Z.of_nat (2 * m + 1) in
  exists b c, linear_filter_banks 1 nfft fs 0 None "constant" = Ok (fmat 1 (S m) b, c) /\
    b 0%nat m = 0 /\
    0 < spec_tri 0 (IZR fs / 4) (IZR fs / 2) (INR m * IZR fs / IZR nfft).
Proof.
  intros fs m Hm Hfs nfft. assert (Hf : 0 < IZR fs) by (apply IZR_lt; auto).
  assert (Hm1 : 1 <= INR m) by (apply (le_INR 1); auto).
  exists (spec_bank lin_scale 0 (IZR fs / 2) 1 (half nfft) "constant"). eexists. split.
  - pose proof (lin_bank_eq 1 nfft fs 0 None "constant") as E. simpl or_half in E.
    change (Z.of_nat 1) with 1%Z in E. rewrite E; try lra; [|simpl; auto|unfold nfft; lia].
    replace (S (half nfft)) with (S m) by (unfold nfft; rewrite half_odd; auto). reflexivity.
  - split.
    + unfold nfft. rewrite half_odd. unfold spec_bank. rewrite tri_above; [ring| |].
      * unfold spec_point, spec_level, lin_scale. simpl. lra.
      * unfold spec_point, spec_level, lin_scale, spec_col. simpl. apply Req_le. field. lra.
    + assert (E : IZR nfft = 2 * INR m + 1).
      { unfold nfft. rewrite <- INR_IZR_INZ, plus_INR, mult_INR. simpl. ring. }
      rewrite E. unfold spec_tri. eapply Rlt_le_trans; [|apply Rmax_r].
      apply Rmin_glb_lt; apply Rdiv_lt_0_compat; try lra.
      * assert (0 < INR m * IZR fs / (2 * INR m + 1)) by (apply Rdiv_lt_0_compat; nra). lra.
      * assert (INR m * IZR fs / (2 * INR m + 1) < IZR fs / 2); [|lra].
        apply Rmult_lt_reg_r with (2 * INR m + 1); [lra|]. unfold Rdiv at 1. rewrite Rmult_assoc, Rinv_l by lra. nra.
Qed.

Lemma low_refuted : forall fs low, 0 < low -> low < IZR fs / 2 ->
  exists b c, linear_filter_banks 1 4 fs low None "constant" = Ok (fmat 1 3 b, c) /\
    b 0%nat 1%nat = 1 /\
    spec_tri low ((low + IZR fs / 2) / 2) (IZR fs / 2) (INR 1 * IZR fs / 4) < 1.
Proof.
  intros fs low H0 H1. eexists _, _. split.
  - apply (lin_bank_eq 1 4 fs low None "constant"); simpl; auto; try lra; try lia.
  - split.
    + unfold spec_bank. rewrite tri_left.
      * unfold spec_point, spec_level, lin_scale, spec_col, spec_scale. change (half 4) with 2%nat. simpl. field. lra.
      * unfold spec_point, spec_level, lin_scale. simpl. lra.
      * unfold spec_point, spec_level, lin_scale. simpl. lra.
      * unfold spec_point, spec_level, lin_scale, spec_col. change (half 4) with 2%nat. simpl. lra.
    + change (INR 1) with 1. unfold spec_tri. apply Rmax_lub_lt; [lra|].
      eapply Rle_lt_trans; [apply Rmin_l|].
      apply Rmult_lt_reg_r with ((low + IZR fs / 2) / 2 - low); [lra|].
      unfold Rdiv at 1. rewrite Rmult_assoc, Rinv_l by lra. lra.
Qed.

Lemma inverse_validation : forall nfilts nfft fs low high h scale approach,
  spec_high high fs h -> In scale scale_names ->
  (inverse_mel_filter_banks nfilts nfft fs low high scale approach
     = Raise (ParameterError msg_low_freq) <-> low < 0) /\
  (inverse_mel_filter_banks nfilts nfft fs low high scale approach
     = Raise (ParameterError msg_high_freq) <-> 0 <= low /\ IZR fs / 2 < h).
Proof.
  intros nfilts nfft fs low high h scale approach Hh Hs. pose proof (spec_high_or _ _ _ Hh) as <-.
  destruct (inverse_scale_ok scale Hs) as (sc' & Hsc & _).
  pose proof (helper_low_iff nfilts nfft fs low high sc' "mel" approach) as H1.
  pose proof (helper_high_iff nfilts nfft fs low high sc' "mel" approach) as H2.
  unfold inverse_mel_filter_banks. rewrite Hsc. cbn [rbind].
  destruct (mel_filter_banks_helper nfilts nfft fs low high sc' "mel" approach) as [[B c]|e]; cbn [rbind].
  - assert (Hne : forall m, (do hz <- mapM (fun m0 => mel2hz m0 approach) c;
       (do centers <- match high with
                      | Some h => mapM (fun f => hz2mel (fsub (Fin h) f) approach) hz
                      | None => match hz with [] => Ok [] | _ :: _ => Raise TypeError end
                      end; Ok (map (map fabs) (map (@rev F) B), centers))) <> Raise (ParameterError m)).
    { intros m H. destruct (mapM (fun m0 => mel2hz m0 approach) c) eqn:E; cbn [rbind] in H.
      - match type of H with rbind ?r _ = _ => destruct r eqn:E2 end; cbn [rbind] in H; [discriminate|].
        injection H as ->. destruct high.
        + apply mapM_raise in E2 as [x [_ E2]]. apply hz2mel_raise in E2. discriminate.
        + destruct a; discriminate.
      - injection H as ->. apply mapM_mel2hz_raise in E. discriminate. }
    split; (split; [intros H; exfalso; eapply Hne; exact H|]); intros H; [apply H1 in H|apply H2 in H]; discriminate.
  - split; [rewrite <- H1|rewrite <- H2]; split; intros H; injection H as ->; auto.
Qed.

Lemma inverse_centres : forall n nfft fs low h scale scale' approach s,
  spec_mel_scale approach s -> inverse_scale scale = Ok scale' -> (2 <= nfft)%Z ->
  0 <= low -> low < h -> h <= IZR fs / 2 ->
  let p := spec_point s low h n in
  inverse_mel_filter_banks (Z.of_nat n) nfft fs low (Some h) scale approach
  = Ok (fmat n (S (half nfft)) (fun j k => spec_scale scale' n j *
          spec_tri (low + h - p (j + 2)%nat) (low + h - p (j + 1)%nat) (low + h - p j) (spec_col low h (half nfft) k)),
        fvec n (fun j => fwd s (h - p (j + 1)%nat))) /\
  forall j, (j < n)%nat -> (fwd s (h - p (j + 1)%nat) = fwd s (low + h - p (j + 1)%nat) <-> low = 0).
Proof.
  intros n nfft fs low h scale scale' approach s Hs Hsc Hn H0 H1 H2 p.
  assert (Hp : forall i, p i < p (S i)) by (intros; apply (mel_point_incr approach); auto).
  split.
  - rewrite inverse_eq with (s := s) (scale' := scale') by (auto; lia). do 2 f_equal.
    apply fmat_ext; intros j k Hj Hk. unfold spec_bank. fold p.
    rewrite col_mirror.
    + rewrite tri_mirror; [auto| |].
      * replace (j + 1)%nat with (S j) by lia. auto.
      * replace (j + 1)%nat with (S j) by lia. replace (j + 2)%nat with (S (S j)) by lia. auto.
    + unfold half. assert (1 <= nfft / 2)%Z by (apply Z.div_le_lower_bound; lia). lia.
    + lia.
  - intros j Hj. destruct (mel_scale_maps _ _ Hs) as (Ha & Hf & Hb). pose proof (mel_D_pos approach).
    assert (p (j + 1)%nat < h).
    { unfold p. rewrite <- (mel_point_last approach s low h n Hs) at 2 by lra. apply (incr_lt p); auto. lia. }
    rewrite !Hf. split.
    + intros E. apply (f_equal (melinvR approach)) in E. rewrite !melinv_mel in E by lra. lra.
    + intros ->. f_equal. ring.
Qed.
