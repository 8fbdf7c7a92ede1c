(** * Lemmas about the triangular filter banks *)
From Coq Require Import Reals ZArith List String Bool Lia Lra Psatz.
From Verif Require Import Base BaseFacts SpecBase SpecMat SpecFilters SpecBanks BigSum MatFacts
  Preprocessing Converters ConvertersFacts Filters FiltersFacts MelBanks.
Import ListNotations.
Local Open Scope R_scope.

(** ** Triangles *)
Lemma tri_range : forall l c u f, l < c -> c < u -> 0 <= spec_tri l c u f <= 1.
Proof.
  intros l c u f H1 H2. unfold spec_tri. split; [apply Rmax_l|].
  apply Rmax_lub; [lra|]. destruct (Rle_dec f c).
  - eapply Rle_trans; [apply Rmin_l|]. apply Rmult_le_reg_r with (c - l); [lra|].
    unfold Rdiv. rewrite Rmult_assoc, Rinv_l by lra. lra.
  - eapply Rle_trans; [apply Rmin_r|]. apply Rmult_le_reg_r with (u - c); [lra|].
    unfold Rdiv. rewrite Rmult_assoc, Rinv_l by lra. lra.
Qed.
Lemma div_nonneg : forall a b, 0 <= a -> 0 < b -> 0 <= a / b.
Proof. intros. apply Rmult_le_pos; auto. left; apply Rinv_0_lt_compat; auto. Qed.
Lemma div_nonpos : forall a b, a <= 0 -> 0 < b -> a / b <= 0.
Proof. intros. unfold Rdiv. assert (0 < / b) by (apply Rinv_0_lt_compat; auto). nra. Qed.
Lemma div_ge_1 : forall a b, b <= a -> 0 < b -> 1 <= a / b.
Proof. intros. apply Rmult_le_reg_r with b; auto. unfold Rdiv. rewrite Rmult_assoc, Rinv_l by lra. lra. Qed.
Lemma div_le_1 : forall a b, a <= b -> 0 < b -> a / b <= 1.
Proof. intros. apply Rmult_le_reg_r with b; auto. unfold Rdiv. rewrite Rmult_assoc, Rinv_l by lra. lra. Qed.

Lemma tri_below : forall l c u f, l < c -> f <= l -> spec_tri l c u f = 0.
Proof.
  intros. unfold spec_tri. apply Rmax_left. eapply Rle_trans; [apply Rmin_l|]. apply div_nonpos; lra.
Qed.
Lemma tri_above : forall l c u f, c < u -> u <= f -> spec_tri l c u f = 0.
Proof.
  intros. unfold spec_tri. apply Rmax_left. eapply Rle_trans; [apply Rmin_r|]. apply div_nonpos; lra.
Qed.
Lemma tri_left : forall l c u f, l < c -> c < u -> l <= f <= c -> spec_tri l c u f = (f - l) / (c - l).
Proof.
  intros. unfold spec_tri.
  assert ((f - l) / (c - l) <= 1) by (apply div_le_1; lra).
  assert (1 <= (u - f) / (u - c)) by (apply div_ge_1; lra).
  rewrite Rmin_left by lra. apply Rmax_right. apply div_nonneg; lra.
Qed.
Lemma tri_right : forall l c u f, l < c -> c < u -> c <= f <= u -> spec_tri l c u f = (u - f) / (u - c).
Proof.
  intros. unfold spec_tri.
  assert (1 <= (f - l) / (c - l)) by (apply div_ge_1; lra).
  assert ((u - f) / (u - c) <= 1) by (apply div_le_1; lra).
  rewrite Rmin_right by lra. apply Rmax_right. apply div_nonneg; lra.
Qed.

(** a triangle is a difference of two neighbouring ramps *)
Definition ramp (a b f : R) : R := Rmax 0 (Rmin 1 ((f - a) / (b - a))).
Lemma ramp_range : forall a b f, 0 <= ramp a b f <= 1.
Proof. intros; unfold ramp; split; [apply Rmax_l|]. apply Rmax_lub; [lra|apply Rmin_l]. Qed.
Lemma ramp_low : forall a b f, a < b -> f <= a -> ramp a b f = 0.
Proof. intros; unfold ramp. apply Rmax_left. eapply Rle_trans; [apply Rmin_r|]. apply div_nonpos; lra. Qed.
Lemma ramp_high : forall a b f, a < b -> b <= f -> ramp a b f = 1.
Proof.
  intros; unfold ramp. rewrite Rmin_left by (apply div_ge_1; lra). apply Rmax_right; lra.
Qed.
Lemma ramp_mid : forall a b f, a < b -> a <= f <= b -> ramp a b f = (f - a) / (b - a).
Proof.
  intros; unfold ramp. rewrite Rmin_right by (apply div_le_1; lra). apply Rmax_right. apply div_nonneg; lra.
Qed.
Lemma tri_ramp : forall l c u f, l < c -> c < u -> spec_tri l c u f = ramp l c f - ramp c u f.
Proof.
  intros l c u f H1 H2.
  destruct (Rle_dec f l). { rewrite tri_below, !ramp_low by lra. lra. }
  destruct (Rle_dec f c).
  { rewrite tri_left, ramp_mid, ramp_low by lra. lra. }
  destruct (Rle_dec f u).
  { rewrite tri_right, ramp_high, ramp_mid by lra. field. lra. }
  rewrite tri_above, !ramp_high by lra. lra.
Qed.
Lemma tri_sum : forall (p : nat -> R) n f, (forall i, p i < p (S i)) ->
  bigsum n (fun j => spec_tri (p j) (p (j + 1)%nat) (p (j + 2)%nat) f)
  = ramp (p O) (p 1%nat) f - ramp (p n) (p (S n)) f.
Proof.
  intros p n f Hp.
  rewrite (bigsum_ext n _ (fun j => (fun i => ramp (p i) (p (S i)) f) j - (fun i => ramp (p i) (p (S i)) f) (S j))).
  - rewrite bigsum_telescope. auto.
  - intros j Hj. replace (j + 1)%nat with (S j) by lia. replace (j + 2)%nat with (S (S j)) by lia.
    apply tri_ramp; auto.
Qed.
Lemma incr_le : forall (p : nat -> R), (forall i, p i < p (S i)) -> forall i j, (i <= j)%nat -> p i <= p j.
Proof.
  intros p Hp i j H. induction H; [lra|]. specialize (Hp m). lra.
Qed.
Lemma incr_lt : forall (p : nat -> R), (forall i, p i < p (S i)) -> forall i j, (i < j)%nat -> p i < p j.
Proof. intros p Hp i j H. pose proof (incr_le p Hp (S i) j H). specialize (Hp i). lra. Qed.

(** ** slope_row *)
Lemma slope_row_fvec : forall m f l c u, l < c -> c < u ->
  slope_row (fvec m f) (Fin c) (Fin l) (Fin u) = fvec m (fun k => spec_tri l c u (f k)).
Proof.
  intros m f l c u H1 H2. unfold slope_row. apply (fvec_map _ _ _ (spec_tri l c u)). intros x.
  unfold fgeb, fsub; cbn [fleb fneg fadd].
  destruct (Rle_dec x l) as [E|E].
  - destruct (Req_dec x l) as [->|En].
    + rewrite (Rleb_false c l), (Rleb_true l u), (Rleb_true l l), (Rleb_true l c) by lra. cbn [Bool.eqb].
      rewrite fdiv_Fin by lra. f_equal. rewrite tri_left by lra. auto.
    + rewrite (Rleb_false c x), (Rleb_true x u), (Rleb_false l x), (Rleb_true x c) by lra. cbn [Bool.eqb].
      rewrite tri_below by lra. auto.
  - destruct (Rlt_dec x c).
    + rewrite (Rleb_false c x), (Rleb_true x u), (Rleb_true l x), (Rleb_true x c) by lra. cbn [Bool.eqb].
      rewrite fdiv_Fin by lra. f_equal. rewrite tri_left by lra. auto.
    + destruct (Rle_dec x u).
      * rewrite (Rleb_true c x), (Rleb_true x u) by lra. cbn [Bool.eqb].
        rewrite fdiv_Fin by lra. f_equal. rewrite tri_right by lra. auto.
      * rewrite (Rleb_true c x), (Rleb_false x u), (Rleb_true l x), (Rleb_false x c) by lra. cbn [Bool.eqb].
        rewrite tri_above by lra. auto.
Qed.

Lemma flinspace_fvec : forall a b m, flinspace (Fin a) (Fin b) (S m) = fvec (S m) (spec_col a b m).
Proof.
  intros. unfold flinspace. destruct m.
  - unfold fvec, spec_col. simpl. do 2 f_equal. lra.
  - replace (S (S m)) with (S m + 1)%nat by lia. rewrite fvec_app. f_equal.
    + unfold fvec. apply map_ext_in; intros k Hk. unfold spec_col, fnat, fsub. cbn [fneg fadd].
      rewrite fdiv_Fin by (apply not_0_INR; lia). reflexivity.
    + unfold fvec, spec_col. cbn [seq map]. do 2 f_equal. rewrite Nat.add_0_r. field. apply not_0_INR; lia.
Qed.

Definition alevel (lo hi : R) (n i : nat) : R := lo + INR i * (Rabs (hi - lo) / INR (n + 1)).
Lemma scale_points_fvec : forall lo hi n,
  scale_points (Fin lo) (Fin hi) n = fvec (n + 2) (alevel lo hi n).
Proof.
  intros. unfold alevel. unfold scale_points, fsub, fnat. cbn [fneg fadd fabs].
  rewrite fdiv_Fin by (apply not_0_INR; lia). unfold fvec. apply map_ext; intros. cbn [fmul fadd].
  replace (hi + - lo) with (hi - lo) by ring. f_equal. ring.
Qed.

Lemma mapM_fvec : forall n v g (f : F -> result F), (forall x, f (Fin x) = Ok (Fin (g x))) ->
  mapM f (fvec n v) = Ok (fvec n (fun i => g (v i))).
Proof.
  intros. unfold fvec. rewrite mapM_map. rewrite (mapM_ok_map _ _ _ (fun i => Fin (g (v i)))); auto.
Qed.

Lemma scale_rows_fmat : forall n m s b,
  scale_rows (fvec n s) (fmat n m b) = fmat n m (fun j k => s j * b j k).
Proof.
  intros. unfold scale_rows, fmat. unfold fvec at 1. rewrite map2_map_same.
  apply map_ext; intros j. apply (fvec_map _ _ _ (fun v => s j * v)). intros; simpl. f_equal. ring.
Qed.

Lemma bank_rows : forall n h lo hi (p : nat -> R), (forall i, p i < p (S i)) ->
  map2 (fun c lu => slope_row (flinspace (Fin lo) (Fin hi) (S h)) c (fst lu) (snd lu))
    (fvec n (fun j => p (S j))) (map2 pair (fvec n p) (fvec n (fun j => p (S (S j)))))
  = fmat n (S h) (fun j k => spec_tri (p j) (p (S j)) (p (S (S j))) (spec_col lo hi h k)).
Proof.
  intros n h lo hi p Hp. unfold fvec at 1 2 3. rewrite !map2_map_same. unfold fmat. apply map_ext; intros j.
  cbn [fst snd]. rewrite flinspace_fvec. apply slope_row_fvec; auto.
Qed.

(** ** the helper, for any pair of scale maps *)
Lemma alevel_incr : forall lo hi n i, lo <> hi -> alevel lo hi n i < alevel lo hi n (S i).
Proof.
  intros. unfold alevel. rewrite S_INR.
  assert (0 < Rabs (hi - lo) / INR (n + 1)).
  { apply Rdiv_lt_0_compat. apply Rabs_pos_lt; lra. apply lt_0_INR; lia. }
  lra.
Qed.

Lemma points_split : forall n v,
  firstn n (skipn 1 (fvec (n + 2) v)) = fvec n (fun i => v (S i)) /\
  firstn n (fvec (n + 2) v) = fvec n v /\
  skipn 2 (fvec (n + 2) v) = fvec n (fun i => v (S (S i))).
Proof.
  intros. rewrite !fvec_skipn, !fvec_firstn by lia.
  repeat split. replace (n + 2 - 2)%nat with n by lia. auto.
Qed.


Lemma rows_of_nfft : forall nfft, (0 <= nfft)%Z -> Z.to_nat (nfft / 2 + 1) = S (half nfft).
Proof.
  intros. unfold half. assert (0 <= nfft / 2)%Z by (apply Z.div_pos; lia).
  rewrite Z2Nat.inj_add by lia. simpl. lia.
Qed.

Lemma or_half_cases : forall high fs, or_half high fs = IZR fs / 2 \/ high = Some (or_half high fs).
Proof.
  intros [h|] fs; simpl; auto. destruct (Req_EM_T h 0); auto.
Qed.

Section Bank.
  Variables (n : nat) (nfft fs : Z) (low : R) (high : option R) (scale approach : string).
  Let h := or_half high fs.
  Hypotheses (Hlow : 0 <= low) (Hhigh : h <= IZR fs / 2) (Hne : low <> h) (Hnfft : (0 <= nfft)%Z)
             (Hscale : In scale scale_names).

  Lemma helper_mel : In approach mel_names -> - mel_D approach < h ->
    mel_filter_banks_helper (Z.of_nat n) nfft fs low high scale "mel" approach
    = Ok (fmat n (S (half nfft)) (fun j k => spec_scale scale n j *
            spec_tri (melinvR approach (alevel (melR approach low) (melR approach h) n j))
                     (melinvR approach (alevel (melR approach low) (melR approach h) n (S j)))
                     (melinvR approach (alevel (melR approach low) (melR approach h) n (S (S j))))
                     (spec_col low h (half nfft) k)),
          fvec n (fun j => alevel (melR approach low) (melR approach h) n (S j))).
  Proof.
    intros Ha HD. unfold mel_filter_banks_helper. fold h.
    rewrite Rltb_false by lra. rewrite Rltb_false by lra. rewrite Nat2Z.id.
    cbn [String.eqb Ascii.eqb Bool.eqb].
    pose proof (mel_D_pos approach).
    rewrite !hz2mel_eq by (auto; lra). cbn [rbind].
    rewrite scale_points_fvec.
    destruct (points_split n (alevel (melR approach low) (melR approach h) n)) as (E1 & E2 & E3).
    rewrite E1, E2, E3.
    rewrite !(mapM_fvec _ _ (melinvR approach) (fun m => mel2hz m approach)) by (intros; apply mel2hz_eq; auto).
    cbn [rbind]. replace ((nfft / 2 + 1 <? 0) || (Z.of_nat n <? 0))%Z with false.
    2:{ symmetry. apply orb_false_intro; apply Z.ltb_ge; [|lia].
        assert (0 <= nfft / 2)%Z by (apply Z.div_pos; lia). lia. }
    rewrite rows_of_nfft by auto.
    rewrite (bank_rows n (half nfft) low h (fun i => melinvR approach (alevel (melR approach low) (melR approach h) n i))).
    - rewrite scale_fbank_ok by auto. cbn [rbind]. rewrite scale_rows_fmat. reflexivity.
    - intros. apply melinvR_incr. apply alevel_incr.
      intro E. apply Hne. rewrite <- (melinv_mel approach low), <- (melinv_mel approach h) by lra. rewrite E; auto.
  Qed.

  Lemma helper_lin : 
    mel_filter_banks_helper (Z.of_nat n) nfft fs low high scale "lin" approach
    = Ok (fmat n (S (half nfft)) (fun j k => spec_scale scale n j *
            spec_tri (alevel low h n j) (alevel low h n (S j)) (alevel low h n (S (S j)))
                     (spec_col low h (half nfft) k)),
          fvec n (fun j => alevel low h n (S j))).
  Proof.
    unfold mel_filter_banks_helper. fold h.
    rewrite Rltb_false by lra. rewrite Rltb_false by lra. rewrite Nat2Z.id.
    cbn [String.eqb Ascii.eqb Bool.eqb].
    destruct (Z.eqb_spec (Z.of_nat n + 1) 0); [lia|].
    rewrite scale_points_fvec.
    destruct (points_split n (alevel low h n)) as (E1 & E2 & E3).
    rewrite E1, E2, E3. cbn [rbind].
    replace ((nfft / 2 + 1 <? 0) || (Z.of_nat n <? 0))%Z with false.
    2:{ symmetry. apply orb_false_intro; apply Z.ltb_ge; [|lia].
        assert (0 <= nfft / 2)%Z by (apply Z.div_pos; lia). lia. }
    rewrite rows_of_nfft by auto.
    rewrite (bank_rows n (half nfft) low h (alevel low h n)).
    - rewrite scale_fbank_ok by auto. cbn [rbind]. rewrite scale_rows_fmat. reflexivity.
    - intros. apply alevel_incr; auto.
  Qed.
End Bank.

(** scales as pairs of maps *)
Lemma mel_scale_maps : forall a s, spec_mel_scale a s ->
  In a mel_names /\ (forall f, fwd s f = melR a f) /\ (forall m, bwd s m = melinvR a m).
Proof.
  intros a s [[-> ->]|[-> ->]]; repeat split; simpl; auto.
Qed.
Lemma spec_mel_scale_ok : forall a, In a mel_names -> exists s, spec_mel_scale a s.
Proof. intros a [<-|[<-|[]]]; [exists oshaghnessy; left; auto | exists lindsay; right; auto]. Qed.

Lemma alevel_up : forall lo hi n i, lo <= hi -> alevel lo hi n i = lo + INR i * ((hi - lo) / INR (n + 1)).
Proof. intros. unfold alevel. rewrite Rabs_pos_eq by lra. auto. Qed.

Lemma mel_bank_eq : forall n nfft fs low high scale approach s,
  spec_mel_scale approach s -> In scale scale_names ->
  0 <= low -> low < or_half high fs -> or_half high fs <= IZR fs / 2 -> (0 <= nfft)%Z ->
  mel_filter_banks (Z.of_nat n) nfft fs low high scale approach
  = Ok (fmat n (S (half nfft)) (spec_bank s low (or_half high fs) n (half nfft) scale),
        fvec n (fun j => spec_level s low (or_half high fs) n (j + 1))).
Proof.
  intros n nfft fs low high scale approach s Hs Hsc Hl Hlh Hh Hn.
  destruct (mel_scale_maps _ _ Hs) as (Ha & Hf & Hb).
  pose proof (mel_D_pos approach) as HD.
  unfold mel_filter_banks. rewrite helper_mel by (auto; lra). do 2 f_equal.
  - apply fmat_ext; intros j k Hj Hk. unfold spec_bank, spec_point, spec_level.
    rewrite !Hb, !Hf. rewrite !alevel_up by (left; apply melR_incr; auto; lra).
    replace (j + 1)%nat with (S j) by lia. replace (j + 2)%nat with (S (S j)) by lia. reflexivity.
  - apply fvec_ext; intros j Hj. unfold spec_level. rewrite !Hf.
    rewrite alevel_up by (left; apply melR_incr; auto; lra). do 2 f_equal. f_equal; lia.
Qed.

Lemma bank_nonneg : forall s low high n h scale j k, (j < n)%nat ->
  (forall i, spec_point s low high n i < spec_point s low high n (S i)) ->
  0 <= spec_bank s low high n h scale j k <= 1.
Proof.
  intros s low high n h scale j k Hj Hp. unfold spec_bank.
  pose proof (spec_scale_range scale n j Hj).
  replace (j + 1)%nat with (S j) by lia. replace (j + 2)%nat with (S (S j)) by lia.
  pose proof (tri_range (spec_point s low high n j) (spec_point s low high n (S j))
    (spec_point s low high n (S (S j))) (spec_col low high h k) (Hp j) (Hp (S j))).
  nra.
Qed.

Lemma map_abs_nonneg : forall r c b, (forall i j, (i < r)%nat -> (j < c)%nat -> 0 <= b i j) ->
  map (map fabs) (fmat r c b) = fmat r c b.
Proof.
  intros. rewrite (fmat_map _ _ _ _ Rabs) by auto. apply fmat_ext; intros. apply Rabs_pos_eq; auto.
Qed.

Lemma level_incr : forall s low high n i, fwd s low < fwd s high ->
  spec_level s low high n i < spec_level s low high n (S i).
Proof.
  intros. unfold spec_level. rewrite S_INR.
  assert (0 < (fwd s high - fwd s low) / INR (n + 1)) by (apply Rdiv_lt_0_compat; [lra | apply lt_0_INR; lia]).
  lra.
Qed.
Lemma mel_point_incr : forall a s low high n i, spec_mel_scale a s -> 0 <= low < high ->
  spec_point s low high n i < spec_point s low high n (S i).
Proof.
  intros a s low high n i Hs H. destruct (mel_scale_maps _ _ Hs) as (Ha & Hf & Hb). pose proof (mel_D_pos a).
  unfold spec_point. rewrite !Hb. apply melinvR_incr. apply level_incr. rewrite !Hf. apply melR_incr; lra.
Qed.
Lemma lin_point_incr : forall low high n i, low < high ->
  spec_point lin_scale low high n i < spec_point lin_scale low high n (S i).
Proof. intros. unfold spec_point. simpl bwd. apply level_incr. auto. Qed.

Lemma lin_bank_eq : forall n nfft fs low high scale,
  In scale scale_names ->
  0 <= low -> low < or_half high fs -> or_half high fs <= IZR fs / 2 -> (0 <= nfft)%Z ->
  linear_filter_banks (Z.of_nat n) nfft fs low high scale
  = Ok (fmat n (S (half nfft)) (spec_bank lin_scale low (or_half high fs) n (half nfft) scale),
        fvec n (fun j => spec_level lin_scale low (or_half high fs) n (j + 1))).
Proof.
  intros n nfft fs low high scale Hsc Hl Hlh Hh Hn.
  unfold linear_filter_banks. rewrite helper_lin by (auto; lra). cbn [rbind fst snd].
  assert (E : fmat n (S (half nfft)) (fun j k => spec_scale scale n j *
            spec_tri (alevel low (or_half high fs) n j) (alevel low (or_half high fs) n (S j)) (alevel low (or_half high fs) n (S (S j)))
                     (spec_col low (or_half high fs) (half nfft) k))
          = fmat n (S (half nfft)) (spec_bank lin_scale low (or_half high fs) n (half nfft) scale)).
  { apply fmat_ext; intros j k Hj Hk. unfold spec_bank, spec_point, spec_level. simpl fwd; simpl bwd.
    rewrite !alevel_up by lra.
    replace (j + 1)%nat with (S j) by lia. replace (j + 2)%nat with (S (S j)) by lia. reflexivity. }
  rewrite E. rewrite map_abs_nonneg.
  - do 2 f_equal. apply fvec_ext; intros j Hj. unfold spec_level; simpl fwd. rewrite alevel_up by lra.
    do 2 f_equal. f_equal; lia.
  - intros. apply bank_nonneg; auto. intros; apply lin_point_incr; auto.
Qed.

(** ** shapes, for every call that returns *)
Lemma slope_row_length : forall f c l u, List.length (slope_row f c l u) = List.length f.
Proof. intros. unfold slope_row. apply map_length. Qed.
Lemma flinspace_length : forall a b n, List.length (flinspace a b n) = n.
Proof.
  intros. destruct n as [|[|n]]; [reflexivity|reflexivity|].
  unfold flinspace. rewrite app_length, map_length, seq_length. simpl. lia.
Qed.
Lemma scale_points_length : forall a b n, List.length (scale_points a b n) = (n + 2)%nat.
Proof. intros. unfold scale_points. rewrite map_length, seq_length. auto. Qed.

Lemma helper_inv : forall nfilts nfft fs low high scale t a B c,
  mel_filter_banks_helper nfilts nfft fs low high scale t a = Ok (B, c) ->
  (0 <= nfilts)%Z /\ (0 <= nfft / 2 + 1)%Z /\ In scale scale_names /\
  0 <= low /\ or_half high fs <= IZR fs / 2 /\
  exists B0, has_shape B0 (Z.to_nat nfilts) (Z.to_nat (nfft / 2 + 1)) /\
    List.length c = Z.to_nat nfilts /\
    B = scale_rows (fvec (Z.to_nat nfilts) (spec_scale scale (Z.to_nat nfilts))) B0 /\
    forall sc, In sc scale_names -> mel_filter_banks_helper nfilts nfft fs low high sc t a
      = Ok (scale_rows (fvec (Z.to_nat nfilts) (spec_scale sc (Z.to_nat nfilts))) B0, c).
Proof.
  intros nfilts nfft fs low high scale t a B c H. unfold mel_filter_banks_helper in *.
  destruct (Rltb low 0) eqn:E1; [discriminate|].
  destruct (Rltb (IZR fs / 2) (or_half high fs)) eqn:E2; [discriminate|].
  unfold Rltb in E1, E2. destruct (Rlt_dec low 0); [discriminate|].
  destruct (Rlt_dec (IZR fs / 2) (or_half high fs)); [discriminate|].
  apply rbind_Ok in H as [[[[cf ch] lh] uh] [Hp H]]. rewrite Hp. cbn [rbind].
  destruct ((nfft / 2 + 1 <? 0) || (nfilts <? 0))%Z eqn:E3; [discriminate|].
  apply orb_false_elim in E3 as [E3 E4]. apply Z.ltb_ge in E3, E4.
  apply rbind_Ok in H as [sc [Hsc H]]. apply Ok_inj in H. injection H as HB Hc. subst c.
  destruct (scale_fbank_inv _ _ _ Hsc) as (Hn & Hin & Es).
  repeat match goal with |- _ /\ _ => split; auto; try lra end.
  set (nf := Z.to_nat nfilts) in *.
  set (B0 := map2 (fun c lu => slope_row (flinspace (Fin low) (Fin (or_half high fs)) (Z.to_nat (nfft / 2 + 1))) c (fst lu) (snd lu)) ch (map2 pair lh uh)) in *.
  assert (Hlens : List.length cf = nf /\ List.length ch = nf /\ List.length lh = nf /\ List.length uh = nf).
  { assert (Hsk : forall l : list F, match l with [] => [] | _ :: r => r end = skipn 1 l) by (destruct l; auto).
    assert (Hsk2 : forall l : list F, match l with [] | [_] => [] | _ :: _ :: r => r end = skipn 2 l) by (destruct l as [|? [|? ?]]; auto).
    destruct (String.eqb t "mel").
    - apply rbind_Ok in Hp as [lm [Hlm Hp]]. apply rbind_Ok in Hp as [hm [Hhm Hp]].
      apply rbind_Ok in Hp as [x1 [H1 Hp]]. apply rbind_Ok in Hp as [x2 [H2 Hp]].
      apply rbind_Ok in Hp as [x3 [H3 Hp]]. apply Ok_inj in Hp. injection Hp as <- <- <- <-.
      apply mapM_length in H1, H2, H3. rewrite H1, H2, H3.
      rewrite ?Hsk, ?Hsk2, !firstn_length, !skipn_length, !scale_points_length. lia.
    - destruct (nfilts + 1 =? 0)%Z; [discriminate|]. apply Ok_inj in Hp. injection Hp as <- <- <- <-.
      rewrite ?Hsk, ?Hsk2, !firstn_length, !skipn_length, !scale_points_length. lia. }
  destruct Hlens as (L1 & L2 & L3 & L4).
  exists B0. split; [split|split; [|split]].
  - unfold B0. rewrite !map2_length. lia.
  - apply Forall_forall; intros row Hrow. unfold B0 in Hrow. apply map2_In in Hrow as (x & y & _ & _ & ->).
    rewrite slope_row_length, flinspace_length. auto.
  - auto.
  - rewrite <- HB, Es. reflexivity.
  - intros s Hs. rewrite <- (Z2Nat.id nfilts) at 1 by auto. rewrite scale_fbank_ok by auto. reflexivity.
Qed.

Lemma scale_rows_shape : forall n m s B, has_shape B n m -> has_shape (scale_rows (fvec n s) B) n m.
Proof.
  intros n m s B [H1 H2]. split.
  - unfold scale_rows. rewrite map2_length, fvec_length. lia.
  - apply Forall_forall; intros row Hrow. unfold scale_rows in Hrow. apply map2_In in Hrow as (x & y & _ & Hy & ->).
    rewrite map_length. rewrite Forall_forall in H2; auto.
Qed.
Lemma scale_rows_nth : forall n m s B j k, has_shape B n m -> (j < n)%nat -> (k < m)%nat ->
  nth k (nth j (scale_rows (fvec n s) B) []) NaN = fmul (nth k (nth j B []) NaN) (Fin (s j)).
Proof.
  intros n m s B j k HB Hj Hk. unfold scale_rows.
  rewrite (map2_nth _ _ _ _ _ _ NaN []) by (rewrite ?fvec_length; destruct HB; lia).
  rewrite fvec_nth by auto.
  rewrite (nth_map _ _ _ _ _ NaN); auto. rewrite (has_shape_rows _ _ _ _ _ _ HB) by auto. auto.
Qed.
Lemma map_map_shape : forall A B (f : A -> B) m r c, has_shape m r c -> has_shape (map (map f) m) r c.
Proof.
  intros A B f m r c [H1 H2]. split; [rewrite map_length; auto|].
  apply Forall_forall; intros row Hrow. apply in_map_iff in Hrow as [x [<- Hx]]. rewrite map_length.
  rewrite Forall_forall in H2; auto.
Qed.
Lemma map_rev_shape : forall A (m : list (list A)) r c, has_shape m r c -> has_shape (map (@rev A) m) r c.
Proof.
  intros A m r c [H1 H2]. split; [rewrite map_length; auto|].
  apply Forall_forall; intros row Hrow. apply in_map_iff in Hrow as [x [<- Hx]]. rewrite rev_length.
  rewrite Forall_forall in H2; auto.
Qed.

Lemma helper_shape : forall nfilts nfft fs low high scale t a B c,
  mel_filter_banks_helper nfilts nfft fs low high scale t a = Ok (B, c) ->
  has_shape B (Z.to_nat nfilts) (Z.to_nat (nfft / 2 + 1)) /\ List.length c = Z.to_nat nfilts /\
  (0 <= nfilts)%Z /\ (0 <= nfft / 2 + 1)%Z.
Proof.
  intros. apply helper_inv in H as (H1 & H2 & _ & _ & _ & B0 & HB0 & Hc & -> & _).
  split; [apply scale_rows_shape; auto|auto].
Qed.

(** ** validation *)
Lemma hz2mel_raise : forall f a e, hz2mel f a = Raise e -> e = KeyError.
Proof.
  intros f a e. unfold hz2mel.
  repeat match goal with |- context [if ?b then _ else _] => destruct b end; try discriminate; intros H; injection H; auto.
Qed.
Lemma mel2hz_raise : forall f a e, mel2hz f a = Raise e -> e = KeyError.
Proof.
  intros f a e. unfold mel2hz.
  repeat match goal with |- context [if ?b then _ else _] => destruct b end; try discriminate; intros H; injection H; auto.
Qed.
Lemma mapM_mel2hz_raise : forall l a e, mapM (fun m => mel2hz m a) l = Raise e -> e = KeyError.
Proof. intros l a e H. apply mapM_raise in H as [x [_ H]]. eapply mel2hz_raise; eauto. Qed.
Lemma scale_fbank_raise : forall s n e, scale_fbank s n = Raise e -> e = ValueError \/ e = KeyError.
Proof.
  intros s n e. unfold scale_fbank.
  repeat match goal with |- context [if ?b then _ else _] => destruct b end; try discriminate; intros H; injection H; auto.
Qed.

Lemma helper_raise : forall nfilts nfft fs low high scale t a e,
  mel_filter_banks_helper nfilts nfft fs low high scale t a = Raise e ->
  (low < 0 /\ e = ParameterError msg_low_freq) \/
  (0 <= low /\ IZR fs / 2 < or_half high fs /\ e = ParameterError msg_high_freq) \/
  (0 <= low /\ or_half high fs <= IZR fs / 2 /\ (e = ValueError \/ e = KeyError \/ e = ZeroDivisionError)).
Proof.
  intros nfilts nfft fs low high scale t a e. unfold mel_filter_banks_helper.
  unfold Rltb at 1. destruct (Rlt_dec low 0). { intros H; injection H; auto. }
  unfold Rltb at 1. destruct (Rlt_dec (IZR fs / 2) (or_half high fs)).
  { intros H; injection H as <-. right; left. repeat split; auto; lra. }
  intros H. right; right. split; [lra|]. split; [lra|].
  match type of H with rbind ?r _ = _ => destruct r as [[[[cf ch] lh] uh]|e'] eqn:E end; cbn [rbind] in H.
  - destruct ((nfft / 2 + 1 <? 0) || (nfilts <? 0))%Z; [injection H; auto|].
    match type of H with rbind ?r _ = _ => destruct r as [?|e'] eqn:E' end; cbn [rbind] in H; [discriminate|].
    injection H as ->. apply scale_fbank_raise in E'. tauto.
  - injection H as ->. destruct (String.eqb t "mel").
    + destruct (hz2mel (Fin low) a) eqn:E1; cbn [rbind] in E. 2:{ injection E as ->. apply hz2mel_raise in E1; auto. }
      destruct (hz2mel (Fin (or_half high fs)) a) eqn:E2; cbn [rbind] in E. 2:{ injection E as ->. apply hz2mel_raise in E2; auto. }
      repeat match type of E with rbind ?r _ = _ =>
        let Em := fresh in destruct r eqn:Em; cbn [rbind] in E;
        [|injection E as ->; apply mapM_mel2hz_raise in Em; auto] end.
      discriminate.
    + destruct (nfilts + 1 =? 0)%Z; [injection E; auto|discriminate].
Qed.

Lemma helper_low_iff : forall nfilts nfft fs low high scale t a,
  mel_filter_banks_helper nfilts nfft fs low high scale t a = Raise (ParameterError msg_low_freq) <-> low < 0.
Proof.
  intros. split; intros H.
  - apply helper_raise in H as [[? _]|[(_ & _ & H)|(_ & _ & [H|[H|H]])]]; auto; discriminate.
  - unfold mel_filter_banks_helper. rewrite Rltb_true by auto. auto.
Qed.
Lemma helper_high_iff : forall nfilts nfft fs low high scale t a,
  mel_filter_banks_helper nfilts nfft fs low high scale t a = Raise (ParameterError msg_high_freq)
  <-> 0 <= low /\ IZR fs / 2 < or_half high fs.
Proof.
  intros. split; intros H.
  - apply helper_raise in H as [[_ H]|[(? & ? & _)|(_ & _ & [H|[H|H]])]]; auto; discriminate.
  - unfold mel_filter_banks_helper. rewrite Rltb_false, Rltb_true by lra. auto.
Qed.
