(** * Laws of the pncc function *)
From Coq Require Import Reals ZArith List String Bool Lia Lra Psatz.
From Verif Require Import Base BaseFacts Cplx SpecBase SpecMat SpecBanks SpecFeatures SpecPncc BigSum MatFacts
  Preprocessing PreprocessingFacts Cepstral Fourier DctFacts Features Extractors FeaturesFacts FeaturesMore FeaturesLaws CqtFacts
  Gammatone Pncc PnccNames PnccFacts.
Import ListNotations.
Local Open Scope R_scope.

(** ** real closed forms when no medium-time power is zero *)
Definition smoothR (N L : nat) (r q : nat -> R) (l : nat) : R :=
  bigsum (sm_hi N L l - sm_lo N l) (fun i => r (sm_lo N l + i)%nat / q (sm_lo N l + i)%nat) / INR (sm_hi N L l - sm_lo N l + 1).
Lemma smoothF_fin : forall N L r q l, (forall i, (sm_lo N l <= i < sm_hi N L l)%nat -> q i <> 0) ->
  smoothF N L (fun i => Fin (r i)) (fun i => Fin (q i)) l = Fin (smoothR N L r q l).
Proof.
  intros N L r q l Hq. unfold smoothF, smoothR. set (lo := sm_lo N l) in *. set (k := (sm_hi N L l - lo)%nat).
  assert (E : fsum (map (fun i => fdiv (Fin (r i)) (Fin (q i))) (seq lo k)) = Fin (bigsum k (fun i => r (lo + i)%nat / q (lo + i)%nat))).
  { rewrite <- fsum_fvec. f_equal. rewrite seq_add, map_map. unfold fvec. apply map_ext_in. intros i Hi. apply in_seq in Hi.
    apply fdiv_Fin. apply Hq. unfold k in *. lia. }
  rewrite E. cbn [fmul]. f_equal. unfold Rdiv. ring.
Qed.
Lemma smoothR_nonneg : forall N L r q l, (forall i, 0 <= r i) -> (forall i, (sm_lo N l <= i < sm_hi N L l)%nat -> 0 < q i) -> 0 <= smoothR N L r q l.
Proof.
  intros N L r q l Hr Hq. unfold smoothR. apply Rmult_le_pos.
  - apply bigsum_nonneg. intros i Hi. apply Rmult_le_pos; auto. left. apply Rinv_0_lt_compat, Hq. lia.
  - left. apply Rinv_0_lt_compat, lt_0_INR. lia.
Qed.
Definition TR (n L : nat) (P : nat -> nat -> R) (m l : nat) : R := P m l * smoothR 4 L (suppR n P m) (mediumR n P m) l.
Fixpoint MYU (lam : R) (L : nat) (T : nat -> nat -> R) (m : nat) : R :=
  match m with O => 0.0001 | Datatypes.S k => lam * MYU lam L T k + (1 - lam) / INR L * bigsum L (T m) end.
Definition VR (n L : nat) (P : nat -> nat -> R) (m l : nat) : R := spec_root (1 / 15) (TR n L P m l / MYU 0.999 L (TR n L P) m).

(** in the channels 1 .. L-1, every medium-time power is positive *)
Definition audible (n L : nat) (P : nat -> nat -> R) : Prop :=
  forall m l, (m < n)%nat -> (1 <= l < L)%nat -> 0 < mediumR n P m l.
Lemma sm_range : forall N L l i, (sm_lo N l <= i < sm_hi N L l)%nat -> (1 <= i < L)%nat.
Proof. intros. unfold sm_lo, sm_hi in *. lia. Qed.
Lemma TF_fin : forall n L P m l, audible n L P -> (m < n)%nat -> TF n L P m l = Fin (TR n L P m l).
Proof.
  intros n L P m l Ha Hm. unfold TF, TR. rewrite smoothF_fin; auto. intros i Hi. apply sm_range in Hi. specialize (Ha m i Hm Hi). lra.
Qed.
Lemma TR_nonneg : forall n L P m l, audible n L P -> (m < n)%nat -> 0 <= P m l -> 0 <= TR n L P m l.
Proof.
  intros n L P m l Ha Hm HP. unfold TR. apply Rmult_le_pos; auto. apply smoothR_nonneg.
  - intros. apply noiseR_nonneg.
  - intros i Hi. apply sm_range in Hi. auto.
Qed.
Lemma myuF_fin : forall lam L T Tr m, (forall i l, (i <= m)%nat -> T i l = Fin (Tr i l)) -> myuF lam L T m = Fin (MYU lam L Tr m).
Proof.
  intros lam L T Tr m H. induction m as [|m IH]; cbn [myuF MYU]; auto. rewrite IH by auto.
  rewrite (map_ext (T (Datatypes.S m)) (fun l => Fin (Tr (Datatypes.S m) l))) by (intros; apply H; lia).
  change (map (fun l => Fin (Tr (Datatypes.S m) l)) (seq 0 L)) with (fvec L (Tr (Datatypes.S m))). rewrite fsum_fvec. reflexivity.
Qed.
Lemma MYU_pos : forall lam L T m, 0 < lam <= 1 -> (1 <= L)%nat -> (forall i l, (i <= m)%nat -> (l < L)%nat -> 0 <= T i l) -> 0 < MYU lam L T m.
Proof.
  intros lam L T m Hlam HL HT. induction m as [|m IH]; cbn [MYU]; [lra|].
  assert (0 < MYU lam L T m) by (apply IH; intros; apply HT; lia).
  assert (0 <= bigsum L (T (Datatypes.S m))) by (apply bigsum_nonneg; intros; apply HT; lia).
  assert (0 < / INR L) by (apply Rinv_0_lt_compat, lt_0_INR; lia).
  assert (0 <= (1 - lam) / INR L * bigsum L (T (Datatypes.S m))) by (unfold Rdiv; repeat apply Rmult_le_pos; lra).
  assert (0 < lam * MYU lam L T m) by (apply Rmult_lt_0_compat; lra). lra.
Qed.
Lemma myuR_pos : forall L T m, (1 <= L)%nat -> (forall i l, (i <= m)%nat -> (l < L)%nat -> 0 <= T i l) -> 0 < MYU 0.999 L T m.
Proof. intros. apply MYU_pos; auto. lra. Qed.
Lemma VF_fin : forall n L P m l, audible n L P -> (1 <= L)%nat -> (m < n)%nat -> (forall i l, (i < n)%nat -> 0 <= P i l) ->
  VF n L P m l = Fin (VR n L P m l).
Proof.
  intros n L P m l Ha HL Hm HP. unfold VF, VR. rewrite TF_fin by auto.
  rewrite (myuF_fin 0.999 L (TF n L P) (TR n L P)) by (intros; apply TF_fin; auto; lia).
  assert (Hmu : 0 < MYU 0.999 L (TR n L P) m).
  { apply myuR_pos; auto. intros. apply TR_nonneg; auto; try lia. apply HP. lia. }
  cbn [fmul]. rewrite fdiv_Fin by lra. rewrite Rmult_1_l. apply fpow_root; [lra|]. right. split; [|lra].
  apply Rmult_le_pos; [apply TR_nonneg; auto|]. left. apply Rinv_0_lt_compat. auto.
Qed.

Lemma medium_ext : forall n M x y m, (forall i, (i < n)%nat -> x i = y i) -> spec_medium n M x m = spec_medium n M y m.
Proof. intros. unfold spec_medium. f_equal. apply bigsum_ext. intros. rewrite H by auto. auto. Qed.
Lemma medium_local : forall n1 n2 M x y m, (m + M < n1)%nat -> (m + M < n2)%nat -> (forall i, (i <= m + M)%nat -> x i = y i) ->
  spec_medium n1 M x m = spec_medium n2 M y m.
Proof.
  assert (G : forall n M x m, (m + M < n)%nat -> spec_medium n M x m = spec_medium (m + M + 1) M x m).
  { intros n M x m H. unfold spec_medium. f_equal. replace n with ((m + M + 1) + (n - (m + M + 1)))%nat by lia. rewrite bigsum_split.
    rewrite (bigsum_zero (n - (m + M + 1))); [ring|]. intros i Hi. destruct (Nat.leb_spec (m + M + 1 + i) (m + M)); [lia|]. rewrite andb_false_r. auto. }
  intros n1 n2 M x y m H1 H2 H. rewrite (G n1), (G n2) by auto. apply medium_ext. intros. apply H. lia.
Qed.

(** ** one silent channel *)
Lemma medium_zero_here : forall n M x m, (forall i, (i < n)%nat -> 0 <= x i) -> (m < n)%nat -> spec_medium n M x m = 0 -> x m = 0.
Proof.
  intros n M x m Hx Hm Hz. destruct (Rle_lt_or_eq_dec 0 (x m) (Hx m Hm)) as [Hp|]; auto.
  pose proof (medium_pos n M x m m Hx Hm ltac:(lia) ltac:(lia) Hp). lra.
Qed.
Lemma fmul_w_nonfinite : forall w x, ~ finite x -> ~ finite (fmul (Fin w) x).
Proof.
  intros w x Hx. assert (E : fmul (Fin w) x = fmul x (Fin w)) by (destruct x; cbn [fmul]; auto; f_equal; ring).
  rewrite E. apply nonfinite_fmul. auto.
Qed.
Lemma zero_times_nonfinite : forall x, ~ finite x -> fmul (Fin 0) x = NaN.
Proof.
  intros x Hx. destruct x; auto.
  - exfalso. apply Hx. eexists; eauto.
  - unfold fmul, finfmul. destruct (Req_EM_T 0 0); [auto|lra].
  - unfold fmul, finfmul. destruct (Req_EM_T (- 0) 0); [auto|lra].
Qed.
Lemma TF_silent : forall n L P m l, (forall i, (i < n)%nat -> 0 <= P i l) -> (m < n)%nat -> (1 <= l < L)%nat ->
  mediumR n P m l = 0 -> TF n L P m l = NaN.
Proof.
  intros n L P m l HP Hm Hl Hz. unfold TF. rewrite (medium_zero_here n 2 (fun i => P i l) m); auto.
  apply zero_times_nonfinite. unfold smoothF. apply fmul_w_nonfinite.
  apply (nonfinite_fsum _ (fdiv (Fin (suppR n P m l)) (Fin (mediumR n P m l)))).
  - apply (in_map (fun i => fdiv (Fin (suppR n P m i)) (Fin (mediumR n P m i)))). apply in_seq. unfold sm_lo, sm_hi. lia.
  - rewrite Hz. unfold fdiv. destruct (Req_EM_T 0 0); [|lra]. intros [q Hq]. unfold finfmul in Hq.
    destruct (Req_EM_T _ _); [discriminate|]. destruct (Rlt_dec _ _); discriminate.
Qed.
Lemma fadd_NaN_r : forall x, fadd x NaN = NaN.
Proof. destruct x; auto. Qed.
Lemma fsum_NaN : forall l, In NaN l -> fsum l = NaN.
Proof.
  induction l as [|x l IH]; intros H; [destruct H|]. unfold fsum. cbn [fold_right]. fold (fsum l).
  destruct H as [->|H]; auto. rewrite IH by auto. apply fadd_NaN_r.
Qed.
Lemma fpow_NaN : forall p, p <> 0 -> fpow NaN p = NaN.
Proof. intros. unfold fpow. destruct (Req_EM_T p 0); [lra|auto]. Qed.
Lemma fdiv_NaN_r : forall x, fdiv x NaN = NaN.
Proof. destruct x; auto. Qed.
Lemma fmul_NaN_r : forall x, fmul x NaN = NaN.
Proof. destruct x; auto. Qed.
Lemma VF_silent_here : forall n L P m l, (forall i, (i < n)%nat -> 0 <= P i l) -> (m < n)%nat -> (1 <= l < L)%nat ->
  mediumR n P m l = 0 -> VF n L P m l = NaN.
Proof. intros. unfold VF. rewrite (TF_silent n L P m l) by auto. rewrite fmul_NaN_r. cbn [fdiv]. apply fpow_NaN. lra. Qed.
Lemma myuF_NaN_from : forall lam L T m j, myuF lam L T m = NaN -> myuF lam L T (m + j) = NaN.
Proof.
  intros lam L T m j H. induction j as [|j IH]; [rewrite Nat.add_0_r; auto|]. rewrite Nat.add_succ_r. cbn [myuF]. rewrite IH, fmul_NaN_r. auto.
Qed.
Lemma VF_silent_after : forall n L P m l m' l', (forall i, (i < n)%nat -> 0 <= P i l) -> (m < n)%nat -> (1 <= l < L)%nat ->
  mediumR n P m l = 0 -> (1 <= m <= m')%nat -> VF n L P m' l' = NaN.
Proof.
  intros n L P m l m' l' HP Hm Hl Hz Hmm. unfold VF.
  replace m' with (m + (m' - m))%nat by lia. rewrite (myuF_NaN_from 0.999 L (TF n L P) m).
  - rewrite fdiv_NaN_r. apply fpow_NaN. lra.
  - destruct m as [|m]; [lia|]. cbn [myuF]. rewrite fsum_NaN; [rewrite fmul_NaN_r; apply fadd_NaN_r|].
    rewrite <- (TF_silent n L P (Datatypes.S m) l); auto. apply in_map, in_seq. lia.
Qed.
Lemma dct_row_NaN : forall t row, In NaN row -> dct_row t row = repeat NaN (List.length row).
Proof.
  intros t row Hin. unfold dct_row. cbv zeta. apply (In_nth _ _ NaN) in Hin as (j & Hj & Ej).
  apply (list_eq_nth _ NaN); [rewrite map_length, seq_length, repeat_length; auto|].
  intros k Hk. rewrite map_length, seq_length in Hk. rewrite nth_map_seq by auto.
  assert (nth k (repeat NaN (List.length row)) NaN = NaN) as -> by apply nth_repeat.
  unfold fdot. apply fsum_NaN.
  change NaN with (fmul NaN (Fin (dct_coef t (List.length row) k j))).
  apply (in_map2 F F F fmul row _ _ _ j NaN NaN); auto; [rewrite map_length, seq_length; auto|]. rewrite nth_map_seq by auto. auto.
Qed.

(** ** the whole function *)
Lemma pband_nonneg : forall p h n L f b, (0 < n)%nat -> (forall k, (k <= h)%nat -> 0 <= b k) -> 0 <= spec_pband p h n L f b.
Proof.
  intros p h n L f b Hn Hb. unfold spec_pband. apply bigsum_nonneg. intros k Hk. apply Rmult_le_pos; [|apply Hb; lia].
  apply Rmult_le_pos; [apply pow_le, sqrt_pos|]. left. apply Rinv_0_lt_compat, lt_0_INR. auto.
Qed.
Lemma pncc_fvec : forall `{Env} a p c N L hop n B x,
  well_framed a N L hop -> (1 <= s_nfft a)%Z -> (0 < n)%nat ->
  extractor_bank Gfcc a = Ok (fmat n (Datatypes.S (half (s_nfft a))) B) ->
  (c_num_ceps c <= s_nfilts a)%Z ->
  pncc (fvec N x) a p c
  = do V <- pncc_core (fmat (frame_count N L hop) n (band_power a p L hop B x)) (s_nfilts a);
    finish (mkC (c_num_ceps c) (c_dct_type c) false (c_lifter c) (c_normalize c)) (s_nfft a) V [].
Proof.
  intros E a p c N L hop n B x Hw Hn Hn0 HB Hc. unfold pncc. rewrite (proj2 (Z.ltb_ge _ _)) by lia.
  unfold extractor_bank, spectro_bank in HB.
  assert (HB' : match s_fbanks a with
                 | Some b => Ok b
                 | None => rmap fst (gammatone_filter_banks (s_nfilts a) (s_nfft a) (s_fs a) (s_low a)
                                       (s_high a) (s_scale a) 4 (s_approach a))
                 end = Ok (fmat n (Datatypes.S (half (s_nfft a))) B)) by exact HB.
  rewrite HB'. cbn [rbind]. rewrite (framed_fvec a N L hop x) by auto. cbn [rbind].
  rewrite fft_magnitude_fmat by auto. cbn [rbind].
  rewrite (fmat_map _ _ _ _ (fun v => 1 / IZR (s_nfft a) * v ^ p)) by (intros; rewrite fpown_Fin; reflexivity).
  rewrite np_dot_T_fmat by (auto; apply frame_count_pos). cbn [rbind].
  assert (EP : fmat (frame_count N L hop) n (fun i j => bigsum (Datatypes.S (half (s_nfft a))) (fun k =>
      1 / IZR (s_nfft a) * spec_mag (Z.to_nat (s_nfft a)) L (frame_of a (s_coeff a) L hop x i) k ^ p * B j k))
     = fmat (frame_count N L hop) n (band_power a p L hop B x)).
  { apply fmat_ext. intros i j _ _. unfold band_power, spec_pband. apply bigsum_ext. intros k _.
    rewrite INR_IZR_INZ, Z2Nat.id by lia. unfold Rdiv. ring. }
  rewrite EP. reflexivity.
Qed.
Lemma fmat_of_gmat : forall n c f g, (forall i j, (i < n)%nat -> (j < c)%nat -> f i j = Fin (g i j)) -> gmat n c f = fmat n c g.
Proof. intros. rewrite fmat_gmat. apply gmat_ext. auto. Qed.
(** ** gain *)
Lemma mediumR_scale : forall n P g m l, mediumR n (fun i j => g * P i j) m l = g * mediumR n P m l.
Proof. intros. unfold mediumR. apply (medium_scale n 2 (fun i => P i l)). Qed.
Lemma suppR_scale : forall n P g m l, 0 < g -> suppR n (fun i j => g * P i j) m l = g * suppR n P m l.
Proof.
  intros n P g m l Hg. unfold suppR. rewrite <- noiseR_scale by auto. apply noiseR_ext; auto. intros. apply mediumR_scale.
Qed.
Lemma smoothR_ext : forall N L r q r' q' l, (forall i, (1 <= i < L)%nat -> r i / q i = r' i / q' i) -> smoothR N L r q l = smoothR N L r' q' l.
Proof. intros. unfold smoothR. f_equal. apply bigsum_ext. intros. apply H. unfold sm_lo, sm_hi in *. lia. Qed.
Lemma TR_scale : forall n L P g m l, 0 < g -> audible n L P -> (m < n)%nat -> TR n L (fun i j => g * P i j) m l = g * TR n L P m l.
Proof.
  intros n L P g m l Hg Ha Hm. unfold TR. rewrite Rmult_assoc. do 2 f_equal. apply smoothR_ext. intros i Hi.
  rewrite mediumR_scale, suppR_scale by auto. specialize (Ha m i Hm Hi). field. lra.
Qed.
Lemma myuR_ext : forall L T T' m, (forall i l, (i <= m)%nat -> (l < L)%nat -> T i l = T' i l) -> MYU 0.999 L T m = MYU 0.999 L T' m.
Proof.
  intros L T T' m H. induction m as [|m IH]; cbn [MYU]; auto. rewrite IH by (intros; apply H; lia).
  rewrite (bigsum_ext L (T (Datatypes.S m)) (T' (Datatypes.S m))); auto.
Qed.
Lemma myuR_gain : forall L T g m, 0 < g -> (1 <= L)%nat -> (forall i l, (i <= m)%nat -> (l < L)%nat -> 0 <= T i l) ->
  Rmin 1 g * MYU 0.999 L T m <= MYU 0.999 L (fun i l => g * T i l) m <= Rmax 1 g * MYU 0.999 L T m.
Proof.
  intros L T g m Hg HL HT. assert (0 < Rmin 1 g) by (apply Rmin_glb_lt; lra). assert (0 < Rmax 1 g) by (apply Rlt_le_trans with 1; [lra|apply Rmax_l]).
  induction m as [|m IH]; cbn [MYU].
  - pose proof (Rmin_l 1 g). pose proof (Rmax_l 1 g). lra.
  - assert (IH' : Rmin 1 g * MYU 0.999 L T m <= MYU 0.999 L (fun i l => g * T i l) m <= Rmax 1 g * MYU 0.999 L T m) by (apply IH; intros; apply HT; lia).
    rewrite bigsum_scal.
    assert (0 <= bigsum L (T (Datatypes.S m))) by (apply bigsum_nonneg; intros; apply HT; lia).
    assert (0 < / INR L) by (apply Rinv_0_lt_compat, lt_0_INR; lia).
    set (w := (1 - 0.999) / INR L * bigsum L (T (Datatypes.S m))).
    assert (0 <= w) by (unfold w, Rdiv; repeat apply Rmult_le_pos; lra).
    replace ((1 - 0.999) / INR L * (g * bigsum L (T (Datatypes.S m)))) with (g * w) by (unfold w; ring).
    pose proof (Rmult_le_compat_r w _ _ ltac:(auto) (Rmin_r 1 g)). pose proof (Rmult_le_compat_r w _ _ ltac:(auto) (Rmax_r 1 g)). lra.
Qed.
Lemma spec_root_mult : forall q r v, 0 < r -> 0 <= v -> spec_root q (r * v) = Rpower r q * spec_root q v.
Proof.
  intros q r v Hr Hv. unfold spec_root. destruct (Req_EM_T v 0) as [->|Hv0].
  - destruct (Req_EM_T (r * 0) 0); [ring|]. exfalso. apply n. ring.
  - assert (0 < r * v) by (apply Rmult_lt_0_compat; lra). destruct (Req_EM_T (r * v) 0); [lra|].
    symmetry; apply Rpower_mult_distr; lra.
Qed.
Definition rho (L : nat) (T : nat -> nat -> R) (g : R) (m : nat) : R := g * MYU 0.999 L T m / MYU 0.999 L (fun i l => g * T i l) m.
Lemma rho_range : forall L T g m, 0 < g -> (1 <= L)%nat -> (forall i l, (i <= m)%nat -> (l < L)%nat -> 0 <= T i l) ->
  Rmin 1 g <= rho L T g m <= Rmax 1 g /\ 0 < rho L T g m.
Proof.
  intros L T g m Hg HL HT. destruct (myuR_gain L T g m Hg HL HT) as [G1 G2].
  assert (M1 : 0 < MYU 0.999 L T m) by (apply myuR_pos; auto).
  assert (M2 : 0 < MYU 0.999 L (fun i l => g * T i l) m).
  { apply myuR_pos; auto. intros. apply Rmult_le_pos; [lra|auto]. }
  unfold rho. set (u := MYU 0.999 L T m) in *. set (v := MYU 0.999 L (fun i l => g * T i l) m) in *.
  split; [|apply Rdiv_lt_0_compat; auto; apply Rmult_lt_0_compat; auto].
  split.
  - apply Rmult_le_reg_r with v; auto. unfold Rdiv. rewrite Rmult_assoc, Rinv_l, Rmult_1_r by lra.
    apply Rle_trans with (Rmin 1 g * (Rmax 1 g * u)); [apply Rmult_le_compat_l; auto; apply Rmin_glb; lra|].
    right. rewrite <- Rmult_assoc. f_equal. unfold Rmin, Rmax. destruct (Rle_dec 1 g); ring.
  - apply Rmult_le_reg_r with v; auto. unfold Rdiv. rewrite Rmult_assoc, Rinv_l, Rmult_1_r by lra.
    apply Rle_trans with (Rmax 1 g * (Rmin 1 g * u)).
    + right. rewrite <- Rmult_assoc. f_equal. unfold Rmin, Rmax. destruct (Rle_dec 1 g); ring.
    + apply Rmult_le_compat_l; auto. apply Rle_trans with 1; [lra|apply Rmax_l].
Qed.
Lemma VR_scale : forall n L P g m l, 0 < g -> (1 <= L)%nat -> audible n L P -> (m < n)%nat -> (forall i l, (i < n)%nat -> 0 <= P i l) ->
  VR n L (fun i j => g * P i j) m l = Rpower (rho L (TR n L P) g m) (1 / 15) * VR n L P m l.
Proof.
  intros n L P g m l Hg HL Ha Hm HP.
  assert (HT : forall i j, (i <= m)%nat -> 0 <= TR n L P i j) by (intros; apply TR_nonneg; auto; try lia; apply HP; lia).
  assert (M1 : 0 < MYU 0.999 L (TR n L P) m) by (apply myuR_pos; auto).
  destruct (rho_range L (TR n L P) g m) as [_ Hr]; auto.
  unfold VR. rewrite <- spec_root_mult; auto.
  2:{ apply Rmult_le_pos; auto. left. apply Rinv_0_lt_compat. auto. }
  f_equal. rewrite TR_scale by auto.
  rewrite (myuR_ext L (TR n L (fun i j => g * P i j)) (fun i j => g * TR n L P i j)) by (intros; apply TR_scale; auto; lia).
  assert (M2 : 0 < MYU 0.999 L (fun i j => g * TR n L P i j) m).
  { apply myuR_pos; auto. intros. apply Rmult_le_pos; [lra|auto]. }
  unfold rho. field. lra.
Qed.
Lemma audible_scale : forall n L P g, 0 < g -> audible n L P -> audible n L (fun i j => g * P i j).
Proof. intros n L P g Hg Ha m l Hm Hl. rewrite mediumR_scale. apply Rmult_lt_0_compat; auto. Qed.
Lemma pband_gain : forall p h n L f f2 g b, (forall t, f2 t = g * f t) -> spec_pband p h n L f2 b = Rabs g ^ p * spec_pband p h n L f b.
Proof.
  intros p h n L f f2 g b H. unfold spec_pband. rewrite <- bigsum_scal. apply bigsum_ext. intros k _.
  rewrite (spec_mag_gain n L f f2 g) by auto. rewrite Rpow_mult_distr. unfold Rdiv. ring.
Qed.
Lemma VR_ext : forall n L P Q m l, (l < Nat.max L (Datatypes.S l))%nat -> (m < n)%nat -> (forall i j, (i < n)%nat -> P i j = Q i j) -> VR n L P m l = VR n L Q m l.
Proof.
  intros n L P Q m l _ Hm H.
  assert (Md : forall i j, (i < n)%nat -> mediumR n P i j = mediumR n Q i j) by (intros; unfold mediumR; apply medium_ext; auto).
  assert (S1 : forall i j, (i < n)%nat -> suppR n P i j = suppR n Q i j).
  { intros. unfold suppR. apply noiseR_ext; auto. intros. apply Md. lia. }
  assert (T1 : forall i j, (i < n)%nat -> TR n L P i j = TR n L Q i j).
  { intros. unfold TR. rewrite H by auto. f_equal. apply smoothR_ext. intros. rewrite Md, S1 by auto. auto. }
  unfold VR. rewrite T1 by auto. rewrite (myuR_ext L (TR n L P) (TR n L Q)); auto. intros. apply T1. lia.
Qed.
Lemma root_pow : forall g p, 0 < g -> Rpower (g ^ p) (1 / 15) = Rpower g (INR p / 15).
Proof. intros. rewrite <- Rpower_pow by auto. rewrite Rpower_mult. f_equal. lra. Qed.
Lemma Rpower_mono_base : forall u v q, 0 < u -> u <= v -> 0 <= q -> Rpower u q <= Rpower v q.
Proof. intros. apply Rle_Rpower_l; auto; lra. Qed.

(** ** bounds *)
Lemma VR_bound : forall n L P m l, (1 <= L)%nat -> audible n L P -> (1 <= m < n)%nat -> (l < L)%nat -> (forall i l, (i < n)%nat -> 0 <= P i l) ->
  0 <= VR n L P m l <= Rpower (1000 * INR L) (1 / 15).
Proof.
  intros n L P m l HL Ha Hm Hl HP.
  assert (HT : forall i j, (i <= m)%nat -> 0 <= TR n L P i j) by (intros; apply TR_nonneg; auto; try lia; apply HP; lia).
  assert (M1 : 0 < MYU 0.999 L (TR n L P) m) by (apply myuR_pos; auto).
  unfold VR. split; [apply spec_root_nonneg|]. set (t := TR n L P m l) in *. set (u := MYU 0.999 L (TR n L P) m) in *.
  assert (HLR : 1 <= INR L) by (change 1 with (INR 1); apply le_INR; auto).
  unfold spec_root. destruct (Req_EM_T (t / u) 0); [left; apply exp_pos|].
  assert (0 <= t) by (apply HT; auto).
  assert (0 <= t / u) by (apply Rmult_le_pos; auto; left; apply Rinv_0_lt_compat; auto).
  apply Rpower_mono_base; [lra| |lra].
  apply Rmult_le_reg_r with u; auto. unfold Rdiv. rewrite Rmult_assoc, Rinv_l, Rmult_1_r by lra.
  destruct m as [|m]; [lia|]. unfold u. cbn [MYU].
  assert (t <= bigsum L (TR n L P (Datatypes.S m))) by (unfold t; apply bigsum_ge_term; auto).
  assert (0 < MYU 0.999 L (TR n L P) m) by (apply myuR_pos; auto).
  apply Rle_trans with (1000 * INR L * ((1 - 0.999) / INR L * bigsum L (TR n L P (Datatypes.S m)))).
  - replace (1000 * INR L * ((1 - 0.999) / INR L * bigsum L (TR n L P (Datatypes.S m)))) with (bigsum L (TR n L P (Datatypes.S m))) by (replace (1 - 0.999) with (/ 1000) by lra; field; lra). auto.
  - apply Rmult_le_compat_l; [lra|]. lra.
Qed.
Lemma dct_bound : forall t N x k b, (1 <= t <= 4)%Z -> (t = 1%Z -> (2 <= N)%nat) -> (k < N)%nat -> 0 <= b ->
  (forall i, (i < N)%nat -> 0 <= x i <= b) -> Rabs (spec_dct t N x k) <= sqrt (INR N) * b.
Proof.
  intros t N x k b Ht Ht1 Hk Hb Hx. apply Rsqr_incr_0; [|apply Rabs_pos|apply Rmult_le_pos; auto; apply sqrt_pos].
  rewrite <- Rsqr_abs. unfold Rsqr. replace (sqrt (INR N) * b * (sqrt (INR N) * b)) with (sqrt (INR N) * sqrt (INR N) * (b * b)) by ring.
  rewrite sqrt_sqrt by apply pos_INR.
  apply Rle_trans with (bigsum N (fun k => spec_dct t N x k * spec_dct t N x k)).
  - apply (bigsum_ge_term N (fun k => spec_dct t N x k * spec_dct t N x k)); auto. intros. apply Rle_0_sqr.
  - rewrite dct_inner by auto. rewrite <- bigsum_const. apply bigsum_le. intros i Hi. specialize (Hx i Hi).
    apply Rmult_le_compat; lra.
Qed.

(** ** causality *)
Lemma smoothF_ext : forall N L r q r' q' l, (forall i, r i = r' i) -> (forall i, q i = q' i) -> smoothF N L r q l = smoothF N L r' q' l.
Proof. intros. unfold smoothF. do 2 f_equal. apply map_ext. intros. rewrite H, H0. auto. Qed.
Lemma VF_causal : forall n1 n2 L P Q m l, (m + 2 < n1)%nat -> (m + 2 < n2)%nat -> (forall i j, (i <= m + 2)%nat -> P i j = Q i j) ->
  VF n1 L P m l = VF n2 L Q m l.
Proof.
  intros n1 n2 L P Q m l H1 H2 H.
  assert (Md : forall i j, (i <= m)%nat -> mediumR n1 P i j = mediumR n2 Q i j).
  { intros. unfold mediumR. apply medium_local; try lia. intros. apply H. lia. }
  assert (S1 : forall i j, (i <= m)%nat -> suppR n1 P i j = suppR n2 Q i j).
  { intros. unfold suppR. apply noiseR_ext; [right; lia|]. intros. apply Md. lia. }
  assert (T1 : forall i j, (i <= m)%nat -> TF n1 L P i j = TF n2 L Q i j).
  { intros. unfold TF. rewrite H by lia. f_equal. apply smoothF_ext; intros; f_equal; auto. }
  unfold VF. rewrite T1 by auto. f_equal. f_equal.
  assert (U : forall k, (k <= m)%nat -> myuF 0.999 L (TF n1 L P) k = myuF 0.999 L (TF n2 L Q) k).
  { induction k as [|k IH]; intros Hk; cbn [myuF]; auto. rewrite IH by lia. do 3 f_equal. apply map_ext. intros. apply T1. auto. }
  apply U. auto.
Qed.
Lemma spec_mag_ext : forall n L f g k, (forall t, (t < L)%nat -> f t = g t) -> spec_mag n L f k = spec_mag n L g k.
Proof.
  intros n L f g k H. unfold spec_mag, spec_sq, spec_re, spec_im.
  rewrite (bigsum_ext (Nat.min L n) (fun t => f t * cos _) (fun t => g t * cos (2 * PI * INR (t * k) / INR n))) by (intros; rewrite H by lia; auto).
  rewrite (bigsum_ext (Nat.min L n) (fun t => f t * - sin _) (fun t => g t * - sin (2 * PI * INR (t * k) / INR n))) by (intros; rewrite H by lia; auto).
  auto.
Qed.
Lemma bandP_local : forall a p L hop B x y m l, (forall t, (t < m * hop + L)%nat -> x t = y t) -> band_power a p L hop B x m l = band_power a p L hop B y m l.
Proof.
  intros a p L hop B x y m l H. unfold band_power, spec_pband. apply bigsum_ext. intros k _. do 3 f_equal.
  apply spec_mag_ext. intros t Ht. unfold frame_of, spec_frame, spec_pre. f_equal. destruct (s_pre_emph a); [|apply H; lia].
  destruct (m * hop + t)%nat eqn:Et; rewrite !H by lia; auto.
Qed.
Section Laws.
  Context `{E : Env}.
  Variables (a : sargs) (p : nat) (c : cargs) (N L hop n nf : nat) (B : nat -> nat -> R).
  Hypothesis Hw : well_framed a N L hop.
  Hypothesis Hnfft : (1 <= s_nfft a)%Z.
  Hypothesis HB : extractor_bank Gfcc a = Ok (fmat n (Datatypes.S (half (s_nfft a))) B).
  Hypothesis Hnf : s_nfilts a = Z.of_nat nf.
  Hypothesis Hsz : (1 <= nf <= n)%nat.
  Hypothesis Hn5 : (n <= nf + 5)%nat.
  Hypothesis Hpos : forall j k, (j < n)%nat -> (k <= half (s_nfft a))%nat -> 0 <= B j k.
  Hypothesis Hc : (0 <= c_num_ceps c <= s_nfilts a)%Z.
  Hypothesis Ht : (1 <= c_dct_type c <= 4)%Z.
  Hypothesis Ht1 : c_dct_type c = 1%Z -> (2 <= n)%nat.
  Hypothesis Hl : no_lifter c.
  Hypothesis Hnm : no_normalisation c.
  Let m0 : (0 < frame_count N L hop)%nat := frame_count_pos N L hop.
  (* channels beyond the bank are irrelevant: make them empty *)
  Definition Bz (j k : nat) : R := if Nat.ltb j n then (if Nat.leb k (half (s_nfft a)) then B j k else 0) else 0.
  Lemma Bz_bank : fmat n (Datatypes.S (half (s_nfft a))) B = fmat n (Datatypes.S (half (s_nfft a))) Bz.
  Proof.
    apply fmat_ext. intros i j Hi Hj. unfold Bz. rewrite (proj2 (Nat.ltb_lt _ _)) by auto. rewrite (proj2 (Nat.leb_le _ _)) by lia. auto.
  Qed.
  Lemma Bz_nonneg : forall j k, 0 <= Bz j k.
  Proof.
    intros. unfold Bz. destruct (Nat.ltb_spec j n); [|lra]. destruct (Nat.leb_spec k (half (s_nfft a))); [auto|lra].
  Qed.
  Lemma bandP_z : forall x m l, (l < n)%nat -> band_power a p L hop Bz x m l = band_power a p L hop B x m l.
  Proof.
    intros. unfold band_power, spec_pband. apply bigsum_ext. intros k Hk. unfold Bz.
    rewrite (proj2 (Nat.ltb_lt _ _)) by auto. rewrite (proj2 (Nat.leb_le _ _)) by lia. auto.
  Qed.
  Lemma bandP_nonneg : forall x m l, 0 <= band_power a p L hop Bz x m l.
  Proof. intros. unfold band_power. apply pband_nonneg; [lia|]. intros. apply Bz_nonneg. Qed.
  Lemma pncc_gen : forall x, pncc (fvec N x) a p c
    = finish (mkC (c_num_ceps c) (c_dct_type c) false (c_lifter c) (c_normalize c)) (s_nfft a)
        (gmat (frame_count N L hop) n (VF (frame_count N L hop) nf (band_power a p L hop Bz x))) [].
  Proof.
    intros x. rewrite (pncc_fvec a p c N L hop n Bz x); auto; try lia.
    - rewrite Hnf. rewrite core_gmat by auto. reflexivity.
    - rewrite HB. f_equal. apply Bz_bank.
  Qed.
  Lemma pncc_audible : forall x, audible (frame_count N L hop) nf (band_power a p L hop B x) ->
    pncc (fvec N x) a p c = Ok (fmat (frame_count N L hop) (Nat.min (Z.to_nat (c_num_ceps c)) n)
      (fun i k => spec_dct (c_dct_type c) n (VR (frame_count N L hop) nf (band_power a p L hop Bz x) i) k)).
  Proof.
    intros x Ha. rewrite pncc_gen. rewrite (fmat_of_gmat _ _ _ (VR (frame_count N L hop) nf (band_power a p L hop Bz x))).
    - apply finish_no_energy; auto; lia.
    - intros i j Hi Hj. apply VF_fin; auto; [|lia|intros; apply bandP_nonneg].
      intros m l Hm Hl0. specialize (Ha m l Hm Hl0). unfold mediumR in *. erewrite medium_ext; [exact Ha|].
      intros. apply bandP_z. lia.
  Qed.
  Lemma audible_z : forall x, audible (frame_count N L hop) nf (band_power a p L hop B x) -> audible (frame_count N L hop) nf (band_power a p L hop Bz x).
  Proof.
    intros x Ha m l Hm Hl0. specialize (Ha m l Hm Hl0). unfold mediumR in *. erewrite medium_ext; [exact Ha|].
    intros. apply bandP_z. lia.
  Qed.
  Lemma finish_gmat : forall m V, (0 < m)%nat ->
    finish (mkC (c_num_ceps c) (c_dct_type c) false (c_lifter c) (c_normalize c)) (s_nfft a) (gmat m n V) []
    = Ok (map (fun i => py_take (c_num_ceps c) (dct_row (c_dct_type c) (map (V i) (seq 0 n)))) (seq 0 m)).
  Proof.
    intros m V Hm. unfold finish, sp_dct. cbn [c_dct_type c_num_ceps c_use_energy c_lifter c_normalize].
    rewrite (proj2 (orb_false_iff _ _)) by (split; apply Z.ltb_ge; lia). rewrite gmat_ncols by auto.
    rewrite (proj2 (Nat.ltb_ge _ _)) by (destruct (Z.eqb_spec (c_dct_type c) 1); [auto|lia]). cbn [rbind].
    unfold gmat. rewrite !map_map. unfold no_lifter, no_normalisation in *.
    destruct Hl as [-> | ->]; [|unfold Reqb; destruct (Req_EM_T 0 0); [|lra]]; cbn [rbind];
      destruct Hnm as [-> | ->]; reflexivity.
  Qed.
  Lemma pncc_rows : forall x, pncc (fvec N x) a p c
    = Ok (map (fun i => py_take (c_num_ceps c) (dct_row (c_dct_type c) (map (VF (frame_count N L hop) nf (band_power a p L hop Bz x) i) (seq 0 n))))
        (seq 0 (frame_count N L hop))).
  Proof. intros. rewrite pncc_gen, finish_gmat; auto. Qed.
  Lemma take_repeat : forall k, py_take (c_num_ceps c) (repeat NaN k) = repeat NaN (Nat.min (Z.to_nat (c_num_ceps c)) k).
  Proof.
    intros k. unfold py_take. rewrite (proj2 (Z.ltb_ge _ _)) by lia. generalize (Z.to_nat (c_num_ceps c)). intros u. revert k.
    induction u as [|u IH]; intros [|k]; cbn [repeat firstn Nat.min]; auto. rewrite IH. auto.
  Qed.
  Lemma pncc_silent : forall x m l, (m < frame_count N L hop)%nat -> (1 <= l < nf)%nat ->
    spec_medium (frame_count N L hop) 2 (fun i => band_power a p L hop B x i l) m = 0 ->
    exists M, pncc (fvec N x) a p c = Ok M /\ List.length M = frame_count N L hop /\
      forall i, (i < frame_count N L hop)%nat -> i = m \/ (1 <= m <= i)%nat ->
        nth i M [] = repeat NaN (Nat.min (Z.to_nat (c_num_ceps c)) n).
  Proof.
    intros x m l Hm Hl0 Hz. eexists. split; [apply pncc_rows|]. rewrite map_length, seq_length. split; auto.
    assert (Hz' : mediumR (frame_count N L hop) (band_power a p L hop Bz x) m l = 0).
    { unfold mediumR. rewrite <- Hz. apply medium_ext. intros. apply bandP_z. lia. }
    intros i Hi Him. rewrite nth_map_seq by auto. rewrite dct_row_NaN.
    - rewrite map_length, seq_length. apply take_repeat.
    - assert (VF (frame_count N L hop) nf (band_power a p L hop Bz x) i l = NaN) as <-.
      { destruct Him as [->|Him].
        - apply VF_silent_here; auto. intros. apply bandP_nonneg.
        - apply (VF_silent_after _ _ _ m l); auto. intros. apply bandP_nonneg. }
      apply in_map, in_seq. lia.
  Qed.
  Lemma pncc_gain : forall x g, g <> 0 -> audible (frame_count N L hop) nf (band_power a p L hop B x) ->
    exists y s, pncc (fvec N x) a p c = Ok (fmat (frame_count N L hop) (Nat.min (Z.to_nat (c_num_ceps c)) n) y) /\
      pncc (fvec N (fun t => g * x t)) a p c
      = Ok (fmat (frame_count N L hop) (Nat.min (Z.to_nat (c_num_ceps c)) n) (fun i k => s i * y i k)) /\
      s 0%nat = Rpower (Rabs g) (INR p / 15) /\
      forall i, (i < frame_count N L hop)%nat ->
        Rmin 1 (Rpower (Rabs g) (INR p / 15)) <= s i <= Rmax 1 (Rpower (Rabs g) (INR p / 15)).
  Proof.
    intros x g Hg Ha. assert (Hg0 : 0 < Rabs g) by (apply Rabs_pos_lt; auto).
    set (k := Rabs g ^ p). assert (Hk : 0 < k) by (apply pow_lt; auto).
    assert (Eb : forall Bq i j, band_power a p L hop Bq (fun t => g * x t) i j = k * band_power a p L hop Bq x i j).
    { intros. unfold band_power. apply pband_gain. intros. apply frame_of_gain. }
    assert (Ha2 : audible (frame_count N L hop) nf (band_power a p L hop B (fun t => g * x t))).
    { intros m l Hm Hl0. unfold mediumR. rewrite (medium_ext _ _ _ (fun i => k * band_power a p L hop B x i l)) by (intros; apply Eb).
      rewrite medium_scale. apply Rmult_lt_0_compat; auto. apply Ha; auto. }
    pose proof (audible_z x Ha) as Haz.
    exists (fun i k0 => spec_dct (c_dct_type c) n (VR (frame_count N L hop) nf (band_power a p L hop Bz x) i) k0).
    exists (fun i => Rpower (rho nf (TR (frame_count N L hop) nf (band_power a p L hop Bz x)) k i) (1 / 15)).
    split; [apply pncc_audible; auto|]. split.
    { rewrite pncc_audible by auto. f_equal. apply fmat_ext. intros i k0 Hi _.
      rewrite (spec_dct_ext _ _ _ (fun j => Rpower (rho nf (TR (frame_count N L hop) nf (band_power a p L hop Bz x)) k i) (1 / 15) *
           VR (frame_count N L hop) nf (band_power a p L hop Bz x) i j + 0 * 0)).
      - rewrite (spec_dct_linear _ _ _ _ _ (fun _ => 0)). ring.
      - intros j Hj. rewrite (VR_ext _ _ _ (fun i j => k * band_power a p L hop Bz x i j)) by (auto; try lia).
        rewrite VR_scale; auto; try lia; [ring|]. intros. apply bandP_nonneg. }
    rewrite <- root_pow by auto. fold k.
    assert (HT : forall m i l, (m < frame_count N L hop)%nat -> (i <= m)%nat -> (l < nf)%nat -> 0 <= TR (frame_count N L hop) nf (band_power a p L hop Bz x) i l).
    { intros. apply TR_nonneg; auto; try lia. apply bandP_nonneg. }
    split.
    - unfold rho. cbn [MYU]. f_equal. field. lra.
    - intros i Hi. destruct (rho_range nf (TR (frame_count N L hop) nf (band_power a p L hop Bz x)) k i) as [[R1 R2] R3]; auto; try lia.
      { intros. apply (HT i); auto. }
      set (r := rho _ _ _ _) in *.
      assert (One : Rpower 1 (1 / 15) = 1) by (unfold Rpower; rewrite ln_1, Rmult_0_r; apply exp_0).
      assert (Mo : forall u v, 0 < u -> u <= v -> Rpower u (1 / 15) <= Rpower v (1 / 15)) by (intros; apply Rpower_mono_base; lra).
      pose proof (Mo 1 k ltac:(lra)) as A1. pose proof (Mo k 1 Hk) as A2. pose proof (Mo 1 r ltac:(lra)) as A3.
      pose proof (Mo r k R3) as A4. pose proof (Mo k r Hk) as A5. pose proof (Mo r 1 R3) as A6. rewrite One in *.
      unfold Rmin, Rmax in *. destruct (Rle_dec 1 k).
      + destruct (Rle_dec 1 (Rpower k (1 / 15))); [|lra]. split; auto.
      + assert (k <= 1) by lra. destruct (Rle_dec 1 (Rpower k (1 / 15))); split; auto; specialize (A2 H); specialize (A5 R1); specialize (A6 R2); lra.
  Qed.
  Lemma pncc_bounded : forall x, n = nf -> audible (frame_count N L hop) nf (band_power a p L hop B x) ->
    exists y, pncc (fvec N x) a p c = Ok (fmat (frame_count N L hop) (Nat.min (Z.to_nat (c_num_ceps c)) n) y) /\
      forall i k, (1 <= i < frame_count N L hop)%nat -> (k < n)%nat -> Rabs (y i k) <= sqrt (INR n) * Rpower (1000 * INR n) (1 / 15).
  Proof.
    intros x En Ha. eexists. split; [apply pncc_audible; auto|]. intros i k Hi Hk. apply dct_bound; auto; [left; apply exp_pos|].
    intros j Hj. replace (1000 * INR n) with (1000 * INR nf) by (rewrite En; auto). apply VR_bound; auto; try lia; [apply audible_z; auto|]. intros. apply bandP_nonneg.
  Qed.
End Laws.
Lemma pncc_causal : forall `{E : Env} a p c N1 N2 L hop n nf B x y m,
  well_framed a N1 L hop -> well_framed a N2 L hop -> (1 <= s_nfft a)%Z ->
  extractor_bank Gfcc a = Ok (fmat n (Datatypes.S (half (s_nfft a))) B) ->
  s_nfilts a = Z.of_nat nf -> (1 <= nf <= n)%nat -> (n <= nf + 5)%nat ->
  (0 <= c_num_ceps c <= s_nfilts a)%Z -> (1 <= c_dct_type c <= 4)%Z -> (c_dct_type c = 1%Z -> (2 <= n)%nat) ->
  no_lifter c -> no_normalisation c ->
  (m + 2 < frame_count N1 L hop)%nat -> (m + 2 < frame_count N2 L hop)%nat ->
  (forall t, (t < (m + 2) * hop + L)%nat -> x t = y t) ->
  exists M1 M2, pncc (fvec N1 x) a p c = Ok M1 /\ pncc (fvec N2 y) a p c = Ok M2 /\
    List.length M1 = frame_count N1 L hop /\ List.length M2 = frame_count N2 L hop /\
    forall i, (i <= m)%nat -> nth i M1 [] = nth i M2 [].
Proof.
  intros E a p c N1 N2 L hop n nf B x y m W1 W2 Hn HB Hnf Hs H5 Hc Ht Ht1 Hl Hnm M1 M2 Hxy.
  do 2 eexists. split; [eapply pncc_rows; eauto|]. split; [eapply pncc_rows; eauto|].
  rewrite !map_length, !seq_length. split; auto. split; auto. intros i Hi. rewrite !nth_map_seq by lia. do 2 f_equal.
  apply map_ext. intros l. apply VF_causal; try lia. intros j k Hj. apply bandP_local. intros t Ht'. apply Hxy. nia.
Qed.

(** ** shape, for any floats *)
Lemma foldM_inv : forall A (f : A -> Z -> result A) (Inv : A -> Prop) l s s', foldM f l s = Ok s' -> Inv s ->
  (forall s z s', Inv s -> f s z = Ok s' -> Inv s') -> Inv s'.
Proof.
  induction l as [|z l IH]; intros s s' H Hs Hf; cbn [foldM] in H; [apply Ok_inj in H; subst; auto|].
  apply rbind_Ok in H as (s1 & H1 & H). eapply IH; eauto.
Qed.
Lemma py_nth_In : forall A (l : list A) i x, py_nth l i = Ok x -> In x l.
Proof.
  intros A l i x H. unfold py_nth in H. destruct (_ && _)%bool; [|discriminate].
  destruct (nth_error l _) eqn:En; [|discriminate]. apply Ok_inj in H. subst. eapply nth_error_In; eauto.
Qed.
Lemma shape_In : forall A (m : list (list A)) r c row, has_shape m r c -> In row m -> List.length row = c.
Proof. intros A m r c row [_ H] Hin. rewrite Forall_forall in H. auto. Qed.
Lemma shape_set : forall A (m m' : list (list A)) r c i row, has_shape m r c -> List.length row = c -> py_set m i row = Ok m' -> has_shape m' r c.
Proof.
  intros A m m' r c i row [H1 H2] Hr H. unfold py_set in H. destruct (_ && _)%bool; [|discriminate]. apply Ok_inj in H. subst m'.
  split; [rewrite upd_length; auto|]. rewrite Forall_forall in *. intros y Hy. apply (In_nth _ _ []) in Hy as (j & Hj & <-).
  rewrite upd_length in Hj. match goal with |- context[upd m ?k row] => set (kk := k) in * end. destruct (Nat.eq_dec j kk) as [->|].
  - rewrite upd_nth_same by auto. auto.
  - rewrite upd_nth_other by auto. apply H2. apply nth_In. auto.
Qed.
Lemma shape_map2 : forall A B C (f : A -> B -> C) m m' r c, has_shape m r c -> has_shape m' r c -> has_shape (map2 (map2 f) m m') r c.
Proof.
  intros A B C f m m' r c [H1 H2] [H3 H4]. split; [rewrite map2_length; lia|].
  rewrite Forall_forall in *. intros y Hy. apply (In_nth _ _ []) in Hy as (j & Hj & <-). rewrite map2_length in Hj.
  rewrite (map2_nth _ _ _ (map2 f) m m' [] []) by lia. rewrite map2_length.
  rewrite (H2 (nth j m [])) by (apply nth_In; lia). rewrite (H4 (nth j m' [])) by (apply nth_In; lia). lia.
Qed.
Lemma shape_mapmap : forall A B (f : A -> B) m r c, has_shape m r c -> has_shape (map (map f) m) r c.
Proof. intros. eapply shape_map; eauto. intros. rewrite map_length. auto. Qed.
Lemma asym_shape : forall Q a b out r c, has_shape Q r c -> asymmetric_lowpass_filtering Q a b = Ok out -> has_shape out r c.
Proof.
  intros Q a b out r c HQ H. unfold asymmetric_lowpass_filtering in H. cbv zeta in H.
  apply rbind_Ok in H as (q0 & Hq0 & H). apply rbind_Ok in H as (o & Ho & H).
  apply (foldM_inv _ _ (fun s => has_shape s r c) _ _ _ H).
  - eapply shape_set; [apply shape_mapmap; eauto| |exact Ho]. rewrite map_length. eapply shape_In; eauto. eapply py_nth_In; eauto.
  - intros s z s' Hs Hf. apply rbind_Ok in Hf as (pv & Hp & Hf). apply rbind_Ok in Hf as (q & Hq & Hf).
    eapply shape_set; [eauto| |exact Hf]. unfold asym_row. rewrite map2_length.
    rewrite (shape_In _ _ _ _ _ Hs (py_nth_In _ _ _ _ Hp)), (shape_In _ _ _ _ _ HQ (py_nth_In _ _ _ _ Hq)). lia.
Qed.
Lemma mask_shape : forall Q a b out r c, has_shape Q r c -> temporal_masking Q a b = Ok out -> has_shape out r c.
Proof.
  intros Q a b out r c HQ H. unfold temporal_masking in H. cbv zeta in H.
  apply rbind_Ok in H as (q0 & Hq0 & H). apply rbind_Ok in H as (o & Ho & H). apply rbind_Ok in H as (pk & Hpk & H).
  apply rbind_Ok in H as (w & Hw & H). apply Ok_inj in H. subst out.
  assert (Hq0l : List.length q0 = c) by (eapply shape_In; eauto; eapply py_nth_In; eauto).
  apply (foldM_inv _ _ (fun s => has_shape (fst s) r c /\ has_shape (snd s) r c) _ _ _ Hw).
  - split; (eapply shape_set; [apply shape_mapmap; eauto|exact Hq0l|eauto]).
  - intros [s1 s2] z s' [H1 H2] Hf. cbn [fst snd] in *. apply rbind_Ok in Hf as (pv & Hp & Hf). apply rbind_Ok in Hf as (q & Hq & Hf).
    apply rbind_Ok in Hf as (pk' & Hp' & Hf). apply rbind_Ok in Hf as (tm' & Ht' & Hf). apply Ok_inj in Hf. subst s'. cbn [fst snd].
    split; (eapply shape_set; [|  |eauto]); eauto; rewrite map2_length;
      rewrite (shape_In _ _ _ _ _ H2 (py_nth_In _ _ _ _ Hp)), (shape_In _ _ _ _ _ HQ (py_nth_In _ _ _ _ Hq)); lia.
Qed.
Lemma noise_shape : forall Q th out r c, has_shape Q r c -> noise_suppression Q th = Ok out -> has_shape out r c.
Proof.
  intros Q th out r c HQ H. unfold noise_suppression in H. cbv zeta in H.
  apply rbind_Ok in H as (le & Hle & H). apply (asym_shape _ _ _ _ _ _ HQ) in Hle.
  set (q0 := map (map _) (map2 (map2 fsub) Q le)) in *.
  assert (Hq0 : has_shape q0 r c) by (apply shape_mapmap, shape_map2; auto).
  apply rbind_Ok in H as (qf & Hqf & H). apply (asym_shape _ _ _ _ _ _ Hq0) in Hqf.
  apply rbind_Ok in H as (tm & Htm & H). apply (mask_shape _ _ _ _ _ _ Hq0) in Htm.
  apply Ok_inj in H. subst out. repeat apply shape_map2; auto.
Qed.
Lemma medium_shape : forall P M r c, has_shape P r c -> (0 < r)%nat -> has_shape (medium_time_power_calculation P M) r c.
Proof.
  intros P M r c HP Hr. unfold medium_time_power_calculation. cbv zeta. rewrite (shape_ncols _ _ _ _ HP Hr). destruct HP as [HP _].
  split; [rewrite map_length, seq_length; auto|]. apply Forall_map, Forall_forall. intros. rewrite map_length, seq_length. auto.
Qed.
Lemma smooth_shape : forall Rt Q L N out r c, has_shape Rt r c -> (0 < r)%nat -> weight_smoothing Rt Q L N = Ok out -> has_shape out r c.
Proof.
  intros Rt Q L N out r c HR Hr H. unfold weight_smoothing in H. rewrite (shape_ncols _ _ _ _ HR Hr) in H.
  split.
  - apply mapM_length in H. rewrite zrange_length in H. destruct HR as [HR _]. unfold zlen in H. lia.
  - apply Forall_forall. intros row Hin. apply (mapM_In_rev _ _ _ _ _ _ H) in Hin as (m & _ & Hm).
    apply rbind_Ok in Hm as (r0 & _ & Hm). apply rbind_Ok in Hm as (q0 & _ & Hm).
    apply mapM_length in Hm. rewrite zrange_length in Hm. lia.
Qed.
Lemma py_set_length : forall A (l l' : list A) i x, py_set l i x = Ok l' -> List.length l' = List.length l.
Proof. intros A l l' i x H. unfold py_set in H. destruct (_ && _)%bool; [|discriminate]. apply Ok_inj in H. subst. apply upd_length. Qed.
Lemma mean_shape : forall T lam L k out r c, has_shape T r c -> mean_power_normalization T lam L k = Ok out -> has_shape out r c.
Proof.
  intros T lam L k out r c [HT1 HT2] H. unfold mean_power_normalization in H. cbv zeta in H.
  apply rbind_Ok in H as (u & Hu & H). apply rbind_Ok in H as (w & Hw & H). apply Ok_inj in H. subst out.
  assert (Hl : List.length w = r).
  { apply (foldM_inv _ _ (fun s => List.length s = r) _ _ _ Hw).
    - apply py_set_length in Hu. rewrite Hu, map_length. auto.
    - intros s z s' Hs Hf. apply rbind_Ok in Hf as (? & _ & Hf). apply rbind_Ok in Hf as (? & _ & Hf).
      apply rbind_Ok in Hf as (? & _ & Hf). apply rbind_Ok in Hf as (? & _ & Hf). apply py_set_length in Hf. lia. }
  split; [rewrite map2_length; lia|]. rewrite Forall_forall in *. intros y Hy. apply (In_nth _ _ []) in Hy as (j & Hj & <-).
  rewrite map2_length in Hj. rewrite (map2_nth _ _ _ _ w T NaN []) by lia. rewrite map_length. apply HT2, nth_In. lia.
Qed.
Lemma core_shape : forall P nf V r c, has_shape P r c -> (0 < r)%nat -> pncc_core P nf = Ok V -> has_shape V r c.
Proof.
  intros P nf V r c HP Hr H. unfold pncc_core in H. cbv zeta in H.
  pose proof (medium_shape P 2 r c HP Hr) as HQ.
  apply rbind_Ok in H as (Rt & HR & H). apply (noise_shape _ _ _ _ _ HQ) in HR.
  apply rbind_Ok in H as (St & HS & H). apply (smooth_shape _ _ _ _ _ _ _ HR Hr) in HS.
  apply rbind_Ok in H as (U & HU & H). apply mean_shape with (r := r) (c := c) in HU; [|apply shape_map2; auto].
  apply Ok_inj in H. subst V. apply shape_mapmap. auto.
Qed.
Lemma pncc_shape : forall `{Env} sig a p c M, pncc sig a p c = Ok M -> (0 <= c_num_ceps c)%Z ->
  exists b, extractor_bank Gfcc a = Ok b /\
    zlen M = ((zlen sig - flen (s_fs a) (win_len (window_of a))) / flen (s_fs a) (win_hop (window_of a)) + 1)%Z /\
    Forall (fun row => List.length row = Nat.min (Z.to_nat (c_num_ceps c)) (List.length b)) M.
Proof.
  intros E sig a p c M H Hnc. unfold pncc in H. destruct (_ <? _)%Z; [discriminate|].
  apply rbind_Ok in H as (b & Hb & H). exists b. split; [exact Hb|].
  apply rbind_Ok in H as ([fr ws] & Hf & H). apply rbind_Ok in H as (mg & Hmg & H).
  apply rbind_Ok in H as (P & HP & H). apply rbind_Ok in H as (V & HV & H).
  pose proof (framed_length _ _ _ _ _ Hf) as Hlen.
  pose proof (framed_inv _ _ _ _ _ Hf) as (sig' & _ & Hfr & Hwin).
  apply framing_nonempty in Hfr. apply windowing_length in Hwin.
  assert (Hws : (0 < List.length ws)%nat) by (rewrite Hwin; destruct fr; simpl; [congruence|lia]).
  assert (Hmgl : List.length mg = List.length ws).
  { unfold fft_magnitude in Hmg. apply rbind_Ok in Hmg as (X & HX & Hmg). apply Ok_inj in Hmg. subst mg. rewrite map_length.
    unfold np_fft in HX. destruct (_ <? _)%Z; [discriminate|]. apply Ok_inj in HX. subst X. apply map_length. }
  assert (HPs : has_shape P (List.length ws) (List.length b)).
  { apply np_dot_T_rows in HP. subst P. split; [rewrite !map_length; auto|]. apply Forall_map, Forall_forall. intros. apply map_length. }
  pose proof (core_shape _ _ _ _ _ HPs Hws HV) as HVs.
  assert (HVl : List.length V = List.length ws) by apply HVs.
  assert (H' : finish (mkC (c_num_ceps c) (c_dct_type c) false (c_lifter c) (c_normalize c)) (s_nfft a) (map (fun w => w) V) (map (fun _ => []) V) = Ok M)
    by (rewrite map_id; exact H).
  apply (finish_rows _ _ _ V (fun w => w) (fun _ => []) M (List.length b)) in H'; [|lia|intros; eapply shape_In; eauto].
  destruct H' as (M0 & HM0 & _ & _ & Hr & Hn). cbn [c_num_ceps c_normalize] in *. rewrite (proj2 (Z.ltb_ge _ _)) in Hr by lia.
  assert (Hs : has_shape M0 (List.length ws) (Nat.min (Z.to_nat (c_num_ceps c)) (List.length b))).
  { rewrite HM0. split; [rewrite map_length; auto|]. apply Forall_map, Forall_forall. auto. }
  assert (HsM : has_shape M (List.length ws) (Nat.min (Z.to_nat (c_num_ceps c)) (List.length b))).
  { destruct (c_normalize c) as [t|]; [|congruence]. destruct (String.eqb t ""); [congruence|]. eapply normalize_shape; eauto. }
  destruct HsM as [H1 H2]. split; auto. rewrite <- Hlen. unfold zlen. lia.
Qed.
