(** * Hop selection and invalid samples: lemmas *)
From Coq Require Import Reals ZArith List String Bool Lia Lra Psatz.
From Verif Require Import Base BaseFacts Cplx SpecBase SpecMat SpecFilters SpecBanks SpecFeatures BigSum MatFacts
  Preprocessing PreprocessingFacts WindowFacts Filters MelBanks Cepstral CepstralFacts Fourier DctFacts
  Features Extractors FeaturesFacts FeaturesMore FeaturesLaws SpecInvariance InvarianceFacts.
Import ListNotations.
Local Open Scope R_scope.

(** ** the hop *)
Lemma with_hop_bank : forall `{Env} e a h, extractor_bank e (with_hop a h) = extractor_bank e a.
Proof. intros. destruct e; reflexivity. Qed.
Lemma with_hop_coeff : forall e a h, extractor_coeff e (with_hop a h) = extractor_coeff e a.
Proof. intros. destruct e; reflexivity. Qed.
Lemma with_hop_row : forall e a h c b w, ex_row e (with_hop a h) c b w = ex_row e a c b w.
Proof. intros. reflexivity. Qed.
Lemma framed_hop : forall `{Env} sig a h co fr ws fr2 ws2 i i2,
  framed sig (s_fs a) (s_pre_emph a) co (s_window a) = Ok (fr, ws) ->
  framed sig (s_fs a) (s_pre_emph a) co (s_window (with_hop a h)) = Ok (fr2, ws2) ->
  (i < List.length fr)%nat -> (i2 < List.length fr2)%nat ->
  (Z.of_nat i * hop_samples a = Z.of_nat i2 * hop_samples (with_hop a h))%Z ->
  nth i fr [] = nth i2 fr2 [] /\ nth i ws [] = nth i2 ws2 [].
Proof.
  intros E sig a h co fr ws fr2 ws2 i i2 F1 F2 L1 L2 Ht.
  assert (Hfr : nth i fr [] = nth i2 fr2 []).
  { destruct (framed_row sig a co fr ws i F1 L1) as [R1 V1].
    destruct (framed_row sig (with_hop a h) co fr2 ws2 i2 F2 L2) as [R2 V2].
    change (win_len (window_of (with_hop a h))) with (win_len (window_of a)) in R2, V2.
    change (s_fs (with_hop a h)) with (s_fs a) in R2, V2.
    apply (list_eq_nth _ NaN); [congruence|]. intros j Hj. rewrite R1 in Hj.
    destruct (V1 j Hj) as [_ X1]. destruct (V2 j Hj) as [_ X2]. cbv zeta in X1, X2. rewrite X1, X2.
    unfold hop_samples in Ht. change (s_fs (with_hop a h)) with (s_fs a) in Ht. rewrite Ht. reflexivity. }
  split; auto.
  apply framed_inv in F1 as (s1 & _ & _ & W1).
  apply (framed_inv sig (with_hop a h)) in F2 as (s2 & _ & _ & W2).
  unfold windowing in W1, W2.
  pose proof (mapM_nth _ _ _ _ _ [] [] i W1 L1) as N1. pose proof (mapM_nth _ _ _ _ _ [] [] i2 W2 L2) as N2.
  change (win_type (window_of (with_hop a h))) with (win_type (window_of a)) in N2.
  change (win_len (window_of (with_hop a h))) with (win_len (window_of a)) in N2.
  change (s_fs (with_hop a h)) with (s_fs a) in N2.
  rewrite Hfr, N2 in N1. congruence.
Qed.
Lemma run_hop : forall `{Env} e sig a h c M M2 i i2, run e sig a c = Ok M -> run e sig (with_hop a h) c = Ok M2 ->
  no_normalisation c -> (i < List.length M)%nat -> (i2 < List.length M2)%nat ->
  (Z.of_nat i * hop_samples a = Z.of_nat i2 * hop_samples (with_hop a h))%Z ->
  nth i M [] = nth i2 M2 [].
Proof.
  intros E e sig a h c M M2 i i2 H1 H2 Hn L1 L2 Ht.
  apply run_rows in H1 as (b & fr & ws & M0 & Hb & _ & _ & _ & F1 & _ & HM & _ & Hnm).
  apply run_rows in H2 as (b2 & fr2 & ws2 & M02 & Hb2 & _ & _ & _ & F2 & _ & HM2 & _ & Hnm2).
  rewrite with_hop_bank, Hb in Hb2. inversion Hb2; subst b2. rewrite with_hop_coeff in F2.
  assert (M = M0) as -> by (destruct Hn as [Hn|Hn]; rewrite Hn in Hnm; exact Hnm).
  assert (M2 = M02) as -> by (destruct Hn as [Hn|Hn]; rewrite Hn in Hnm2; exact Hnm2).
  subst M0 M02. rewrite map_length in L1, L2.
  pose proof F1 as F1'. apply framed_inv in F1' as (s1 & _ & _ & W1). apply windowing_length in W1.
  pose proof F2 as F2'. apply (framed_inv sig (with_hop a h)) in F2' as (s2 & _ & _ & W2). apply windowing_length in W2.
  rewrite !nth_map with (d := []) by auto. rewrite with_hop_row.
  destruct (framed_hop _ _ _ _ _ _ _ _ i i2 F1 F2 ltac:(lia) ltac:(lia) Ht) as [_ ->]. reflexivity.
Qed.
Lemma run_hop_count : forall `{Env} e sig a h c M M2 k, run e sig a c = Ok M -> run e sig (with_hop a h) c = Ok M2 ->
  no_normalisation c -> (0 <= c_num_ceps c)%Z -> (0 < k)%nat -> (0 < hop_samples a)%Z -> (hop_samples (with_hop a h) = Z.of_nat k * hop_samples a)%Z ->
  List.length M2 = ((List.length M - 1) / k + 1)%nat.
Proof.
  intros E e sig a h c M M2 k H1 H2 Hn Hc Hk Hp Hh.
  assert (H0 : (0 < List.length M)%nat).
  { pose proof H1 as H1'. apply run_rows in H1' as (b & fr & ws & M0 & _ & _ & _ & _ & _ & Hw & HM & _ & Hnm).
    assert (M = M0) as -> by (destruct Hn as [Hn|Hn]; rewrite Hn in Hnm; exact Hnm). subst M0. rewrite map_length. exact Hw. }
  apply run_shape in H1 as (b & _ & Z1 & _); auto. apply run_shape in H2 as (b2 & _ & Z2 & _); auto.
  change (s_fs (with_hop a h)) with (s_fs a) in Z2. change (win_len (window_of (with_hop a h))) with (win_len (window_of a)) in Z2.
  fold (hop_samples a) in Z1. change (flen (s_fs a) (win_hop (window_of (with_hop a h)))) with (hop_samples (with_hop a h)) in Z2.
  rewrite Hh in Z2. set (D := (zlen sig - flen (s_fs a) (win_len (window_of a)))%Z) in *.
  rewrite (Z.mul_comm (Z.of_nat k)), <- Z.div_div in Z2 by lia.
  unfold zlen in *. apply Nat2Z.inj. rewrite Z2. rewrite Nat2Z.inj_add, Nat2Z.inj_div. f_equal. f_equal.
  symmetry. lia.
Qed.

(** ** invalid samples *)
Lemma fadd_nan_l : forall x, fadd NaN x = NaN.
Proof. intros [| | |]; reflexivity. Qed.
Lemma fadd_nan_r : forall x, fadd x NaN = NaN.
Proof. intros [| | |]; reflexivity. Qed.
Lemma fmul_nan_l : forall x, fmul NaN x = NaN.
Proof. intros [| | |]; reflexivity. Qed.
Lemma fmul_nan_r : forall x, fmul x NaN = NaN.
Proof. intros [| | |]; reflexivity. Qed.
Lemma fdiv_nan_l : forall x, fdiv NaN x = NaN.
Proof. intros [| | |]; reflexivity. Qed.
Lemma fdiv_nan_r : forall x, fdiv x NaN = NaN.
Proof. intros [| | |]; reflexivity. Qed.
Lemma fsub_nan_l : forall x, fsub NaN x = NaN.
Proof. intros [| | |]; reflexivity. Qed.
Lemma fsub_nan_r : forall x, fsub x NaN = NaN.
Proof. intros [| | |]; reflexivity. Qed.
Lemma fsum_nan : forall l, In NaN l -> fsum l = NaN.
Proof.
  induction l as [|v l IH]; intros Hi; [destruct Hi|]. unfold fsum in *. cbn [fold_right]. destruct Hi as [->|Hi].
  - apply fadd_nan_l.
  - rewrite IH by auto. apply fadd_nan_r.
Qed.
Lemma fdot_nan_l : forall a b, all_nan a -> a <> [] -> b <> [] -> fdot a b = NaN.
Proof.
  intros [|x a] [|y b] Ha H1 H2; try congruence. inversion Ha; subst x. unfold fdot. cbn [map2].
  apply fsum_nan. left. apply fmul_nan_l.
Qed.
Lemma all_nan_map : forall A (f : A -> F) l, (forall x, In x l -> f x = NaN) -> all_nan (map f l).
Proof. intros. apply Forall_map, Forall_forall. auto. Qed.
Lemma dft_bin_nan : forall n x j k, (j < n)%nat -> nth j x NaN = NaN -> cabs (dft_bin n x k) = NaN.
Proof.
  intros n x j k Hj Hx. unfold dft_bin, cabs. cbn [fst snd].
  rewrite !fsum_nan; [reflexivity| |];
    apply in_map_iff; exists j; rewrite Hx, fmul_nan_l; (split; [auto|apply in_seq; lia]).
Qed.
Lemma crop_pad_nth : forall n x j, (j < n)%nat -> (j < List.length x)%nat -> nth j (crop_pad n x) NaN = nth j x NaN.
Proof.
  intros n x j H1 H2. unfold crop_pad. rewrite app_nth1 by (rewrite firstn_length; lia).
  rewrite <- (firstn_skipn n x) at 2. rewrite app_nth1 by (rewrite firstn_length; lia). reflexivity.
Qed.
Lemma mag_row_nan : forall e nfft w j, (1 <= nfft)%Z -> (Z.of_nat j < nfft)%Z -> (j < List.length w)%nat -> nth j w NaN = NaN ->
  all_nan (mag_row e nfft w) /\ mag_row e nfft w <> [].
Proof.
  intros e nfft w j Hn Hj Hw Hx.
  assert (Hc : forall k, cabs (dft_bin (Z.to_nat nfft) (crop_pad (Z.to_nat nfft) w) k) = NaN).
  { intros k. apply (dft_bin_nan _ _ j); [lia|]. rewrite crop_pad_nth by lia. exact Hx. }
  assert (A1 : all_nan (map (fun k => cabs (dft_bin (Z.to_nat nfft) (crop_pad (Z.to_nat nfft) w) k)) (seq 0 (S (Z.to_nat nfft / 2))))).
  { apply all_nan_map. auto. }
  assert (A2 : all_nan (py_take (Z.quot nfft 2 + 1) (map cabs (map (dft_bin (Z.to_nat nfft) (crop_pad (Z.to_nat nfft) w)) (seq 0 (Z.to_nat nfft)))))).
  { rewrite map_map. pose proof (all_nan_map _ (fun k => cabs (dft_bin (Z.to_nat nfft) (crop_pad (Z.to_nat nfft) w) k)) (seq 0 (Z.to_nat nfft)) ltac:(intros; apply Hc)) as A.
    unfold all_nan in *. rewrite Forall_forall in *. intros v Hv. apply A. unfold py_take in Hv.
    pose proof (Z.quot_pos nfft 2 ltac:(lia) ltac:(lia)). rewrite (proj2 (Z.ltb_ge _ _)) in Hv by lia. eapply in_firstn; eauto. }
  assert (B1 : map (fun k => cabs (dft_bin (Z.to_nat nfft) (crop_pad (Z.to_nat nfft) w) k)) (seq 0 (S (Z.to_nat nfft / 2))) <> []).
  { cbn [seq map]. discriminate. }
  assert (B2 : py_take (Z.quot nfft 2 + 1) (map cabs (map (dft_bin (Z.to_nat nfft) (crop_pad (Z.to_nat nfft) w)) (seq 0 (Z.to_nat nfft)))) <> []).
  { intros E0. apply (f_equal (@List.length F)) in E0. pose proof (Z.quot_pos nfft 2 ltac:(lia) ltac:(lia)).
    rewrite py_take_length in E0 by lia. rewrite !map_length, seq_length in E0. simpl in E0. lia. }
  unfold mag_row. destruct e; auto.
Qed.
Lemma fpow_nan : forall y, y <> 0 -> fpow NaN y = NaN.
Proof. intros. unfold fpow. destruct (Req_EM_T y 0); [congruence|reflexivity]. Qed.
Lemma comp_nan : forall e, e <> Msrcc 0 -> comp_of e NaN = NaN.
Proof.
  intros e He. destruct e as [| | | | | |g]; cbn [comp_of]; try reflexivity.
  - unfold ipl. cbn [fpown fmul fadd fdiv]. rewrite fpow_nan by lra. reflexivity.
  - apply fpow_nan. lra.
  - apply fpow_nan. congruence.
Qed.

Lemma feat_row_nan : forall e nfft b w j, e <> Msrcc 0 -> (1 <= nfft)%Z -> (Z.of_nat j < nfft)%Z -> (j < List.length w)%nat ->
  nth j w NaN = NaN -> Forall (fun r => r <> []) b -> all_nan (feat_row e nfft b w).
Proof.
  intros e nfft b w j He Hn Hj Hw Hx Hb. destruct (mag_row_nan e nfft w j Hn Hj Hw Hx) as [A B].
  unfold feat_row. rewrite map_map. apply all_nan_map. intros r Hr. rewrite Forall_forall in Hb.
  rewrite fdot_nan_l; [apply comp_nan; auto| |destruct (mag_row e nfft w); [congruence|discriminate]|auto].
  unfold pow_row. apply all_nan_map. intros v Hv. unfold all_nan in A. rewrite Forall_forall in A. rewrite (A v Hv).
  rewrite fmul_nan_l. apply fmul_nan_r.
Qed.
Lemma all_nan_take : forall n l, all_nan l -> all_nan (py_take n l).
Proof.
  intros n l H. unfold all_nan in *. rewrite Forall_forall in *. intros v Hv. apply H. unfold py_take in Hv.
  destruct (n <? 0)%Z; eapply in_firstn; eauto.
Qed.
Lemma all_nan_map2 : forall (f : F -> F -> F) l m, (forall v, f NaN v = NaN) -> all_nan l -> all_nan (map2 f l m).
Proof.
  intros f l. induction l as [|x l IH]; intros [|y m] Hf H; cbn [map2]; try constructor.
  - inversion H. subst. auto.
  - apply IH; auto. inversion H; auto.
Qed.
Lemma all_nan_map2_r : forall (f : F -> F -> F) l m, (forall v, f v NaN = NaN) -> all_nan m -> all_nan (map2 f l m).
Proof.
  intros f l. induction l as [|x l IH]; intros [|y m] Hf H; cbn [map2]; try constructor.
  - inversion H. subst. auto.
  - apply IH; auto. inversion H; auto.
Qed.
Lemma dct_row_nan : forall t row, all_nan row -> all_nan (dct_row t row).
Proof.
  intros t row H. unfold dct_row. apply all_nan_map. intros k Hk. apply in_seq in Hk.
  apply fdot_nan_l; auto; destruct row; simpl in *; try lia; discriminate.
Qed.
Lemma lift_row_nan : forall l row, all_nan row -> all_nan (lift_row l row).
Proof.
  intros l row H. unfold lift_row. destruct (_ || _)%bool; auto. destruct (Rltb 0 l).
  - apply all_nan_map. intros k Hk. apply in_seq in Hk. apply fdot_nan_l; auto; destruct row; simpl in *; try lia; discriminate.
  - apply all_nan_map2; auto using fmul_nan_l.
Qed.
Lemma ceps_row_nan : forall c nfft f m, all_nan f -> all_nan m -> m <> [] -> all_nan (ceps_row c nfft f m).
Proof.
  intros c nfft f m Hf Hm Hm0. unfold ceps_row.
  assert (H0 : all_nan (py_take (c_num_ceps c) (dct_row (c_dct_type c) f))) by (apply all_nan_take, dct_row_nan; auto).
  set (r0 := py_take _ _) in *.
  assert (H1 : all_nan (if c_use_energy c then energy_of nfft m :: tl r0 else r0)).
  { destruct (c_use_energy c); auto. constructor.
    - unfold energy_of. rewrite fsum_nan; [reflexivity|]. destruct m as [|v m]; [congruence|]. inversion Hm; subst v. left. reflexivity.
    - destruct r0; [constructor|]. inversion H0; auto. }
  destruct (c_lifter c) as [l|]; auto. destruct (Reqb l 0); auto. apply lift_row_nan; auto.
Qed.
Lemma framed_nan : forall `{Env} sig a co fr ws i t,
  framed sig (s_fs a) (s_pre_emph a) co (s_window a) = Ok (fr, ws) -> (i < List.length ws)%nat -> (1 <= s_nfft a)%Z ->
  sees a i t -> (t < List.length sig)%nat -> nth t sig (Fin 0) = NaN ->
  exists j, (Z.of_nat j < s_nfft a)%Z /\ (j < List.length (nth i ws []))%nat /\ nth j (nth i ws []) NaN = NaN.
Proof.
  intros E sig a co fr ws i t Hf Hi Hn Hs Ht Hx. unfold sees in Hs. cbv zeta in Hs.
  pose proof Hf as Hf'. apply framed_inv in Hf' as (s' & _ & Hfr & Hw).
  pose proof (windowing_length _ _ _ _ Hw) as Hl. rewrite Hl in Hi.
  destruct (framed_row sig a co fr ws i Hf Hi) as [Hr Hv].
  set (j := Z.to_nat (Z.of_nat t - Z.of_nat i * hop_samples a)).
  assert (Hj : (j < Z.to_nat (flen (s_fs a) (win_len (window_of a))))%nat) by (unfold j; lia).
  destruct (Hv j Hj) as [_ Hval]. cbv zeta in Hval. fold (hop_samples a) in Hval.
  replace (Z.of_nat i * hop_samples a + Z.of_nat j)%Z with (Z.of_nat t) in Hval by (unfold j; lia).
  assert (Hx' : nth t sig NaN = NaN) by (rewrite <- Hx at 2; apply nth_indep; auto).
  assert (Hnan : nth j (nth i fr []) NaN = NaN).
  { rewrite Hval. rewrite Nat2Z.id, Hx'. destruct (s_pre_emph a); auto.
    destruct (Z.eqb_spec (Z.of_nat t) 0) as [E0|E0]; [|apply fsub_nan_l]. replace t with 0%nat in Hx' by lia. exact Hx'. }
  exists j. unfold windowing in Hw. pose proof (mapM_nth _ _ _ _ _ [] [] i Hw Hi) as HN.
  cbv beta in HN. set (row := nth i fr []) in *.
  assert (H1 : (1 <= flen (s_fs a) (win_len (window_of a)))%Z) by lia.
  assert (H2 : zlen row = flen (s_fs a) (win_len (window_of a))) by (unfold zlen; lia).
  destruct (known_window (win_type (window_of a))) eqn:Ek.
  - rewrite windowing_row_eq in HN by auto. inversion HN as [HN']. unfold wrow. rewrite map_length, seq_length.
    split; [unfold j; lia|]. split; [lia|]. rewrite nth_map_seq by lia. rewrite Hnan. apply fmul_nan_r.
  - rewrite windowing_row_unknown in HN by auto. discriminate.
Qed.
Lemma mean_nan : forall l, In NaN l -> fmean l = NaN.
Proof. intros. unfold fmean. rewrite fsum_nan by auto. apply fdiv_nan_l. Qed.
Lemma std_nan : forall l, In NaN l -> fstd l = NaN.
Proof.
  intros l H. unfold fstd. rewrite (mean_nan (map _ l)); [reflexivity|]. apply in_map_iff. exists NaN. rewrite fsub_nan_l. auto.
Qed.
Lemma normalize_nan : forall m r c t m' i, has_shape m r c -> (i < r)%nat -> all_nan (nth i m []) ->
  normalize_ceps m t = Ok m' -> Forall all_nan m'.
Proof.
  intros m r c t m' i Hs Hi Hn H. unfold normalize_ceps in H.
  apply rbind_Ok in H as (mx & Hmx & H). apply rbind_Ok in H as (mn & Hmn & H).
  assert (Hin : In (nth i m []) m) by (apply nth_In; destruct Hs; lia).
  destruct Hs as [Hs1 Hs2]. rewrite Forall_forall in Hs2.
  assert (Hc : c = 0%nat \/ In NaN (List.concat m)).
  { destruct c; [auto|right]. apply in_concat. exists (nth i m []). split; auto.
    pose proof (Hs2 _ Hin) as Hlen. destruct (nth i m []) as [|v row]; [discriminate|]. inversion Hn; subst v. left. auto. }
  destruct Hc as [->|Hc].
  { destruct m as [|row m0]; [simpl in Hs1; lia|].
    assert (List.concat (row :: m0) = []).
    { assert (G : forall l : list (list F), (forall x, In x l -> List.length x = 0%nat) -> List.concat l = []).
      { induction l as [|x l IH]; intros G; auto. simpl. rewrite IH by (intros; apply G; right; auto).
        rewrite app_nil_r. apply length_zero_iff_nil. apply G. left; auto. }
      apply G. auto. }
    rewrite H0 in Hmx. discriminate. }
  assert (Hcm : all_nan (col_means m)).
  { unfold col_means. apply all_nan_map.
    intros j _. apply mean_nan. unfold column. apply in_map_iff. exists (nth i m []). split; auto.
    unfold all_nan in Hn. rewrite Forall_forall in Hn. destruct (Nat.lt_ge_cases j (List.length (nth i m []))).
    - apply Hn. apply nth_In; auto.
    - apply nth_overflow; auto. }
  destruct (String.eqb t "mvn").
  { inversion H. apply Forall_map, Forall_forall. intros row _. apply all_nan_map2_r; auto.
    intros v. rewrite fsub_nan_r. apply fdiv_nan_l. }
  destruct (String.eqb t "ms").
  { inversion H. apply Forall_map, Forall_forall. intros row _. apply all_nan_map2_r; auto. apply fsub_nan_r. }
  destruct (String.eqb t "vn").
  { inversion H. apply Forall_map, Forall_forall. intros row _. apply all_nan_map. intros v _. rewrite std_nan by auto. apply fdiv_nan_r. }
  destruct (String.eqb t "mn").
  { inversion H. apply Forall_map, Forall_forall. intros row _. apply all_nan_map. intros v _. rewrite mean_nan by auto.
    rewrite fsub_nan_r. apply fdiv_nan_l. }
  discriminate.
Qed.

Lemma run_nan_row : forall `{Env} e sig a c b M i t, run e sig a c = Ok M -> extractor_bank e a = Ok b ->
  Forall (fun r => r <> []) b -> e <> Msrcc 0 -> sees a i t -> (i < List.length M)%nat ->
  (t < List.length sig)%nat -> nth t sig (Fin 0) = NaN ->
  all_nan (nth i M []) /\ (~ no_normalisation c -> Forall all_nan M).
Proof.
  intros E e sig a c b M i t H Hb Hr He Hs Hi Ht Hx.
  apply run_rows in H as (b' & fr & ws & M0 & Hb' & Hn & _ & _ & F1 & Hw0 & HM & Hlen & Hnm).
  rewrite Hb in Hb'. inversion Hb'; subst b'.
  assert (Hsh : has_shape M0 (List.length ws) (if (c_num_ceps c <? 0)%Z then Nat.min (Z.to_nat (zlen b + c_num_ceps c)) (List.length b)
         else Nat.min (Z.to_nat (c_num_ceps c)) (List.length b))).
  { subst M0. split; [apply map_length|]. apply Forall_map, Forall_forall. auto. }
  assert (Hlw : List.length M = List.length ws).
  { destruct (c_normalize c) as [s|]; [destruct (String.eqb s "")|].
    - subst. apply map_length.
    - eapply normalize_shape in Hnm; eauto. destruct Hnm; auto.
    - subst. apply map_length. }
  rewrite Hlw in Hi.
  destruct (framed_nan sig a _ fr ws i t F1 Hi Hn Hs Ht Hx) as (j & J1 & J2 & J3).
  assert (H0 : all_nan (nth i M0 [])).
  { subst M0. rewrite nth_map with (d := []) by auto. unfold ex_row.
    destruct (mag_row_nan e (s_nfft a) (nth i ws []) j Hn J1 J2 J3).
    apply ceps_row_nan; auto. eapply feat_row_nan; eauto. }
  destruct (c_normalize c) as [s|] eqn:Ec.
  - destruct (String.eqb_spec s "") as [->|Es].
    + subst M. split; auto. intros N. exfalso. apply N. unfold no_normalisation. auto.
    + pose proof (normalize_nan _ _ _ _ _ i Hsh Hi H0 Hnm) as A. split; auto.
      rewrite Forall_forall in A. apply A. apply nth_In. lia.
  - subst M. split; auto. intros N. exfalso. apply N. left. auto.
Qed.

(** ** no sample value makes an extractor raise *)
Lemma framed_total : forall `{Env} sig a co N L hop, well_framed a N L hop -> List.length sig = N ->
  exists fr ws, framed sig (s_fs a) (s_pre_emph a) co (s_window a) = Ok (fr, ws).
Proof.
  intros E sig a co N L hop (H1 & H2 & H3 & H4 & H5 & H6) HN. unfold framed.
  assert (Hp : exists s, (if s_pre_emph a then pre_emphasis sig co else Ok sig) = Ok s /\ List.length s = N).
  { destruct (s_pre_emph a); [|eauto]. destruct sig as [|v sig]; [simpl in HN; lia|]. eexists. split; [reflexivity|].
    unfold fir. rewrite map_length, seq_length. auto. }
  destruct Hp as (s & -> & Hs). cbn [rbind]. fold (window_of a).
  pose proof (framing_outcomes s (s_fs a) (win_len (window_of a)) (win_hop (window_of a))) as Ho. cbv zeta in Ho.
  destruct (Ho H1 ltac:(lia) ltac:(lia)) as (_ & _ & O'). destruct O' as (fr & Hfr & _); [unfold zlen; lia|].
  rewrite Hfr. cbn [rbind].
  pose proof (framing_content _ _ _ _ _ _ Hfr) as (_ & _ & Hr & _).
  rewrite windowing_eq; [do 2 eexists; reflexivity|lia|auto|apply known_window_iff; auto].
Qed.
Lemma mag_of_total : forall e ws nfft, (1 <= nfft)%Z -> mag_of e ws nfft = Ok (map (mag_row e nfft) ws).
Proof.
  intros e ws nfft Hn.
  assert (exists m, mag_of e ws nfft = Ok m) as [m Hm].
  { destruct e; cbn [mag_of]; unfold fft_magnitude, rfft_magnitude, np_fft, np_rfft; rewrite (proj2 (Z.ltb_ge _ _)) by lia; cbn [rbind]; eauto. }
  rewrite Hm. apply mag_of_rows in Hm as [_ ->]. reflexivity.
Qed.
Lemma mag_row_length : forall e nfft w, (1 <= nfft)%Z -> List.length (mag_row e nfft w) = S (half nfft).
Proof.
  intros e nfft w Hn. unfold half. 
  assert (Q : (Z.quot nfft 2 = nfft / 2)%Z) by (apply Z.quot_div_nonneg; lia).
  assert (D : (0 <= nfft / 2)%Z) by (apply Z.div_pos; lia).
  assert (D2 : (2 * (nfft / 2) <= nfft)%Z) by (apply Z.mul_div_le; lia).
  assert (HD : (Z.to_nat nfft / 2)%nat = Z.to_nat (nfft / 2)) by (rewrite Z2Nat.inj_div by lia; reflexivity).
  unfold mag_row. destruct e; rewrite ?py_take_length by lia; rewrite ?map_length, ?seq_length; lia.
Qed.
Lemma lifter_total : forall m r c l, has_shape m r c -> (0 < r)%nat -> (0 < c)%nat -> exists m', lifter_ceps m l = Ok m'.
Proof.
  intros m r c l Hs Hr Hc. unfold lifter_ceps. rewrite (shape_ncols _ _ _ _ Hs Hr).
  destruct (_ || _)%bool; [eauto|]. destruct (Rltb 0 l); [|eauto].
  cbn [List.length]. rewrite map_length, seq_length. replace (S (c - 1)) with c by lia. rewrite Nat.eqb_refl. eauto.
Qed.
Lemma normalize_total : forall m r c t, has_shape m r c -> (0 < r)%nat -> (0 < c)%nat -> In t ["mvn"; "ms"; "vn"; "mn"]%string ->
  exists m', normalize_ceps m t = Ok m'.
Proof.
  intros m r c t [H1 H2] Hr Hc Ht. unfold normalize_ceps.
  assert (Hne : exists v l, List.concat m = v :: l).
  { destruct m as [|row m]; [simpl in H1; lia|]. inversion H2; subst. destruct row as [|v row]; [simpl in Hc; lia|]. simpl. eauto. }
  destruct Hne as (v & l & ->). cbn [fmaxl fminl rbind].
  destruct Ht as [<-|[<-|[<-|[<-|[]]]]]; cbn; eauto.
Qed.
Lemma col0_shape : forall m r c v, has_shape m r c -> (0 < c)%nat -> List.length v = r ->
  has_shape (map2 (fun row (x : F) => x :: tl row) m v) r c.
Proof.
  intros m r c v [H1 H2] Hc. subst r. revert v. induction m as [|row m IH]; intros [|x v] Hv; try discriminate; [split; auto|].
  inversion H2; subst. destruct (IH H3 v ltac:(simpl in Hv; lia)) as [I1 I2]. cbn [map2]. split; [simpl; auto|].
  constructor; auto. destruct row; simpl in *; lia.
Qed.
Lemma run_total : forall `{Env} e sig a c N L hop b n, well_framed a N L hop -> List.length sig = N -> (1 <= s_nfft a)%Z ->
  extractor_bank e a = Ok b -> has_shape b n (S (half (s_nfft a))) -> (0 < n)%nat ->
  (1 <= c_num_ceps c <= s_nfilts a)%Z -> (1 <= c_dct_type c <= 4)%Z -> (c_dct_type c = 1%Z -> (2 <= n)%nat) ->
  (forall t, c_normalize c = Some t -> In t [""; "mvn"; "ms"; "vn"; "mn"]%string) ->
  exists M, run e sig a c = Ok M.
Proof.
  intros E e sig a c N L hop b n Hw HN Hn Hb Hsb Hn0 Hc Ht Ht1 Hnm.
  rewrite run_cep. unfold cep. rewrite (proj2 (Z.ltb_ge _ _)) by lia.
  destruct (framed_total sig a (extractor_coeff e a) N L hop Hw HN) as (fr & ws & Hf).
  unfold spec_gram. rewrite Hb. cbn [rbind]. rewrite Hf. cbn [rbind]. rewrite mag_of_total by auto. cbn [rbind].
  pose proof (framed_inv _ _ _ _ _ Hf) as (s' & _ & Hfr & Hwin).
  apply framing_nonempty in Hfr. apply windowing_length in Hwin.
  assert (Hl : (0 < List.length ws)%nat) by (rewrite Hwin; destruct fr; simpl; [congruence|lia]).
  set (r := List.length ws) in *.
  assert (Hmag : has_shape (map (mag_row e (s_nfft a)) ws) r (S (half (s_nfft a)))).
  { split; [apply map_length|]. apply Forall_map, Forall_forall. intros. apply mag_row_length; auto. }
  assert (Hdot : exists f, np_dot_T (power_frames (s_nfft a) (map (mag_row e (s_nfft a)) ws)) b = Ok f /\ has_shape f r n).
  { unfold np_dot_T, power_frames. destruct b as [|b0 b1] eqn:Eb; [destruct Hsb; simpl in *; lia|]. rewrite <- Eb in *.
    match goal with |- context [Nat.eqb (ncols ?X) _] => assert (HX : has_shape X r (S (half (s_nfft a)))) end.
    { eapply shape_map; eauto. intros. rewrite map_length. auto. }
    rewrite (shape_ncols _ _ _ _ HX Hl), (shape_ncols _ _ _ _ Hsb Hn0), Nat.eqb_refl. eexists. split; [reflexivity|].
    eapply shape_map; eauto. intros. rewrite map_length. apply Hsb. }
  destruct Hdot as (f & -> & Hsf). cbn [rbind].
  unfold finish, sp_dct.
  assert (((c_dct_type c <? 1) || (4 <? c_dct_type c))%Z = false) as -> by (apply orb_false_iff; split; apply Z.ltb_ge; lia).
  assert (Hsg : has_shape (map (map (comp_of e)) f) r n) by (eapply shape_map; eauto; intros; rewrite map_length; auto).
  rewrite (shape_ncols _ _ _ _ Hsg Hl).
  assert (Nat.ltb n (if (c_dct_type c =? 1)%Z then 2 else 1) = false) as ->.
  { apply Nat.ltb_ge. destruct (Z.eqb_spec (c_dct_type c) 1); [apply Ht1; auto|lia]. }
  cbn [rbind]. set (d := map (dct_row _) _).
  assert (Hd : has_shape d r n) by (eapply shape_map; eauto; intros; rewrite dct_row_length; auto).
  set (K := Nat.min (Z.to_nat (c_num_ceps c)) n).
  assert (Hd2 : has_shape (map (py_take (c_num_ceps c)) d) r K).
  { eapply shape_map; eauto. intros. rewrite py_take_length by lia. unfold K. lia. }
  assert (HK : (0 < K)%nat) by (unfold K; lia).
  set (d2 := map (py_take _) d) in *.
  assert (H1 : exists d3, (if c_use_energy c then set_col0 d2 (log_energy (s_nfft a) (map (mag_row e (s_nfft a)) ws)) else Ok d2) = Ok d3
     /\ has_shape d3 r K).
  { destruct (c_use_energy c); [|eauto]. unfold set_col0. rewrite (shape_ncols _ _ _ _ Hd2 Hl).
    destruct (Nat.eqb_spec K 0); [lia|]. eexists. split; [reflexivity|].
    apply col0_shape; auto. unfold log_energy, zero_handling. rewrite !map_length. reflexivity. }
  destruct H1 as (d3 & -> & Hd3). cbn [rbind].
  assert (H2 : exists d4, match c_lifter c with Some l => if Reqb l 0 then Ok d3 else lifter_ceps d3 l | None => Ok d3 end = Ok d4 /\ has_shape d4 r K).
  { destruct (c_lifter c) as [l|]; [|eauto]. destruct (Reqb l 0); [eauto|].
    destruct (lifter_total d3 r K l Hd3 Hl HK) as [m' Hm']. exists m'. split; auto.
    rewrite (lifter_rows _ _ _ _ _ Hd3 Hl Hm'). eapply shape_map; eauto. intros. rewrite lift_row_length; auto. }
  destruct H2 as (d4 & -> & Hd4). cbn [rbind].
  destruct (c_normalize c) as [t|]; [|eauto]. specialize (Hnm t eq_refl). destruct (String.eqb_spec t "") as [->|Hte]; [eauto|].
  eapply normalize_total; eauto. destruct Hnm; [congruence|auto].
Qed.
