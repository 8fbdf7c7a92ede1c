(** * Order of rows, time reversal, hop selection: lemmas *)
From Coq Require Import Reals ZArith List String Bool Lia Lra Psatz Permutation.
From Verif Require Import Base BaseFacts Cplx SpecBase SpecMat SpecFilters SpecBanks SpecFeatures BigSum MatFacts
  Preprocessing PreprocessingFacts WindowFacts Filters MelBanks Cepstral CepstralFacts Fourier DctFacts
  Features Extractors FeaturesFacts FeaturesMore FeaturesLaws LinAlg Lpc SpecLpc LpcMore.
Import ListNotations.
Local Open Scope R_scope.

(** ** sums and extrema do not depend on the order *)
Lemma fadd_comm : forall x y, fadd x y = fadd y x.
Proof. intros [a| | |] [b| | |]; simpl; auto. f_equal. ring. Qed.
Lemma fadd_assoc : forall x y z, fadd x (fadd y z) = fadd (fadd x y) z.
Proof. intros [a| | |] [b| | |] [c| | |]; simpl; auto. f_equal. ring. Qed.
Lemma fsum_perm : forall l m, Permutation l m -> fsum l = fsum m.
Proof.
  induction 1; simpl; auto.
  - unfold fsum in *. simpl. rewrite IHPermutation. auto.
  - unfold fsum in *. simpl. rewrite !fadd_assoc, (fadd_comm y x). auto.
  - congruence.
Qed.
Lemma fmean_perm : forall l m, Permutation l m -> fmean l = fmean m.
Proof. intros. unfold fmean. rewrite (fsum_perm l m), (Permutation_length H); auto. Qed.
Lemma fstd_perm : forall l m, Permutation l m -> fstd l = fstd m.
Proof.
  intros. unfold fstd. rewrite (fmean_perm l m H). f_equal. apply fmean_perm. apply Permutation_map. auto.
Qed.
Ltac cases_F :=
  repeat (unfold Rleb in *; match goal with
          | |- context [Rle_dec ?a ?b] => destruct (Rle_dec a b)
          end; simpl; auto).
Lemma fmax2_comm : forall x y, fmax2 x y = fmax2 y x.
Proof. intros [a| | |] [b| | |]; simpl; auto. unfold Rleb. destruct (Rle_dec a b), (Rle_dec b a); f_equal; lra. Qed.
Lemma fmin2_comm : forall x y, fmin2 x y = fmin2 y x.
Proof. intros [a| | |] [b| | |]; simpl; auto. unfold Rleb. destruct (Rle_dec a b), (Rle_dec b a); f_equal; lra. Qed.
Lemma fmax2_assoc : forall x y z, fmax2 (fmax2 x y) z = fmax2 x (fmax2 y z).
Proof.
  intros [a| | |] [b| | |] [c| | |]; simpl; auto; cases_F; try (f_equal; lra); try lra.
Qed.
Lemma fmin2_assoc : forall x y z, fmin2 (fmin2 x y) z = fmin2 x (fmin2 y z).
Proof.
  intros [a| | |] [b| | |] [c| | |]; simpl; auto; cases_F; try (f_equal; lra); try lra.
Qed.
Lemma fold_swap : forall (op : F -> F -> F), (forall x y, op x y = op y x) ->
  (forall x y z, op (op x y) z = op x (op y z)) -> forall l a b, fold_left op l (op a b) = op a (fold_left op l b).
Proof. intros op Hc Ha. induction l; simpl; intros; auto. rewrite Ha, IHl. auto. Qed.
Lemma fold_perm : forall (op : F -> F -> F), (forall x y, op x y = op y x) ->
  (forall x y z, op (op x y) z = op x (op y z)) -> forall l m, Permutation l m ->
  forall a, fold_left op l a = fold_left op m a.
Proof.
  intros op Hc Ha l m H. induction H; simpl; intros; auto.
  - rewrite !Ha, (Hc y x). auto.
  - congruence.
Qed.
Lemma fold_head : forall (op : F -> F -> F), (forall x y, op x y = op y x) ->
  (forall x y z, op (op x y) z = op x (op y z)) -> forall x l y m, Permutation (x :: l) (y :: m) ->
  fold_left op l x = fold_left op m y.
Proof.
  intros op Hc Ha x l y m H.
  destruct (in_inv (Permutation_in x H (in_eq x l))) as [<-|Hin].
  - apply Permutation_cons_inv in H. apply fold_perm; auto.
  - apply in_split in Hin as (m1 & m2 & ->).
    assert (H' : Permutation l (y :: m1 ++ m2)).
    { apply (Permutation_cons_inv (a := x)). rewrite H.
      apply (Permutation_trans (l' := y :: x :: m1 ++ m2)); [|apply perm_swap].
      apply perm_skip. symmetry. apply Permutation_middle. }
    rewrite (fold_perm op Hc Ha _ _ H'). simpl.
    rewrite (fold_perm op Hc Ha (m1 ++ x :: m2) (x :: m1 ++ m2)) by (symmetry; apply Permutation_middle).
    simpl. rewrite (Hc y x). auto.
Qed.
Lemma fmaxl_perm : forall l m, Permutation l m -> fmaxl l = fmaxl m.
Proof.
  intros [|x l] [|y m] H; auto.
  - apply Permutation_length in H. discriminate.
  - apply Permutation_length in H. discriminate.
  - simpl. f_equal. apply (fold_head fmax2 fmax2_comm fmax2_assoc); auto.
Qed.
Lemma fminl_perm : forall l m, Permutation l m -> fminl l = fminl m.
Proof.
  intros [|x l] [|y m] H; auto.
  - apply Permutation_length in H. discriminate.
  - apply Permutation_length in H. discriminate.
  - simpl. f_equal. apply (fold_head fmin2 fmin2_comm fmin2_assoc); auto.
Qed.
Lemma concat_perm : forall A (l m : list (list A)), Permutation l m -> Permutation (List.concat l) (List.concat m).
Proof.
  induction 1; simpl; auto.
  - apply Permutation_app_head. auto.
  - rewrite !app_assoc. apply Permutation_app_tail. apply Permutation_app_comm.
  - etransitivity; eauto.
Qed.

(** ** normalisation treats the rows as a bag *)
Lemma normalize_perm : forall m m2 r c t, has_shape m r c -> Permutation m m2 ->
  (exists e, normalize_ceps m t = Raise e /\ normalize_ceps m2 t = Raise e) \/
  (exists g, normalize_ceps m t = Ok (map g m) /\ normalize_ceps m2 t = Ok (map g m2)).
Proof.
  intros m m2 r c t Hs Hp.
  assert (Hnc : ncols m = ncols m2).
  { destruct Hs as [_ Hf]. pose proof (Permutation_length Hp) as Hl. destruct m as [|a m], m2 as [|b m2]; auto; try discriminate.
    rewrite Forall_forall in Hf. cbn [ncols]. rewrite (Hf a) by (left; auto). symmetry. apply Hf.
    apply (Permutation_in b (Permutation_sym Hp)). left. auto. }
  pose proof (concat_perm _ _ _ Hp) as Hc.
  assert (Hm : col_means m = col_means m2).
  { unfold col_means. rewrite Hnc. apply map_ext. intros j. apply fmean_perm. unfold column. apply Permutation_map. auto. }
  unfold normalize_ceps. rewrite <- (fmaxl_perm _ _ Hc), <- (fminl_perm _ _ Hc), <- (fstd_perm _ _ Hc), <- (fmean_perm _ _ Hc), <- Hm.
  destruct (fmaxl (List.concat m)) as [mx|e]; [|left; exists e; auto].
  destruct (fminl (List.concat m)) as [mn|e]; [|left; exists e; auto]. cbn [rbind].
  destruct (String.eqb t "mvn"); [right; eexists; split; reflexivity|].
  destruct (String.eqb t "ms"); [right; eexists; split; reflexivity|].
  destruct (String.eqb t "vn"); [right; eexists; split; reflexivity|].
  destruct (String.eqb t "mn"); [right; eexists; split; reflexivity|]. left. eexists; split; reflexivity.
Qed.

(** ** the spectrum of a reversed frame *)
Lemma spec_sq_reverse : forall n L f g k, (0 < n)%nat -> (L <= n)%nat ->
  (forall t, (t < L)%nat -> g t = f (L - 1 - t)%nat) -> spec_sq n L g k = spec_sq n L f k.
Proof.
  intros n L f g k Hn HL Hg. assert (HN : INR n <> 0) by (apply not_0_INR; lia).
  set (A := 2 * PI * (INR (L - 1) * INR k) / INR n).
  assert (Ang : forall t, (t < L)%nat -> 2 * PI * INR ((L - 1 - t) * k) / INR n = A - 2 * PI * INR (t * k) / INR n).
  { intros t Ht. unfold A. rewrite !mult_INR, minus_INR by lia. field. auto. }
  assert (Re : spec_re n L g k = cos A * spec_re n L f k - sin A * spec_im n L f k).
  { unfold spec_re, spec_im. rewrite Nat.min_l by auto. rewrite bigsum_rev, <- !bigsum_scal, <- bigsum_minus.
    apply bigsum_ext. intros t Ht. rewrite Hg by lia. replace (L - 1 - (L - 1 - t))%nat with t by lia.
    rewrite Ang by auto. rewrite cos_minus. ring. }
  assert (Im : spec_im n L g k = - sin A * spec_re n L f k - cos A * spec_im n L f k).
  { unfold spec_re, spec_im. rewrite Nat.min_l by auto. rewrite bigsum_rev, <- !bigsum_scal, <- bigsum_minus.
    apply bigsum_ext. intros t Ht. rewrite Hg by lia. replace (L - 1 - (L - 1 - t))%nat with t by lia.
    rewrite Ang by auto. rewrite sin_minus. ring. }
  unfold spec_sq. rewrite Re, Im. pose proof (sin2_cos2 A) as H. unfold Rsqr in H.
  set (u := spec_re n L f k). set (v := spec_im n L f k).
  replace ((cos A * u - sin A * v) ^ 2 + (- sin A * u - cos A * v) ^ 2)
    with ((sin A * sin A + cos A * cos A) * (u ^ 2 + v ^ 2)) by ring.
  rewrite H. ring.
Qed.
Lemma spec_mag_reverse : forall n L f g k, (0 < n)%nat -> (L <= n)%nat ->
  (forall t, (t < L)%nat -> g t = f (L - 1 - t)%nat) -> spec_mag n L g k = spec_mag n L f k.
Proof. intros. unfold spec_mag. rewrite (spec_sq_reverse n L f g); auto. Qed.
Lemma spec_band_reverse : forall h n L f g b, (0 < n)%nat -> (L <= n)%nat ->
  (forall t, (t < L)%nat -> g t = f (L - 1 - t)%nat) -> spec_band h n L g b = spec_band h n L f b.
Proof.
  intros. unfold spec_band. apply bigsum_ext. intros k _. unfold spec_power. rewrite (spec_sq_reverse n L f g); auto.
Qed.
(** frame i of the reversed signal is frame m - i, reversed *)
Lemma frame_reverse : forall a co L hop x N m i t, s_pre_emph a = false -> N = (L + m * hop)%nat -> (1 <= L)%nat ->
  In (win_type (window_of a)) window_names -> (i <= m)%nat -> (t < L)%nat ->
  frame_of a co L hop (fun u => x (N - 1 - u)%nat) i t = frame_of a co L hop x (m - i) (L - 1 - t).
Proof.
  intros a co L hop x N m i t Hp HN HL Hw Hi Ht. unfold frame_of, spec_frame, spec_pre. rewrite Hp.
  f_equal; [|f_equal; subst N; nia].
  - symmetry. apply spec_window_sym; auto.
Qed.

(** ** reversing the rows commutes with every later step *)
Lemma fmat_rev : forall r c m, rev (fmat r c m) = fmat r c (fun i => m (r - 1 - i)%nat).
Proof.
  intros. apply (list_eq_nth _ []); [rewrite rev_length, !fmat_length; auto|].
  intros i Hi. rewrite rev_length, fmat_length in Hi. rewrite rev_nth by (rewrite fmat_length; auto).
  rewrite fmat_length. rewrite !fmat_nth by lia. f_equal. f_equal. lia.
Qed.
Lemma rev_shape : forall A (m : list (list A)) r c, has_shape m r c -> has_shape (rev m) r c.
Proof.
  intros A m r c [H1 H2]. split; [rewrite rev_length; auto|]. apply Forall_forall. intros row Hr.
  rewrite Forall_forall in H2. apply H2. apply in_rev. auto.
Qed.
Lemma ncols_rev : forall A (m : list (list A)) r c, has_shape m r c -> ncols (rev m) = ncols m.
Proof.
  intros A m r c H. destruct m as [|a m]; auto.
  assert (Hr : (0 < r)%nat) by (destruct H as [H _]; simpl in H; lia).
  rewrite (shape_ncols _ _ _ _ (rev_shape _ _ _ _ H) Hr), (shape_ncols _ _ _ _ H Hr). auto.
Qed.
Lemma map2_app : forall A B C (f : A -> B -> C) l l2 m m2, List.length l = List.length m ->
  map2 f (l ++ l2) (m ++ m2) = map2 f l m ++ map2 f l2 m2.
Proof. induction l; destruct m; simpl; intros; auto; try discriminate. rewrite IHl; auto. Qed.
Lemma map2_rev : forall A B C (f : A -> B -> C) l m, List.length l = List.length m ->
  map2 f (rev l) (rev m) = rev (map2 f l m).
Proof.
  induction l; destruct m; simpl; intros; auto; try discriminate.
  rewrite map2_app by (rewrite !rev_length; auto). rewrite IHl by auto. auto.
Qed.
Lemma log_energy_rev : forall nfft m, log_energy nfft (rev m) = rev (log_energy nfft m).
Proof. intros. unfold log_energy, zero_handling. rewrite !map_rev. auto. Qed.
Lemma lifter_rev : forall m r c l, has_shape m r c -> lifter_ceps (rev m) l = rmap (@rev _) (lifter_ceps m l).
Proof.
  intros m r c l H. unfold lifter_ceps. rewrite (ncols_rev _ _ _ _ H).
  destruct (Reqb l 0 || Rltb 10 l)%bool; auto. destruct (Rltb 0 l).
  - destruct (Nat.eqb _ _); auto. cbn [rmap]. rewrite map_rev. auto.
  - cbn [rmap]. rewrite map_rev. auto.
Qed.
Lemma normalize_rev : forall m r c t, has_shape m r c -> normalize_ceps (rev m) t = rmap (@rev _) (normalize_ceps m t).
Proof.
  intros m r c t H. destruct (normalize_perm m (rev m) r c t H (Permutation_rev m)) as [(e & E1 & E2)|(g & E1 & E2)];
    rewrite E1, E2; cbn [rmap]; rewrite ?map_rev; auto.
Qed.
Lemma finish_rev : forall c nfft f m r n h, has_shape f r n -> has_shape m r h ->
  finish c nfft (rev f) (rev m) = rmap (@rev _) (finish c nfft f m).
Proof.
  intros c nfft f m r n h Hf Hm. unfold finish.
  assert (D : sp_dct (rev f) (c_dct_type c) = rmap (@rev _) (sp_dct f (c_dct_type c))).
  { unfold sp_dct. rewrite (ncols_rev _ _ _ _ Hf). destruct (_ || _)%bool; auto. destruct (Nat.ltb _ _); auto.
    cbn [rmap]. rewrite map_rev. auto. }
  rewrite D. destruct (sp_dct f (c_dct_type c)) as [d|ex] eqn:Ed; [|reflexivity]. cbn [rmap rbind].
  assert (Hd : has_shape d r n).
  { unfold sp_dct in Ed. destruct (_ || _)%bool; [discriminate|]. destruct (Nat.ltb _ _); [discriminate|].
    inversion Ed. eapply shape_map; eauto. intros. rewrite dct_row_length. auto. }
  rewrite map_rev.
  assert (Hc : exists k, has_shape (map (py_take (c_num_ceps c)) d) r k).
  { eexists. eapply shape_map; eauto. intros row Hr. rewrite py_take_length_any. unfold zlen. rewrite Hr. reflexivity. }
  destruct Hc as [k Hc]. set (d2 := map (py_take (c_num_ceps c)) d) in *.
  assert (Q : (if c_use_energy c then set_col0 (rev d2) (log_energy nfft (rev m)) else Ok (rev d2))
    = rmap (@rev _) (if c_use_energy c then set_col0 d2 (log_energy nfft m) else Ok d2)).
  { destruct (c_use_energy c); auto. unfold set_col0. rewrite (ncols_rev _ _ _ _ Hc). destruct (Nat.eqb _ _); auto.
    cbn [rmap]. rewrite log_energy_rev, map2_rev; auto. unfold log_energy, zero_handling. rewrite !map_length.
    destruct Hc as [-> _], Hm as [-> _]. auto. }
  rewrite Q. destruct (if c_use_energy c then set_col0 d2 (log_energy nfft m) else Ok d2) as [d3|ex] eqn:E3; [|reflexivity].
  assert (H3 : has_shape d3 r k).
  { destruct (c_use_energy c); [|inversion E3; subst; auto]. unfold set_col0 in E3.
    destruct (Nat.eqb_spec (ncols d2) 0) as [|Hk]; [discriminate|]. inversion E3. destruct Hc as [L1 L2]. destruct Hm as [L3 _].
    assert (Hr : (0 < r)%nat) by (destruct d2; simpl in *; lia).
    assert (Hk2 : ncols d2 = k) by (apply (shape_ncols _ d2 r k); [split|]; auto).
    split.
    - rewrite map2_length. unfold log_energy, zero_handling. rewrite !map_length. lia.
    - apply Forall_forall. intros row Hrow. apply map2_In in Hrow as (u & v & Hu & _ & ->).
      rewrite Forall_forall in L2. specialize (L2 u Hu). destruct u; simpl in *; lia. }
  cbn [rmap rbind].
  assert (W : match c_lifter c with Some l => if Reqb l 0 then Ok (rev d3) else lifter_ceps (rev d3) l | None => Ok (rev d3) end
    = rmap (@rev _) (match c_lifter c with Some l => if Reqb l 0 then Ok d3 else lifter_ceps d3 l | None => Ok d3 end)).
  { destruct (c_lifter c) as [l|]; auto. destruct (Reqb l 0); auto. eapply lifter_rev; eauto. }
  rewrite W. destruct (match c_lifter c with Some l => if Reqb l 0 then Ok d3 else lifter_ceps d3 l | None => Ok d3 end) as [d4|ex] eqn:E4;
    [|reflexivity]. cbn [rmap rbind].
  assert (H4 : has_shape d4 r k).
  { destruct (c_lifter c) as [l|]; [|inversion E4; subst; auto]. destruct (Reqb l 0); [inversion E4; subst; auto|].
    destruct r as [|r].
    - destruct H3 as [L1 L2]. destruct d3; [|discriminate]. unfold lifter_ceps in E4.
      destruct (Reqb l 0 || Rltb 10 l)%bool; [inversion E4; split; auto|]. destruct (Rltb 0 l).
      + destruct (Nat.eqb _ _); inversion E4; split; simpl; auto.
      + inversion E4; split; simpl; auto.
    - rewrite (lifter_rows d3 (S r) k l d4) by (auto; lia). eapply shape_map; eauto.
      intros. rewrite lift_row_length. auto. }
  destruct (c_normalize c) as [t|]; auto. destruct (String.eqb t ""); auto. eapply normalize_rev; eauto.
Qed.

Lemma np_dot_T_rev : forall a b r c, has_shape a r c -> np_dot_T (rev a) b = rmap (@rev _) (np_dot_T a b).
Proof.
  intros a b r c H. unfold np_dot_T. rewrite (ncols_rev _ _ _ _ H). destruct b.
  - cbn [rmap]. rewrite map_rev. auto.
  - destruct (Nat.eqb _ _); auto. cbn [rmap]. rewrite map_rev. auto.
Qed.
Definition rev_pair (p : list (list F) * list (list F)) := (rev (fst p), rev (snd p)).
Lemma spec_gram_rev : forall `{Env} bank coeff magf a N L hop m x,
  (forall r f, magf (fmat r L f) (s_nfft a)
     = Ok (fmat r (S (half (s_nfft a))) (fun i => spec_mag (Z.to_nat (s_nfft a)) L (f i)))) ->
  well_framed a N L hop -> N = (L + m * hop)%nat -> s_pre_emph a = false -> (Z.of_nat L <= s_nfft a)%Z ->
  spec_gram bank coeff magf (fvec N (fun t => x (N - 1 - t)%nat)) a
  = rmap rev_pair (spec_gram bank coeff magf (fvec N x) a).
Proof.
  intros E bank coeff magf a N L hop m x Hm Hw HN Hp HL. unfold spec_gram. destruct bank as [b|ex]; [|reflexivity].
  pose proof Hw as (_ & _ & _ & Hh & HL2 & Hwt).
  assert (Hcnt : frame_count N L hop = S m).
  { unfold frame_count. subst N. replace (L + m * hop - L)%nat with (m * hop)%nat by lia. rewrite Nat.div_mul; lia. }
  cbn [rbind]. rewrite !(framed_fvec a N L hop) by auto. cbn [rbind]. rewrite !Hm. cbn [rbind]. rewrite Hcnt.
  set (g := fun i => spec_mag (Z.to_nat (s_nfft a)) L (frame_of a coeff L hop x i)).
  assert (HR : fmat (S m) (S (half (s_nfft a)))
      (fun i => spec_mag (Z.to_nat (s_nfft a)) L (frame_of a coeff L hop (fun t => x (N - 1 - t)%nat) i))
    = rev (fmat (S m) (S (half (s_nfft a))) g)).
  { rewrite fmat_rev. apply fmat_ext. intros i k Hi Hk. unfold g. replace (S m - 1 - i)%nat with (m - i)%nat by lia.
    apply spec_mag_reverse; [lia|lia|]. intros t Ht. apply frame_reverse; auto; lia. }
  rewrite HR. set (G := fmat (S m) (S (half (s_nfft a))) g).
  assert (SG : has_shape G (S m) (S (half (s_nfft a)))).
  { split; [apply fmat_length|]. unfold G, fmat. apply Forall_map, Forall_forall. intros. apply fvec_length. }
  assert (SP : has_shape (power_frames (s_nfft a) G) (S m) (S (half (s_nfft a)))).
  { unfold power_frames. eapply shape_map; eauto. intros. rewrite map_length. auto. }
  replace (power_frames (s_nfft a) (rev G)) with (rev (power_frames (s_nfft a) G)) by (unfold power_frames; rewrite map_rev; auto).
  rewrite (np_dot_T_rev _ _ _ _ SP). destruct (np_dot_T (power_frames (s_nfft a) G) b) as [f|ex]; reflexivity.
Qed.
Lemma spec_gram_shape : forall `{Env} bank coeff magf a N L hop x f mg,
  (forall r f, magf (fmat r L f) (s_nfft a)
     = Ok (fmat r (S (half (s_nfft a))) (fun i => spec_mag (Z.to_nat (s_nfft a)) L (f i)))) ->
  well_framed a N L hop -> spec_gram bank coeff magf (fvec N x) a = Ok (f, mg) ->
  exists n, has_shape f (frame_count N L hop) n /\ has_shape mg (frame_count N L hop) (S (half (s_nfft a))).
Proof.
  intros E bank coeff magf a N L hop x f mg Hm Hw H. unfold spec_gram in H. destruct bank as [b|ex]; [|discriminate].
  cbn [rbind] in H. rewrite (framed_fvec a N L hop) in H by auto. cbn [rbind] in H. rewrite Hm in H. cbn [rbind] in H.
  apply rbind_Ok in H as (f' & H1 & H2). inversion H2; subst f' mg. apply np_dot_T_rows in H1.
  exists (List.length b). split.
  - subst f. split.
    + rewrite map_length. unfold power_frames. rewrite map_length. apply fmat_length.
    + apply Forall_map, Forall_forall. intros. apply map_length.
  - split; [apply fmat_length|]. unfold fmat. apply Forall_map, Forall_forall. intros. apply fvec_length.
Qed.
Lemma run_reverse : forall `{Env} e a c N L hop m x,
  well_framed a N L hop -> N = (L + m * hop)%nat -> s_pre_emph a = false -> (Z.of_nat L <= s_nfft a)%Z ->
  run e (fvec N (fun t => x (N - 1 - t)%nat)) a c = rmap (@rev _) (run e (fvec N x) a c).
Proof.
  intros E e a c N L hop m x Hw HN Hp HL.
  assert (HL2 : (1 <= L)%nat) by (unfold well_framed in Hw; lia).
  assert (Hm : forall r f, mag_of e (fmat r L f) (s_nfft a)
     = Ok (fmat r (S (half (s_nfft a))) (fun i => spec_mag (Z.to_nat (s_nfft a)) L (f i)))).
  { intros. destruct e; cbn [mag_of]; first [apply fft_magnitude_fmat | apply rfft_magnitude_fmat]; lia. }
  rewrite !run_cep. unfold cep. destruct (_ <? _)%Z; auto.
  rewrite (spec_gram_rev _ _ _ a N L hop m x Hm Hw HN Hp HL).
  destruct (spec_gram (extractor_bank e a) (extractor_coeff e a) (mag_of e) (fvec N x) a) as [[f mg]|ex] eqn:Eg; [|reflexivity].
  destruct (spec_gram_shape _ _ _ a N L hop x f mg Hm Hw Eg) as (n & S1 & S2).
  cbn [rmap rbind rev_pair fst snd]. rewrite map_rev. eapply finish_rev; [|exact S2].
  apply (shape_map _ _ _ _ n n); [exact S1|]. intros. rewrite map_length. auto.
Qed.
Lemma spectrogram_reverse : forall `{Env} s a N L hop m x,
  well_framed a N L hop -> N = (L + m * hop)%nat -> s_pre_emph a = false -> (Z.of_nat L <= s_nfft a)%Z ->
  spectrogram s (fvec N (fun t => x (N - 1 - t)%nat)) a = rmap rev_pair (spectrogram s (fvec N x) a).
Proof.
  intros E s a N L hop m x Hw HN Hp HL.
  assert (HL2 : (1 <= L)%nat) by (unfold well_framed in Hw; lia).
  rewrite !spectrogram_gram. eapply spec_gram_rev; eauto.
  intros. destruct s; first [apply fft_magnitude_fmat | apply rfft_magnitude_fmat]; lia.
Qed.

(** ** linear prediction of a reversed recording *)
Lemma acf_reverse : forall L f g k, (forall t, (t < L)%nat -> g t = f (L - 1 - t)%nat) -> acf L g k = acf L f k.
Proof.
  intros L f g k Hg. unfold acf. rewrite bigsum_rev. apply bigsum_ext. intros t Ht.
  rewrite !Hg by lia. replace (L - 1 - (L - k - 1 - t + k))%nat with t by lia.
  replace (L - 1 - (L - k - 1 - t))%nat with (t + k)%nat by lia. ring.
Qed.
Lemma lpc_helper_reverse : forall L f g order, (0 < L)%nat -> (forall t, (t < L)%nat -> g t = f (L - 1 - t)%nat) ->
  lpc_helper (fvec L g) order = lpc_helper (fvec L f) order.
Proof.
  intros L f g order HL Hg. unfold lpc_helper. rewrite !correlate_fvec by auto.
  replace (fvec (2 * L - 1) (fun k => acf L g (dist (L - 1) k))) with (fvec (2 * L - 1) (fun k => acf L f (dist (L - 1) k))).
  - unfold zlen. rewrite !fvec_length. reflexivity.
  - apply fvec_ext. intros. symmetry. apply acf_reverse. auto.
Qed.
Lemma mapM_app : forall A B (f : A -> result B) l m, mapM f (l ++ m) = (do x <- mapM f l; do y <- mapM f m; Ok (x ++ y)).
Proof.
  induction l; simpl; intros.
  - destruct (mapM f m); reflexivity.
  - destruct (f a); [|reflexivity]. cbn [rbind]. rewrite IHl. destruct (mapM f l); [|reflexivity]. cbn [rbind].
    destruct (mapM f m); reflexivity.
Qed.
Lemma mapM_rev : forall A B (f : A -> result B) l ys, mapM f l = Ok ys -> mapM f (rev l) = Ok (rev ys).
Proof.
  induction l; simpl; intros.
  - inversion H. auto.
  - apply rbind_Ok in H as (y & H1 & H). apply rbind_Ok in H as (zs & H2 & H). inversion H; subst ys.
    rewrite mapM_app, (IHl _ H2). cbn [rbind mapM]. rewrite H1. cbn [rbind rev]. reflexivity.
Qed.
Lemma py_set_length : forall A (l m : list A) i x, py_set l i x = Ok m -> List.length m = List.length l.
Proof. unfold py_set. intros A l m i x. destruct (_ && _)%bool; intros Hm; inversion Hm. apply upd_length. Qed.
Lemma foldM_inv : forall A B (P : B -> Prop) (f : B -> A -> result B) l b r,
  (forall b x b', P b -> f b x = Ok b' -> P b') -> P b -> foldM f l b = Ok r -> P r.
Proof.
  induction l; simpl; intros b r Hf Hb Hr.
  - inversion Hr; subst; auto.
  - apply rbind_Ok in Hr as (b' & H1 & H2). apply (IHl b'); eauto.
Qed.
Lemma lpc2lpcc_length : forall a e n c, lpc2lpcc a e n = Ok c -> List.length c = Z.to_nat n.
Proof.
  intros a e n c Hc. unfold lpc2lpcc in Hc. apply rbind_Ok in Hc as (c0 & H0 & Hc).
  apply py_set_length in H0. rewrite repeat_length in H0. apply rbind_Ok in Hc as (c1 & H1 & Hc).
  apply (foldM_inv _ _ (fun l => List.length l = Z.to_nat n)) in H1; [|
    intros b x b' Hb Hx; apply rbind_Ok in Hx as (? & _ & Hx); apply rbind_Ok in Hx as (? & _ & Hx);
    apply py_set_length in Hx; congruence| auto].
  destruct (_ <? _)%Z; [|inversion Hc; subst; auto].
  apply (foldM_inv _ _ (fun l => List.length l = Z.to_nat n)) in Hc; [auto|
    intros b x b' Hb Hx; apply rbind_Ok in Hx as (? & _ & Hx);
    apply py_set_length in Hx; congruence| auto].
Qed.
Lemma mapM_Forall : forall A B (P : B -> Prop) (f : A -> result B) l ys,
  (forall x y, f x = Ok y -> P y) -> mapM f l = Ok ys -> Forall P ys.
Proof.
  induction l; simpl; intros ys Hf Hy.
  - inversion Hy. constructor.
  - apply rbind_Ok in Hy as (y & H1 & Hy). apply rbind_Ok in Hy as (zs & H2 & Hy). inversion Hy. constructor; eauto.
Qed.
Section LpcReverse.
Context `{Env}.
Variables (a : sargs) (N L hop m : nat) (x : nat -> R).
Hypothesis (Hw : well_framed a N L hop) (HN : N = (L + m * hop)%nat) (Hp : s_pre_emph a = false).
Lemma plain_frames_rev : fmat (S m) L (plain_frame a hop (fun t => x (N - 1 - t)%nat))
  = map (fun i => fvec L (fun t => plain_frame a hop x (m - i) (L - 1 - t))) (seq 0 (S m)).
Proof.
  unfold fmat. apply map_ext_in. intros i Hi. apply in_seq in Hi. apply fvec_ext. intros t Ht.
  unfold plain_frame, spec_pre. rewrite Hp. f_equal. subst N. destruct Hw as (_ & _ & _ & Hh & HL & _). nia.
Qed.
Lemma helper_rows_rev : forall B (k : list F * F -> result B) order ys,
  mapM (fun frame => do ae <- lpc_helper frame order; k ae) (fmat (S m) L (plain_frame a hop x)) = Ok ys ->
  mapM (fun frame => do ae <- lpc_helper frame order; k ae) (fmat (S m) L (plain_frame a hop (fun t => x (N - 1 - t)%nat)))
  = Ok (rev ys).
Proof.
  intros B k order ys Hy. apply mapM_rev in Hy. rewrite fmat_rev in Hy. rewrite plain_frames_rev.
  unfold fmat in Hy. rewrite mapM_map in Hy. rewrite mapM_map.
  rewrite <- Hy. apply mapM_ext. intros i Hi. apply in_seq in Hi.
  replace (S m - 1 - i)%nat with (m - i)%nat by lia.
  rewrite (lpc_helper_reverse L (plain_frame a hop x (m - i))); auto. destruct Hw as (_ & _ & _ & _ & HL & _). lia.
Qed.
Lemma count_exact : frame_count N L hop = S m.
Proof.
  destruct Hw as (_ & _ & _ & Hh & HL & _).
  unfold frame_count. subst N. replace (L + m * hop - L)%nat with (m * hop)%nat by lia. rewrite Nat.div_mul; lia.
Qed.
Lemma lpc_reverse : forall order A e,
  lpc (fvec N x) (s_fs a) order (s_pre_emph a) (s_coeff a) (s_window a) = Ok (A, e) ->
  lpc (fvec N (fun t => x (N - 1 - t)%nat)) (s_fs a) order (s_pre_emph a) (s_coeff a) (s_window a) = Ok (rev A, rev e).
Proof.
  intros order A e. unfold lpc. rewrite !(framed_fvec a N L hop) by auto. cbn [rbind].
  rewrite count_exact. destruct (_ <? 0)%Z; [discriminate|]. intros Hy. apply rbind_Ok in Hy as (rows & H1 & H2).
  change (fun i t => spec_pre (s_pre_emph a) 0.97 x (i * hop + t)%nat) with (plain_frame a hop x) in H1.
  change (fun i t => spec_pre (s_pre_emph a) 0.97 (fun u => x (N - 1 - u)%nat) (i * hop + t)%nat)
    with (plain_frame a hop (fun u => x (N - 1 - u)%nat)).
  assert (Hid : forall r : result (list F * F), (do ae <- r; Ok ae) = r) by (intros [[]|]; reflexivity).
  pose proof (helper_rows_rev _ (fun ae => Ok ae) (order - 1) rows) as R.
  rewrite (mapM_ext _ _ _ (fun frame => lpc_helper frame (order - 1))) in R by (intros; apply Hid).
  specialize (R H1). rewrite (mapM_ext _ _ _ (fun frame => lpc_helper frame (order - 1))) in R by (intros; apply Hid).
  rewrite R. cbn [rbind]. inversion H2. rewrite !map_rev. reflexivity.
Qed.
Lemma lpcc_reverse : forall order lifter normalize M,
  lpcc (fvec N x) (s_fs a) order (s_pre_emph a) (s_coeff a) (s_window a) lifter normalize = Ok M ->
  lpcc (fvec N (fun t => x (N - 1 - t)%nat)) (s_fs a) order (s_pre_emph a) (s_coeff a) (s_window a) lifter normalize
  = Ok (rev M).
Proof.
  intros order lifter normalize M. unfold lpcc. rewrite !(framed_fvec a N L hop) by auto. cbn [rbind].
  rewrite count_exact. destruct (_ <? 0)%Z; [discriminate|]. intros Hy. apply rbind_Ok in Hy as (rows & H1 & H2).
  change (fun i t => spec_pre (s_pre_emph a) 0.97 x (i * hop + t)%nat) with (plain_frame a hop x) in H1.
  change (fun i t => spec_pre (s_pre_emph a) 0.97 (fun u => x (N - 1 - u)%nat) (i * hop + t)%nat)
    with (plain_frame a hop (fun u => x (N - 1 - u)%nat)).
  pose proof (helper_rows_rev _ (fun '(a0, e) => lpc2lpcc a0 e (order - 1 + 1)) (order - 1) rows H1) as R.
  rewrite R. cbn [rbind].
  assert (Hs : has_shape rows (S m) (Z.to_nat (order - 1 + 1))).
  { split.
    - rewrite (mapM_length _ _ _ _ _ H1). apply fmat_length.
    - eapply mapM_Forall; [|exact H1]. intros f y Hf. apply rbind_Ok in Hf as ([a0 e0] & _ & Hf).
      eapply lpc2lpcc_length; eauto. }
  apply rbind_Ok in H2 as (lf & H2 & H3).
  assert (L1 : match lifter with Some l => if Reqb l 0 then Ok (rev rows) else lifter_ceps (rev rows) l | None => Ok (rev rows) end
     = Ok (rev lf) /\ exists c, has_shape lf (S m) c).
  { destruct lifter as [l|].
    - destruct (Reqb l 0).
      + inversion H2; subst lf. eauto.
      + rewrite (lifter_rev _ _ _ _ Hs), H2. split; [reflexivity|]. 
        apply (lifter_rows _ (S m) (Z.to_nat (order - 1 + 1))) in H2; [|auto|lia]. subst lf.
        exists (Z.to_nat (order - 1 + 1)). eapply shape_map; eauto.
        intros. rewrite lift_row_length. auto.
    - inversion H2; subst lf. eauto. }
  destruct L1 as (-> & k & Hk). cbn [rbind].
  destruct normalize as [t|].
  - destruct (String.eqb t "").
    + inversion H3; auto.
    + rewrite (normalize_rev _ _ _ _ Hk), H3. reflexivity.
  - inversion H3; auto.
Qed.
End LpcReverse.
