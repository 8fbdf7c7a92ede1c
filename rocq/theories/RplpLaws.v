(** * Laws of plp and rplp *)
From Coq Require Import Reals ZArith List String Bool Lia Lra Psatz.
From Verif Require Import Base BaseFacts Cplx SpecBase SpecMat SpecFilters SpecBanks SpecFeatures SpecRplp BigSum MatFacts Preprocessing PreprocessingFacts
  Filters FiltersFacts Cepstral Fourier Features Extractors FeaturesFacts FeaturesMore FeaturesLaws LinAlg Lpc SpecLpc LpcFacts LpcTheory LpcMore LpcLaws
  Rplp RplpNames RplpFacts.
Import ListNotations.
Local Open Scope R_scope.

(** ** equal sequences give equal results *)
Lemma spec_inverse_ext : forall n c l l' t, (forall j, (j < c)%nat -> l j = l' j) -> spec_inverse n c l t = spec_inverse n c l' t.
Proof.
  intros. unfold spec_inverse. rewrite (bigsum_ext (Nat.min c n) (fun j => l j * cos _) (fun j => l' j * cos (2 * PI * INR (j * t) / INR n))),
    (bigsum_ext (Nat.min c n) (fun j => l j * sin _) (fun j => l' j * sin (2 * PI * INR (j * t) / INR n))); auto;
    intros j Hj; rewrite H by lia; auto.
Qed.
Lemma auditory_ext : forall r w w' c j, (forall k, (k < c)%nat -> w k = w' k) -> (j < c)%nat -> spec_auditory r w j = spec_auditory r w' j.
Proof.
  intros [|] w w' c j H Hj; unfold spec_auditory; [|auto]. f_equal. apply spec_rasta_ext. intros. rewrite H by lia. auto.
Qed.

(** only one channel carries energy *)
Lemma inverse_single : forall n c l j t, (0 < c)%nat -> (j < n)%nat -> (j < c)%nat -> (forall k, (k < n)%nat -> k <> j -> l k = 0) -> 0 <= l j ->
  spec_inverse c n l t = l j / INR c.
Proof.
  intros n c l j t Hc Hj Hj2 Hz Hl. unfold spec_inverse. f_equal.
  rewrite (bigsum_ext _ (fun k => l k * cos _) (fun k => if Nat.eqb k j then l k * cos (2 * PI * INR (k * t) / INR c) else 0)).
  2:{ intros k Hk. destruct (Nat.eqb_spec k j); auto. rewrite Hz by (auto; lia). ring. }
  rewrite (bigsum_ext _ (fun k => l k * sin _) (fun k => if Nat.eqb k j then l k * sin (2 * PI * INR (k * t) / INR c) else 0)).
  2:{ intros k Hk. destruct (Nat.eqb_spec k j); auto. rewrite Hz by (auto; lia). ring. }
  rewrite (bigsum_delta _ j (fun k => l k * cos (2 * PI * INR (k * t) / INR c))), (bigsum_delta _ j (fun k => l k * sin (2 * PI * INR (k * t) / INR c))) by lia.
  set (u := 2 * PI * INR (j * t) / INR c). pose proof (sin2_cos2 u) as SC. unfold Rsqr in SC.
  replace ((l j * cos u) ^ 2 + (l j * sin u) ^ 2) with (l j ^ 2 * (sin u * sin u + cos u * cos u)) by ring. rewrite SC, Rmult_1_r.
  apply sqrt_pow2. auto.
Qed.

Section Two.
Context `{Env}.
Variables (a : sargs) (N L hop n : nat) (B : nat -> nat -> R).
Hypotheses (Hw : well_framed a N L hop) (Hn : (1 <= s_nfft a)%Z) (Hn0 : (0 < n)%nat)
  (HB : spectro_bank Bark a = Ok (fmat n (S (half (s_nfft a))) B)).

Lemma energy_gain : forall x g i j, channel_energy a L hop B (fun t => g * x t) i j = g ^ 2 * channel_energy a L hop B x i j.
Proof. intros. unfold channel_energy. apply spec_band_gain. intros. apply frame_of_gain. Qed.

Lemma rplp_gain : forall x g order li no, (order <= s_nfilts a)%Z -> g <> 0 -> (5 <= n)%nat ->
  (forall i j, (i < frame_count N L hop)%nat -> (j < n)%nat -> 0 < channel_energy a L hop B x i j) ->
  rplp (fvec N (fun t => g * x t)) a order li no = rplp (fvec N x) a order li no.
Proof.
  intros x g order li no Ho Hg H5 Hp. unfold rplp. assert (0 < g ^ 2) by (rewrite <- Rsqr_pow2; apply Rlt_0_sqr; auto).
  rewrite !(rastaplp_gen a N L hop n B) by auto. rewrite !rasta_step_fmat.
  - cbn [rbind]. do 3 f_equal. apply fmat_ext. intros i j Hi Hj.
    unfold spec_auditory. f_equal. rewrite <- (spec_rasta_shift (fun k => ln (channel_energy a L hop B x i k)) (ln (g ^ 2))).
    apply spec_rasta_ext. intros k Hk. rewrite energy_gain, ln_mult by (auto; apply Hp; lia). ring.
  - split; auto.
  - split; auto. intros. rewrite energy_gain. apply Rmult_lt_0_compat; auto.
Qed.
Lemma plp_polarity : forall x order r li no,
  rastaplp (fvec N (fun t => - x t)) a order r li no = rastaplp (fvec N x) a order r li no.
Proof.
  intros x order r li no. destruct (Z_lt_le_dec (s_nfilts a) order) as [Ho|Ho].
  - unfold rastaplp. rewrite (proj2 (Z.ltb_lt _ _)) by auto. auto.
  - rewrite !(rastaplp_gen a N L hop n B) by auto. f_equal.
    f_equal. apply fmat_ext. intros i j Hi Hj. rewrite <- (Rmult_1_l (channel_energy a L hop B x i j)). replace 1 with ((-1) ^ 2) by ring.
    rewrite <- energy_gain. unfold channel_energy, spec_band. apply bigsum_ext. intros k Hk. f_equal. unfold spec_power. f_equal.
    unfold spec_sq. f_equal; f_equal; unfold spec_re, spec_im; apply bigsum_ext; intros t Ht; f_equal; unfold frame_of, spec_frame, spec_pre;
      destruct (s_pre_emph a); try ring; destruct (i * hop + t)%nat; ring.
Qed.

End Two.

(** ** the bank upside down *)
Lemma fmat_rev : forall r c m, rev (fmat r c m) = fmat r c (fun i => m (r - 1 - i)%nat).
Proof.
  intros. apply (list_eq_nth _ []); rewrite ?rev_length, ?fmat_length; auto.
  intros i Hi. rewrite rev_nth by (rewrite fmat_length; auto). rewrite fmat_length. rewrite !fmat_nth by lia.
  f_equal. f_equal. lia.
Qed.
Lemma plp_mirror : forall `{Env} a N L hop n B x order li no, well_framed a N L hop -> (1 <= s_nfft a)%Z -> (0 < n)%nat ->
  (n <= Z.to_nat (s_nfft a))%nat ->
  let b := fmat n (S (half (s_nfft a))) B in
  plp (fvec N x) (with_fbanks a (rev b)) order li no = plp (fvec N x) (with_fbanks a b) order li no.
Proof.
  intros E a N L hop n B x order li no Hw Hn Hn0 Hc b. unfold plp, b. rewrite fmat_rev.
  destruct (Z_lt_le_dec (s_nfilts a) order) as [Ho|Ho].
  - unfold rastaplp. cbn [s_nfilts with_fbanks]. rewrite (proj2 (Z.ltb_lt _ _)) by auto. auto.
  - rewrite (rastaplp_gen (with_fbanks a (fmat n (S (half (s_nfft a))) (fun i => B (n - 1 - i)%nat))) N L hop n (fun i => B (n - 1 - i)%nat));
      [|exact Hw|exact Hn|exact Hn0|reflexivity|exact Ho].
    rewrite (rastaplp_gen (with_fbanks a (fmat n (S (half (s_nfft a))) B)) N L hop n B); [|exact Hw|exact Hn|exact Hn0|reflexivity|exact Ho].
    cbn [rasta_step rbind]. rewrite !(fmat_map _ _ _ compressed spec_loudness) by (intros; apply compressed_Fin).
    cbn [s_nfft with_fbanks].
    destruct (ifft_fmat (frame_count N L hop) n (fun i j => spec_loudness (channel_energy (with_fbanks a (fmat n (S (half (s_nfft a))) (fun i => B (n - 1 - i)%nat))) L hop
       (fun i => B (n - 1 - i)%nat) x i j)) (s_nfft a) Hn) as [-> E1].
    destruct (ifft_fmat (frame_count N L hop) n (fun i j => spec_loudness (channel_energy (with_fbanks a (fmat n (S (half (s_nfft a))) B)) L hop B x i j)) (s_nfft a) Hn) as [-> E2].
    cbn [rbind]. rewrite E1, E2. destruct (order <? 0)%Z; auto. do 2 f_equal. apply fmat_ext. intros i t Hi Ht.
    rewrite <- spec_inverse_mirror by auto. apply spec_inverse_ext. intros j Hj. f_equal.
    unfold channel_energy. change (frame_of (with_fbanks a ?u)) with (frame_of a). cbn [s_nfft with_fbanks]. f_equal. f_equal. lia.
Qed.

(** ** shape and finiteness, for any signal *)
Lemma plp_row_ok : forall order row y, (2 <= order)%Z -> plp_row order row = Ok y -> Forall finite y /\ zlen y = order.
Proof.
  intros order row y Ho Hy. unfold plp_row in Hy. apply rbind_Ok in Hy as ((b & e) & Hb & Hy).
  apply lpc_helper_finite in Hb; [|lia]. destruct Hb as (L & p & f & A & _ & Hp & _ & _ & _ & -> & ->).
  replace order with (Z.of_nat (S p)) in Hy |- * by lia. rewrite lpc2lpcc_ok in Hy by (try lia; apply Rabs_pos).
  apply Ok_inj in Hy. subst y. split; [apply fvec_finite|]. unfold zlen. rewrite fvec_length. lia.
Qed.
Lemma rasta_rows_length : forall x z y, rasta_rows z x = Ok y -> List.length y = List.length x.
Proof.
  induction x as [|row x IH]; intros z y Hy; cbn [rasta_rows] in Hy; [apply Ok_inj in Hy; subst; auto|].
  apply rbind_Ok in Hy as (yz & _ & Hy). apply rbind_Ok in Hy as (ys & Hys & Hy). apply Ok_inj in Hy. subst. cbn. f_equal. eauto.
Qed.
Lemma rastaplp_inv : forall `{Env} sig a order r li no M, (2 <= order)%Z -> rastaplp sig a order r li no = Ok M ->
  exists fr ws M0, framed sig (s_fs a) (s_pre_emph a) (s_coeff a) (s_window a) = Ok (fr, ws) /\ (0 < List.length ws)%nat /\
    Forall (Forall finite) M0 /\ has_shape M0 (List.length ws) (Z.to_nat order) /\ plp_post li no M0 = Ok M.
Proof.
  intros E sig a order r li no M Ho H0. unfold rastaplp in H0. destruct (s_nfilts a <? order)%Z; [discriminate|].
  apply rbind_Ok in H0 as (b & Hb & H0). apply rbind_Ok in H0 as ((fr & ws) & Hf & H0). apply rbind_Ok in H0 as (mag & Hm & H0).
  apply rbind_Ok in H0 as (aud & Ha & H0). apply rbind_Ok in H0 as (aud2 & Ha2 & H0). apply rbind_Ok in H0 as (inv & Hi & H0).
  destruct (Z.ltb_spec order 0); [lia|]. apply rbind_Ok in H0 as (M0 & HM & H0).
  assert (Lw : List.length M0 = List.length ws).
  { apply mapM_length in HM. rewrite map_length in HM. rewrite HM.
    unfold np_ifft in Hi. destruct (_ <? _)%Z; [discriminate|]. apply Ok_inj in Hi. subst inv. rewrite !map_length.
    assert (List.length aud2 = List.length aud) as ->.
    { unfold rasta_step in Ha2. destruct r; [|congruence]. apply rbind_Ok in Ha2 as (y & Hy & Ha2). apply Ok_inj in Ha2. subst.
      rewrite map_length. apply rasta_rows_length in Hy. rewrite Hy, map_length. auto. }
    apply np_dot_T_rows in Ha. subst aud. unfold power_frames. rewrite !map_length.
    unfold fft_magnitude in Hm. apply rbind_Ok in Hm as (X & HX & Hm). apply Ok_inj in Hm. subst mag. rewrite map_length.
    unfold np_fft in HX. destruct (_ <? _)%Z; [discriminate|]. apply Ok_inj in HX. subst X. rewrite map_length. auto. }
  assert (Hrow : forall row, In row M0 -> Forall finite row /\ List.length row = Z.to_nat order).
  { intros row Hr. apply (mapM_In_rev _ _ _ _ _ _ HM) in Hr as (v & _ & Hv). apply plp_row_ok in Hv as [H1 H2]; auto. split; auto. unfold zlen in H2. lia. }
  exists fr, ws, M0. split; auto. split.
  { apply framed_inv in Hf as (s' & _ & Hfr & Hwin). apply framing_nonempty in Hfr. apply windowing_length in Hwin.
    destruct fr; [congruence|]. cbn in Hwin. lia. }
  split; [apply Forall_forall; intros; apply Hrow; auto|]. split; [|exact H0].
  split; auto. apply Forall_forall. intros. apply Hrow; auto.
Qed.
Lemma rastaplp_shape : forall `{Env} sig a order r li no M, (2 <= order)%Z -> rastaplp sig a order r li no = Ok M ->
  zlen M = ((zlen sig - flen (s_fs a) (win_len (window_of a))) / flen (s_fs a) (win_hop (window_of a)) + 1)%Z /\
  Forall (fun row => zlen row = order) M /\ (no_post li no -> Forall (Forall finite) M).
Proof.
  intros E sig a order r li no M Ho H0. apply rastaplp_inv in H0 as (fr & ws & M0 & Hf & Hl & Hfin & Hs & Hp); auto.
  assert (HsM : has_shape M (List.length ws) (Z.to_nat order)).
  { unfold plp_post in Hp. apply rbind_Ok in Hp as (M1 & H1 & H2).
    assert (S1 : has_shape M1 (List.length ws) (Z.to_nat order)).
    { destruct li as [l|]; [|congruence]. rewrite (lifter_rows _ _ _ _ _ Hs Hl H1). eapply shape_map; eauto. intros. rewrite lift_row_length. auto. }
    destruct no as [t|]; [|congruence]. destruct (String.eqb t ""); [congruence|]. eapply normalize_shape; eauto. }
  split; [|split].
  - destruct HsM as [H1 _]. rewrite <- (framed_length _ _ _ _ _ Hf). unfold zlen. lia.
  - destruct HsM as [_ H2]. eapply Forall_impl; [|exact H2]. cbv beta. intros. unfold zlen. lia.
  - intros Hn. rewrite no_post_ok in Hp by auto. congruence.
Qed.

(** ** a row depends on its frame only *)
Definition row_post (li : option R) (row : list F) : list F := match li with Some l => lift_row l row | None => row end.
Lemma rastaplp_row : forall `{Env} a N L hop n B x order r li M i, well_framed a N L hop -> (1 <= s_nfft a)%Z -> (0 < n)%nat ->
  spectro_bank Bark a = Ok (fmat n (S (half (s_nfft a))) B) -> (2 <= order)%Z -> rasta_ok a N L hop n B r x ->
  rastaplp (fvec N x) a order r li None = Ok M -> (i < frame_count N L hop)%nat ->
  exists y, plp_row order (fvec (Z.to_nat (s_nfft a)) (plp_sequence a r L hop n B x i)) = Ok y /\ nth i M [] = row_post li y.
Proof.
  intros E a N L hop n B x order r li M i Hw Hn Hn0 HB Ho Hr HM Hi.
  assert (Hof : (order <= s_nfilts a)%Z) by (unfold rastaplp in HM; destruct (Z.ltb_spec (s_nfilts a) order); [discriminate|lia]).
  rewrite (rastaplp_rows a N L hop n B) in HM by (auto; lia). apply rbind_Ok in HM as (M0 & HM0 & HM).
  assert (LM : List.length M0 = frame_count N L hop) by (apply mapM_length in HM0; rewrite HM0, fmat_length; auto).
  pose proof (mapM_row _ _ _ _ _ i [] [] HM0 ltac:(lia)) as G. rewrite fmat_nth in G by auto.
  exists (nth i M0 []). split; auto. unfold plp_post in HM. apply rbind_Ok in HM as (M1 & H1 & H2). apply Ok_inj in H2. subst M1.
  destruct li as [l|]; cbn [row_post]; [|congruence].
  assert (S0 : has_shape M0 (frame_count N L hop) (Z.to_nat order)).
  { split; auto. apply Forall_forall. intros row Hrow. apply (mapM_In_rev _ _ _ _ _ _ HM0) in Hrow as (v & _ & Hv).
    apply plp_row_ok in Hv as [_ Hz]; auto. unfold zlen in Hz. lia. }
  rewrite (lifter_rows _ _ _ _ _ S0 (frame_count_pos _ _ _) H1). apply nth_map. lia.
Qed.
Lemma energy_agree : forall a L hop B x y i i2 j,
  (forall t, (t < L)%nat -> frame_of a (s_coeff a) L hop x i t = frame_of a (s_coeff a) L hop y i2 t) ->
  channel_energy a L hop B x i j = channel_energy a L hop B y i2 j.
Proof.
  intros. unfold channel_energy, spec_band. apply bigsum_ext. intros k Hk. f_equal. unfold spec_power, spec_sq. f_equal.
  f_equal; f_equal; unfold spec_re, spec_im; apply bigsum_ext; intros t Ht; rewrite H by lia; auto.
Qed.
Lemma frame_agree : forall a co L hop x y i i2,
  (s_pre_emph a = true -> (i * hop = 0 <-> i2 * hop = 0)%nat) ->
  (forall t, (t < L)%nat -> x (i * hop + t)%nat = y (i2 * hop + t)%nat) ->
  (s_pre_emph a = true -> (0 < i * hop)%nat -> x (i * hop - 1)%nat = y (i2 * hop - 1)%nat) ->
  forall t, (t < L)%nat -> frame_of a co L hop x i t = frame_of a co L hop y i2 t.
Proof.
  intros a co L hop x y i i2 Hz Hxy Hp t Ht. unfold frame_of, spec_frame. f_equal. unfold spec_pre.
  destruct (s_pre_emph a) eqn:Ep; [|apply Hxy; auto]. specialize (Hz eq_refl). specialize (Hp eq_refl).
  destruct t as [|t].
  - specialize (Hxy 0%nat Ht). rewrite !Nat.add_0_r in *. destruct (i * hop)%nat as [|u] eqn:E1, (i2 * hop)%nat as [|u2] eqn:E2; try lia; auto.
    replace (S u - 1)%nat with u in Hp by lia. replace (S u2 - 1)%nat with u2 in Hp by lia. rewrite Hxy, Hp by lia. auto.
  - replace (i * hop + S t)%nat with (S (i * hop + t)) by lia. replace (i2 * hop + S t)%nat with (S (i2 * hop + t)) by lia.
    f_equal; [|f_equal; apply Hxy; lia]. pose proof (Hxy (S t) Ht) as G. rewrite !Nat.add_succ_r in G. auto.
Qed.
Lemma rastaplp_row_eq : forall `{Env} a N N2 L hop n B x y order r li M M2 i i2, well_framed a N L hop -> well_framed a N2 L hop ->
  (1 <= s_nfft a)%Z -> (0 < n)%nat ->
  spectro_bank Bark a = Ok (fmat n (S (half (s_nfft a))) B) -> (2 <= order)%Z ->
  rasta_ok a N L hop n B r x -> rasta_ok a N2 L hop n B r y ->
  rastaplp (fvec N x) a order r li None = Ok M -> rastaplp (fvec N2 y) a order r li None = Ok M2 ->
  (i < frame_count N L hop)%nat -> (i2 < frame_count N2 L hop)%nat ->
  (s_pre_emph a = true -> (i * hop = 0 <-> i2 * hop = 0)%nat) ->
  (forall t, (t < L)%nat -> x (i * hop + t)%nat = y (i2 * hop + t)%nat) ->
  (s_pre_emph a = true -> (0 < i * hop)%nat -> x (i * hop - 1)%nat = y (i2 * hop - 1)%nat) ->
  nth i M [] = nth i2 M2 [].
Proof.
  intros E a N N2 L hop n B x y order r li M M2 i i2 Hw Hw2 Hn Hn0 HB Ho Hr Hr2 HM HM2 Hi Hi2 Hz Hxy Hp.
  destruct (rastaplp_row a N L hop n B x order r li M i) as (u & U1 & U2); auto.
  destruct (rastaplp_row a N2 L hop n B y order r li M2 i2) as (v & V1 & V2); auto.
  rewrite U2, V2. f_equal. rewrite (fvec_ext _ _ (plp_sequence a r L hop n B y i2)) in U1; [rewrite U1 in V1; apply Ok_inj in V1; auto|].
  intros t Ht. unfold plp_sequence. apply spec_inverse_ext. intros j Hj. f_equal.
  apply (auditory_ext r _ _ n); auto. intros k Hk. apply energy_agree. apply frame_agree; auto.
Qed.
