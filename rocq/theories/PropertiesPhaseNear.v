(** * C188: psrcc of similar recordings, gain and polarity *)
From Coq Require Import Reals ZArith List String Bool Lia Lra.
From Verif Require Import Base BaseFacts SpecBase BigSum SpecMat MatFacts SpecFilters SpecBanks SpecFeatures SpecInvariance SpecNoise Preprocessing Features Extractors FeaturesFacts FeaturesPhase
  ExampleTools ExampleFeatures DctFacts InvarianceLaws PropertiesDct PhaseNearFacts PhaseJumpFacts.
Import ListNotations.
Local Open Scope R_scope.

(** psrcc hears no gain: any positive factor leaves every coefficient as it is, with any bank and all options but use_energy. *)
Theorem C188_gain : forall (E : Env) a c g N L hop x k, @well_framed E a N L hop -> c_use_energy c = false -> 0 < k ->
  @psrcc E (fvec N (fun t => k * x t)) a g c = @psrcc E (fvec N x) a g c.
Proof. intros E a c g N L hop x k. apply psrcc_gain. Qed.
Print Assumptions C188_gain.
(** It hears polarity: the phase of every bin that is not zero moves by half a turn. *)
Theorem C188_polarity : forall (E : Env) a c g N L hop n B x, g <> 0 -> @well_framed E a N L hop -> (1 <= s_nfft a)%Z -> (0 < n)%nat ->
  @spectro_bank E Mel a = Ok (fmat n (S (half (s_nfft a))) B) -> (0 <= c_num_ceps c <= s_nfilts a)%Z -> (1 <= c_dct_type c <= 4)%Z -> (c_dct_type c = 1%Z -> (2 <= n)%nat) ->
  c_use_energy c = false -> no_lifter c -> no_normalisation c ->
  let re x i k := spec_re (Z.to_nat (s_nfft a)) L (frame_of a (s_coeff a) L hop x i) k in
  let im x i k := spec_im (Z.to_nat (s_nfft a)) L (frame_of a (s_coeff a) L hop x i) k in
  exists P P2 : nat -> nat -> R, (forall i k, is_phase (re x i k) (im x i k) (P i k)) /\
    (forall i k, 0 <= P2 i k < 360 /\ (P2 i k = P i k + 180 \/ P2 i k = P i k - 180 \/ (re x i k = 0 /\ im x i k = 0 /\ P2 i k = 0))) /\
    let band Q i j := bigsum (S (half (s_nfft a))) (fun k => Q i k * B j k) in
    ((forall i j, (i < frame_count N L hop)%nat -> (j < n)%nat -> 0 < band P2 i j \/ (0 <= band P2 i j /\ 0 < g)) ->
     @psrcc E (fvec N (fun t => - x t)) a g c
     = Ok (fmat (frame_count N L hop) (Nat.min (Z.to_nat (c_num_ceps c)) n) (fun i => spec_dct (c_dct_type c) n (fun j => spec_root g (band P2 i j))))).
Proof.
  intros E a c g N L hop n B x Hg Hw Hn Hn0 HB Hc Ht Ht1 Hu Hl Hm re im.
  destruct (@C73_phases E a c g N L hop n B (fun t => - x t) Hg Hw Hn Hn0 HB Hc Ht Ht1 Hu Hl Hm) as (P2 & HP2 & R).
  exists (fun i k => phase_of (re x i k) (im x i k)), P2. split; [intros; apply phase_of_is|]. split; [|exact R].
  intros i k. specialize (HP2 i k). cbv zeta in HP2. split; [apply HP2|]. apply (polarity_phase (re x i k) (im x i k)); [apply phase_of_is|].
  destruct (frame_flip a (s_coeff a) L hop x i (Z.to_nat (s_nfft a)) k) as [E1 E2]. unfold re, im. rewrite <- E1, <- E2. exact HP2.
Qed.
Print Assumptions C188_polarity.
(** Recordings that differ by at most d in every sample: the phase of a bin of magnitude m moves by at most e degrees, or
    jumps by almost a whole turn.  A row of a recording whose phases are further than e from a whole turn moves little. *)
Theorem C188_rows : forall (E : Env) a c g N L hop n B x x2 d, g <> 0 -> g <= 1 -> @well_framed E a N L hop -> (1 <= s_nfft a)%Z -> (0 < n)%nat ->
  @spectro_bank E Mel a = Ok (fmat n (S (half (s_nfft a))) B) -> (forall j k, (j < n)%nat -> (k <= half (s_nfft a))%nat -> 0 <= B j k) ->
  (0 <= c_num_ceps c <= s_nfilts a)%Z -> (1 <= c_dct_type c <= 4)%Z -> (c_dct_type c = 1%Z -> (2 <= n)%nat) ->
  c_use_energy c = false -> no_lifter c -> no_normalisation c -> apart N d x x2 ->
  let rows := frame_count N L hop in
  let K := Nat.min (Z.to_nat (c_num_ceps c)) n in
  let mag i k := spec_mag (Z.to_nat (s_nfft a)) L (frame_of a (s_coeff a) L hop x i) k in
  let band Q i j := bigsum (S (half (s_nfft a))) (fun k => Q i k * B j k) in
  let slack m := 180 * (INR L * ((if s_pre_emph a then 1 + Rabs (s_coeff a) else 1) * d) / m) in
  let usable Q := forall i j, (i < rows)%nat -> (j < n)%nat -> 0 < band Q i j \/ (0 <= band Q i j /\ 0 < g) in
  exists (P P2 y y2 : nat -> nat -> R), (usable P -> @psrcc E (fvec N x) a g c = Ok (fmat rows K y)) /\ (usable P2 -> @psrcc E (fvec N x2) a g c = Ok (fmat rows K y2)) /\
    (forall i k, let f := frame_of a (s_coeff a) L hop x i in is_phase (spec_re (Z.to_nat (s_nfft a)) L f k) (spec_im (Z.to_nat (s_nfft a)) L f k) (P i k)) /\
    (forall i k, let f := frame_of a (s_coeff a) L hop x2 i in is_phase (spec_re (Z.to_nat (s_nfft a)) L f k) (spec_im (Z.to_nat (s_nfft a)) L f k) (P2 i k)) /\
    (forall i k m, (i < rows)%nat -> 0 < m <= mag i k -> Rabs (P2 i k - P i k) <= slack m \/ 360 - slack m <= Rabs (P2 i k - P i k)) /\
    (forall i m b, (i < rows)%nat -> 0 < m -> 0 < b -> (forall k, (k <= half (s_nfft a))%nat -> m <= mag i k /\ slack m < P i k < 360 - slack m) ->
      (forall j, (j < n)%nat -> b + slack m * bigsum (S (half (s_nfft a))) (B j) <= band P i j) ->
      sqdist K (y2 i) (y i) <= bigsum n (fun j => (Rabs g * Rpower b (g - 1) * (slack m * bigsum (S (half (s_nfft a))) (B j))) ^ 2)).
Proof.
  intros E a c g N L hop n B x x2 d Hg Hg1 Hw Hn Hn0 HB HB0 Hc Ht Ht1 Hu Hl Hm Hd rows K mag band slack usable.
  destruct (@C73_phases E a c g N L hop n B x Hg Hw Hn Hn0 HB Hc Ht Ht1 Hu Hl Hm) as (P & HP & R).
  destruct (@C73_phases E a c g N L hop n B x2 Hg Hw Hn Hn0 HB Hc Ht Ht1 Hu Hl Hm) as (P2 & HP2 & R2).
  destruct Hw as (_ & _ & _ & Hh & HL & _).
  assert (Near : forall i k m, (i < rows)%nat -> 0 < m <= mag i k -> Rabs (P2 i k - P i k) <= slack m \/ 360 - slack m <= Rabs (P2 i k - P i k)).
  { intros i k m Hi [H0 H1]. apply (bins_near a (s_coeff a) N L hop (Z.to_nat (s_nfft a)) x x2 d i k m); auto. }
  exists P, P2, (fun i => spec_dct (c_dct_type c) n (fun j => spec_root g (band P i j))), (fun i => spec_dct (c_dct_type c) n (fun j => spec_root g (band P2 i j))).
  split; [exact R|]. split; [exact R2|]. split; [exact HP|]. split; [exact HP2|]. split; [exact Near|].
  intros i m b Hi H0 Hb Hk Hj. eapply Rle_trans; [apply (sqdist_mono K n); unfold K; lia|]. rewrite dct_sqdist by assumption.
  unfold sqdist. apply bigsum_le. intros j Hjn. rewrite <- pow2_abs. apply pow_incr. split; [apply Rabs_pos|].
  assert (D : Rabs (band P2 i j - band P i j) <= slack m * bigsum (S (half (s_nfft a))) (B j)).
  { apply bands_near; [intros k Hk2; apply HB0; lia|]. intros k Hk2 _. destruct (Hk k ltac:(lia)) as [M1 M2].
    apply steady_phase; [apply (HP2 i k)|exact M2|]. apply Near; [exact Hi|split; assumption]. }
  assert (P1 : b <= band P i j). { specialize (Hj j Hjn). pose proof (Rabs_pos (band P2 i j - band P i j)). lra. }
  assert (P3 : b <= band P2 i j). { specialize (Hj j Hjn). revert D. unfold Rabs. destruct (Rcase_abs _); lra. }
  unfold spec_root. destruct (Req_EM_T (band P2 i j) 0); [lra|]. destruct (Req_EM_T (band P i j) 0); [lra|].
  eapply Rle_trans; [apply (power_lip g b); assumption|]. apply Rmult_le_compat_l; [|exact D]. apply Rmult_le_pos; [apply Rabs_pos|left; apply exp_pos].
Qed.
Print Assumptions C188_rows.
(** Small changes need not stay small: recordings at any level, as close to each other as one likes, whose only coefficient is
    as far apart as one likes (negative exponents, the default is -1/7), or further apart than 300^g - 1 (positive exponents). *)
Theorem C188_continuous_refuted : forall A g d M, g <> 0 -> 0 < A -> 0 < d -> 0 < M -> exists x x2 u v, x 0%nat = A /\ x2 0%nat = A /\ apart 4 d x x2 /\
  @psrcc exact_env (fvec 4 x) quad g quad_c = Ok (fmat 1 1 (fun _ _ => u)) /\ @psrcc exact_env (fvec 4 x2) quad g quad_c = Ok (fmat 1 1 (fun _ _ => v)) /\
  (g < 0 -> M < u - v) /\ (0 < g -> Rpower 300 g - 1 <= v - u).
Proof. exact quad_jump. Qed.
Print Assumptions C188_continuous_refuted.

(** default arguments: twice the level, the same coefficients *)
Example C188_gain_example : forall x, @psrcc exact_env (fvec 1000 (fun t => 2 * x t)) default_sargs (-1 / 7) default_cargs = @psrcc exact_env (fvec 1000 x) default_sargs (-1 / 7) default_cargs.
Proof. intros x. apply (C188_gain exact_env default_sargs default_cargs (-1 / 7) 1000 400 160 x 2); [apply default_framed; lia|reflexivity|lra]. Qed.
(** samples 1, 0, 0, 0 have phase 0, the same recording with the other polarity phase 180 *)
Example C188_polarity_example : @psrcc exact_env (fvec 4 (fun t => - quad_x 1 0 t)) quad (-1 / 7) quad_c = Ok (fmat 1 1 (fun _ _ => Rpower 180 (-1 / 7))).
Proof.
  destruct (C188_polarity exact_env quad quad_c (-1 / 7) 4 4 4 1 quad_b (quad_x 1 0)) as (P & P2 & HP & HP2 & R); try (simpl; lia); try (left; reflexivity); try reflexivity; try lra; [apply quad_framed|].
  cbv zeta in *. change (Z.to_nat (s_nfft quad)) with 4%nat in *. change (half (s_nfft quad)) with 2%nat in *. change (s_coeff quad) with 0 in *.
  assert (E1 : P2 0%nat 1%nat = 180).
  { destruct (quad_bin 1 0) as [E1 E2]. cbv zeta in E1, E2. specialize (HP 0%nat 1%nat). specialize (HP2 0%nat 1%nat). rewrite E1, E2 in *. pose proof (hamming_pos 0) as W.
    assert (Z : P 0%nat 1%nat = 0). { apply (phase_unique _ _ _ _ HP). replace (spec_window "hamming" 4 0 * 1) with (spec_window "hamming" 4 0) by ring. replace (- (spec_window "hamming" 4 1 * 0)) with 0 by ring. apply zero_phase, W. }
    rewrite Z in HP2. destruct HP2 as [HR [H|[H|[H _]]]]; lra. }
  assert (EB : forall j, bigsum 3 (fun k => P2 0%nat k * quad_b j k) = 180). { intros j. cbn [bigsum quad_b]. rewrite E1. ring. }
  rewrite R; [|intros i j Hi Hj; assert (i = 0%nat) by (change (frame_count 4 4 4) with 1%nat in Hi; lia); subst i; rewrite EB; lra].
  change (frame_count 4 4 4) with 1%nat. change (Nat.min (Z.to_nat (c_num_ceps quad_c)) 1) with 1%nat. change (c_dct_type quad_c) with 2%Z.
  f_equal. apply fmat_ext. intros i j Hi Hj. assert (i = 0%nat) by lia. assert (j = 0%nat) by lia. subst i j.
  rewrite (spec_dct_ext 2 1 _ (fun _ => Rpower 180 (-1 / 7))).
  - rewrite spec_dct2_const by lia. cbn [Nat.eqb INR]. rewrite sqrt_1. ring.
  - intros m _. rewrite EB. unfold spec_root. destruct (Req_EM_T 180 0); [lra|reflexivity].
Qed.
(** the samples -1, 0, 0, 0 have phase 180 in every bin; within 1/1000 of them the coefficient moves by at most 9 degrees *)
Example C188_rows_example : forall x2, apart 4 (1 / 1000) (quad_x (-1) 0) x2 -> exists v, @psrcc exact_env (fvec 4 x2) quad 1 quad_c = Ok (fmat 1 1 v) /\ Rabs (v 0%nat 0%nat - 180) <= 9.
Proof.
  intros x2 Hd. destruct (C188_rows exact_env quad quad_c 1 4 4 4 1 quad_b (quad_x (-1) 0) x2 (1 / 1000)) as (P & P2 & y & y2 & R & R2 & HP & HP2 & _ & S); try (simpl; lia); try (left; reflexivity); try reflexivity; try lra.
  { apply quad_framed. } { intros j k _ _. unfold quad_b. destruct k as [|[|k]]; lra. } { exact Hd. }
  cbv zeta in *. change (Z.to_nat (s_nfft quad)) with 4%nat in *. change (half (s_nfft quad)) with 2%nat in *. change (s_coeff quad) with 0 in *.
  change (frame_count 4 4 4) with 1%nat in *. change (Nat.min (Z.to_nat (c_num_ceps quad_c)) 1) with 1%nat in *. change (s_pre_emph quad) with false in *. change (INR 4) with (1 + 1 + 1 + 1) in *.
  assert (EB : forall Q j, bigsum 3 (fun k => Q 0%nat k * quad_b j k) = Q 0%nat 1%nat) by (intros Q j; cbn [bigsum quad_b]; ring).
  assert (EP : forall k, P 0%nat k = 180).
  { intros k. specialize (HP 0%nat k). apply (phase_unique _ _ _ _ HP). destruct (quad_flat k) as [-> ->]. apply half_turn. lra. }
  assert (Y : fmat 1 1 y = fmat 1 1 (fun _ _ => 180)).
  { pose proof (quad_value (-1) 0 1 180 ltac:(lra) ltac:(lra)) as V. rewrite R in V by (intros i j Hi Hj; assert (i = 0%nat) by lia; subst i; rewrite EB, EP; lra).
    assert (V2 : fmat 1 1 y = fmat 1 1 (fun _ _ => Rpower 180 1)).
    { apply Ok_inj, V. replace (spec_window "hamming" 4 0 * -1) with (- spec_window "hamming" 4 0) by ring. replace (- (spec_window "hamming" 4 1 * 0)) with 0 by ring. apply half_turn, hamming_pos. }
    rewrite Rpower_1 in V2 by lra. exact V2. }
  assert (Y0 : y 0%nat 0%nat = 180) by (apply (fmat_inj _ _ _ _ Y); lia).
  exists y2. split.
  - apply R2. intros i j Hi Hj. assert (i = 0%nat) by lia. subst i. rewrite EB. right. split; [apply (HP2 0%nat 1%nat)|lra].
  - assert (D : sqdist 1 (y2 0%nat) (y 0%nat) <= 81).
    { eapply Rle_trans; [apply (S 0%nat (8 / 100) 171)|].
      - lia. - lra. - lra.
      - intros k _. rewrite EP. split; [|lra]. unfold spec_mag, spec_sq. destruct (quad_flat k) as [-> ->]. replace ((- (8 / 100)) ^ 2 + 0 ^ 2) with ((8 / 100) ^ 2) by ring. rewrite sqrt_pow2; lra.
      - intros j _. rewrite EB, EP. cbn [bigsum quad_b]. lra.
      - cbn [bigsum quad_b]. replace (1 - 1) with 0 by ring. rewrite Rpower_O by lra. rewrite Rabs_R1. lra. }
    unfold sqdist in D. cbn [bigsum] in D. rewrite Y0 in D. apply Rsqr_incr_0_var; [|lra]. rewrite <- Rsqr_abs, Rsqr_pow2. unfold Rsqr. lra.
Qed.
Example C188_continuous_refuted_example : exists x x2 u v, x 0%nat = 1 /\ x2 0%nat = 1 /\ apart 4 (1 / 10 ^ 9) x x2 /\
  @psrcc exact_env (fvec 4 x) quad (-1 / 7) quad_c = Ok (fmat 1 1 (fun _ _ => u)) /\ @psrcc exact_env (fvec 4 x2) quad (-1 / 7) quad_c = Ok (fmat 1 1 (fun _ _ => v)) /\ 1000 < u - v.
Proof.
  destruct (C188_continuous_refuted 1 (-1 / 7) (1 / 10 ^ 9) 1000) as (x & x2 & u & v & H1 & H2 & H3 & H4 & H5 & H6 & _); try lra.
  exists x, x2, u, v. repeat split; try assumption. apply H6. lra.
Qed.
