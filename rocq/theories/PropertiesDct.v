(** * Property theorems: cosine transform, intensity-loudness law, phase features (C39, C73, C74, C80) *)
From Coq Require Import Reals ZArith List String Bool Lia Lra.
From Verif Require Import Base BaseFacts SpecBase SpecMat SpecFilters SpecBanks SpecFeatures BigSum MatFacts Preprocessing
  Fourier DctFacts Features Extractors FeaturesFacts FeaturesMore FeaturesLaws FeaturesPhase ExampleTools ExampleFeatures.
Import ListNotations.
Local Open Scope R_scope.

(** C39. The orthonormal DCT keeps the inner product of any two rows, in particular the
    sum of squares of each row. *)
Theorem C39_inner_products : forall type r N x, (1 <= type <= 4)%Z -> (0 < r)%nat -> (0 < N)%nat ->
  (type = 1%Z -> (2 <= N)%nat) ->
  exists y, sp_dct (fmat r N x) type = Ok (fmat r N y) /\
    forall i i', bigsum N (fun k => y i k * y i' k) = bigsum N (fun n => x i n * x i' n).
Proof.
  intros. eexists. split; [apply sp_dct_fmat; auto|]. intros. apply dct_inner; auto.
Qed.
Print Assumptions C39_inner_products.

(** C39. A constant row goes to coefficient 0 only. *)
Theorem C39_constant_row : forall r N c, (0 < r)%nat -> (0 < N)%nat ->
  sp_dct (fmat r N (fun i _ => c i)) 2
  = Ok (fmat r N (fun i k => if Nat.eqb k 0 then c i * sqrt (INR N) else 0)).
Proof.
  intros r N c Hr HN. rewrite sp_dct_fmat by (auto; lia). f_equal. apply fmat_ext. intros i k Hi Hk. apply spec_dct2_const. auto.
Qed.
Print Assumptions C39_constant_row.

(** C39. The DCT is linear. *)
Theorem C39_linear : forall type r N a b x y u v, (1 <= type <= 4)%Z -> (0 < r)%nat -> (0 < N)%nat ->
  (type = 1%Z -> (2 <= N)%nat) ->
  sp_dct (fmat r N x) type = Ok (fmat r N u) -> sp_dct (fmat r N y) type = Ok (fmat r N v) ->
  sp_dct (fmat r N (fun i n => a * x i n + b * y i n)) type = Ok (fmat r N (fun i k => a * u i k + b * v i k)).
Proof.
  intros type r N a b x y u v Ht Hr HN H1 Hu Hv. rewrite sp_dct_fmat in Hu, Hv |- * by auto.
  apply Ok_inj in Hu, Hv. f_equal. apply fmat_ext. intros i k Hi Hk. rewrite (spec_dct_linear type N a b).
  assert (Q : forall z w, fmat r N z = fmat r N w -> z i k = w i k).
  { intros z w E. apply (f_equal (fun m => nth k (nth i m []) NaN)) in E.
    rewrite !fmat_nth, !fvec_nth in E by auto. congruence. }
  rewrite (Q _ _ Hu), (Q _ _ Hv). auto.
Qed.
Print Assumptions C39_linear.
Example C39_linear_example : forall x u, sp_dct (fmat 2 5 x) 3 = Ok (fmat 2 5 u) ->
  sp_dct (fmat 2 5 (fun i n => 2 * x i n + -1 * x i n)) 3 = Ok (fmat 2 5 (fun i k => 2 * u i k + -1 * u i k)) /\
  exists y, sp_dct (fmat 2 5 x) 3 = Ok (fmat 2 5 y) /\ bigsum 5 (fun k => y 0%nat k * y 1%nat k) = bigsum 5 (fun n => x 0%nat n * x 1%nat n).
Proof.
  intros x u E. split; [apply C39_linear; auto; lia|].
  destruct (C39_inner_products 3 2 5 x) as (y & Ey & H); try lia. exists y. split; [exact Ey|apply H].
Qed.

(** C39. Nothing is lost: the transform of the other type restores the rows. *)
Theorem C39_invertible : forall t t' r N x, inverse_type t t' -> (t = 1%Z -> (2 <= N)%nat) -> (0 < r)%nat -> (0 < N)%nat ->
  (do y <- sp_dct (fmat r N x) t ; sp_dct y t') = Ok (fmat r N x).
Proof. exact sp_dct_inverse. Qed.
Print Assumptions C39_invertible.

(** a case: 24 log energies, all equal to 1 *)
Example C39_example :
  sp_dct (fmat 1 24 (fun _ _ => 1)) 2 = Ok (fmat 1 24 (fun _ k => if Nat.eqb k 0 then 1 * sqrt 24 else 0)) /\
  (do y <- sp_dct (fmat 1 24 (fun _ n => INR n)) 2 ; sp_dct y 3) = Ok (fmat 1 24 (fun _ n => INR n)).
Proof.
  split.
  - rewrite (C39_constant_row 1 24 (fun _ => 1)) by lia. replace (INR 24) with 24 by (simpl; lra). auto.
  - apply C39_invertible; unfold inverse_type; lia.
Qed.

(** C74. The intensity-loudness law of bfcc: even, finite, non-negative, zero only at zero. *)
Theorem C74_intensity_power_law : forall r c x, exists y,
  intensity_power_law (fmat r c x) = fmat r c y /\
  intensity_power_law (fmat r c (fun i j => - x i j)) = fmat r c y /\
  forall i j, 0 <= y i j /\ (y i j = 0 <-> x i j = 0).
Proof.
  intros r c x. exists (fun i j => spec_loudness (x i j)). unfold intensity_power_law.
  rewrite !(fmat_map r c _ ipl spec_loudness) by apply ipl_Fin. split; auto. split.
  - apply fmat_ext. intros i j _ _. unfold spec_loudness. replace ((- x i j) ^ 2) with (x i j ^ 2) by ring.
    replace ((- x i j) ^ 4) with (x i j ^ 4) by ring. replace ((- x i j) ^ 6) with (x i j ^ 6) by ring. auto.
  - intros i j. split; [apply spec_loudness_nonneg|]. unfold spec_loudness. rewrite spec_root_zero. apply loud_arg_zero.
Qed.
Print Assumptions C74_intensity_power_law.
Example C74_example : intensity_power_law [[Fin 0]] = [[Fin 0]].
Proof.
  destruct (C74_intensity_power_law 1 1 (fun _ _ => 0)) as (y & H & _ & Hy).
  change (fmat 1 1 (fun _ _ => 0)) with [[Fin 0]] in H. rewrite H. unfold fmat, fvec. cbn [seq map].
  rewrite (proj2 (proj2 (Hy 0%nat 0%nat))) by auto. auto.
Qed.

(** C73. The numbers psrcc weights with the filter bank are the phases of the DFT bins in
    [0, 360) degrees; while no band sum is zero (or the exponent is positive) the features
    are the cosine transform of the roots of the band sums. *)
Theorem C73_phases : forall `{Env} a c g N L hop n B x, g <> 0 ->
  well_framed a N L hop -> (1 <= s_nfft a)%Z -> (0 < n)%nat ->
  spectro_bank Mel a = Ok (fmat n (S (half (s_nfft a))) B) ->
  (0 <= c_num_ceps c <= s_nfilts a)%Z -> (1 <= c_dct_type c <= 4)%Z -> (c_dct_type c = 1%Z -> (2 <= n)%nat) ->
  c_use_energy c = false -> no_lifter c -> no_normalisation c ->
  exists P : nat -> nat -> R,
    (forall i k, let f := frame_of a (s_coeff a) L hop x i in
       is_phase (spec_re (Z.to_nat (s_nfft a)) L f k) (spec_im (Z.to_nat (s_nfft a)) L f k) (P i k)) /\
    let band i j := bigsum (S (half (s_nfft a))) (fun k => P i k * B j k) in
    ((forall i j, (i < frame_count N L hop)%nat -> (j < n)%nat -> 0 < band i j \/ (0 <= band i j /\ 0 < g)) ->
     psrcc (fvec N x) a g c
     = Ok (fmat (frame_count N L hop) (Nat.min (Z.to_nat (c_num_ceps c)) n)
            (fun i => spec_dct (c_dct_type c) n (fun j => spec_root g (band i j))))).
Proof.
  intros E a c g N L hop n B x Hg Hw Hn Hn0 HB Hc Ht Ht1 Hu Hl Hnm.
  destruct (psrcc_fvec a c g N L hop n B x Hg Hw Hn Hn0 HB ltac:(lia)) as (P & HP & H1 & _).
  exists P. split; auto. cbv zeta in *. intros Hb. rewrite H1 by auto.
  pose proof (frame_count_pos N L hop). rewrite finish_fmat by (auto; try lia; congruence). rewrite Hu. cbn [andb]. auto.
Qed.
Print Assumptions C73_phases.
Example C73_phases_example : forall x, exists y, @psrcc exact_env (fvec 1000 x) default_sargs 1 default_cargs = Ok (fmat 4 13 y).
Proof.
  intros x. destruct (@valid_band_bank exact_env Mfcc default_sargs 24 default_band) as (B & HB & HB0); [auto|simpl; lia|].
  destruct (@C73_phases exact_env default_sargs default_cargs 1 1000 400 160 24 B x) as (P & HP & E); auto;
    try lra; try (simpl; lia); try (left; reflexivity).
  - apply default_framed. lia.
  - eexists. apply E. intros i j _ Hj. right. split; [|lra]. apply bigsum_nonneg. intros k Hk.
    apply Rmult_le_pos; [apply (HP i k)|apply HB0; assumption].
Qed.

(** C73. No NaN reaches the DCT, whatever the windowed frames contain. *)
Theorem C73_no_nan : forall ws b nfft g f X, psrcc_features ws b nfft g = Ok (f, X) ->
  Forall (Forall (fun v => v <> NaN)) f.
Proof. exact psrcc_nonan. Qed.
Print Assumptions C73_no_nan.

(** a case: even for infinite samples *)
Example C73_example : exists f X,
  psrcc_features [[PInf; NInf]] [[f1; f1]] 2 (-1 / 7) = Ok (f, X) /\ Forall (Forall (fun v => v <> NaN)) f.
Proof.
  destruct (psrcc_features [[PInf; NInf]] [[f1; f1]] 2 (-1 / 7)) as [[f X]|e] eqn:E.
  - exists f, X. split; auto. eapply C73_no_nan. exact E.
  - exfalso. unfold psrcc_features, np_rfft, np_dot_T in E. cbn -[fsum fmul fdot wrap_phase angle_deg fpow fmax2] in E. discriminate.
Qed.

(** C80. Silence makes every psrcc coefficient infinite or NaN when the exponent is
    negative (the default is -1/7): replacing inf by the maximum is no repair. *)
Theorem C80_psrcc_silence : forall `{Env} a c g N L hop n B, g < 0 ->
  well_framed a N L hop -> (1 <= s_nfft a)%Z -> (0 < n)%nat ->
  spectro_bank Mel a = Ok (fmat n (S (half (s_nfft a))) B) ->
  (0 <= c_num_ceps c <= s_nfilts a)%Z -> (1 <= c_dct_type c <= 4)%Z -> (c_dct_type c = 1%Z -> (2 <= n)%nat) ->
  c_use_energy c = false -> no_lifter c -> no_normalisation c ->
  exists M, psrcc (fvec N (fun _ => 0)) a g c = Ok M /\ List.length M = frame_count N L hop /\
    forall i, (i < frame_count N L hop)%nat ->
      List.length (nth i M []) = Nat.min (Z.to_nat (c_num_ceps c)) n /\ nonfinite_row (nth i M []).
Proof. exact @psrcc_silence. Qed.
Print Assumptions C80_psrcc_silence.

(** a case: the default call on 1000 zeros *)
Example C80_example : exists M, @psrcc exact_env (fvec 1000 (fun _ => 0)) default_sargs (-1 / 7) default_cargs = Ok M /\
  List.length M = 4%nat /\ nonfinite_row (nth 3 M []).
Proof.
  destruct (@valid_band_bank exact_env Mfcc default_sargs 24 default_band) as (B & HB & _); [auto|simpl; lia|].
  destruct (@C80_psrcc_silence exact_env default_sargs default_cargs (-1 / 7) 1000 400 160 24 B) as (M & H1 & H2 & H3); auto;
    try lra; try (simpl; lia); try (left; reflexivity).
  - apply default_framed. lia.
  - exists M. change (frame_count 1000 400 160) with 4%nat in *. split; auto. split; auto. apply H3. lia.
Qed.
