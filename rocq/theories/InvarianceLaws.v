(** * Faint sounds, distances, zero padding and band edges: lemmas *)
From Coq Require Import Reals ZArith List String Bool Lia Lra Psatz.
From Verif Require Import Base BaseFacts Cplx SpecBase SpecMat SpecFilters SpecBanks SpecFeatures BigSum MatFacts
  Preprocessing PreprocessingFacts WindowFacts Filters MelBanks MelBanksFacts MelBanksMore Cepstral CepstralFacts Fourier DctFacts
  Features Extractors FeaturesFacts FeaturesMore FeaturesLaws FeaturesPhase SpecInvariance InvarianceFacts.
Import ListNotations.
Local Open Scope R_scope.

Lemma run_faint : forall `{Env} e a c N L hop n B x, In e [Mfcc; Imfcc; Lfcc; Ngcc] ->
  well_framed a N L hop -> (1 <= s_nfft a)%Z -> (0 < n)%nat ->
  extractor_bank e a = Ok (fmat n (S (half (s_nfft a))) B) ->
  (forall i j, (i < frame_count N L hop)%nat -> (j < n)%nat ->
     0 < spec_band (half (s_nfft a)) (Z.to_nat (s_nfft a)) L (frame_of a (extractor_coeff e a) L hop x i) (B j)) ->
  (0 < c_num_ceps c <= s_nfilts a)%Z -> c_dct_type c = 2%Z -> c_use_energy c = false ->
  no_lifter c -> no_normalisation c ->
  exists g0, 0 < g0 /\ forall g, 0 < Rabs g < g0 ->
  exists y z, run e (fvec N (fun t => g * x t)) a c = Ok (fmat (frame_count N L hop) (Nat.min (Z.to_nat (c_num_ceps c)) n) y) /\
    run e (fvec N (fun _ => 0)) a c = Ok (fmat (frame_count N L hop) (Nat.min (Z.to_nat (c_num_ceps c)) n) z) /\
    forall i, (i < frame_count N L hop)%nat -> y i 0%nat < z i 0%nat.
Proof.
  intros E e a c N L hop n B x He Hw Hn Hn0 HB Hpos Hc Hd Hu Hl Hnm.
  destruct (run_gain_log e a c N L hop n B x 1) as (y1 & Y1 & _); auto; try lra; try lia.
  set (K := bigsum (frame_count N L hop) (fun i => Rabs (y1 i 0%nat))).
  assert (Hs : 0 < sqrt (INR n)) by (apply sqrt_lt_R0, lt_0_INR; lia).
  set (l0 := (ln (/ 2 ^ 52) * sqrt (INR n) - K) / (2 * sqrt (INR n))).
  exists (exp l0). split; [apply exp_pos|]. intros g [G1 G2].
  assert (Hg : g <> 0) by (intros ->; rewrite Rabs_R0 in G1; lra).
  destruct (run_gain_log e a c N L hop n B x g) as (y & Yx & Yg); auto; try lia.
  rewrite Y1 in Yx. inversion Yx as [Ey].
  exists (fun i k => y i k + (if Nat.eqb k 0 then 2 * ln (Rabs g) * sqrt (INR n) else 0)).
  eexists. split; [exact Yg|]. split.
  - eapply run_silence_log; eauto; try lia. destruct He as [<-|[<-|[<-|[<-|[]]]]]; reflexivity.
  - intros i Hi. cbn [Nat.eqb].
    assert (Ei : y1 i 0%nat = y i 0%nat).
    { apply (fmat_inj _ _ _ _ Ey); auto. lia. }
    rewrite <- Ei.
    assert (Hk : y1 i 0%nat <= K).
    { eapply Rle_trans; [apply Rle_abs|]. unfold K. apply (bigsum_ge_term _ (fun i => Rabs (y1 i 0%nat))); auto. intros; apply Rabs_pos. }
    assert (Hlg : ln (Rabs g) < l0) by (rewrite <- (ln_exp l0); apply ln_increasing; auto).
    assert (2 * ln (Rabs g) * sqrt (INR n) < 2 * l0 * sqrt (INR n)) by nra.
    assert (2 * l0 * sqrt (INR n) = ln (/ 2 ^ 52) * sqrt (INR n) - K) by (unfold l0; field; lra).
    unfold spec_eps. lra.
Qed.

(** ** distances *)
Lemma dct_sqdist : forall type n u v, (1 <= type <= 4)%Z -> (type = 1%Z -> (2 <= n)%nat) ->
  sqdist n (spec_dct type n u) (spec_dct type n v) = sqdist n u v.
Proof.
  intros type n u v Ht H1. unfold sqdist.
  transitivity (bigsum n (fun k => (1 * u k + -1 * v k) * (1 * u k + -1 * v k))); [|apply bigsum_ext; intros; ring].
  rewrite <- (dct_inner type n (fun k => 1 * u k + -1 * v k) (fun k => 1 * u k + -1 * v k)) by auto.
  apply bigsum_ext. intros k Hk. rewrite spec_dct_linear. ring.
Qed.
Lemma sqdist_mono : forall m n u v, (m <= n)%nat -> sqdist m u v <= sqdist n u v.
Proof.
  intros m n u v H. unfold sqdist. induction H; [lra|]. rewrite bigsum_S. pose proof (pow2_ge_0 (u m0 - v m0)). lra.
Qed.
Lemma sqdist_zero : forall n u v, sqdist n u v = 0 <-> forall k, (k < n)%nat -> u k = v k.
Proof.
  intros n u v. split.
  - intros H k Hk. destruct (Req_dec (u k) (v k)) as [|Hne]; auto. exfalso.
    assert (0 < sqdist n u v); [|lra].
    apply (bigsum_pos n (fun k => (u k - v k) ^ 2) k); auto.
    + intros. apply pow2_ge_0.
    + rewrite <- Rsqr_pow2. apply Rsqr_pos_lt. lra.
  - intros H. unfold sqdist. rewrite (bigsum_ext n _ (fun _ => 0)).
    + apply bigsum_zero. auto.
    + intros k Hk. rewrite H by auto. ring.
Qed.

(** ** zero padding *)
Lemma angle_pad : forall n m t k, (0 < n)%nat -> (0 < m)%nat -> INR (t * (m * k)) / INR (m * n) = INR (t * k) / INR n.
Proof.
  intros. rewrite !mult_INR. field. split; apply not_0_INR; lia.
Qed.
Lemma spec_sq_pad : forall n m L f k, (0 < n)%nat -> (0 < m)%nat -> (L <= n)%nat ->
  spec_sq (m * n) L f (m * k) = spec_sq n L f k.
Proof.
  intros n m L f k Hn Hm HL. unfold spec_sq, spec_re, spec_im.
  rewrite !Nat.min_l by nia.
  f_equal; f_equal; apply bigsum_ext; intros t Ht; unfold Rdiv;
    rewrite !(Rmult_assoc (2 * PI)); fold (INR (t * (m * k)) / INR (m * n)); rewrite angle_pad by auto; reflexivity.
Qed.
Lemma half_mul : forall m n k, (1 <= n)%Z -> (1 <= m)%nat -> (k <= half n)%nat -> (m * k <= half (Z.of_nat m * n))%nat.
Proof.
  intros m n k Hn Hm Hk. unfold half in *. apply Nat2Z.inj_le. rewrite Z2Nat.id by (apply Z.div_pos; lia).
  apply Z.div_le_lower_bound; [lia|]. assert (0 <= n / 2)%Z by (apply Z.div_pos; lia). assert (Z.of_nat k <= n / 2)%Z by lia.
  assert (2 * (n / 2) <= n)%Z by (apply Z.mul_div_le; lia).
  rewrite Nat2Z.inj_mul. assert (Z.of_nat m * (2 * Z.of_nat k) <= Z.of_nat m * n)%Z by (apply Z.mul_le_mono_nonneg_l; lia). lia.
Qed.
Lemma spectrogram_pad : forall `{Env} s a N L hop n n' B B' x m,
  well_framed a N L hop -> (1 <= s_nfft a)%Z -> (0 < m)%nat -> (Z.of_nat L <= s_nfft a)%Z -> (0 < n)%nat -> (0 < n')%nat ->
  spectro_bank s a = Ok (fmat n (S (half (s_nfft a))) B) ->
  spectro_bank s (with_nfft a (Z.of_nat m * s_nfft a)) = Ok (fmat n' (S (half (Z.of_nat m * s_nfft a))) B') ->
  exists P Q P' Q',
    spectrogram s (fvec N x) a = Ok (fmat (frame_count N L hop) n P, fmat (frame_count N L hop) (S (half (s_nfft a))) Q) /\
    spectrogram s (fvec N x) (with_nfft a (Z.of_nat m * s_nfft a))
    = Ok (fmat (frame_count N L hop) n' P', fmat (frame_count N L hop) (S (half (Z.of_nat m * s_nfft a))) Q') /\
    forall i k, (i < frame_count N L hop)%nat -> (k <= half (s_nfft a))%nat ->
      (m * k <= half (Z.of_nat m * s_nfft a))%nat /\ Q' i (m * k)%nat = Q i k.
Proof.
  intros E s a N L hop n n' B B' x m Hw Hn Hm HL Hn0 Hn0' HB HB'.
  do 4 eexists. split; [apply spectrogram_fvec; eauto|]. split.
  - apply (spectrogram_fvec s (with_nfft a (Z.of_nat m * s_nfft a))); eauto. simpl. nia.
  - intros i k Hi Hk. split; [apply half_mul; auto; lia|]. cbn [with_nfft s_nfft]. unfold spec_mag. f_equal.
    replace (Z.to_nat (Z.of_nat m * s_nfft a)) with (m * Z.to_nat (s_nfft a))%nat by lia.
    apply spec_sq_pad; lia.
Qed.

(** ** the band edges and the linear filter bank *)
Lemma spec_tri_unit : forall low D q u, 0 < D -> 0 < q ->
  forall j, spec_tri (low + j * (D / q)) (low + (j + 1) * (D / q)) (low + (j + 2) * (D / q)) (low + u * D) = tent (u * q - j).
Proof.
  intros low D q u HD Hq j. unfold spec_tri, tent. f_equal. f_equal; field; lra.
Qed.
Lemma lin_bank_unit : forall low high n h scale j k, low < high ->
  spec_bank lin_scale low high n h scale j k = spec_scale scale n j * tent (INR k / INR h * INR (n + 1) - INR j).
Proof.
  intros low high n h scale j k Hlh. unfold spec_bank, spec_point, spec_level, spec_col, lin_scale. cbn [fwd bwd]. f_equal.
  rewrite !(plus_INR j). change (INR 1) with 1. replace (INR 2) with 2 by (simpl; ring).
  replace (INR k * ((high - low) / INR h)) with (INR k / INR h * (high - low)) by (unfold Rdiv; ring).
  apply spec_tri_unit; [lra|]. apply lt_0_INR. lia.
Qed.
Lemma lin_bank_any_band : forall n nfft fs low high scale, In scale scale_names -> usable_band fs low high -> (0 <= nfft)%Z ->
  exists c, linear_filter_banks (Z.of_nat n) nfft fs low high scale
  = Ok (fmat n (S (half nfft)) (fun j k => spec_scale scale n j * tent (INR k / INR (half nfft) * INR (n + 1) - INR j)), c).
Proof.
  intros n nfft fs low high scale Hs (h & Hh & Hlow & Hhi) Hn. apply spec_high_or in Hh. subst h.
  eexists. rewrite lin_bank_eq by (auto; lra). do 2 f_equal. apply fmat_ext. intros. apply lin_bank_unit. lra.
Qed.
Lemma linear_band : forall `{Env} a low high n, s_fbanks a = None -> In (s_scale a) scale_names -> s_nfilts a = Z.of_nat n -> (0 <= s_nfft a)%Z ->
  usable_band (s_fs a) (s_low a) (s_high a) -> usable_band (s_fs a) low high ->
  spectro_bank Linear (with_band a low high) = spectro_bank Linear a.
Proof.
  intros E a low high n Hb Hs Hn Hf U1 U2. unfold spectro_bank. cbn [with_band s_fbanks s_nfilts s_nfft s_fs s_low s_high s_scale].
  rewrite Hb, Hn. destruct (lin_bank_any_band n (s_nfft a) _ _ _ _ Hs U1 Hf) as [c1 ->].
  destruct (lin_bank_any_band n (s_nfft a) _ _ _ _ Hs U2 Hf) as [c2 ->]. reflexivity.
Qed.
Lemma lfcc_band : forall `{Env} sig a c low high n, s_fbanks a = None -> In (s_scale a) scale_names -> s_nfilts a = Z.of_nat n -> (0 <= s_nfft a)%Z ->
  usable_band (s_fs a) (s_low a) (s_high a) -> usable_band (s_fs a) low high ->
  spectrogram Linear sig (with_band a low high) = spectrogram Linear sig a /\
  run Lfcc sig (with_band a low high) c = run Lfcc sig a c.
Proof.
  intros E sig a c low high n Hb Hs Hn Hf U1 U2. split.
  - rewrite !spectrogram_gram, (linear_band a low high n) by auto. reflexivity.
  - rewrite !run_cep. unfold cep. cbn [extractor_bank]. rewrite (linear_band a low high n) by auto. reflexivity.
Qed.

(** ** the mel bank depends on the band, but not on the sampling rate *)
Lemma mel_bank_fs : forall nfilts nfft fs fs2 low h scale approach, h <> 0 -> h <= IZR fs / 2 -> h <= IZR fs2 / 2 ->
  mel_filter_banks nfilts nfft fs low (Some h) scale approach = mel_filter_banks nfilts nfft fs2 low (Some h) scale approach /\
  inverse_mel_filter_banks nfilts nfft fs low (Some h) scale approach
  = inverse_mel_filter_banks nfilts nfft fs2 low (Some h) scale approach.
Proof.
  intros nfilts nfft fs fs2 low h scale approach H0 H1 H2.
  assert (E : forall sc, mel_filter_banks_helper nfilts nfft fs low (Some h) sc "mel" approach
                       = mel_filter_banks_helper nfilts nfft fs2 low (Some h) sc "mel" approach).
  { intros sc. unfold mel_filter_banks_helper, or_half. destruct (Req_EM_T h 0) as [Eh|_]; [contradiction|].
    rewrite !(Rltb_false _ h) by lra. reflexivity. }
  split; [apply E|]. unfold inverse_mel_filter_banks. destruct (inverse_scale scale) as [sc|]; cbn [rbind]; [rewrite E|]; reflexivity.
Qed.
Lemma mel_mid : forall q, 1 < q ->
  spec_bank oshaghnessy 0 (700 * (q * q - 1)) 1 2 "constant" 0 1 = (q + 1) / (2 * q).
Proof.
  intros q Hq. assert (L10 : 0 < ln 10) by (rewrite <- ln_1; apply ln_increasing; lra).
  assert (Lq : ln (q * q) = 2 * ln q) by (rewrite ln_mult by lra; ring).
  unfold spec_bank. change (0 + 1)%nat with 1%nat. change (0 + 2)%nat with 2%nat.
  assert (P : forall i, spec_point oshaghnessy 0 (700 * (q * q - 1)) 1 i = 700 * (exp (INR i * ln q) - 1)).
  { intros i. unfold spec_point, spec_level, oshaghnessy. cbn [fwd bwd]. f_equal. f_equal. unfold Rpower. f_equal.
    replace (1 + 700 * (q * q - 1) / 700) with (q * q) by field. replace (1 + 0 / 700) with 1 by field. rewrite ln_1, Lq.
    simpl (INR (1 + 1)). field. lra. }
  rewrite !P. change (INR 0) with 0. change (INR 1) with 1. replace (INR 2) with 2 by (simpl; ring).
  replace (0 * ln q) with 0 by ring. replace (1 * ln q) with (ln q) by ring. rewrite exp_0, exp_ln by lra.
  replace (2 * ln q) with (ln (q * q)) by auto. rewrite exp_ln by nra.
  unfold spec_scale, spec_col. cbn. rewrite tri_right; try nra. field. nra.
Qed.

(** ** distances between the cepstra of two frames *)
Lemma run_distance : forall `{Env} e a c N L hop n B x x2,
  well_framed a N L hop -> (1 <= s_nfft a)%Z -> (0 < n)%nat ->
  extractor_bank e a = Ok (fmat n (S (half (s_nfft a))) B) ->
  let band z i j := spec_band (half (s_nfft a)) (Z.to_nat (s_nfft a)) L (frame_of a (extractor_coeff e a) L hop z i) (B j) in
  (forall i j, (i < frame_count N L hop)%nat -> (j < n)%nat -> compressible e (band x i j) /\ compressible e (band x2 i j)) ->
  (0 <= c_num_ceps c <= s_nfilts a)%Z ->
  (1 <= c_dct_type c <= 4)%Z -> (c_dct_type c = 1%Z -> (2 <= n)%nat) ->
  c_use_energy c = false -> no_lifter c -> no_normalisation c ->
  let K := Nat.min (Z.to_nat (c_num_ceps c)) n in
  exists y y2, run e (fvec N x) a c = Ok (fmat (frame_count N L hop) K y) /\
    run e (fvec N x2) a c = Ok (fmat (frame_count N L hop) K y2) /\
    forall i i2, 
      let d := sqdist n (fun j => compression e (band x i j)) (fun j => compression e (band x2 i2 j)) in
      sqdist K (y i) (y2 i2) <= d /\ (Z.of_nat n <= c_num_ceps c -> sqdist K (y i) (y2 i2) = d)%Z.
Proof.
  intros E e a c N L hop n B x x2 Hw Hn Hn0 HB band Hc Hnc Ht H1 Hu Hl Hnm K.
  do 2 eexists. split; [|split].
  - apply run_fvec with (B := B); auto; try lia. intros; apply Hc; auto. rewrite Hu. discriminate.
  - apply run_fvec with (B := B); auto; try lia. intros; apply Hc; auto. rewrite Hu. discriminate.
  - intros i i2 d. rewrite Hu. cbn [andb].
    match goal with |- sqdist K ?u ?v <= d /\ _ => set (f := u); set (g := v) end.
    assert (D : sqdist n f g = d) by (apply dct_sqdist; auto).
    split.
    + rewrite <- D. apply sqdist_mono. unfold K. lia.
    + intros Hfull. unfold K. rewrite Nat.min_r by lia. exact D.
Qed.
