(** * Properties of the features of two similar recordings: quantisation, dither, additive noise *)
From Coq Require Import Reals ZArith List String Bool Lia Lra.
From Coquelicot Require Rcomplements.
From Verif Require Import Base BaseFacts SpecBase BigSum Preprocessing SpecMat MatFacts SpecFilters SpecBanks SpecFeatures DctFacts MelBanksMore Features
  Extractors FeaturesFacts FeaturesMore FeaturesLaws FeaturesPhase ExampleFeatures SpecInvariance SpecNoise NoiseFacts PropertiesMelBanks.
Import ListNotations.
Local Open Scope R_scope.

(** ** C168: two recordings whose samples differ by at most d *)

(** the roots of the entries of a spectrogram differ by at most sqrt(b*L)*(1+|coefficient|)*d, whatever
    the recordings are, b the largest entry of the bank and L the frame length; the magnitudes by
    L*(1+|coefficient|)*d *)
Theorem C168_spectrogram : forall (E : Env) s a N L hop n B b x x2 d,
  @well_framed E a N L hop -> (1 <= s_nfft a)%Z -> (0 < n)%nat ->
  @spectro_bank E s a = Ok (fmat n (S (half (s_nfft a))) B) ->
  (forall j k, (j < n)%nat -> (k <= half (s_nfft a))%nat -> 0 <= B j k <= b) -> apart N d x x2 ->
  exists P Q P2 Q2,
    @spectrogram E s (fvec N x) a = Ok (fmat (frame_count N L hop) n P, fmat (frame_count N L hop) (S (half (s_nfft a))) Q) /\
    @spectrogram E s (fvec N x2) a = Ok (fmat (frame_count N L hop) n P2, fmat (frame_count N L hop) (S (half (s_nfft a))) Q2) /\
    forall i, (i < frame_count N L hop)%nat ->
      (forall j, (j < n)%nat -> Rabs (sqrt (P2 i j) - sqrt (P i j)) <= noise_level (s_pre_emph a) (spectro_coeff s a) b L d) /\
      (forall k, Rabs (Q2 i k - Q i k) <= INR L * ((if s_pre_emph a then 1 + Rabs (spectro_coeff s a) else 1) * d)).
Proof. exact spectrogram_apart. Qed.
Print Assumptions C168_spectrogram.

(** mfcc, imfcc, lfcc, ngcc: rows stay close where the root of every band energy exceeds the level q of
    the difference; r is the ratio *)
Theorem C168_log : forall (E : Env) e a c N L hop n B b x x2 d,
  @well_framed E a N L hop -> (1 <= s_nfft a)%Z -> (0 < n)%nat ->
  @extractor_bank E e a = Ok (fmat n (S (half (s_nfft a))) B) ->
  (forall j k, (j < n)%nat -> (k <= half (s_nfft a))%nat -> 0 <= B j k <= b) -> apart N d x x2 ->
  (0 <= c_num_ceps c <= s_nfilts a)%Z -> (1 <= c_dct_type c <= 4)%Z -> (c_dct_type c = 1%Z -> (2 <= n)%nat) ->
  no_lifter c -> no_normalisation c ->
  let K := Nat.min (Z.to_nat (c_num_ceps c)) n in
  let band z i j := spec_band (half (s_nfft a)) (Z.to_nat (s_nfft a)) L (frame_of a (extractor_coeff e a) L hop z i) (B j) in
  let q := noise_level (s_pre_emph a) (extractor_coeff e a) b L d in
  In e [Mfcc; Imfcc; Lfcc; Ngcc] -> c_use_energy c = false ->
  exists y y2, @run E e (fvec N x) a c = Ok (fmat (frame_count N L hop) K y) /\ @run E e (fvec N x2) a c = Ok (fmat (frame_count N L hop) K y2) /\
    forall i r, (i < frame_count N L hop)%nat -> 0 <= r < 1 -> (forall j, (j < n)%nat -> 0 < band x i j /\ q <= r * sqrt (band x i j)) ->
      sqdist K (y i) (y2 i) <= INR n * (2 * - ln (1 - r)) ^ 2.
Proof. intros. eapply log_apart; eassumption. Qed.
Print Assumptions C168_log.

(** bfcc *)
Theorem C168_bfcc : forall (E : Env) e a c N L hop n B b x x2 d,
  @well_framed E a N L hop -> (1 <= s_nfft a)%Z -> (0 < n)%nat ->
  @extractor_bank E e a = Ok (fmat n (S (half (s_nfft a))) B) ->
  (forall j k, (j < n)%nat -> (k <= half (s_nfft a))%nat -> 0 <= B j k <= b) -> apart N d x x2 ->
  (0 <= c_num_ceps c <= s_nfilts a)%Z -> (1 <= c_dct_type c <= 4)%Z -> (c_dct_type c = 1%Z -> (2 <= n)%nat) ->
  no_lifter c -> no_normalisation c ->
  let K := Nat.min (Z.to_nat (c_num_ceps c)) n in
  let band z i j := spec_band (half (s_nfft a)) (Z.to_nat (s_nfft a)) L (frame_of a (extractor_coeff e a) L hop z i) (B j) in
  let q := noise_level (s_pre_emph a) (extractor_coeff e a) b L d in
  e = Bfcc -> c_use_energy c = false ->
  exists y y2, @run E e (fvec N x) a c = Ok (fmat (frame_count N L hop) K y) /\ @run E e (fvec N x2) a c = Ok (fmat (frame_count N L hop) K y2) /\
    forall i r, (i < frame_count N L hop)%nat -> 0 <= r < 1 -> (forall j, (j < n)%nat -> 0 < band x i j /\ q <= r * sqrt (band x i j)) ->
      sqdist K (y i) (y2 i) <= INR n * (32 / 3 * - ln (1 - r)) ^ 2.
Proof. intros. eapply bfcc_apart; eassumption. Qed.
Print Assumptions C168_bfcc.

(** gfcc, and msrcc with 0 < gamma <= 1/2: no condition on the level of the bands *)
Theorem C168_root : forall (E : Env) e p a c N L hop n B b x x2 d,
  @well_framed E a N L hop -> (1 <= s_nfft a)%Z -> (0 < n)%nat ->
  @extractor_bank E e a = Ok (fmat n (S (half (s_nfft a))) B) ->
  (forall j k, (j < n)%nat -> (k <= half (s_nfft a))%nat -> 0 <= B j k <= b) -> apart N d x x2 ->
  (0 <= c_num_ceps c <= s_nfilts a)%Z -> (1 <= c_dct_type c <= 4)%Z -> (c_dct_type c = 1%Z -> (2 <= n)%nat) ->
  no_lifter c -> no_normalisation c ->
  let K := Nat.min (Z.to_nat (c_num_ceps c)) n in
  let band z i j := spec_band (half (s_nfft a)) (Z.to_nat (s_nfft a)) L (frame_of a (extractor_coeff e a) L hop z i) (B j) in
  let q := noise_level (s_pre_emph a) (extractor_coeff e a) b L d in
  root_exponent e p -> 0 < p <= / 2 -> c_use_energy c = false ->
  exists y y2, @run E e (fvec N x) a c = Ok (fmat (frame_count N L hop) K y) /\ @run E e (fvec N x2) a c = Ok (fmat (frame_count N L hop) K y2) /\
    forall i, (i < frame_count N L hop)%nat -> sqdist K (y i) (y2 i) <= INR n * spec_root (2 * p) q ^ 2.
Proof. intros. eapply roots_apart; eassumption. Qed.
Print Assumptions C168_root.

(** use_energy=True: the first column *)
Theorem C168_energy : forall (E : Env) e a c N L hop n B x x2 d,
  @well_framed E a N L hop -> (1 <= s_nfft a)%Z -> (0 < n)%nat ->
  @extractor_bank E e a = Ok (fmat n (S (half (s_nfft a))) B) ->
  apart N d x x2 ->
  (0 <= c_num_ceps c <= s_nfilts a)%Z -> (1 <= c_dct_type c <= 4)%Z -> (c_dct_type c = 1%Z -> (2 <= n)%nat) ->
  no_lifter c -> no_normalisation c ->
  let K := Nat.min (Z.to_nat (c_num_ceps c)) n in
  let band z i j := spec_band (half (s_nfft a)) (Z.to_nat (s_nfft a)) L (frame_of a (extractor_coeff e a) L hop z i) (B j) in
  c_use_energy c = true -> (0 < c_num_ceps c)%Z -> (forall z i j, (j < n)%nat -> compressible e (band z i j)) ->
  exists y y2, @run E e (fvec N x) a c = Ok (fmat (frame_count N L hop) K y) /\ @run E e (fvec N x2) a c = Ok (fmat (frame_count N L hop) K y2) /\
    forall i r, (i < frame_count N L hop)%nat -> 0 <= r < 1 ->
      let total := spec_total (half (s_nfft a)) (Z.to_nat (s_nfft a)) L (frame_of a (extractor_coeff e a) L hop x i) in
      0 < total -> noise_level (s_pre_emph a) (extractor_coeff e a) 1 L d <= r * sqrt total ->
      Rabs (y2 i 0%nat - y i 0%nat) <= 2 * - ln (1 - r).
Proof. intros. eapply energy_apart; eassumption. Qed.
Print Assumptions C168_energy.

(** without a condition on the level: no difference of samples is so small that it bounds the difference
    of logarithmic features (near silence the least noise decides) *)
Theorem C168_log_refuted : ~ exists d D, 0 < d /\ forall (E : Env) a c N x x2 r k y y2, apart N d x x2 ->
  @mfcc E (fvec N x) a c = Ok (fmat r k y) -> @mfcc E (fvec N x2) a c = Ok (fmat r k y2) ->
  forall i j, (i < r)%nat -> (j < k)%nat -> Rabs (y2 i j - y i j) <= D.
Proof.
  intros (d & D & Hd & H). set (g := Rmin d (exp (- (Rabs D + 100)))).
  assert (G : 0 < g <= d /\ ln g <= - (Rabs D + 100)).
  { unfold g. pose proof (exp_pos (- (Rabs D + 100))). split; [split; [apply Rmin_glb_lt; assumption|apply Rmin_l]|].
    rewrite <- (ln_exp (- (Rabs D + 100))) at 2. apply Rcomplements.ln_le; [apply Rmin_glb_lt; assumption|apply Rmin_r]. }
  assert (Fr := @tiny_framed exact_env 0 eq_refl).
  assert (Bk : @extractor_bank exact_env Mfcc (tiny 0) = Ok (fmat 1 (S (half (s_nfft (tiny 0)))) (fun _ _ => 1))) by reflexivity.
  assert (S0 := @run_silence_log exact_env Mfcc (tiny 0) tiny_c 2 1 1 1 (fun _ _ => 1) eq_refl Fr ltac:(simpl; lia) ltac:(lia) Bk
    ltac:(simpl; lia) eq_refl eq_refl (or_introl eq_refl) (or_introl eq_refl)).
  assert (P : forall i j, (i < frame_count 2 1 1)%nat -> (j < 1)%nat ->
    0 < spec_band (half (s_nfft (tiny 0))) (Z.to_nat (s_nfft (tiny 0))) 1 (frame_of (tiny 0) (extractor_coeff Mfcc (tiny 0)) 1 1 (fun _ => 1) i) ((fun _ _ => 1) j)).
  { intros i j _ _. change (half (s_nfft (tiny 0))) with 0%nat. change (Z.to_nat (s_nfft (tiny 0))) with 1%nat. rewrite (tiny_band 0).
    destruct i; cbn [spec_pre]; lra. }
  destruct (@run_gain_log exact_env Mfcc (tiny 0) tiny_c 2 1 1 1 (fun _ _ => 1) (fun _ => 1) g (or_introl eq_refl) ltac:(lra) Fr ltac:(simpl; lia) ltac:(lia) Bk P
    ltac:(simpl; lia) eq_refl eq_refl (or_introl eq_refl) (or_introl eq_refl)) as (y & Y & Yg).
  assert (Y0 : y 0%nat 0%nat = 0).
  { rewrite (@run_fvec exact_env Mfcc (tiny 0) tiny_c 2 1 1 1 (fun _ _ => 1) (fun _ => 1) Fr) in Y; auto; try (simpl; lia); try (left; reflexivity).
    - apply Ok_inj in Y. rewrite <- (fmat_inj _ _ _ _ Y 0%nat 0%nat ltac:(cbn; lia) ltac:(cbn; lia)). cbn [tiny_c c_use_energy c_dct_type andb]. rewrite dct_1.
      change (half (s_nfft (tiny 0))) with 0%nat. change (Z.to_nat (s_nfft (tiny 0))) with 1%nat. rewrite (tiny_band 0). cbn [compression spec_pre].
      unfold spec_log. destruct (Req_EM_T (1 ^ 2 * 1) 0); [lra|]. replace (1 ^ 2 * 1) with 1 by ring. apply ln_1.
    - intros i j Hi Hj. specialize (P i j Hi Hj). left. exact P. }
  assert (A : apart 2 d (fun _ => 0) (fun t => g * 1)).
  { intros t _. rewrite Rminus_0_r, Rmult_1_r, Rabs_pos_eq; lra. }
  specialize (H exact_env (tiny 0) tiny_c 2%nat _ _ _ _ _ _ A S0 Yg 0%nat 0%nat ltac:(cbn; lia) ltac:(cbn; lia)). cbv beta in H. cbn [Nat.eqb] in H.
  rewrite Y0, (Rabs_pos_eq g), Rplus_0_l in H by lra. change (INR 1) with 1 in H. rewrite sqrt_1, !Rmult_1_r in H.
  assert (Ep : - 52 <= ln spec_eps).
  { unfold spec_eps. rewrite ln_Rinv, ln_pow by lra. replace (INR 52) with 52 by (rewrite INR_IZR_INZ; reflexivity).
    assert (ln 2 <= 1) by (rewrite <- (ln_exp 1); apply Rcomplements.ln_le; [lra|]; pose proof (exp_ineq1_le 1); lra). lra. }
  apply Rcomplements.Rabs_le_between in H. pose proof (Rle_abs D). lra.
Qed.
Print Assumptions C168_log_refuted.

(** ** cases *)

(** rounding the samples to 16 bits (steps of 2^-15) changes the root of no entry of the default mel spectrogram by
    more than 0.001 and no magnitude by more than 0.02 *)
Example C168_spectrogram_example : forall x x2, apart 1000 (/ 2 ^ 16) x x2 -> exists P Q P2 Q2,
  @mel_spectrogram exact_env (fvec 1000 x) default_sargs = Ok (fmat 4 24 P, fmat 4 257 Q) /\
  @mel_spectrogram exact_env (fvec 1000 x2) default_sargs = Ok (fmat 4 24 P2, fmat 4 257 Q2) /\
  forall i, (i < 4)%nat -> (forall j, (j < 24)%nat -> Rabs (sqrt (P2 i j) - sqrt (P i j)) <= 0.001) /\ (forall k, Rabs (Q2 i k - Q i k) <= 0.02).
Proof.
  intros x x2 Hx.
  destruct (C17_mel_triangles 24 512 16000 0 None 8000 "constant" "Oshaghnessy" oshaghnessy) as ((cc & HB) & HR & _);
    [left; auto|simpl; tauto|right; split; auto; lra|lra|lra|lra|lia|].
  destruct (C168_spectrogram exact_env Mel default_sargs 1000 400 160 24 (spec_bank oshaghnessy 0 8000 24 (half 512) "constant") 1 x x2 (/ 2 ^ 16))
    as (P & Q & P2 & Q2 & H1 & H2 & H3).
  - apply default_framed. lia.
  - simpl; lia.
  - lia.
  - unfold spectro_bank, default_sargs. cbn [s_fbanks s_nfilts s_nfft s_fs s_low s_high s_scale s_approach].
    change 24%Z with (Z.of_nat 24). rewrite HB. reflexivity.
  - intros j k Hj _. apply HR, Hj.
  - exact Hx.
  - exists P, Q, P2, Q2. split; [exact H1|]. split; [exact H2|]. intros i Hi. destruct (H3 i Hi) as [H4 H5].
    unfold noise_level in H4. cbn [spectro_coeff default_sargs s_coeff s_pre_emph] in H4, H5. rewrite (Rabs_pos_eq 0.97) in H4, H5 by lra.
    replace (INR 400) with 400 in H4, H5 by (rewrite INR_IZR_INZ; reflexivity). replace (1 * 400) with (20 ^ 2) in H4 by lra. rewrite sqrt_pow2 in H4 by lra.
    split; [intros j Hj; specialize (H4 j Hj); lra|intros k; specialize (H5 k); lra].
Qed.
(** frames of one sample, pre-emphasis with coefficient 1, the recording (1, 3): band energies 1 and 4 *)
Definition two (t : nat) : R := match t with O => 1 | _ => 3 end.
Lemma two_band : forall i, (i < 2)%nat -> 1 <= spec_band 0 1 1 (frame_of (tiny 1) 1 1 1 two i) (fun _ => 1).
Proof. intros i Hi. rewrite tiny_band. destruct i as [|[|i]]; cbn [spec_pre two]; try lia; lra. Qed.
Lemma above_one : forall v, 1 <= v -> 1 <= sqrt v.
Proof. intros v H. rewrite <- sqrt_1. apply sqrt_le_1_alt. exact H. Qed.
Lemma two_level : forall b, b = 1 -> noise_level true 1 b 1 (/ 100) = 0.02.
Proof. intros b ->. unfold noise_level. change (INR 1) with 1. rewrite Rmult_1_r, sqrt_1, Rabs_pos_eq by lra. lra. Qed.
Lemma two_log : 0 <= - ln (1 - 0.02) <= 0.0205.
Proof.
  split.
  - assert (ln (1 - 0.02) < 0) by (rewrite <- ln_1; apply ln_increasing; lra). lra.
  - rewrite <- ln_Rinv by lra. rewrite <- (ln_exp 0.0205). apply Rcomplements.ln_le; [lra|]. pose proof (exp_ineq1_le 0.0205). lra.
Qed.
(** changed by at most 0.01, the mfcc rows change by less than 0.045 *)
Example C168_log_example : forall x2, apart 2 (/ 100) two x2 -> exists y y2,
  @mfcc exact_env (fvec 2 two) (tiny 1) tiny_c = Ok (fmat 2 1 y) /\ @mfcc exact_env (fvec 2 x2) (tiny 1) tiny_c = Ok (fmat 2 1 y2) /\
  forall i, (i < 2)%nat -> sqdist 1 (y i) (y2 i) <= 0.045 ^ 2.
Proof.
  intros x2 H. destruct (C168_log exact_env Mfcc (tiny 1) tiny_c 2 1 1 1 (fun _ _ => 1) 1 two x2 (/ 100)) as (y & y2 & Y & Y2 & D);
    try (simpl; lia); try (left; reflexivity); try reflexivity; auto.
  - apply tiny_framed. reflexivity.
  - intros. lra.
  - exists y, y2. split; [exact Y|]. split; [exact Y2|]. intros i Hi. eapply Rle_trans; [apply (D i 0.02 Hi ltac:(lra))|].
    + intros j _. change (half (s_nfft (tiny 1))) with 0%nat. change (Z.to_nat (s_nfft (tiny 1))) with 1%nat. cbn [extractor_coeff]. change (s_coeff (tiny 1)) with 1.
      change (s_pre_emph (tiny 1)) with true. rewrite two_level by reflexivity. pose proof (two_band i Hi) as B.
      assert (1 <= sqrt (spec_band 0 1 1 (frame_of (tiny 1) 1 1 1 two i) (fun _ => 1))) by (apply above_one; exact B). lra.
    + change (INR 1) with 1. pose proof two_log as L. rewrite Rmult_1_l. apply pow_incr. lra.
Qed.
(** bfcc of the same recordings (its coefficient is 0.97): by less than 0.23 *)
Example C168_bfcc_example : forall x2, apart 2 (/ 100) two x2 -> exists y y2,
  @bfcc exact_env (fvec 2 two) (tiny 1) tiny_c = Ok (fmat 2 1 y) /\ @bfcc exact_env (fvec 2 x2) (tiny 1) tiny_c = Ok (fmat 2 1 y2) /\
  forall i, (i < 2)%nat -> sqdist 1 (y i) (y2 i) <= 0.23 ^ 2.
Proof.
  intros x2 H. destruct (C168_bfcc exact_env Bfcc (tiny 1) tiny_c 2 1 1 1 (fun _ _ => 1) 1 two x2 (/ 100)) as (y & y2 & Y & Y2 & D);
    try (simpl; lia); try (left; reflexivity); try reflexivity; auto.
  - apply tiny_framed. reflexivity.
  - intros. lra.
  - exists y, y2. split; [exact Y|]. split; [exact Y2|]. intros i Hi. eapply Rle_trans; [apply (D i 0.02 Hi ltac:(lra))|].
    + intros j _. change (half (s_nfft (tiny 1))) with 0%nat. change (Z.to_nat (s_nfft (tiny 1))) with 1%nat. cbn [extractor_coeff].
      change (frame_of (tiny 1) 0.97 1 1 two i) with (frame_of (tiny 0.97) 0.97 1 1 two i).
      change (s_pre_emph (tiny 1)) with true.
      assert (B : 1 <= spec_band 0 1 1 (frame_of (tiny 0.97) 0.97 1 1 two i) (fun _ => 1)) by (rewrite tiny_band; destruct i as [|[|i]]; cbn [spec_pre two]; try lia; lra).
      assert (1 <= sqrt (spec_band 0 1 1 (frame_of (tiny 0.97) 0.97 1 1 two i) (fun _ => 1))) by (apply above_one; exact B).
      assert (noise_level true 0.97 1 1 (/ 100) <= 0.02).
      { unfold noise_level. change (INR 1) with 1. rewrite Rmult_1_r, sqrt_1, Rabs_pos_eq by lra. lra. }
      lra.
    + change (INR 1) with 1. pose proof two_log as L. rewrite Rmult_1_l. apply pow_incr. lra.
Qed.
(** msrcc with gamma 1/2, any two recordings that differ by at most 0.01: the rows differ by at most 0.02 *)
Example C168_root_example : forall x x2, apart 2 (/ 100) x x2 -> exists y y2,
  @msrcc exact_env (fvec 2 x) (tiny 1) (1 / 2) tiny_c = Ok (fmat 2 1 y) /\ @msrcc exact_env (fvec 2 x2) (tiny 1) (1 / 2) tiny_c = Ok (fmat 2 1 y2) /\
  forall i, (i < 2)%nat -> sqdist 1 (y i) (y2 i) <= 0.02 ^ 2.
Proof.
  intros x x2 H. destruct (C168_root exact_env (Msrcc (1 / 2)) (1 / 2) (tiny 1) tiny_c 2 1 1 1 (fun _ _ => 1) 1 x x2 (/ 100)) as (y & y2 & Y & Y2 & D);
    try (simpl; lia); try (left; reflexivity); try reflexivity; auto; try lra.
  - apply tiny_framed. reflexivity.
  - intros. lra.
  - right. split; [reflexivity|lra].
  - exists y, y2. split; [exact Y|]. split; [exact Y2|]. intros i Hi. eapply Rle_trans; [apply (D i Hi)|]. cbn [extractor_coeff].
    change (s_pre_emph (tiny 1)) with true. change (s_coeff (tiny 1)) with 1. rewrite two_level by reflexivity.
    unfold spec_root. destruct (Req_EM_T 0.02 0); [lra|]. replace (2 * (1 / 2)) with 1 by lra. rewrite Rpower_1 by lra. change (INR 1) with 1. lra.
Qed.
(** the log energy of (1, 3) changes by less than 0.045 *)
Example C168_energy_example : forall x2, apart 2 (/ 100) two x2 -> exists y y2,
  @mfcc exact_env (fvec 2 two) (tiny 1) (with_energy tiny_c true) = Ok (fmat 2 1 y) /\
  @mfcc exact_env (fvec 2 x2) (tiny 1) (with_energy tiny_c true) = Ok (fmat 2 1 y2) /\
  forall i, (i < 2)%nat -> Rabs (y2 i 0%nat - y i 0%nat) <= 0.045.
Proof.
  intros x2 H. destruct (C168_energy exact_env Mfcc (tiny 1) (with_energy tiny_c true) 2 1 1 1 (fun _ _ => 1) two x2 (/ 100)) as (y & y2 & Y & Y2 & D);
    try (simpl; lia); try (left; reflexivity); try reflexivity; auto.
  - apply tiny_framed. reflexivity.
  - intros z i j _. apply spec_band_nonneg; [simpl; lia|]. intros. lra.
  - exists y, y2. split; [exact Y|]. split; [exact Y2|]. intros i Hi. pose proof two_log as L.
    assert (T : forall f, spec_total 0 1 1 f = spec_band 0 1 1 f (fun _ => 1)).
    { intros f. unfold spec_total, spec_band. apply bigsum_ext. intros. ring. }
    pose proof (two_band i Hi) as B. rewrite <- T in B.
    eapply Rle_trans; [apply (D i 0.02 Hi ltac:(lra))|lra];
      change (half (s_nfft (tiny 1))) with 0%nat; change (Z.to_nat (s_nfft (tiny 1))) with 1%nat; cbn [extractor_coeff]; change (s_coeff (tiny 1)) with 1.
    + lra.
    + change (s_pre_emph (tiny 1)) with true. rewrite two_level by reflexivity.
      assert (1 <= sqrt (spec_total 0 1 1 (frame_of (tiny 1) 1 1 1 two i))) by (apply above_one; exact B). lra.
Qed.
