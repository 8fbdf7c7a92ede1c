(** * Proofs for C173: a hum or an offset added to a recording *)
From Coq Require Import Reals ZArith List String Bool Lia Lra Psatz.
From Verif Require Import Base BaseFacts SpecBase BigSum Preprocessing SpecMat MatFacts SpecFilters SpecBanks SpecFeatures WindowFacts Features
  Extractors FeaturesFacts FeaturesMore FeaturesLaws FeaturesPhase SpecInvariance InvarianceFacts SpecSpectral DominantFacts ButterGain SpecRoundedCeps
  SpecNoise NoiseFacts SpecTone ToneFacts ToneNoiseFacts SpecHum.
Import ListNotations.
Local Open Scope R_scope.

(** ** A tone through the pre-emphasis filter *)
Lemma pre_wave : forall c A nu phi, exists psi, forall s, A * cos (2 * PI * nu * s + phi) - c * (A * cos (2 * PI * nu * (s - 1) + phi)) = A * pre_gain true c nu * cos (2 * PI * nu * s + psi).
Proof.
  intros c A nu phi. unfold pre_gain. cbv iota. set (th := 2 * PI * nu). set (u := 1 - c * cos th). set (v := c * sin th).
  assert (E : 1 - 2 * c * cos th + c ^ 2 = u ^ 2 + v ^ 2).
  { unfold u, v. pose proof (sin2_cos2 th) as Q. unfold Rsqr in Q. replace (c ^ 2) with (c ^ 2 * (sin th * sin th + cos th * cos th)) by (rewrite Q; ring). ring. }
  rewrite E. set (G := sqrt (u ^ 2 + v ^ 2)).
  assert (P : 0 <= u ^ 2 + v ^ 2) by (apply Rplus_le_le_0_compat; apply pow2_ge_0).
  assert (GG : G * G = u ^ 2 + v ^ 2) by (apply sqrt_sqrt; exact P).
  assert (AN : exists ps, G * cos ps = u /\ G * sin ps = v).
  { destruct (Req_dec G 0) as [Z|Z].
    - rewrite Z in *. exists 0. assert (u ^ 2 = 0 /\ v ^ 2 = 0) as (U & V) by (pose proof (pow2_ge_0 u); pose proof (pow2_ge_0 v); lra).
      split; [|]; rewrite Rmult_0_l; symmetry; [apply (Rsqr_0_uniq u)|apply (Rsqr_0_uniq v)]; rewrite Rsqr_pow2; assumption.
    - destruct (unit_angle (u / G) (v / G)) as (ps & C & S); [replace (u / G * (u / G) + v / G * (v / G)) with ((u ^ 2 + v ^ 2) / (G * G)) by (field; exact Z); rewrite GG; field; rewrite <- GG; nra|].
      exists ps. rewrite C, S. split; field; exact Z. }
  destruct AN as (ps & C & S). exists (phi + ps). intros r.
  replace (th * (r - 1) + phi) with ((th * r + phi) - th) by ring. rewrite cos_minus.
  replace (th * r + (phi + ps)) with ((th * r + phi) + ps) by ring. rewrite (cos_plus (th * r + phi) ps).
  set (X := cos (th * r + phi)). set (Y := sin (th * r + phi)).
  transitivity (A * (X * (G * cos ps) - Y * (G * sin ps))); [rewrite C, S; unfold u, v; ring|ring].
Qed.
Lemma pre_gain_pos : forall on c nu, 0 <= pre_gain on c nu.
Proof. intros. unfold pre_gain. destruct on; [apply sqrt_pos|lra]. Qed.
Lemma leak_pos : forall n nu k, off_bin n nu k -> 0 <= leak n nu k.
Proof. intros n nu k (H1 & H2). unfold leak. apply Rplus_le_le_0_compat; left; apply Rinv_0_lt_compat, Rabs_pos_lt; assumption. Qed.

(** ** The spectrum of a frame of the tone *)
Lemma spec_mag_ext_L : forall n L f g k, (forall t, (t < L)%nat -> f t = g t) -> spec_mag n L f k = spec_mag n L g k.
Proof.
  intros n L f g k H. unfold spec_mag, spec_sq, spec_re, spec_im. f_equal. f_equal; f_equal; apply bigsum_ext; intros t Ht; rewrite H by lia; reflexivity.
Qed.
Lemma tone_shift : forall A nu phi m t, tone A nu phi (m + t) = tone A nu (2 * PI * nu * INR m + phi) t.
Proof. intros. unfold tone. rewrite plus_INR. do 2 f_equal. ring. Qed.
Lemma frame_hum : forall a co L hop n A nu phi i k, (0 < hop)%nat -> (1 <= L <= n)%nat -> off_bin n nu k ->
  spec_mag n L (frame_of a co L hop (tone A nu phi) i) k <= hum_mag (s_pre_emph a) co A nu (leak n nu k) i.
Proof.
  intros a co L hop n A nu phi i k Hh HL Hk. pose proof (leak_pos n nu k Hk) as LP. destruct Hk as (K1 & K2). set (wt := win_type (window_of a)).
  unfold hum_mag. destruct (s_pre_emph a) eqn:EP.
  2:{ unfold pre_gain, first_frame. cbn [andb]. rewrite Rmult_1_l, Rplus_0_r.
      rewrite (spec_mag_ext_L n L _ (fun t => spec_window wt L t * tone A nu (2 * PI * nu * INR (i * hop) + phi) t)).
      - apply tone_leak; assumption.
      - intros t _. apply frame_of_tone. exact EP. }
  destruct (pre_wave co A nu phi) as (ps & Hps). set (G := pre_gain true co nu) in *. assert (GP : 0 <= G) by apply pre_gain_pos.
  set (f := fun t => spec_window wt L t * tone (A * G) nu (2 * PI * nu * INR (i * hop) + ps) t).
  assert (M : spec_mag n L f k <= Rabs A * (G * leak n nu k)).
  { eapply Rle_trans; [apply (tone_leak wt n L (A * G) nu (2 * PI * nu * INR (i * hop) + ps) HL k K1 K2)|]. fold (leak n nu k). rewrite Rabs_mult, (Rabs_pos_eq G) by exact GP. lra. }
  assert (FR : forall t, (i * hop + t <> 0)%nat -> frame_of a co L hop (tone A nu phi) i t - f t = 0).
  { intros t Ht. unfold frame_of, spec_frame, f. fold wt. rewrite <- tone_shift. unfold spec_pre. rewrite EP. destruct (i * hop + t)%nat as [|m]; [lia|].
    unfold tone. rewrite <- Hps, S_INR. replace (INR m + 1 - 1) with (INR m) by ring. ring. }
  eapply Rle_trans; [apply (spec_mag_plus n L f)|]. rewrite Rmult_plus_distr_l. apply Rplus_le_compat; [exact M|].
  unfold l1, first_frame. cbn [andb]. rewrite Nat.min_l by lia. destruct (Nat.eqb_spec i 0) as [->|NZ].
  - destruct L as [|L']; [lia|]. rewrite bigsum_S_l. rewrite (bigsum_ext L' _ (fun _ => 0)); [|intros t _; rewrite FR by lia; apply Rabs_R0].
    rewrite bigsum_const, Rmult_0_r, Rplus_0_r. unfold frame_of, spec_frame, f. fold wt. rewrite <- tone_shift. change (0 * hop + 0)%nat with 0%nat. rewrite EP. cbn [spec_pre].
    unfold tone. rewrite <- Hps. set (X := A * cos _). set (Y := cos _).
    replace (spec_window wt (S L') 0 * X - spec_window wt (S L') 0 * (X - co * (A * Y))) with (spec_window wt (S L') 0 * (A * (co * Y))) by ring.
    assert (YB : Rabs Y <= 1) by (apply Rabs_le; apply COS_bound).
    pose proof (spec_window_bounds wt (S L') 0 ltac:(lia)) as W. rewrite Rabs_mult, (Rabs_pos_eq (spec_window wt (S L') 0)) by lra.
    apply Rle_trans with (1 * Rabs (A * (co * Y))); [apply Rmult_le_compat_r; [apply Rabs_pos|lra]|]. rewrite Rmult_1_l, !Rabs_mult. apply Rmult_le_compat_l; [apply Rabs_pos|].
    rewrite <- (Rmult_1_r (Rabs co)) at 2. apply Rmult_le_compat_l; [apply Rabs_pos|exact YB].
  - rewrite (bigsum_ext L _ (fun _ => 0)); [|intros t _; rewrite FR; [apply Rabs_R0|nia]]. rewrite bigsum_const. lra.
Qed.
Lemma hum_mag_mono : forall on c A nu l l' i, l <= l' -> hum_mag on c A nu l i <= hum_mag on c A nu l' i.
Proof.
  intros. unfold hum_mag. apply Rmult_le_compat_l; [apply Rabs_pos|]. apply Rplus_le_compat_r, Rmult_le_compat_l; [apply pre_gain_pos|assumption].
Qed.

(** ** Bins and bands *)
Lemma band_le_mag : forall h n L f b M, (0 < n)%nat -> (forall k, (k <= h)%nat -> 0 <= b k /\ (b k <> 0 -> spec_mag n L f k <= M)) ->
  spec_band h n L f b <= bigsum (S h) b / INR n * M ^ 2.
Proof.
  intros h n L f b M Hn H. assert (Pn : 0 < / INR n) by (apply Rinv_0_lt_compat, lt_0_INR; lia).
  unfold spec_band, Rdiv. rewrite Rmult_assoc, <- bigsum_scal_r. apply bigsum_le. intros k Hk. destruct (H k ltac:(lia)) as (B0 & BM).
  destruct (Req_dec (b k) 0) as [->|NZ]; [lra|]. specialize (BM NZ).
  assert (SQ : spec_power n L f k = (spec_mag n L f k) ^ 2 * / INR n) by (unfold spec_power, spec_mag; rewrite pow2_sqrt by apply spec_sq_nonneg; reflexivity).
  rewrite SQ, Rmult_comm. apply Rmult_le_compat_l; [exact B0|]. rewrite Rmult_comm. apply Rmult_le_compat_l; [lra|]. apply pow_incr. split; [apply sqrt_pos|exact BM].
Qed.
Lemma spec_mag_ext : forall n L f g k, (forall t, f t = g t) -> spec_mag n L f k = spec_mag n L g k.
Proof. intros. apply spec_mag_ext_L. intros; auto. Qed.
Lemma frame_of_neg : forall a co L hop A nu phi x i t, frame_of a co L hop (fun s => x s - with_hum A nu phi x s) i t = frame_of a co L hop (tone (- A) nu phi) i t.
Proof. intros. unfold frame_of, spec_frame, spec_pre, with_hum, tone. f_equal. destruct (s_pre_emph a); [destruct (i * hop + t)%nat|]; ring. Qed.
Lemma frame_of_pos : forall a co L hop A nu phi x i t, frame_of a co L hop (fun s => with_hum A nu phi x s - x s) i t = frame_of a co L hop (tone A nu phi) i t.
Proof. intros. unfold frame_of, spec_frame, spec_pre, with_hum, tone. f_equal. destruct (s_pre_emph a); [destruct (i * hop + t)%nat|]; ring. Qed.
Lemma hum_mag_neg : forall on c A nu l i, hum_mag on c (- A) nu l i = hum_mag on c A nu l i.
Proof. intros. unfold hum_mag. rewrite Rabs_Ropp. reflexivity. Qed.
Lemma bin_hum : forall a co L hop n A nu phi x i k, (0 < hop)%nat -> (1 <= L <= n)%nat -> off_bin n nu k ->
  Rabs (spec_mag n L (frame_of a co L hop (with_hum A nu phi x) i) k - spec_mag n L (frame_of a co L hop x i) k) <= hum_mag (s_pre_emph a) co A nu (leak n nu k) i.
Proof.
  intros a co L hop n A nu phi x i k Hh HL Hk.
  assert (T : forall f g, spec_mag n L g k <= spec_mag n L f k + spec_mag n L (fun t => g t - f t) k).
  { intros f g. pose proof (spec_mag_plus' n L f g k). assumption. }
  pose proof (T (frame_of a co L hop x i) (frame_of a co L hop (with_hum A nu phi x) i)) as T1.
  pose proof (T (frame_of a co L hop (with_hum A nu phi x) i) (frame_of a co L hop x i)) as T2.
  rewrite (spec_mag_ext n L (fun t => frame_of a co L hop (with_hum A nu phi x) i t - frame_of a co L hop x i t) (frame_of a co L hop (tone A nu phi) i)) in T1 by (intros t; rewrite frame_minus; apply frame_of_pos).
  rewrite (spec_mag_ext n L (fun t => frame_of a co L hop x i t - frame_of a co L hop (with_hum A nu phi x) i t) (frame_of a co L hop (tone (- A) nu phi) i)) in T2 by (intros t; rewrite frame_minus; apply frame_of_neg).
  pose proof (frame_hum a co L hop n A nu phi i k Hh HL Hk). pose proof (frame_hum a co L hop n (- A) nu phi i k Hh HL Hk) as F2. rewrite hum_mag_neg in F2.
  apply Rabs_le. lra.
Qed.
Lemma spec_band_ext_f : forall h n L f g b, (forall t, f t = g t) -> spec_band h n L f b = spec_band h n L g b.
Proof.
  intros h n L f g b H. unfold spec_band, spec_power, spec_sq, spec_re, spec_im. apply bigsum_ext. intros k _. do 2 f_equal. f_equal; f_equal; apply bigsum_ext; intros; rewrite H; reflexivity.
Qed.
Lemma band_hum : forall a co L hop n h A nu phi x b ell i, (0 < hop)%nat -> (1 <= L <= n)%nat -> 0 <= ell ->
  (forall k, (k <= h)%nat -> 0 <= b k /\ (b k <> 0 -> off_bin n nu k /\ leak n nu k <= ell)) ->
  Rabs (sqrt (spec_band h n L (frame_of a co L hop (with_hum A nu phi x) i) b) - sqrt (spec_band h n L (frame_of a co L hop x i) b))
    <= hum_level (s_pre_emph a) co A nu ell (bigsum (S h) b) n i.
Proof.
  intros a co L hop n h A nu phi x b ell i Hh HL Hl Hb.
  assert (B0 : forall k, (k <= h)%nat -> 0 <= b k) by (intros k Hk; apply Hb, Hk).
  assert (S0 : 0 <= bigsum (S h) b / INR n) by (apply Rmult_le_pos; [apply bigsum_nonneg; intros; apply B0; lia|left; apply Rinv_0_lt_compat, lt_0_INR; lia]).
  assert (HM : forall A', 0 <= hum_mag (s_pre_emph a) co A' nu ell i).
  { intros A'. unfold hum_mag. apply Rmult_le_pos; [apply Rabs_pos|]. apply Rplus_le_le_0_compat; [apply Rmult_le_pos; [apply pre_gain_pos|exact Hl]|].
    unfold first_frame. destruct (_ && _); [apply Rabs_pos|lra]. }
  assert (T : forall A', sqrt (spec_band h n L (frame_of a co L hop (tone A' nu phi) i) b) <= hum_level (s_pre_emph a) co A' nu ell (bigsum (S h) b) n i).
  { intros A'. unfold hum_level. rewrite <- (sqrt_pow2 (hum_mag _ _ _ _ _ _)) by apply HM. rewrite <- sqrt_mult_alt by exact S0. apply sqrt_le_1_alt.
    apply band_le_mag; [lia|]. intros k Hk. destruct (Hb k Hk) as (K0 & K1). split; [exact K0|]. intros NZ. destruct (K1 NZ) as (O & LE).
    eapply Rle_trans; [apply frame_hum; assumption|]. apply hum_mag_mono, LE. }
  pose proof (band_root_plus h n L (frame_of a co L hop x i) (frame_of a co L hop (with_hum A nu phi x) i) b ltac:(lia) B0) as T1.
  pose proof (band_root_plus h n L (frame_of a co L hop (with_hum A nu phi x) i) (frame_of a co L hop x i) b ltac:(lia) B0) as T2.
  rewrite (spec_band_ext_f h n L (fun t => frame_of a co L hop (with_hum A nu phi x) i t - frame_of a co L hop x i t) (frame_of a co L hop (tone A nu phi) i)) in T1 by (intros t; rewrite frame_minus; apply frame_of_pos).
  rewrite (spec_band_ext_f h n L (fun t => frame_of a co L hop x i t - frame_of a co L hop (with_hum A nu phi x) i t) (frame_of a co L hop (tone (- A) nu phi) i)) in T2 by (intros t; rewrite frame_minus; apply frame_of_neg).
  pose proof (T A). pose proof (T (- A)) as TN. unfold hum_level in TN. rewrite hum_mag_neg in TN. fold (hum_level (s_pre_emph a) co A nu ell (bigsum (S h) b) n i) in TN.
  apply Rabs_le. lra.
Qed.

(** ** The calls *)
Lemma half_nat : forall z, (0 <= z)%Z -> half z = (Z.to_nat z / 2)%nat.
Proof. intros z Hz. unfold half. rewrite <- (Z2Nat.id z) at 1 by lia. change 2%Z with (Z.of_nat 2). rewrite <- Nat2Z.inj_div, Nat2Z.id. reflexivity. Qed.
Lemma spectrogram_hum : forall (E : Env) s a N L hop n B A nu phi x,
  @well_framed E a N L hop -> (Z.of_nat L <= s_nfft a)%Z -> (0 < n)%nat ->
  @spectro_bank E s a = Ok (fmat n (S (half (s_nfft a))) B) ->
  let m := Z.to_nat (s_nfft a) in
  exists P Q P2 Q2,
    @spectrogram E s (fvec N x) a = Ok (fmat (frame_count N L hop) n P, fmat (frame_count N L hop) (S (half (s_nfft a))) Q) /\
    @spectrogram E s (fvec N (with_hum A nu phi x)) a = Ok (fmat (frame_count N L hop) n P2, fmat (frame_count N L hop) (S (half (s_nfft a))) Q2) /\
    forall i, (i < frame_count N L hop)%nat ->
      (forall k, off_bin m nu k -> Rabs (Q2 i k - Q i k) <= hum_mag (s_pre_emph a) (spectro_coeff s a) A nu (leak m nu k) i) /\
      (forall j ell, (j < n)%nat -> 0 <= ell -> (forall k, (k <= half (s_nfft a))%nat -> 0 <= B j k /\ (B j k <> 0 -> off_bin m nu k /\ leak m nu k <= ell)) ->
         Rabs (sqrt (P2 i j) - sqrt (P i j)) <= hum_level (s_pre_emph a) (spectro_coeff s a) A nu ell (bigsum (S (half (s_nfft a))) (B j)) m i).
Proof.
  intros E s a N L hop n B A nu phi x Hw HL Hn0 HB m. assert (L1 : (1 <= L)%nat /\ (0 < hop)%nat) by (unfold well_framed in Hw; lia).
  do 4 eexists. split; [apply (@spectrogram_fvec E); eauto; lia|]. split; [apply (@spectrogram_fvec E); eauto; lia|].
  intros i Hi. cbv beta. fold m. split.
  - intros k Hk. apply bin_hum; [lia|unfold m; lia|exact Hk].
  - intros j ell Hj Hl Hb. apply band_hum; [lia|unfold m; lia|exact Hl|exact Hb].
Qed.
Section Run.
Context (E : Env) (e : extractor) (a : sargs) (c : cargs) (N L hop n : nat) (B : nat -> nat -> R) (A nu phi : R) (x : nat -> R) (ell : nat -> R).
Hypothesis Hw : @well_framed E a N L hop.
Hypothesis HL : (Z.of_nat L <= s_nfft a)%Z.
Hypothesis Hn0 : (0 < n)%nat.
Hypothesis HB : @extractor_bank E e a = Ok (fmat n (S (half (s_nfft a))) B).
Let m := Z.to_nat (s_nfft a).
Hypothesis Hfar : forall j, (j < n)%nat -> 0 <= ell j /\ forall k, (k <= half (s_nfft a))%nat -> 0 <= B j k /\ (B j k <> 0 -> off_bin m nu k /\ leak m nu k <= ell j).
Hypothesis Hnc : (0 <= c_num_ceps c <= s_nfilts a)%Z.
Hypothesis Ht : (1 <= c_dct_type c <= 4)%Z.
Hypothesis H1 : c_dct_type c = 1%Z -> (2 <= n)%nat.
Hypothesis Hl : no_lifter c.
Hypothesis Hm : no_normalisation c.
Let K := Nat.min (Z.to_nat (c_num_ceps c)) n.
Let x2 := with_hum A nu phi x.
Let band z i j := spec_band (half (s_nfft a)) m L (frame_of a (extractor_coeff e a) L hop z i) (B j).
Let q i j := hum_level (s_pre_emph a) (extractor_coeff e a) A nu (ell j) (bigsum (S (half (s_nfft a))) (B j)) m i.
Lemma L_pos : (1 <= L)%nat /\ (0 < hop)%nat.
Proof. unfold well_framed in Hw. lia. Qed.
Lemma hum_ok : forall z i j, (j < n)%nat -> 0 <= band z i j.
Proof. intros. apply spec_band_nonneg; [pose proof L_pos; unfold m; lia|]. intros k Hk. apply (Hfar j); assumption. Qed.
Lemma hum_apart : forall i j, (j < n)%nat -> Rabs (sqrt (band x2 i j) - sqrt (band x i j)) <= q i j.
Proof. intros i j Hj. destruct (Hfar j Hj) as (H2 & H3). pose proof L_pos. apply band_hum; [lia|unfold m; lia|exact H2|exact H3]. Qed.
Lemma hum_rows : c_use_energy c = false -> (forall z i j, (j < n)%nat -> compressible e (band z i j)) ->
  exists y y2, @run E e (fvec N x) a c = Ok (fmat (frame_count N L hop) K y) /\ @run E e (fvec N x2) a c = Ok (fmat (frame_count N L hop) K y2) /\
    forall i l, (forall j, (j < n)%nat -> Rabs (compression e (band x i j) - compression e (band x2 i j)) <= l) -> sqdist K (y i) (y2 i) <= INR n * l ^ 2.
Proof. intros Hu Hc. pose proof L_pos. apply (rows_apart E e a c N L hop n B x x2); try assumption. lia. Qed.
Lemma hum_log : In e [Mfcc; Imfcc; Lfcc; Ngcc] -> c_use_energy c = false ->
  exists y y2, @run E e (fvec N x) a c = Ok (fmat (frame_count N L hop) K y) /\ @run E e (fvec N x2) a c = Ok (fmat (frame_count N L hop) K y2) /\
    forall i r, (i < frame_count N L hop)%nat -> 0 <= r < 1 -> (forall j, (j < n)%nat -> 0 < band x i j /\ q i j <= r * sqrt (band x i j)) ->
      sqdist K (y i) (y2 i) <= INR n * (2 * - ln (1 - r)) ^ 2.
Proof.
  intros He Hu. destruct hum_rows as (y & y2 & Y & Y2 & D); [exact Hu| |].
  - intros z i j Hj. pose proof (hum_ok z i j Hj). destruct He as [<-|[<-|[<-|[<-|[]]]]]; assumption.
  - exists y, y2. split; [exact Y|]. split; [exact Y2|]. intros i r Hi Hr H. apply D. intros j Hj. destruct (H j Hj) as [H2 H3].
    assert (C : forall v, compression e v = spec_log v) by (destruct He as [<-|[<-|[<-|[<-|[]]]]]; reflexivity). rewrite !C.
    apply log_lnear. apply (ln_apart r (q i j)); try assumption; [apply hum_ok, Hj|apply hum_apart; assumption].
Qed.
Lemma hum_bfcc : e = Bfcc -> c_use_energy c = false ->
  exists y y2, @run E e (fvec N x) a c = Ok (fmat (frame_count N L hop) K y) /\ @run E e (fvec N x2) a c = Ok (fmat (frame_count N L hop) K y2) /\
    forall i r, (i < frame_count N L hop)%nat -> 0 <= r < 1 -> (forall j, (j < n)%nat -> 0 < band x i j /\ q i j <= r * sqrt (band x i j)) ->
      sqdist K (y i) (y2 i) <= INR n * (32 / 3 * - ln (1 - r)) ^ 2.
Proof.
  intros He Hu. destruct hum_rows as (y & y2 & Y & Y2 & D); [exact Hu| |].
  - intros z i j _. rewrite He. exact I.
  - exists y, y2. split; [exact Y|]. split; [exact Y2|]. intros i r Hi Hr H. apply D. intros j Hj. destruct (H j Hj) as [H2 H3].
    rewrite He. cbn [compression]. apply log_lnear. replace (32 / 3 * - ln (1 - r)) with (16 / 3 * (2 * - ln (1 - r))) by lra. apply loudness_lnear.
    apply (ln_apart r (q i j)); try assumption; [apply hum_ok, Hj|apply hum_apart; assumption].
Qed.
Lemma hum_root : forall p, root_exponent e p -> 0 < p <= / 2 -> c_use_energy c = false ->
  exists y y2, @run E e (fvec N x) a c = Ok (fmat (frame_count N L hop) K y) /\ @run E e (fvec N x2) a c = Ok (fmat (frame_count N L hop) K y2) /\
    forall i l, (i < frame_count N L hop)%nat -> (forall j, (j < n)%nat -> q i j <= l) -> sqdist K (y i) (y2 i) <= INR n * spec_root (2 * p) l ^ 2.
Proof.
  intros p He Hp Hu. destruct hum_rows as (y & y2 & Y & Y2 & D); [exact Hu| |].
  - intros z i j Hj. pose proof (hum_ok z i j Hj). destruct He as [[-> _]|[-> _]]; cbn [compressible]; [assumption|]. right. right. split; [assumption|lra].
  - exists y, y2. split; [exact Y|]. split; [exact Y2|]. intros i l Hi Hq. apply D. intros j Hj.
    assert (C : forall v, compression e v = spec_root p v).
    { intros v. destruct He as [[-> ->]|[-> H]]; [reflexivity|]. cbn [compression]. destruct (Req_EM_T p 0); [contradiction|reflexivity]. }
    rewrite !C, Rabs_minus_sym. apply root_apart; [exact Hp|apply hum_ok, Hj|apply hum_ok, Hj|]. eapply Rle_trans; [apply hum_apart; assumption|apply Hq, Hj].
Qed.
End Run.

(** ** Offsets *)
Lemma offset_hum : forall A x t, with_hum A 0 0 x t = x t + A.
Proof. intros. unfold with_hum, tone. rewrite Rmult_0_r, Rmult_0_l, Rplus_0_l, cos_0. ring. Qed.
Lemma offset_gain : forall on c, pre_gain on c 0 = if on then Rabs (1 - c) else 1.
Proof.
  intros on c. unfold pre_gain. destruct on; [|reflexivity]. rewrite Rmult_0_r, cos_0. replace (1 - 2 * c * 1 + c ^ 2) with (Rsqr (1 - c)) by (unfold Rsqr; ring). apply sqrt_Rsqr_abs.
Qed.
Lemma offset_leak : forall m k k1, (1 <= k1)%nat -> (k1 <= k <= m / 2)%nat -> off_bin m 0 k /\ leak m 0 k <= 2 / sin (PI * (INR k1 / INR m)).
Proof.
  intros m k k1 H1 Hk. assert (Hm : (2 * (m / 2) <= m)%nat) by (apply Nat.mul_div_le; lia). assert (Pm : 0 < INR m) by (apply lt_0_INR; lia).
  pose proof PI_RGT_0 as HP.
  assert (R1 : 0 < INR k1 / INR m) by (apply Rdiv_lt_0_compat; [apply lt_0_INR; lia|assumption]).
  assert (R2 : INR k1 / INR m <= INR k / INR m) by (apply Rmult_le_compat_r; [left; apply Rinv_0_lt_compat; assumption|apply le_INR; lia]).
  assert (R3 : INR k / INR m <= / 2).
  { apply Rmult_le_reg_r with (INR m); [assumption|]. unfold Rdiv. rewrite Rmult_assoc, Rinv_l, Rmult_1_r by lra. assert (INR (2 * k) <= INR m) by (apply le_INR; lia). rewrite mult_INR in *. cbn [INR] in *. lra. }
  set (v := INR k / INR m) in *. set (u := INR k1 / INR m) in *.
  assert (B1 : PI * u <= PI * v) by (apply Rmult_le_compat_l; lra). assert (B2 : PI * v <= PI * / 2) by (apply Rmult_le_compat_l; lra). assert (B0 : 0 < PI * u) by (apply Rmult_lt_0_compat; lra).
  assert (S1 : 0 < sin (PI * u)) by (apply sin_gt_0; lra).
  assert (S2 : sin (PI * u) <= sin (PI * v)) by (apply sin_incr_1; lra).
  assert (E1 : sin (PI * (0 - v)) = - sin (PI * v)) by (replace (PI * (0 - v)) with (- (PI * v)) by ring; apply sin_neg).
  assert (E2 : sin (PI * (0 + v)) = sin (PI * v)) by (f_equal; ring).
  unfold off_bin, leak. fold v. rewrite E1, E2, Rabs_Ropp, Rabs_pos_eq by lra. split; [lra|].
  assert (/ sin (PI * v) <= / sin (PI * u)) by (apply Rinv_le_contravar; lra). lra.
Qed.
Lemma spectrogram_offset : forall (E : Env) s a N L hop n B A x,
  @well_framed E a N L hop -> (Z.of_nat L <= s_nfft a)%Z -> (0 < n)%nat ->
  @spectro_bank E s a = Ok (fmat n (S (half (s_nfft a))) B) ->
  let c := spectro_coeff s a in
  let effect i k := Rabs A * ((if s_pre_emph a then Rabs (1 - c) else 1) * (2 / sin (PI * (INR k / IZR (s_nfft a)))) + first_frame (s_pre_emph a) c i) in
  exists P Q P2 Q2,
    @spectrogram E s (fvec N x) a = Ok (fmat (frame_count N L hop) n P, fmat (frame_count N L hop) (S (half (s_nfft a))) Q) /\
    @spectrogram E s (fvec N (fun t => x t + A)) a = Ok (fmat (frame_count N L hop) n P2, fmat (frame_count N L hop) (S (half (s_nfft a))) Q2) /\
    forall i, (i < frame_count N L hop)%nat ->
      (forall k, (1 <= k <= half (s_nfft a))%nat -> Rabs (Q2 i k - Q i k) <= effect i k) /\
      (forall j k1, (j < n)%nat -> (1 <= k1)%nat -> (forall k, (k <= half (s_nfft a))%nat -> 0 <= B j k) -> (forall k, (k < k1)%nat -> B j k = 0) -> (k1 <= half (s_nfft a))%nat ->
         Rabs (sqrt (P2 i j) - sqrt (P i j)) <= sqrt (bigsum (S (half (s_nfft a))) (B j) / IZR (s_nfft a)) * effect i k1).
Proof.
  intros E s a N L hop n B A x Hw HL Hn0 HB c effect. assert (L1 : (1 <= L)%nat /\ (0 < hop)%nat) by (unfold well_framed in Hw; lia).
  destruct (spectrogram_hum E s a N L hop n B A 0 0 x Hw HL Hn0 HB) as (P & Q & P2 & Q2 & H1 & H2 & H3).
  exists P, Q, P2, Q2. split; [exact H1|]. split; [rewrite <- H2; f_equal; apply fvec_ext; intros; symmetry; apply offset_hum|].
  set (m := Z.to_nat (s_nfft a)) in *. assert (Em : IZR (s_nfft a) = INR m) by (unfold m; rewrite INR_IZR, Z2Nat.id by lia; reflexivity).
  assert (EH : half (s_nfft a) = (m / 2)%nat) by (apply half_nat; lia).
  assert (EF : forall i k ell, ell <= 2 / sin (PI * (INR k / INR m)) -> hum_mag (s_pre_emph a) c A 0 ell i <= effect i k).
  { intros i k ell H. eapply Rle_trans; [apply (hum_mag_mono _ _ _ _ _ _ i H)|]. unfold hum_mag, effect. rewrite offset_gain, Em. lra. }
  intros i Hi. destruct (H3 i Hi) as (H4 & H5). split.
  - intros k Hk. rewrite EH in Hk. destruct (offset_leak m k k ltac:(lia) ltac:(lia)) as (O1 & O2). eapply Rle_trans; [apply H4, O1|]. apply EF, O2.
  - intros j k1 Hj Hk1 B0 BZ Hk2. rewrite EH in Hk2.
    destruct (offset_leak m k1 k1 ltac:(lia) ltac:(lia)) as (O1 & O2). pose proof (leak_pos m 0 k1 O1).
    eapply Rle_trans; [apply (H5 j (2 / sin (PI * (INR k1 / INR m))) Hj); [lra|]|].
    + intros k Hk. split; [apply B0, Hk|]. intros NZ. apply offset_leak; [lia|]. destruct (Nat.le_gt_cases k1 k) as [|Gt]; [lia|]. rewrite BZ in NZ by lia. lra.
    + unfold hum_level. rewrite Em. apply Rmult_le_compat_l; [apply sqrt_pos|]. apply EF. lra.
Qed.
