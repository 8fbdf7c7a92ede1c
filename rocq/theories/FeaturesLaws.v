(** * Laws of the cepstral features: computed banks, gain, silence, truncation, Parseval *)
From Coq Require Import Reals ZArith List String Bool Lia Lra Psatz.
From Flocq Require Import Core.Raux.
From Verif Require Import Base BaseFacts Cplx SpecBase SpecMat SpecFilters FiltersFacts SpecFeatures BigSum MatFacts
  Preprocessing PreprocessingFacts WindowFacts Filters MelBanks MelBanksFacts MelBanksMore BarkBank BarkFacts BarkMore
  Gammatone GammatoneFacts Cepstral CepstralFacts Fourier DctFacts SpecBanks Features Extractors FeaturesFacts FeaturesMore.
Import ListNotations.
Local Open Scope R_scope.

Lemma valid_band_bank : forall `{Env} e a n, valid_band e a -> s_nfilts a = Z.of_nat n -> (0 <= s_nfft a)%Z ->
  exists B, extractor_bank e a = Ok (fmat n (S (half (s_nfft a))) B) /\
    forall j k, (j < n)%nat -> (k < S (half (s_nfft a)))%nat -> 0 <= B j k <= 1.
Proof.
  intros E e a n (h & Hb & Hsc & Hh & Hl & Hlh & Hhf & Hfs & He) Hn Hnf.
  pose proof (spec_high_or _ _ _ Hh) as Ho.
  assert (Mel_ok : forall s, spec_mel_scale (s_approach a) s -> exists B,
    spectro_bank Mel a = Ok (fmat n (S (half (s_nfft a))) B) /\
    forall j k, (j < n)%nat -> (k < S (half (s_nfft a)))%nat -> 0 <= B j k <= 1).
  { intros s Hs. unfold spectro_bank. rewrite Hb, Hn.
    rewrite mel_bank_eq with (s := s) by (rewrite ?Ho; auto). cbn [rmap fst]. rewrite Ho.
    eexists. split; [reflexivity|]. intros. apply bank_nonneg; auto. intros. apply (mel_point_incr (s_approach a)); auto. }
  assert (Gt_ok : (3 <= s_nfft a)%Z -> exists B,
    spectro_bank Erb a = Ok (fmat n (S (half (s_nfft a))) B) /\
    forall j k, (j < n)%nat -> (k < S (half (s_nfft a)))%nat -> 0 <= B j k <= 1).
  { intros H3. unfold spectro_bank. rewrite Hb, Hn.
    destruct (gammatone_bank_eq n (s_nfft a) (s_fs a) (s_low a) (s_high a) h (s_scale a) 4 (s_approach a)) as (m & Hm & Eq);
      auto; try lia.
    change 4%Z with (Z.of_nat 4). rewrite Eq. cbn [rmap fst]. eexists. split; [reflexivity|].
    intros j k Hj Hk. destruct (Hm j Hj) as (M1 & M2 & _). pose proof (spec_scale_range (s_scale a) n j Hj).
    assert (0 <= spec_gt_response (IZR (s_fs a)) 4 (IZR (s_nfft a)) (spec_gt_centre (s_low a) h n j) k / m j)
      by (apply div_nonneg; auto; apply gt_response_nonneg).
    assert (spec_gt_response (IZR (s_fs a)) 4 (IZR (s_nfft a)) (spec_gt_centre (s_low a) h n j) k / m j <= 1)
      by (apply div_le_1; auto).
    nra. }
  destruct e; cbn [extractor_bank]; try (destruct He; eapply Mel_ok; eassumption); auto.
  - destruct He as (s & Hs & Hsome). rewrite Hb, Hn, Hsome.
    assert (Hi : exists sc', inverse_scale (s_scale a) = Ok sc' /\ In sc' scale_names) by (apply inverse_scale_ok; auto).
    destruct Hi as (sc' & Hi & Hin).
    rewrite inverse_eq with (s := s) (scale' := sc') by auto. cbn [rmap fst]. eexists. split; [reflexivity|].
    intros. apply bank_nonneg; auto. intros. apply (mel_point_incr (s_approach a)); auto.
  - unfold spectro_bank. rewrite Hb, Hn.
    rewrite lin_bank_eq by (rewrite ?Ho; auto). cbn [rmap fst]. rewrite Ho.
    eexists. split; [reflexivity|]. intros. apply bank_nonneg; auto. intros. apply lin_point_incr; auto.
  - destruct He as (Hr & H2 & Hlt & s & Hs). unfold spectro_bank. rewrite Hb, Hn.
    assert (Hnf' : (0 <= s_nfft a < 9007199254740992)%Z) by lia.
    destruct (sane_bins rnd (s_nfft a) (s_fs a) (s_low a) h Hr Hnf' Hfs Hl Hhf) as [B1 B2].
    rewrite (bark_bank_eq n (s_nfft a) (s_fs a) (s_low a) (s_high a) h (s_scale a) (s_approach a) s
               _ _ Hs Hsc Hh ltac:(lia) ltac:(lia) Hfs Hl Hhf eq_refl eq_refl B1 B2).
    cbn [rmap fst]. eexists. split; [reflexivity|]. intros j k Hj Hk. cbv beta.
    destruct (_ && _)%bool; [|lra].
    pose proof (spec_scale_range (s_scale a) n j Hj).
    pose proof (spec_Fm_range (fwd s (INR k * IZR (s_fs a) / IZR (s_nfft a + 1)) - spec_bark_centre s (s_low a) h n j)). nra.
Qed.

(** ** gain *)
Lemma frame_of_gain : forall a co L hop x g i t, frame_of a co L hop (fun t => g * x t) i t = g * frame_of a co L hop x i t.
Proof.
  intros. unfold frame_of, spec_frame, spec_pre. destruct (s_pre_emph a); [|ring].
  destruct (i * hop + t)%nat; ring.
Qed.
Lemma spec_sq_gain : forall n L f f2 g k, (forall t, f2 t = g * f t) -> spec_sq n L f2 k = g ^ 2 * spec_sq n L f k.
Proof.
  intros n L f f2 g k H. unfold spec_sq.
  assert (spec_re n L f2 k = g * spec_re n L f k) as ->.
  { unfold spec_re. rewrite <- bigsum_scal. apply bigsum_ext. intros. rewrite H. ring. }
  assert (spec_im n L f2 k = g * spec_im n L f k) as ->.
  { unfold spec_im. rewrite <- bigsum_scal. apply bigsum_ext. intros. rewrite H. ring. }
  ring.
Qed.
Lemma spec_band_gain : forall h n L f f2 g b, (forall t, f2 t = g * f t) -> spec_band h n L f2 b = g ^ 2 * spec_band h n L f b.
Proof.
  intros h n L f f2 g b H. unfold spec_band. rewrite <- bigsum_scal. apply bigsum_ext. intros k _. unfold spec_power.
  rewrite (spec_sq_gain n L f f2 g) by auto. unfold Rdiv. ring.
Qed.
Lemma spec_total_gain : forall h n L f f2 g, (forall t, f2 t = g * f t) -> spec_total h n L f2 = g ^ 2 * spec_total h n L f.
Proof.
  intros h n L f f2 g H. unfold spec_total. rewrite <- bigsum_scal. apply bigsum_ext. intros k _. unfold spec_power.
  rewrite (spec_sq_gain n L f f2 g) by auto. unfold Rdiv. ring.
Qed.
Lemma spec_mag_gain : forall n L f f2 g k, (forall t, f2 t = g * f t) -> spec_mag n L f2 k = Rabs g * spec_mag n L f k.
Proof.
  intros n L f f2 g k H. unfold spec_mag. rewrite (spec_sq_gain n L f f2 g) by auto.
  rewrite sqrt_mult_alt by apply pow2_ge_0. rewrite <- Rsqr_pow2, sqrt_Rsqr_abs. auto.
Qed.

Lemma spectrogram_gain : forall `{Env} s a N L hop n B x g,
  well_framed a N L hop -> (1 <= s_nfft a)%Z -> (0 < n)%nat ->
  spectro_bank s a = Ok (fmat n (S (half (s_nfft a))) B) ->
  exists P Q,
    spectrogram s (fvec N x) a = Ok (fmat (frame_count N L hop) n P, fmat (frame_count N L hop) (S (half (s_nfft a))) Q) /\
    spectrogram s (fvec N (fun t => g * x t)) a
    = Ok (fmat (frame_count N L hop) n (fun i j => g ^ 2 * P i j),
          fmat (frame_count N L hop) (S (half (s_nfft a))) (fun i k => Rabs g * Q i k)).
Proof.
  intros E s a N L hop n B x g Hw Hn Hn0 HB. eexists. eexists. split.
  - apply spectrogram_fvec; eauto.
  - rewrite (spectrogram_fvec s a N L hop n B) by auto. do 2 f_equal.
    + apply fmat_ext. intros. apply spec_band_gain. intros. apply frame_of_gain.
    + apply fmat_ext. intros. apply spec_mag_gain. intros. apply frame_of_gain.
Qed.

Lemma ln_gain : forall g v, g <> 0 -> 0 < v -> spec_log (g ^ 2 * v) = spec_log v + 2 * ln (Rabs g).
Proof.
  intros g v Hg Hv. assert (0 < Rabs g) by (apply Rabs_pos_lt; auto).
  assert (Hg2 : g ^ 2 = Rabs g * Rabs g) by (rewrite <- pow2_abs; ring).
  assert (0 < g ^ 2) by (rewrite Hg2; apply Rmult_lt_0_compat; auto).
  unfold spec_log. destruct (Req_EM_T v 0); [lra|].
  destruct (Req_EM_T (g ^ 2 * v) 0) as [E0|_]; [apply Rmult_integral in E0; lra|].
  rewrite ln_mult by auto. rewrite Hg2, ln_mult by auto. ring.
Qed.
Lemma spec_root_gain : forall p g v, g <> 0 -> 0 <= v -> spec_root p (g ^ 2 * v) = Rpower (Rabs g) (2 * p) * spec_root p v.
Proof.
  intros p g v Hg Hv. assert (0 < Rabs g) by (apply Rabs_pos_lt; auto).
  assert (Hg2 : g ^ 2 = Rabs g * Rabs g) by (rewrite <- pow2_abs; ring).
  assert (0 < g ^ 2) by (rewrite Hg2; apply Rmult_lt_0_compat; auto).
  unfold spec_root. destruct (Req_EM_T v 0) as [->|Hv0].
  - destruct (Req_EM_T (g ^ 2 * 0) 0); [ring|]. exfalso. apply n. ring.
  - destruct (Req_EM_T (g ^ 2 * v) 0) as [E0|_]; [apply Rmult_integral in E0; lra|].
    unfold Rpower. rewrite ln_mult by lra. rewrite Hg2, ln_mult by auto. rewrite <- exp_plus. f_equal. ring.
Qed.

Lemma run_gain_log : forall `{Env} e a c N L hop n B x g, In e [Mfcc; Imfcc; Lfcc; Ngcc] -> g <> 0 ->
  well_framed a N L hop -> (1 <= s_nfft a)%Z -> (0 < n)%nat ->
  extractor_bank e a = Ok (fmat n (S (half (s_nfft a))) B) ->
  (forall i j, (i < frame_count N L hop)%nat -> (j < n)%nat ->
     0 < spec_band (half (s_nfft a)) (Z.to_nat (s_nfft a)) L (frame_of a (extractor_coeff e a) L hop x i) (B j)) ->
  (0 <= c_num_ceps c <= s_nfilts a)%Z -> c_dct_type c = 2%Z -> c_use_energy c = false ->
  no_lifter c -> no_normalisation c ->
  exists y, run e (fvec N x) a c = Ok (fmat (frame_count N L hop) (Nat.min (Z.to_nat (c_num_ceps c)) n) y) /\
    run e (fvec N (fun t => g * x t)) a c
    = Ok (fmat (frame_count N L hop) (Nat.min (Z.to_nat (c_num_ceps c)) n)
           (fun i k => y i k + (if Nat.eqb k 0 then 2 * ln (Rabs g) * sqrt (INR n) else 0))).
Proof.
  intros E e a c N L hop n B x g He Hg Hw Hn Hn0 HB HG Hc Ht Hu Hl Hnm.
  assert (Hcomp : forall v, compression e v = spec_log v) by (simpl in He; intuition subst; reflexivity).
  assert (Hok : forall v, 0 <= v -> compressible e v) by (simpl in He; intuition subst; simpl; auto).
  assert (Hg2 : 0 < g ^ 2) by (rewrite <- Rsqr_pow2; apply Rsqr_pos_lt; auto).
  assert (Hband : forall i j, spec_band (half (s_nfft a)) (Z.to_nat (s_nfft a)) L
             (frame_of a (extractor_coeff e a) L hop (fun t => g * x t) i) (B j)
    = g ^ 2 * spec_band (half (s_nfft a)) (Z.to_nat (s_nfft a)) L (frame_of a (extractor_coeff e a) L hop x i) (B j))
    by (intros; apply spec_band_gain; intros; apply frame_of_gain).
  eexists. split.
  - apply (run_fvec e a c N L hop n B x); auto; try lia; try congruence. intros. apply Hok. left. apply HG; auto.
  - rewrite (run_fvec e a c N L hop n B (fun t => g * x t)); auto; try lia; try congruence.
    2:{ intros. apply Hok. rewrite Hband. left. apply Rmult_lt_0_compat; auto. }
    f_equal. apply fmat_ext. intros i k Hi Hk. cbv zeta. rewrite Hu. cbn [andb]. rewrite Ht.
    transitivity (spec_dct 2 n (fun j => 1 * compression e (spec_band (half (s_nfft a)) (Z.to_nat (s_nfft a)) L
        (frame_of a (extractor_coeff e a) L hop x i) (B j)) + 1 * (2 * ln (Rabs g))) k).
    + apply spec_dct_ext. intros j Hj. rewrite !Hcomp, Hband, ln_gain by auto. ring.
    + rewrite (spec_dct_linear 2 n 1 1 (fun j => compression e (spec_band (half (s_nfft a)) (Z.to_nat (s_nfft a)) L
        (frame_of a (extractor_coeff e a) L hop x i) (B j))) (fun _ => 2 * ln (Rabs g))).
      rewrite spec_dct2_const by lia. rewrite !Rmult_1_l. auto.
Qed.

Lemma run_gain_root : forall `{Env} e p a c N L hop n B x g, root_exponent e p -> g <> 0 ->
  well_framed a N L hop -> (1 <= s_nfft a)%Z -> (0 < n)%nat ->
  extractor_bank e a = Ok (fmat n (S (half (s_nfft a))) B) ->
  (forall i j, (i < frame_count N L hop)%nat -> (j < n)%nat ->
     let v := spec_band (half (s_nfft a)) (Z.to_nat (s_nfft a)) L (frame_of a (extractor_coeff e a) L hop x i) (B j) in
     0 < v \/ (0 <= v /\ 0 < p)) ->
  (0 <= c_num_ceps c <= s_nfilts a)%Z -> (1 <= c_dct_type c <= 4)%Z -> (c_dct_type c = 1%Z -> (2 <= n)%nat) ->
  c_use_energy c = false -> no_lifter c -> no_normalisation c ->
  exists y, run e (fvec N x) a c = Ok (fmat (frame_count N L hop) (Nat.min (Z.to_nat (c_num_ceps c)) n) y) /\
    run e (fvec N (fun t => g * x t)) a c
    = Ok (fmat (frame_count N L hop) (Nat.min (Z.to_nat (c_num_ceps c)) n)
           (fun i k => Rpower (Rabs g) (2 * p) * y i k)).
Proof.
  intros E e p a c N L hop n B x g He Hg Hw Hn Hn0 HB HG Hc Ht Ht1 Hu Hl Hnm.
  assert (Hp : p <> 0) by (destruct He as [[_ ->]|[_ ?]]; auto; lra).
  assert (Hcomp : forall v, compression e v = spec_root p v).
  { destruct He as [[-> ->]|[-> ?]]; intros; simpl; auto. destruct (Req_EM_T p 0); [lra|auto]. }
  assert (Hok : forall v, 0 < v \/ (0 <= v /\ 0 < p) -> compressible e v).
  { destruct He as [[-> ->]|[-> ?]]; intros v Hv; simpl; [lra|tauto]. }
  assert (Hg2 : 0 < g ^ 2) by (rewrite <- Rsqr_pow2; apply Rsqr_pos_lt; auto).
  assert (Hband : forall i j, spec_band (half (s_nfft a)) (Z.to_nat (s_nfft a)) L
             (frame_of a (extractor_coeff e a) L hop (fun t => g * x t) i) (B j)
    = g ^ 2 * spec_band (half (s_nfft a)) (Z.to_nat (s_nfft a)) L (frame_of a (extractor_coeff e a) L hop x i) (B j))
    by (intros; apply spec_band_gain; intros; apply frame_of_gain).
  cbv zeta in HG. eexists. split.
  - apply (run_fvec e a c N L hop n B x); auto; try lia; try congruence.
  - rewrite (run_fvec e a c N L hop n B (fun t => g * x t)); auto; try lia; try congruence.
    2:{ intros i j Hi Hj. apply Hok. rewrite Hband. destruct (HG i j Hi Hj) as [V|[V W]].
        - left. apply Rmult_lt_0_compat; auto.
        - right. split; auto. apply Rmult_le_pos; lra. }
    f_equal. apply fmat_ext. intros i k Hi Hk. cbv zeta. rewrite Hu. cbn [andb].
    unfold spec_dct. rewrite <- bigsum_scal. apply bigsum_ext. intros j Hj.
    rewrite !Hcomp, Hband, spec_root_gain; auto; [ring|]. destruct (HG i j Hi Hj); lra.
Qed.

(** ** silence *)
Lemma frame_of_zero : forall a co L hop x i t, (forall t, x t = 0) -> frame_of a co L hop x i t = 0.
Proof.
  intros. unfold frame_of, spec_frame, spec_pre. destruct (s_pre_emph a); [|rewrite H; ring].
  destruct (i * hop + t)%nat; rewrite !H; ring.
Qed.
Lemma spec_band_zero : forall h n L f b, (forall t, f t = 0) -> spec_band h n L f b = 0.
Proof.
  intros. replace (spec_band h n L f b) with (0 ^ 2 * spec_band h n L (fun _ => 1) b); [ring|].
  symmetry. apply spec_band_gain. intros. rewrite H. ring.
Qed.
Lemma spec_total_zero : forall h n L f, (forall t, f t = 0) -> spec_total h n L f = 0.
Proof.
  intros. replace (spec_total h n L f) with (0 ^ 2 * spec_total h n L (fun _ => 1)); [ring|].
  symmetry. apply spec_total_gain. intros. rewrite H. ring.
Qed.
Lemma spec_loudness_0 : spec_loudness 0 = 0.
Proof. apply spec_root_zero. apply loud_arg_zero. auto. Qed.
Lemma spec_log_0 : spec_log 0 = ln spec_eps.
Proof. unfold spec_log. destruct (Req_EM_T 0 0); [auto|lra]. Qed.

Lemma run_silence_log : forall `{Env} e a c N L hop n B, logarithmic e = true ->
  well_framed a N L hop -> (1 <= s_nfft a)%Z -> (0 < n)%nat ->
  extractor_bank e a = Ok (fmat n (S (half (s_nfft a))) B) ->
  (0 <= c_num_ceps c <= s_nfilts a)%Z -> c_dct_type c = 2%Z -> c_use_energy c = false ->
  no_lifter c -> no_normalisation c ->
  run e (fvec N (fun _ => 0)) a c
  = Ok (fmat (frame_count N L hop) (Nat.min (Z.to_nat (c_num_ceps c)) n)
         (fun i k => if Nat.eqb k 0 then ln spec_eps * sqrt (INR n) else 0)).
Proof.
  intros E e a c N L hop n B He Hw Hn Hn0 HB Hc Ht Hu Hl Hnm.
  assert (Hz : forall i j, spec_band (half (s_nfft a)) (Z.to_nat (s_nfft a)) L
             (frame_of a (extractor_coeff e a) L hop (fun _ => 0) i) (B j) = 0)
    by (intros; apply spec_band_zero; intros; apply frame_of_zero; auto).
  rewrite (run_fvec e a c N L hop n B (fun _ => 0)); auto; try lia; try congruence.
  2:{ intros. apply log_compressible; auto. rewrite Hz. lra. }
  f_equal. apply fmat_ext. intros i k Hi Hk. cbv zeta. rewrite Hu, Ht. cbn [andb].
  rewrite <- spec_dct2_const by lia. apply spec_dct_ext. intros j Hj. rewrite Hz.
  destruct e; simpl in *; try congruence; rewrite ?spec_loudness_0, spec_log_0; auto.
Qed.
Lemma run_silence_gfcc : forall `{Env} a c N L hop n B,
  well_framed a N L hop -> (1 <= s_nfft a)%Z -> (0 < n)%nat ->
  extractor_bank Gfcc a = Ok (fmat n (S (half (s_nfft a))) B) ->
  (0 <= c_num_ceps c <= s_nfilts a)%Z -> (1 <= c_dct_type c <= 4)%Z -> (c_dct_type c = 1%Z -> (2 <= n)%nat) ->
  c_use_energy c = false -> no_lifter c -> no_normalisation c ->
  run Gfcc (fvec N (fun _ => 0)) a c
  = Ok (fmat (frame_count N L hop) (Nat.min (Z.to_nat (c_num_ceps c)) n) (fun _ _ => 0)).
Proof.
  intros E a c N L hop n B Hw Hn Hn0 HB Hc Ht Ht1 Hu Hl Hnm.
  assert (Hz : forall i j, spec_band (half (s_nfft a)) (Z.to_nat (s_nfft a)) L
             (frame_of a (extractor_coeff Gfcc a) L hop (fun _ => 0) i) (B j) = 0)
    by (intros; apply spec_band_zero; intros; apply frame_of_zero; auto).
  rewrite (run_fvec Gfcc a c N L hop n B (fun _ => 0)); auto; try lia; try congruence.
  2:{ intros. rewrite Hz. simpl. lra. }
  f_equal. apply fmat_ext. intros i k Hi Hk. cbv zeta. rewrite Hu. cbn [andb].
  unfold spec_dct. apply bigsum_zero. intros j Hj. rewrite Hz. cbn [compression].
  rewrite (proj2 (spec_root_zero (1 / 3) 0)) by auto. ring.
Qed.

(** ** a zero band energy under a negative root *)
Lemma nonfinite_fadd : forall x y, ~ finite x -> ~ finite (fadd x y).
Proof. intros x y Hx [r Hr]. apply Hx. destruct x, y; simpl in Hr; try congruence; eexists; eauto. Qed.
Lemma nonfinite_fadd_r : forall x y, ~ finite y -> ~ finite (fadd x y).
Proof. intros x y Hx [r Hr]. apply Hx. destruct x, y; simpl in Hr; try congruence; eexists; eauto. Qed.
Lemma nonfinite_fsum : forall l x, In x l -> ~ finite x -> ~ finite (fsum l).
Proof.
  induction l; intros x Hin Hx; [destruct Hin|]. unfold fsum. cbn [fold_right]. fold (fsum l). destruct Hin as [->|Hin].
  - apply nonfinite_fadd; auto.
  - apply nonfinite_fadd_r. eauto.
Qed.
Lemma nonfinite_fmul : forall x y, ~ finite x -> ~ finite (fmul x y).
Proof.
  assert (F : forall b, ~ finite (finfmul b)).
  { intros b [r H]. unfold finfmul in H. destruct (Req_EM_T b 0); [congruence|]. destruct (Rlt_dec 0 b); congruence. }
  intros x y Hx. destruct x as [a| | |]; [exfalso; apply Hx; eexists; eauto| | |]; destruct y; simpl;
    try apply F; intros [q Hq]; congruence.
Qed.
Lemma in_map2 : forall A B C (f : A -> B -> C) l m x y j da db, (j < List.length l)%nat -> (j < List.length m)%nat ->
  nth j l da = x -> nth j m db = y -> In (f x y) (map2 f l m).
Proof.
  intros A B C f l m x y j da db Hl Hm Hx Hy. subst x y.
  rewrite <- (map2_nth A B C f l m da db (f da db) j Hl Hm). apply nth_In. rewrite map2_length. lia.
Qed.
Lemma dct_row_nonfinite : forall t row j k, (j < List.length row)%nat -> ~ finite (nth j row NaN) ->
  (k < List.length row)%nat -> ~ finite (nth k (dct_row t row) NaN).
Proof.
  intros t row j k Hj Hn Hk. unfold dct_row. rewrite nth_map_seq by auto. unfold fdot.
  apply (nonfinite_fsum _ (fmul (nth j row NaN) (Fin (dct_coef t (List.length row) k j)))); [|apply nonfinite_fmul; exact Hn].
  apply (in_map2 F F F fmul row _ _ _ j NaN NaN); auto; [rewrite map_length, seq_length; auto|].
  rewrite nth_map_seq by auto. auto.
Qed.

Lemma in_firstn : forall A n (l : list A) x, In x (firstn n l) -> In x l.
Proof. intros A n l x H. rewrite <- (firstn_skipn n l). apply in_or_app. auto. Qed.
Lemma finish_nonfinite : forall c nfft feats mag i j, (i < List.length feats)%nat ->
  (1 <= c_dct_type c <= 4)%Z -> ((if (c_dct_type c =? 1)%Z then 2 else 1) <= ncols feats)%nat -> (0 <= c_num_ceps c)%Z ->
  c_use_energy c = false -> no_lifter c -> no_normalisation c ->
  (j < List.length (nth i feats []))%nat -> ~ finite (nth j (nth i feats []) NaN) ->
  exists M, finish c nfft feats mag = Ok M /\ List.length M = List.length feats /\
    (forall i', (i' < List.length feats)%nat ->
       List.length (nth i' M []) = Nat.min (Z.to_nat (c_num_ceps c)) (List.length (nth i' feats []))) /\
    nonfinite_row (nth i M []).
Proof.
  intros c nfft feats mag i j Hi Ht Hnc Hc Hu Hl Hnm Hj Hn. unfold finish, sp_dct.
  assert (((c_dct_type c <? 1) || (4 <? c_dct_type c))%Z = false) as ->
    by (apply orb_false_iff; split; apply Z.ltb_ge; lia).
  rewrite (proj2 (Nat.ltb_ge _ _)) by exact Hnc. cbn [rbind]. rewrite Hu. cbn [rbind].
  exists (map (py_take (c_num_ceps c)) (map (dct_row (c_dct_type c)) feats)). split.
  - unfold no_lifter, no_normalisation in *.
    destruct Hl as [-> | ->]; [|unfold Reqb; destruct (Req_EM_T 0 0); [|lra]]; cbn [rbind];
      destruct Hnm as [-> | ->]; reflexivity.
  - rewrite !map_length. split; auto. rewrite map_map. split.
    + intros i' Hi'. rewrite nth_map with (d := []) by auto. rewrite py_take_length, dct_row_length by auto. auto.
    + rewrite nth_map with (d := []) by auto. apply Forall_forall. intros v Hv.
      assert (Hv' : In v (dct_row (c_dct_type c) (nth i feats []))).
      { unfold py_take in Hv. destruct (_ <? 0)%Z; eapply in_firstn; exact Hv. }
      apply (In_nth _ _ NaN) in Hv' as (k & Hk & <-). rewrite dct_row_length in Hk. exact (dct_row_nonfinite _ _ j k Hj Hn Hk).
Qed.

Lemma msrcc_zero_band : forall `{Env} g a c N L hop n B x i j, g < 0 ->
  well_framed a N L hop -> (1 <= s_nfft a)%Z -> (0 < n)%nat ->
  extractor_bank (Msrcc g) a = Ok (fmat n (S (half (s_nfft a))) B) ->
  (i < frame_count N L hop)%nat -> (j < n)%nat ->
  spec_band (half (s_nfft a)) (Z.to_nat (s_nfft a)) L (frame_of a (s_coeff a) L hop x i) (B j) = 0 ->
  (0 <= c_num_ceps c <= s_nfilts a)%Z -> (1 <= c_dct_type c <= 4)%Z -> (c_dct_type c = 1%Z -> (2 <= n)%nat) ->
  c_use_energy c = false -> no_lifter c -> no_normalisation c ->
  exists M, run (Msrcc g) (fvec N x) a c = Ok M /\ List.length M = frame_count N L hop /\
    List.length (nth i M []) = Nat.min (Z.to_nat (c_num_ceps c)) n /\ nonfinite_row (nth i M []).
Proof.
  intros E g a c N L hop n B x i j Hg Hw Hn Hn0 HB Hi Hj Hz Hc Ht Ht1 Hu Hl Hnm.
  assert (Hrun : run (Msrcc g) (fvec N x) a c = finish c (s_nfft a)
    (map (map (comp_of (Msrcc g))) (fmat (frame_count N L hop) n (fun i j => spec_band (half (s_nfft a)) (Z.to_nat (s_nfft a)) L (frame_of a (s_coeff a) L hop x i) (B j))))
    (fmat (frame_count N L hop) (S (half (s_nfft a)))
          (fun i => spec_mag (Z.to_nat (s_nfft a)) L (frame_of a (s_coeff a) L hop x i)))).
  { rewrite run_cep. unfold cep. rewrite (proj2 (Z.ltb_ge _ _)) by lia. rewrite HB.
    rewrite (spec_gram_fvec _ _ a N L hop n B x); auto. intros. apply fft_magnitude_fmat; auto. }
  rewrite Hrun. pose proof (frame_count_pos N L hop).
  match goal with |- context[finish c _ ?f ?m] => destruct (finish_nonfinite c (s_nfft a) f m i j) as (M & H1 & H2 & H3 & H4) end; auto.
  - rewrite map_length, fmat_length. auto.
  - assert (ncols (map (map (comp_of (Msrcc g))) (fmat (frame_count N L hop) n (fun i j => spec_band (half (s_nfft a)) (Z.to_nat (s_nfft a)) L (frame_of a (s_coeff a) L hop x i) (B j)))) = n) as ->.
    { erewrite shape_ncols; [reflexivity| |eauto]. eapply shape_map; [apply has_shape_fmat|]. intros. rewrite map_length. auto. }
    destruct (Z.eqb_spec (c_dct_type c) 1); [auto|lia].
  - lia.
  - rewrite nth_map with (d := []) by (rewrite fmat_length; auto). rewrite map_length, fmat_nth, fvec_length by auto. auto.
  - rewrite nth_map with (d := []) by (rewrite fmat_length; auto). rewrite fmat_nth by auto.
    rewrite nth_map with (d := NaN) by (rewrite fvec_length; auto). rewrite fvec_nth by auto. rewrite Hz.
    cbn [comp_of]. unfold fpow. destruct (Req_EM_T g 0); [lra|]. destruct (Rlt_dec 0 0); [lra|].
    destruct (Req_EM_T 0 0); [|lra]. destruct (Rlt_dec 0 g); [lra|]. intros [q Hq]. discriminate.
  - exists M. rewrite map_length, fmat_length in H2, H3. repeat split; auto.
    rewrite H3 by auto. rewrite nth_map with (d := []) by (rewrite fmat_length; auto).
    rewrite map_length, fmat_nth, fvec_length by auto. auto.
Qed.

(** ** the pre-emphasis coefficient *)
Lemma spectro_no_coeff : forall `{Env} s sig a k, s <> Mel -> spectrogram s sig (with_coeff a k) = spectrogram s sig a.
Proof. intros E s sig a k Hs. destruct s; [congruence| | |]; reflexivity. Qed.
Lemma run_no_coeff : forall `{Env} e sig a c k, In e [Lfcc; Bfcc; Gfcc] -> run e sig (with_coeff a k) c = run e sig a c.
Proof. intros E e sig a c k He. simpl in He. destruct He as [<-|[<-|[<-|[]]]]; reflexivity. Qed.

(** ** truncation *)
Lemma framed_windows : forall `{Env} sig a coeff fr ws,
  framed sig (s_fs a) (s_pre_emph a) coeff (s_window a) = Ok (fr, ws) ->
  (1 <= flen (s_fs a) (win_len (window_of a)))%Z -> ws = map (wrow (win_type (window_of a))) fr.
Proof.
  intros E sig a coeff fr ws H HL. apply framed_inv in H as (s' & _ & Hfr & Hw).
  pose proof (framing_nonempty _ _ _ _ _ _ Hfr) as Hne. apply framing_content in Hfr as (_ & _ & Hr & _).
  destruct (known_window (win_type (window_of a))) eqn:Ek.
  - rewrite windowing_eq in Hw by auto. inversion Hw. auto.
  - rewrite windowing_key_error in Hw by auto. discriminate.
Qed.
Lemma wrow_firstn : forall wt n r r2, List.length r = List.length r2 -> firstn n r = firstn n r2 ->
  firstn n (wrow wt r) = firstn n (wrow wt r2).
Proof.
  intros wt n r r2 Hl Hf. unfold wrow. rewrite <- Hl. rewrite !firstn_map.
  apply map_ext_in. intros j Hj.
  assert (Hjn : (j < n)%nat /\ (j < List.length r)%nat).
  { apply (In_nth _ _ 0%nat) in Hj as (q & Hq & Hj). rewrite firstn_length, seq_length in Hq.
    rewrite firstn_nth_lt, seq_nth in Hj by lia. lia. }
  f_equal. rewrite <- (firstn_nth_lt _ r n j NaN), <- (firstn_nth_lt _ r2 n j NaN) by lia. rewrite Hf. auto.
Qed.
Lemma crop_pad_firstn : forall n r r2, List.length r = List.length r2 -> firstn n r = firstn n r2 -> crop_pad n r = crop_pad n r2.
Proof. intros n r r2 Hl Hf. unfold crop_pad. rewrite Hl, Hf. auto. Qed.
Lemma ex_row_crop : forall e a c b w w2, crop_pad (Z.to_nat (s_nfft a)) w = crop_pad (Z.to_nat (s_nfft a)) w2 ->
  ex_row e a c b w = ex_row e a c b w2.
Proof.
  intros e a c b w w2 Hc. assert (Hm : mag_row e (s_nfft a) w = mag_row e (s_nfft a) w2)
    by (unfold mag_row; rewrite Hc; auto).
  unfold ex_row, feat_row. rewrite Hm. auto.
Qed.
Lemma run_truncated : forall `{Env} e sig sig2 a c M M2,
  let L := flen (s_fs a) (win_len (window_of a)) in
  let hop := flen (s_fs a) (win_hop (window_of a)) in
  (1 <= L)%Z -> run e sig a c = Ok M -> run e sig2 a c = Ok M2 -> List.length sig = List.length sig2 ->
  (forall i j, (i < List.length M)%nat -> (-1 <= j < s_nfft a)%Z -> (0 <= j \/ s_pre_emph a = true)%Z ->
     (0 <= Z.of_nat i * hop + j)%Z ->
     nth (Z.to_nat (Z.of_nat i * hop + j)) sig NaN = nth (Z.to_nat (Z.of_nat i * hop + j)) sig2 NaN) ->
  M = M2.
Proof.
  intros E e sig sig2 a c M M2 L hop HL H1 H2 Hlen Hag.
  assert (LM : zlen M = ((zlen sig - L) / hop + 1)%Z).
  { destruct (run_rows _ _ _ _ _ H1) as (b & fr & ws & M0 & Hb & _ & _ & _ & Hf & Hl & HM & Hr & Hn).
    unfold L, hop. rewrite <- (framed_length _ _ _ _ _ Hf). subst M0.
    unfold zlen. f_equal. rewrite <- (map_length (ex_row e a c b) ws).
    destruct (c_normalize c) as [t|]; [|congruence]. destruct (String.eqb t ""); [congruence|].
    eapply normalize_shape in Hn; [destruct Hn as [Hn _]; rewrite Hn, map_length; reflexivity| |eauto].
    split; [apply map_length|]. apply Forall_map, Forall_forall. exact Hr. }
  apply run_rows in H1 as (b & fr & ws & M0 & Hb & Hnf & _ & _ & Hf & Hl & HM & Hr & Hn).
  apply run_rows in H2 as (b2 & fr2 & ws2 & M02 & Hb2 & _ & _ & _ & Hf2 & Hl2 & HM2 & Hr2 & Hn2).
  rewrite Hb in Hb2. apply Ok_inj in Hb2. subst b2.
  assert (Hws : List.length ws2 = List.length ws).
  { pose proof (framed_length _ _ _ _ _ Hf). pose proof (framed_length _ _ _ _ _ Hf2). unfold zlen in *. rewrite Hlen in *. lia. }
  pose proof (framed_length _ _ _ _ _ Hf) as Ln. fold L hop in Ln. rewrite <- LM in Ln. unfold zlen in Ln.
  pose proof (framed_windows _ _ _ _ _ Hf HL) as Ew. pose proof (framed_windows _ _ _ _ _ Hf2 HL) as Ew2.
  assert (Hfr : List.length ws = List.length fr) by (rewrite Ew, map_length; auto).
  assert (Hfr2 : List.length ws2 = List.length fr2) by (rewrite Ew2, map_length; auto).
  assert (M0 = M02) as EM.
  { rewrite HM, HM2. apply (list_eq_nth _ []); [rewrite !map_length; auto|]. intros i Hi. rewrite map_length in Hi.
    rewrite !nth_map with (d := []) by lia. apply ex_row_crop.
    rewrite Ew, Ew2. rewrite !nth_map with (d := []) by lia.
    destruct (framed_row _ _ _ _ _ i Hf ltac:(lia)) as [R1 V1].
    destruct (framed_row _ _ _ _ _ i Hf2 ltac:(lia)) as [R2 V2]. fold L hop in R1, V1, R2, V2.
    apply crop_pad_firstn; [unfold wrow; rewrite !map_length, !seq_length; lia|].
    apply wrow_firstn; [lia|].
    apply (list_eq_nth _ NaN); [rewrite !firstn_length; lia|]. intros j Hj. rewrite firstn_length in Hj.
    rewrite !firstn_nth_lt by lia.
    destruct (V1 j ltac:(lia)) as [B1 X1]. destruct (V2 j ltac:(lia)) as [B2 X2]. cbv zeta in X1, X2, B1, B2.
    rewrite X1, X2.
    assert (Q : nth (Z.to_nat (Z.of_nat i * hop + Z.of_nat j)) sig NaN = nth (Z.to_nat (Z.of_nat i * hop + Z.of_nat j)) sig2 NaN)
      by (apply Hag; lia).
    destruct (s_pre_emph a) eqn:Ep; [|exact Q].
    destruct (Z.eqb_spec (Z.of_nat i * hop + Z.of_nat j) 0) as [Z0|Z0]; [rewrite Z0 in Q; exact Q|].
    rewrite Q. replace (Z.of_nat i * hop + Z.of_nat j - 1)%Z with (Z.of_nat i * hop + (Z.of_nat j - 1))%Z by lia.
    rewrite Hag by (auto; lia). auto. }
  rewrite <- EM in Hn2. destruct (c_normalize c) as [t|]; [|congruence]. destruct (String.eqb t ""); congruence.
Qed.
