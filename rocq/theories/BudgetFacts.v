(** * Proofs for C174: the energy of a frame bounds its spectrogram row and its first cepstral coefficient *)
From Coq Require Import Reals ZArith List String Bool Lia Lra Psatz.
From Coquelicot Require Rcomplements.
From Verif Require Import Base BaseFacts SpecBase BigSum Preprocessing SpecMat MatFacts SpecFilters FiltersFacts SpecBanks SpecFeatures MelBanks MelBanksFacts MelBanksMore
  WindowFacts Features Extractors FeaturesFacts FeaturesMore FeaturesLaws FeaturesPhase SpFeatsFacts NoiseFacts SpecBudget.
Import ListNotations.
Local Open Scope R_scope.

(** ** Frames *)
Lemma frame_energy_pos : forall L f, 0 <= frame_energy L f.
Proof. intros. apply bigsum_nonneg. intros. apply pow2_ge_0. Qed.
Lemma frame_energy_le : forall L f q, (forall t, (t < L)%nat -> Rabs (f t) <= q) -> frame_energy L f <= INR L * q ^ 2.
Proof.
  intros L f q H. unfold frame_energy. rewrite <- bigsum_const. apply bigsum_le. intros t Ht. rewrite <- (pow2_abs (f t)).
  apply pow_incr. split; [apply Rabs_pos|apply H; exact Ht].
Qed.
Lemma bin_weight_range : forall n k, 1 <= bin_weight n k <= 2.
Proof. intros. unfold bin_weight. destruct (_ || _)%bool; lra. Qed.
Lemma mag2 : forall n L f k, spec_mag n L f k ^ 2 = spec_sq n L f k.
Proof. intros. unfold spec_mag. rewrite <- Rsqr_pow2, Rsqr_sqrt by apply spec_sq_nonneg. reflexivity. Qed.

(** the half spectrum carries between a half and all of the energy *)
Lemma total_energy : forall n L f, (0 < n)%nat -> (L <= n)%nat ->
  frame_energy L f / 2 <= spec_total (n / 2) n L f <= frame_energy L f.
Proof.
  intros n L f Hn HL. pose proof (parseval_half n L f Hn HL) as P. fold (frame_energy L f) in P.
  assert (N0 : 0 < INR n) by (apply lt_0_INR; exact Hn).
  assert (T : spec_total (n / 2) n L f = bigsum (S (n / 2)) (fun k => spec_mag n L f k ^ 2) / INR n).
  { unfold spec_total, spec_power. rewrite bigsum_div. f_equal. apply bigsum_ext. intros. rewrite mag2. reflexivity. }
  rewrite T. set (S1 := bigsum (S (n / 2)) (fun k => spec_mag n L f k ^ 2)) in *.
  assert (A : S1 <= INR n * frame_energy L f).
  { rewrite <- P. apply bigsum_le. intros k _. pose proof (bin_weight_range n k). pose proof (pow2_ge_0 (spec_mag n L f k)). nra. }
  assert (B : INR n * frame_energy L f <= 2 * S1).
  { rewrite <- P. unfold S1. rewrite <- bigsum_scal. apply bigsum_le. intros k _. pose proof (bin_weight_range n k). pose proof (pow2_ge_0 (spec_mag n L f k)). nra. }
  split.
  - apply Rmult_le_reg_r with (INR n); [exact N0|]. unfold Rdiv. rewrite (Rmult_assoc S1), Rinv_l by lra. lra.
  - apply Rmult_le_reg_r with (INR n); [exact N0|]. unfold Rdiv. rewrite (Rmult_assoc S1), Rinv_l by lra. lra.
Qed.

(** ** Band energies *)
Lemma bands_swap : forall n h m L f B,
  bigsum n (fun j => spec_band h m L f (B j)) = bigsum (S h) (fun k => spec_power m L f k * bigsum n (fun j => B j k)).
Proof.
  intros. unfold spec_band. rewrite bigsum_swap. apply bigsum_ext. intros k _. rewrite bigsum_scal. reflexivity.
Qed.
Lemma bands_total : forall n h m L f B, (0 < m)%nat -> thrifty n h B -> bigsum n (fun j => spec_band h m L f (B j)) <= spec_total h m L f.
Proof.
  intros n h m L f B Hm HB. rewrite bands_swap. apply bigsum_le. intros k Hk. destruct (HB k ltac:(lia)) as (_ & S1).
  pose proof (spec_power_nonneg m L f k Hm). nra.
Qed.
Lemma bands_inside : forall n h m L f B (inside : nat -> bool), (0 < m)%nat -> thrifty n h B ->
  (forall k, (k <= h)%nat -> inside k = true -> bigsum n (fun j => B j k) = 1) ->
  bigsum (S h) (fun k => if inside k then spec_power m L f k else 0) <= bigsum n (fun j => spec_band h m L f (B j)).
Proof.
  intros n h m L f B inside Hm HB HI. rewrite bands_swap. apply bigsum_le. intros k Hk. pose proof (spec_power_nonneg m L f k Hm).
  destruct (inside k) eqn:E.
  - rewrite HI by (auto; lia). lra.
  - destruct (HB k ltac:(lia)) as (P & _). apply Rmult_le_pos; [assumption|]. apply bigsum_nonneg. exact P.
Qed.
Lemma thrifty_band : forall n h m L f B j, (0 < m)%nat -> thrifty n h B -> (j < n)%nat -> 0 <= spec_band h m L f (B j).
Proof. intros n h m L f B j Hm HB Hj. apply spec_band_nonneg; auto. intros k Hk. apply (HB k Hk). exact Hj. Qed.

(** ** The banks of the library *)
Lemma spec_bank_thrifty : forall s low high n h scale, (1 <= n)%nat ->
  (forall i, spec_point s low high n i < spec_point s low high n (S i)) -> thrifty n h (spec_bank s low high n h scale).
Proof.
  intros s low high n h scale Hn Hp k Hk. split.
  - intros j Hj. apply bank_nonneg; auto.
  - eapply Rle_trans; [|apply (bank_sum s low high n h k Hp Hn)]. apply bigsum_le. intros j Hj. unfold spec_bank.
    pose proof (spec_scale_range scale n j Hj) as R1. pose proof (bank_nonneg s low high n h "constant" j k Hj Hp) as R2. unfold spec_bank in R2.
    replace (spec_scale "constant" n j) with 1 in * by reflexivity. nra.
Qed.
Lemma banks_thrifty : forall `{Env} e a n, valid_band e a -> s_nfilts a = Z.of_nat n -> (1 <= n)%nat -> (0 <= s_nfft a)%Z ->
  match e with Mfcc | Imfcc | Lfcc | Msrcc _ => True | _ => False end ->
  exists B, extractor_bank e a = Ok (fmat n (S (half (s_nfft a))) B) /\ thrifty n (half (s_nfft a)) B.
Proof.
  intros E e a n (h & Hb & Hsc & Hh & Hl & Hlh & Hhf & Hfs & He) Hn Hn1 Hnf HE.
  pose proof (spec_high_or _ _ _ Hh) as Ho.
  assert (Mel_ok : forall s, spec_mel_scale (s_approach a) s -> exists B,
    spectro_bank Mel a = Ok (fmat n (S (half (s_nfft a))) B) /\ thrifty n (half (s_nfft a)) B).
  { intros s Hs. unfold spectro_bank. rewrite Hb, Hn. rewrite mel_bank_eq with (s := s) by (rewrite ?Ho; auto). cbn [rmap fst]. rewrite Ho.
    eexists. split; [reflexivity|]. apply spec_bank_thrifty; auto. intros. apply (mel_point_incr (s_approach a)); auto. }
  destruct e; try contradiction; cbn [extractor_bank]; try (destruct He; eapply Mel_ok; eassumption).
  - destruct He as (s & Hs & Hsome). rewrite Hb, Hn, Hsome.
    destruct (inverse_scale_ok _ Hsc) as (sc' & Hi & Hin).
    rewrite inverse_eq with (s := s) (scale' := sc') by auto. cbn [rmap fst]. eexists. split; [reflexivity|].
    assert (T : thrifty n (half (s_nfft a)) (spec_bank s (s_low a) h n (half (s_nfft a)) sc')).
    { apply spec_bank_thrifty; auto. intros. apply (mel_point_incr (s_approach a)); auto. }
    intros k Hk. apply (T (half (s_nfft a) - k)%nat). lia.
  - unfold spectro_bank. rewrite Hb, Hn. rewrite lin_bank_eq by (rewrite ?Ho; auto). cbn [rmap fst]. rewrite Ho.
    eexists. split; [reflexivity|]. apply spec_bank_thrifty; auto. intros. apply lin_point_incr; auto.
Qed.

(** ** The mean of logarithms *)
Lemma ln_tangent : forall v m, 0 < v -> 0 < m -> ln v <= ln m + v / m - 1.
Proof.
  intros v m Hv Hm. assert (0 < v / m) by (apply Rdiv_lt_0_compat; assumption). pose proof (ln_le_sub (v / m) H) as T.
  unfold Rdiv in T. rewrite ln_mult, ln_Rinv in T by (try assumption; apply Rinv_0_lt_compat; assumption). unfold Rdiv. lra.
Qed.
Lemma sum_ln : forall n v m, (1 <= n)%nat -> (forall j, (j < n)%nat -> 0 < v j) -> 0 < m -> bigsum n v <= INR n * m ->
  bigsum n (fun j => ln (v j)) <= INR n * ln m.
Proof.
  intros n v m Hn Hv Hm HS. assert (N0 : 0 < INR n) by (apply lt_0_INR; lia).
  eapply Rle_trans; [apply (bigsum_le n _ (fun j => (ln m - 1) + v j * / m)); intros j Hj; pose proof (ln_tangent (v j) m (Hv j Hj) Hm); unfold Rdiv in *; lra|].
  rewrite bigsum_plus, bigsum_const, bigsum_scal_r.
  assert (bigsum n v * / m <= INR n).
  { apply Rmult_le_reg_r with m; [exact Hm|]. rewrite Rmult_assoc, Rinv_l by lra. lra. }
  lra.
Qed.
Lemma eps_pos : 0 < spec_eps.
Proof. unfold spec_eps. apply Rinv_0_lt_compat, pow_lt. lra. Qed.
Lemma log_le : forall v, 0 <= v -> spec_log v <= ln (v + spec_eps).
Proof.
  intros v Hv. pose proof eps_pos. unfold spec_log. destruct (Req_EM_T v 0) as [->|N].
  - rewrite Rplus_0_l. lra.
  - apply Rcomplements.ln_le; lra.
Qed.
Lemma dct_first : forall n g, (1 <= n)%nat -> spec_dct 2 n g 0 = bigsum n g / sqrt (INR n).
Proof.
  intros n g Hn. assert (N0 : 0 < INR n) by (apply lt_0_INR; lia). unfold spec_dct, Rdiv. rewrite <- bigsum_scal_r. apply bigsum_ext. intros j _. f_equal.
  unfold spec_dct_entry. cbn [Z.eqb Pos.eqb Nat.eqb]. rewrite Rmult_0_r, Rmult_0_l. unfold Rdiv. rewrite Rmult_0_l, cos_0, Rmult_1_r.
  rewrite Rmult_1_l. apply sqrt_Rinv || (rewrite sqrt_inv; reflexivity).
Qed.
Lemma dct_ceiling : forall n V S1, (1 <= n)%nat -> (forall j, (j < n)%nat -> 0 <= V j) -> bigsum n V <= S1 ->
  spec_dct 2 n (fun j => spec_log (V j)) 0 <= sqrt (INR n) * ln (S1 / INR n + spec_eps).
Proof.
  intros n V S1 Hn HV HS. assert (N0 : 0 < INR n) by (apply lt_0_INR; lia). pose proof eps_pos as EP.
  assert (S0 : 0 <= S1) by (eapply Rle_trans; [apply (bigsum_nonneg n V HV)|exact HS]).
  assert (D0 : 0 <= S1 / INR n) by (apply Rcomplements.Rdiv_le_0_compat; assumption).
  rewrite dct_first by exact Hn.
  assert (A : bigsum n (fun j => spec_log (V j)) <= INR n * ln (S1 / INR n + spec_eps)).
  { eapply Rle_trans; [apply (bigsum_le n _ (fun j => ln (V j + spec_eps))); intros j Hj; apply log_le, HV, Hj|].
    apply sum_ln; [exact Hn| |lra|].
    - intros j Hj. pose proof (HV j Hj). lra.
    - rewrite bigsum_plus, bigsum_const, Rmult_plus_distr_l. replace (INR n * (S1 / INR n)) with S1 by (field; lra). lra. }
  assert (Q : 0 < sqrt (INR n)) by (apply sqrt_lt_R0; exact N0).
  apply Rmult_le_reg_r with (sqrt (INR n)); [exact Q|]. unfold Rdiv. rewrite Rmult_assoc, Rinv_l, Rmult_1_r by lra.
  eapply Rle_trans; [exact A|]. right. replace (sqrt (INR n) * ln (S1 * / INR n + spec_eps) * sqrt (INR n)) with (sqrt (INR n) * sqrt (INR n) * ln (S1 * / INR n + spec_eps)) by ring.
  rewrite sqrt_sqrt by lra. reflexivity.
Qed.

(** ** The theorems *)
Lemma peak_energy : forall `{Env} a co N L hop x i M, well_framed a N L hop -> (i < frame_count N L hop)%nat -> 0 <= M -> (forall t, (t < N)%nat -> Rabs (x t) <= M) ->
  frame_energy L (frame_of a co L hop x i) <= INR L * pre_peak (s_pre_emph a) co M ^ 2.
Proof.
  intros E a co N L hop x i M Hw Hi HM Hx. apply frame_energy_le. intros t Ht. unfold pre_peak. apply (frame_small a co N); auto.
  unfold well_framed in Hw. apply (frame_in N L hop); auto; lia.
Qed.
Lemma spectrogram_budget : forall (E : Env) s a N L hop n B x,
  @well_framed E a N L hop -> (Z.of_nat L <= s_nfft a)%Z -> (0 < n)%nat ->
  @spectro_bank E s a = Ok (fmat n (S (half (s_nfft a))) B) -> thrifty n (half (s_nfft a)) B ->
  exists P Q, @spectrogram E s (fvec N x) a = Ok (fmat (frame_count N L hop) n P, fmat (frame_count N L hop) (S (half (s_nfft a))) Q) /\
    forall i, (i < frame_count N L hop)%nat ->
      let e := frame_energy L (frame_of a (spectro_coeff s a) L hop x i) in
      let power k := Q i k ^ 2 / IZR (s_nfft a) in
      bigsum n (P i) <= bigsum (S (half (s_nfft a))) power <= e /\ e / 2 <= bigsum (S (half (s_nfft a))) power /\
      (forall inside : nat -> bool, (forall k, (k <= half (s_nfft a))%nat -> inside k = true -> bigsum n (fun j => B j k) = 1) ->
         bigsum (S (half (s_nfft a))) (fun k => if inside k then power k else 0) <= bigsum n (P i)) /\
      (forall M, 0 <= M -> (forall t, (t < N)%nat -> Rabs (x t) <= M) -> e <= INR L * pre_peak (s_pre_emph a) (spectro_coeff s a) M ^ 2).
Proof.
  intros E s a N L hop n B x Hw HL Hn HB HT. assert (1 <= L)%nat by (unfold well_framed in Hw; lia).
  do 2 eexists. split; [apply spectrogram_fvec; eauto; lia|]. intros i Hi. cbv zeta beta. set (f := frame_of a (spectro_coeff s a) L hop x i).
  set (m := Z.to_nat (s_nfft a)). assert (M0 : (0 < m)%nat) by (unfold m; lia).
  assert (PW : forall k, spec_mag m L f k ^ 2 / IZR (s_nfft a) = spec_power m L f k).
  { intros k. rewrite mag2. unfold spec_power. f_equal. unfold m. rewrite INR_IZR, Z2Nat.id by lia. reflexivity. }
  rewrite (bigsum_ext _ (fun k => spec_mag m L f k ^ 2 / IZR (s_nfft a)) (spec_power m L f)) by (intros; apply PW).
  fold (spec_total (half (s_nfft a)) m L f).
  pose proof (total_energy m L f M0 ltac:(unfold m; lia)) as TE. rewrite half_nat in * by lia. fold m in HT. fold m. fold m in TE.
  split; [split; [apply bands_total; assumption|apply TE]|]. split; [apply TE|]. split.
  - intros inside HI. rewrite (bigsum_ext _ _ (fun k => if inside k then spec_power m L f k else 0)) by (intros; rewrite PW; reflexivity).
    apply bands_inside; assumption.
  - intros M HM Hx. eapply peak_energy; eassumption.
Qed.

Lemma run_ceiling : forall (E : Env) e a c N L hop n B x,
  @well_framed E a N L hop -> (Z.of_nat L <= s_nfft a)%Z -> (0 < n)%nat ->
  @extractor_bank E e a = Ok (fmat n (S (half (s_nfft a))) B) -> thrifty n (half (s_nfft a)) B -> In e [Mfcc; Imfcc; Lfcc; Ngcc] ->
  (1 <= c_num_ceps c <= s_nfilts a)%Z -> c_dct_type c = 2%Z -> c_use_energy c = false -> no_lifter c -> no_normalisation c ->
  exists y, @run E e (fvec N x) a c = Ok (fmat (frame_count N L hop) (Nat.min (Z.to_nat (c_num_ceps c)) n) y) /\
    forall i, (i < frame_count N L hop)%nat ->
      y i 0%nat <= sqrt (INR n) * ln (frame_energy L (frame_of a (extractor_coeff e a) L hop x i) / INR n + spec_eps) /\
      (forall M, 0 <= M -> (forall t, (t < N)%nat -> Rabs (x t) <= M) ->
         y i 0%nat <= sqrt (INR n) * ln (INR L * pre_peak (s_pre_emph a) (extractor_coeff e a) M ^ 2 / INR n + spec_eps)).
Proof.
  intros E e a c N L hop n B x Hw HL Hn HB HT He Hc Hd Hu Hl Hnm. assert (1 <= L)%nat by (unfold well_framed in Hw; lia).
  set (m := Z.to_nat (s_nfft a)). assert (M0 : (0 < m)%nat) by (unfold m; lia).
  assert (C : forall v, compression e v = spec_log v) by (intros v; destruct He as [<-|[<-|[<-|[<-|[]]]]]; reflexivity).
  assert (CC : forall v, 0 <= v -> compressible e v) by (intros v Hv; destruct He as [<-|[<-|[<-|[<-|[]]]]]; exact Hv).
  eexists. split; [apply (run_fvec e a c N L hop n B x); auto; try lia|].
  - intros i j Hi Hj. apply CC. fold m. apply (thrifty_band n); assumption.
  - intros i Hi. cbv zeta beta. rewrite Hu, Hd. cbn [andb]. fold m. set (f := frame_of a (extractor_coeff e a) L hop x i).
    assert (EN : bigsum n (fun j => spec_band (half (s_nfft a)) m L f (B j)) <= frame_energy L f).
    { eapply Rle_trans; [apply bands_total; assumption|]. rewrite half_nat by lia. apply total_energy; [exact M0|unfold m; lia]. }
    assert (K : forall S1, frame_energy L f <= S1 -> spec_dct 2 n (fun j => compression e (spec_band (half (s_nfft a)) m L f (B j))) 0 <= sqrt (INR n) * ln (S1 / INR n + spec_eps)).
    { intros S1 HS. eapply Rle_trans; [|apply (dct_ceiling n (fun j => spec_band (half (s_nfft a)) m L f (B j)) S1); [lia| |lra]].
      - right. unfold spec_dct. apply bigsum_ext. intros j _. rewrite C. reflexivity.
      - intros j Hj. apply (thrifty_band n); assumption. }
    split; [apply K; lra|]. intros M HM Hx. apply K. eapply peak_energy; eassumption.
Qed.

(** with use_energy the first coefficient is the logarithm of the frame energy, up to ln 2 *)
Lemma run_energy : forall (E : Env) e a c N L hop n B x,
  @well_framed E a N L hop -> (Z.of_nat L <= s_nfft a)%Z -> (0 < n)%nat ->
  @extractor_bank E e a = Ok (fmat n (S (half (s_nfft a))) B) ->
  (forall i j, (i < frame_count N L hop)%nat -> (j < n)%nat ->
     compressible e (spec_band (half (s_nfft a)) (Z.to_nat (s_nfft a)) L (frame_of a (extractor_coeff e a) L hop x i) (B j))) ->
  (1 <= c_num_ceps c <= s_nfilts a)%Z -> (1 <= c_dct_type c <= 4)%Z -> (c_dct_type c = 1%Z -> (2 <= n)%nat) ->
  c_use_energy c = true -> no_lifter c -> no_normalisation c ->
  exists y, @run E e (fvec N x) a c = Ok (fmat (frame_count N L hop) (Nat.min (Z.to_nat (c_num_ceps c)) n) y) /\
    forall i, (i < frame_count N L hop)%nat ->
      let e0 := frame_energy L (frame_of a (extractor_coeff e a) L hop x i) in
      (e0 = 0 -> y i 0%nat = ln spec_eps) /\ (0 < e0 -> ln e0 - ln 2 <= y i 0%nat <= ln e0).
Proof.
  intros E e a c N L hop n B x Hw HL Hn HB HC Hc Hd Hd1 Hu Hl Hnm. assert (1 <= L)%nat by (unfold well_framed in Hw; lia).
  set (m := Z.to_nat (s_nfft a)) in *. assert (M0 : (0 < m)%nat) by (unfold m; lia).
  eexists. split; [apply (run_fvec e a c N L hop n B x); auto; lia|].
  intros i Hi. cbv zeta beta. rewrite Hu. cbn [andb Nat.eqb]. fold m. set (f := frame_of a (extractor_coeff e a) L hop x i).
  pose proof (total_energy m L f M0 ltac:(unfold m; lia)) as TE. rewrite half_nat by lia. fold m. unfold spec_log. split.
  - intros Z. rewrite Z in TE. destruct (Req_EM_T _ 0) as [|N0]; [reflexivity|lra].
  - intros P. destruct (Req_EM_T _ 0) as [Z|N0]; [lra|]. split.
    + replace (ln (frame_energy L f) - ln 2) with (ln (frame_energy L f / 2)) by (unfold Rdiv; rewrite ln_mult, ln_Rinv by lra; ring).
      apply Rcomplements.ln_le; lra.
    + apply Rcomplements.ln_le; lra.
Qed.
