(** * Properties of the kernels in floating point *)
From Coq Require Import Reals ZArith List String Lia Lra Permutation.
From Flocq Require Import Core.
From Verif Require Import Base SpecBase Preprocessing PreprocessingFacts SpecMat SpecFilters SpecBanks SpecFeatures BigSum Features Extractors FeaturesFacts FeaturesMore ExampleTools ExampleFeatures
  Binary64 Rounded SpecRounded RoundedFacts RoundedLaws RoundedWindows.
Import ListNotations.
Local Open Scope string_scope.
Local Open Scope R_scope.

(** ** C119: band energies *)
(** Whatever the order of the summation, with or without fused multiply-add, and with underflow, a
    band energy is never negative. *)
Theorem C119_nonneg : forall (E : Env) nfft m w n bank j, monotone (@rnd E) -> @rnd E 0 = 0 ->
  (forall k, 0 <= w k) -> dot_program w n (bank j) -> 0 <= @band_energy E nfft m bank j.
Proof. exact band_nonneg. Qed.
Print Assumptions C119_nonneg.
Example C119_nonneg_binary64 : monotone rnd64 /\ rnd64 0 = 0.
Proof. split; [exact rnd64_monotone|exact rnd64_0]. Qed.

(** It differs from the energy of the same magnitudes in exact arithmetic by at most one factor
    between 1-u and 1+u for each of the n+3 roundings. *)
Theorem C119_accuracy : forall (E : Env) u nfft m w n bank j, accurate u 0 (@rnd E) -> u <= 1 ->
  (forall k, 0 <= w k) -> dot_program w n (bank j) ->
  let e := bigsum n (fun k => w k * (m k * m k / INR nfft)) in
  (1 - u) ^ (n + 3) * e <= @band_energy E nfft m bank j <= (1 + u) ^ (n + 3) * e.
Proof. exact band_bounds. Qed.
Print Assumptions C119_accuracy.

(** So an energy that is not zero does not become zero, and its logarithm is off by (n+3) u or so. *)
Theorem C119_log : forall (E : Env) u nfft m w n bank j, accurate u 0 (@rnd E) -> u < 1 ->
  (forall k, 0 <= w k) -> dot_program w n (bank j) ->
  let e := bigsum n (fun k => w k * (m k * m k / INR nfft)) in 0 < e ->
  0 < @band_energy E nfft m bank j /\ Rabs (ln (@band_energy E nfft m bank j) - ln e) <= INR (n + 3) * - ln (1 - u).
Proof. exact band_log. Qed.
Print Assumptions C119_log.

(** The same holds in binary64 when no operation underflows. *)
Theorem C119_binary64 : forall nfft m w n bank j, (forall k, 0 <= w k) -> dot_program w n (bank j) ->
  (forall k, normal (1 / INR nfft) /\ normal (m k * m k) /\ normal (rnd53 (1 / INR nfft) * rnd53 (m k * m k))) ->
  normal_run (@bin_power binary53 nfft m) (bank j) ->
  let e := bigsum n (fun k => w k * (m k * m k / INR nfft)) in
  (1 - / 2 ^ 53) ^ (n + 3) * e <= @band_energy binary64 nfft m bank j <= (1 + / 2 ^ 53) ^ (n + 3) * e.
Proof.
  intros nfft m w n bank j Hw Hb Hn Hr. rewrite band_normal by assumption.
  apply band_bounds; auto; [exact rnd53_accurate|]. rewrite (pow_IZR 2 53). change (2 ^ Z.of_nat 53)%Z with 9007199254740992%Z. lra.
Qed.
Print Assumptions C119_binary64.

(** The entries of the five spectrograms: with magnitudes that are right up to a factor 1-d .. 1+d,
    entry (i, j) computed in floating point is within (n+3) roundings and (1+-d)^2 of the entry that
    the function has in exact arithmetic. *)
Theorem C119_spectrogram : forall (E : Env) s a N L hop n B x,
  @well_framed E a N L hop -> (1 <= s_nfft a)%Z -> (0 < n)%nat ->
  @spectro_bank E s a = Ok (fmat n (S (half (s_nfft a))) B) -> (forall j k, 0 <= B j k) ->
  exists P Q, @spectrogram E s (fvec N x) a
    = Ok (fmat (frame_count N L hop) n P, fmat (frame_count N L hop) (S (half (s_nfft a))) Q) /\
    forall (E' : Env) u d m bank i j, accurate u 0 (@rnd E') -> u <= 1 -> 0 <= d <= 1 ->
      dot_program (B j) (S (half (s_nfft a))) (bank j) ->
      (forall k, (k <= half (s_nfft a))%nat -> (1 - d) * Q i k <= m k <= (1 + d) * Q i k) ->
      (1 - u) ^ (S (half (s_nfft a)) + 3) * ((1 - d) ^ 2 * P i j)
      <= @band_energy E' (Z.to_nat (s_nfft a)) m bank j
      <= (1 + u) ^ (S (half (s_nfft a)) + 3) * ((1 + d) ^ 2 * P i j).
Proof.
  intros E s a N L hop n B x Hw Hn Hn0 HB Hpos. do 2 eexists. split; [apply spectrogram_fvec; eauto|].
  intros E' u d m bank i j Ha Hu Hd Hb Hm. cbv beta in Hm |- *.
  set (nf := Z.to_nat (s_nfft a)) in *. set (f := frame_of a (spectro_coeff s a) L hop x i) in *.
  assert (Q : forall k, spec_mag nf L f k ^ 2 / INR nf = spec_power nf L f k).
  { intros k. unfold spec_power. f_equal. unfold spec_mag. apply pow2_sqrt. unfold spec_sq.
    pose proof (pow2_ge_0 (spec_re nf L f k)). pose proof (pow2_ge_0 (spec_im nf L f k)). lra. }
  pose proof (band_magnitudes E' u d nf m (spec_mag nf L f) (B j) (S (half (s_nfft a))) bank j Ha Hu Hd (Hpos j) Hb) as K.
  cbv zeta in K. unfold spec_band. rewrite <- (bigsum_ext _ _ _ (fun k _ => f_equal (fun v => v * B j k) (Q k))).
  apply K. intros k Hk. split; [apply sqrt_pos|]. apply Hm. lia.
Qed.
Print Assumptions C119_spectrogram.

(** a case: frames of two samples, a bank of ones, the sum of the two bins rounded to 53 bits *)
Example C119_spectrogram_example : forall x, exists P Q,
  @linear_spectrogram exact_env (fvec 4 x) (mkS 1 false 0 (Some (mkWindow 2 2 "hanning")) 1 2 0 None "constant"
      (Some (fmat 1 2 (fun _ _ => 1))) "Oshaghnessy") = Ok (fmat 2 1 P, fmat 2 2 Q) /\
  forall i, @band_energy binary53 2 (Q i) (fun _ => sum_left 2) 0 <= (1 + / 2 ^ 53) ^ 5 * P i 0%nat.
Proof.
  intros x.
  assert (W : @well_framed exact_env (mkS 1 false 0 (Some (mkWindow 2 2 "hanning")) 1 2 0 None "constant"
      (Some (fmat 1 2 (fun _ _ => 1))) "Oshaghnessy") 4 2 2).
  { unfold well_framed, window_of. cbn [s_window win_len win_hop win_type s_fs].
    split; [lra|]. split; [apply flen_exact; simpl; lra|]. split; [apply flen_exact; simpl; lra|].
    split; [lia|]. split; [lia|]. simpl; tauto. }
  destruct (C119_spectrogram exact_env Linear _ 4 2 2 1 (fun _ _ => 1) x W) as (P & Q & H1 & H2); [simpl; lia|lia|reflexivity|intros; lra|].
  exists P, Q. split; [exact H1|]. intros i.
  destruct (H2 binary53 (/ 2 ^ 53) 0 (Q i) (fun _ => sum_left 2) i 0%nat rnd53_accurate) as [_ K].
  - rewrite (pow_IZR 2 53). change (2 ^ Z.of_nat 53)%Z with 9007199254740992%Z. lra.
  - lra.
  - apply sum_left_program.
  - intros. lra.
  - eapply Rle_trans; [exact K|]. right. simpl (S (half _) + 3)%nat. f_equal. ring.
Qed.

(** with the default nfft = 512: 257 bins, logarithms off by less than 3e-14 *)
Example C119_default : forall m w bank j, (forall k, 0 <= w k) -> dot_program w 257 (bank j) ->
  let e := bigsum 257 (fun k => w k * (m k * m k / INR 512)) in 0 < e ->
  Rabs (ln (@band_energy binary53 512 m bank j) - ln e) <= 3 / 100000000000000.
Proof.
  intros m w bank j Hw Hb e He.
  assert (Hu : / 2 ^ 53 = / IZR 9007199254740992) by (rewrite (pow_IZR 2 53); reflexivity).
  destruct (band_log binary53 (/ 2 ^ 53) 512 m w 257 bank j rnd53_accurate ltac:(rewrite Hu; lra) Hw Hb He) as [_ K].
  eapply Rle_trans; [exact K|]. rewrite Hu. rewrite <- ln_Rinv by lra.
  assert (L : ln (/ (1 - / IZR 9007199254740992)) <= / IZR 9007199254740991).
  { replace (/ (1 - / IZR 9007199254740992)) with (1 + / IZR 9007199254740991) by (field; lra).
    pose proof (exp_ineq1 (/ IZR 9007199254740991) ltac:(lra)) as Hi.
    rewrite <- (ln_exp (/ IZR 9007199254740991)) at 2. apply Rlt_le, ln_increasing; lra. }
  replace (INR (257 + 3)) with 260 by (rewrite INR_IZR_INZ; reflexivity). lra.
Qed.
Definition ex_weights (k : nat) : R := match k with O => 1 / 2 | _ => 1 end.
Example C119_program : dot_program ex_weights 3 (ScaleAdd (ex_weights 2) (Load 2) (Add (Scale (ex_weights 1) (Load 1)) (Scale (ex_weights 0) (Load 0)))).
Proof.
  exists [2; 1; 0]%nat. split.
  - change (seq 0 3) with (rev [2; 1; 0]%nat). apply Permutation_rev.
  - apply dots_fma. apply (dots_add ex_weights [1%nat] [0%nat]); try discriminate; apply dots_mul.
Qed.
Example C119_no_underflow : normal_run (@bin_power binary53 4 (fun _ => 1)) (Scale 1 (Load 0)) /\ normal (1 / INR 4).
Proof.
  assert (H4 : rnd53 (1 / INR 4) = 1 / INR 4).
  { replace (1 / INR 4) with (bpow radix2 (-2) * 1) by (change (bpow radix2 (-2)) with (/ 4); cbn [INR]; lra).
    rewrite rnd53_scale. f_equal. apply round_generic; [apply valid_rnd_N|apply generic_format_FLX_1; reflexivity]. }
  assert (H1 : rnd53 1 = 1) by (apply round_generic; [apply valid_rnd_N|apply generic_format_FLX_1; reflexivity]).
  assert (B : normal (1 / INR 4)).
  { right. rewrite Rabs_pos_eq by (cbn [INR]; lra). replace (1 / INR 4) with (bpow radix2 (-2)) by (change (bpow radix2 (-2)) with (/ 4); cbn [INR]; lra).
    apply bpow_le. lia. }
  split; [|exact B]. split; [exact I|]. cbn [lin_run]. unfold bin_power. cbn [rnd binary53].
  rewrite Rmult_1_l, Rmult_1_l, H1, Rmult_1_r, !H4. exact B.
Qed.

(** ** C120: polarity and gain by powers of two *)
(** Turning the signal upside down does not change one bit of a band energy, whatever FFT, window and
    summation order are used. *)
Theorem C120_polarity : forall (E : Env) hyp re im x nfft bank j, odd (@rnd E) -> (forall a b, hyp (- a) (- b) = hyp a b) ->
  @band_energy E nfft (@bin_magnitude E hyp re im (fun t => - x t)) bank j
  = @band_energy E nfft (@bin_magnitude E hyp re im x) bank j.
Proof. exact band_polarity. Qed.
Print Assumptions C120_polarity.
(** Multiplying the signal by 2^k multiplies every band energy by exactly 4^k (53-bit rounding without
    limits on the exponent). *)
Theorem C120_gain : forall hyp re im x nfft bank j k,
  (forall a b, hyp (bpow radix2 k * a) (bpow radix2 k * b) = bpow radix2 k * hyp a b) ->
  @band_energy binary53 nfft (@bin_magnitude binary53 hyp re im (fun t => bpow radix2 k * x t)) bank j
  = bpow radix2 (2 * k) * @band_energy binary53 nfft (@bin_magnitude binary53 hyp re im x) bank j.
Proof. exact band_gain. Qed.
Print Assumptions C120_gain.
(** a correctly rounded hypot meets both hypotheses *)
Example C120_hypot : forall a b k, let hyp a b := rnd53 (sqrt (a * a + b * b)) in
  hyp (- a) (- b) = hyp a b /\ hyp (bpow radix2 k * a) (bpow radix2 k * b) = bpow radix2 k * hyp a b.
Proof.
  intros a b k. cbv zeta. split.
  - f_equal. f_equal. ring.
  - rewrite <- rnd53_scale. f_equal.
    replace (bpow radix2 k * a * (bpow radix2 k * a) + bpow radix2 k * b * (bpow radix2 k * b))
      with (bpow radix2 k * bpow radix2 k * (a * a + b * b)) by ring.
    rewrite sqrt_mult_alt by (apply Rmult_le_pos; apply bpow_ge_0). rewrite sqrt_square by apply bpow_ge_0. reflexivity.
Qed.
(** binary64 and its version without exponent limits are odd *)
Example C120_odd_rounding : odd rnd64 /\ odd rnd53.
Proof. split; [exact rnd64_odd|exact rnd53_odd]. Qed.

(** ** C121: linear steps *)
(** Any straight-line program -- pre-emphasis, window, any FFT or DCT algorithm, the filters of the
    deltas -- is off by at most the given multiple of the size of its terms, underflow included. *)
Theorem C121_linear : forall (E : Env) u eta x p, accurate u eta (@rnd E) ->
  Rabs (@lin_run E x p - lin_exact x p)
  <= ((1 + u) ^ lin_depth p - 1) * lin_size x p + (1 + u) ^ lin_depth p * lin_amp p * eta.
Proof. exact lin_error. Qed.
Print Assumptions C121_linear.
(** The same with constants such as cosines stored as rounded numbers. *)
Theorem C121_stored_constants : forall (E : Env) u x p, accurate u 0 (@rnd E) ->
  Rabs (@lin_run E x (@lin_stored E p) - lin_exact x p) <= ((1 + u) ^ lin_depth2 p - 1) * lin_size x p.
Proof. exact lin_stored_error. Qed.
Print Assumptions C121_stored_constants.
(** Pre-emphasis in binary64, evaluated in any of the possible ways: [v 0] is the sample and [v 1] the
    one before it. *)
Theorem C121_pre_emphasis : forall a v p, dot_program (fun i => match i with O => 1 | _ => - a end) 2 p ->
  Rabs (@lin_run binary64 v p - (v O - a * v 1%nat))
  <= ((1 + / 2 ^ 53) ^ 2 - 1) * (Rabs (v O) + Rabs (a * v 1%nat)) + (1 + / 2 ^ 53) ^ 2 * 4 * bpow radix2 (-1075).
Proof.
  intros a v p Hp. pose proof (dot_error binary64 _ _ _ 2 p v rnd64_accurate Hp) as K. unfold bigsum in K.
  replace (v O - a * v 1%nat) with (0 + 1 * v O + - a * v 1%nat) by ring.
  replace (Rabs (v O) + Rabs (a * v 1%nat)) with (0 + Rabs (1 * v O) + Rabs (- a * v 1%nat)).
  2:{ rewrite Rmult_1_l. replace (- a * v 1%nat) with (- (a * v 1%nat)) by ring. rewrite Rabs_Ropp. ring. }
  eapply Rle_trans; [exact K|]. right. cbn [INR]. ring.
Qed.
Print Assumptions C121_pre_emphasis.
Example C121_example : forall a, dot_program (fun i => match i with O => 1 | _ => - a end) 2 (Add (Load 0) (Scale (- a) (Load 1))).
Proof.
  intros a. exists [0; 1]%nat. split; [reflexivity|]. apply (dots_add _ [0%nat] [1%nat]); try discriminate.
  - apply dots_load. reflexivity.
  - apply (dots_mul (fun i => match i with O => 1 | _ => - a end) 1).
Qed.
(** the real part of DFT bin 1 of two numbers, as a program with its size and depth *)
Example C121_dft : let p := Add (Scale (cos 0) (Load 0)) (Scale (cos PI) (Load 1)) in
  lin_exact (fun _ => 3) p = 0 /\ lin_size (fun _ => 3) p = 6 /\ lin_depth2 p = 3%nat.
Proof.
  cbv zeta. cbn [lin_exact lin_size lin_depth2 Nat.max]. rewrite cos_0, cos_PI.
  repeat split; [lra|]. rewrite (Rabs_pos_eq 1), (Rabs_pos_eq 3) by lra. rewrite (Rabs_left (-1)) by lra. lra.
Qed.

(** ** C122: numpy's windows *)
(** Bit for bit symmetric, for any odd rounding and even cosine. *)
Theorem C122_symmetric : forall (E : Env) pi cosf M n, odd (@rnd E) -> (forall y, cosf (- y) = cosf y) -> (n < M)%nat ->
  @hanning_of E pi cosf M (M - 1 - n) = @hanning_of E pi cosf M n
  /\ @hamming_of E pi cosf M (M - 1 - n) = @hamming_of E pi cosf M n
  /\ @blackman_of E pi cosf M (M - 1 - n) = @blackman_of E pi cosf M n
  /\ @bartlett_of E M (M - 1 - n) = @bartlett_of E M n.
Proof.
  intros E pi cosf M n Ho He Hn. unfold hanning_of, hamming_of, blackman_of.
  rewrite !angle_mirror, !He by assumption. repeat split. apply bartlett_mirror; assumption.
Qed.
Print Assumptions C122_symmetric.
(** hanning, hamming and bartlett stay within their range in binary64, for any library cosine with
    values between -1 and 1. *)
Theorem C122_range : forall pi cosf M n, (forall y, -1 <= cosf y <= 1) -> (n < M)%nat -> (2 <= M)%nat ->
  0 <= @hanning_of binary64 pi cosf M n <= 1 /\ 0.0799 <= @hamming_of binary64 pi cosf M n <= 1
  /\ 0 <= @bartlett_of binary64 M n <= 1.
Proof.
  intros pi cosf M n Hc Hn HM. split; [apply hanning_range; exact Hc|]. split; [apply hamming_range; exact Hc|].
  apply bartlett_range; assumption.
Qed.
Print Assumptions C122_range.
(** hanning is exactly zero at its ends. *)
Theorem C122_hanning_ends : forall M, (2 <= M)%nat -> @hanning_of binary64 (rnd64 PI) (fun y => rnd64 (cos y)) M 0 = 0.
Proof. exact hanning_first. Qed.
Print Assumptions C122_hanning_ends.
(** blackman is not: its ends are -2^-56, for every length. *)
Theorem C122_blackman_ends : forall M, (2 <= M)%nat ->
  @blackman_of binary64 (rnd64 PI) (fun y => rnd64 (cos y)) M 0 = - bpow radix2 (-56).
Proof. exact blackman_first. Qed.
Print Assumptions C122_blackman_ends.
Theorem C122_blackman_nonneg_refuted : ~ (forall M n, (n < M)%nat -> (2 <= M)%nat ->
  0 <= @blackman_of binary64 (rnd64 PI) (fun y => rnd64 (cos y)) M n).
Proof.
  intros H. specialize (H 2%nat 0%nat ltac:(lia) ltac:(lia)). rewrite blackman_first in H by lia.
  pose proof (bpow_gt_0 radix2 (-56)). lra.
Qed.
Print Assumptions C122_blackman_nonneg_refuted.
Example C122_example : (forall y, -1 <= rnd64 (cos y) <= 1) /\ (forall y, rnd64 (cos (- y)) = rnd64 (cos y)).
Proof.
  split; intros y.
  - apply rnd64_between; [apply (rnd64_int (-1)); lia|apply rnd64_1|apply COS_bound].
  - rewrite cos_neg. reflexivity.
Qed.

(** ** C123: constant columns *)
(** A constant column of whole numbers becomes NaN under "mvn", as in exact arithmetic. *)
Theorem C123_whole_numbers : forall z n s i, (0 < n)%nat -> dot_program (fun _ => 1) n s -> (Z.of_nat n * Z.abs z < 2 ^ 53)%Z ->
  @mvn_of binary64 s n (fun _ => IZR z) i = NaN.
Proof. exact mvn_constant_int. Qed.
Print Assumptions C123_whole_numbers.
(** Other constant columns need not: three times 0.1 becomes -1, -1, -1. *)
Theorem C123_nan_refuted : ~ (forall v n s i, (0 < n)%nat -> dot_program (fun _ => 1) n s ->
  @mvn_of binary64 s n (fun _ => rnd64 v) i = NaN).
Proof.
  intros H. specialize (H 0.1 3%nat (sum_left 3) 0%nat ltac:(lia) (sum_left_program 3)). rewrite mvn_tenth in H. discriminate.
Qed.
Print Assumptions C123_nan_refuted.
Example C123_tenth : forall i, @mvn_of binary64 (sum_left 3) 3 (fun _ => rnd64 0.1) i = Fin (-1).
Proof. exact mvn_tenth. Qed.
Example C123_example : @mvn_of binary64 (sum_left 3) 3 (fun _ => 5) 0 = NaN.
Proof. apply (mvn_constant_int 5); [lia|apply sum_left_program|lia]. Qed.

(** ** C124: mean subtraction *)
(** The mean left in a column after subtracting its mean is small against the entries. *)
Theorem C124_residual_mean : forall (E : Env) u n s x, accurate u 0 (@rnd E) -> (0 < n)%nat -> dot_program (fun _ => 1) n s ->
  Rabs (bigsum n (@centred E s n x) / INR n) <= ((1 + u) ^ (n + 2) - 1 + u) * (bigsum n (fun i => Rabs (x i)) / INR n).
Proof. exact centred_mean. Qed.
Print Assumptions C124_residual_mean.
(** It is not always zero. *)
Theorem C124_zero_mean_refuted : ~ (forall n s x, (0 < n)%nat -> dot_program (fun _ => 1) n s ->
  bigsum n (@centred binary64 s n x) = 0).
Proof.
  intros H. specialize (H 3%nat (sum_left 3) (fun _ => rnd64 0.1) ltac:(lia) (sum_left_program 3)).
  unfold bigsum, centred in H. cbn [rnd binary64] in H.
  rewrite mean_tenth, r01, <- Rmult_minus_distr_r, <- minus_IZR in H. change (7205759403792794 - 7205759403792795)%Z with (-1)%Z in H.
  rewrite rnd64_id in H; [|reflexivity|lia]. pose proof (bpow_gt_0 radix2 (-56)). lra.
Qed.
Print Assumptions C124_zero_mean_refuted.
Example C124_example : accurate (/ 2 ^ 53) 0 rnd53 /\ dot_program (fun _ => 1) 100 (sum_left 100).
Proof. split; [exact rnd53_accurate|apply sum_left_program]. Qed.
