(** * Property theorems: YIN in floating point (C146-C149)

    [conv] is the convolution of the library; [conv_within delta eta conv] says that its error is at
    most delta times the energy of the window, plus eta.  [best_conv r] is a correctly rounded one. *)
From Coq Require Import Reals ZArith List Lia Lra.
From Flocq Require Import Core.
From Verif Require Import Base BaseFacts SpecBase SpecMat BigSum MatFacts SpecPcm Yin SpecYin YinFacts Binary64 Rounded SpecRounded
  RoundedFacts RoundedWindows RoundedYin SpecRoundedYin RoundedYinFacts RoundedYinLaws RoundedYinCases RoundedYinEnd RoundedYinStable.
Import ListNotations.
Local Open Scope R_scope.

(** C146. Accuracy of the difference function. *)
Theorem C146_accuracy : forall (E : Env) u eta, accurate u eta (@rnd E) ->
  forall conv delta L x tau, conv_within delta eta conv -> (tau <= L)%nat ->
  Rabs (@difference_of E conv L x tau - bigsum (L - tau) (fun j => (x j - x (j + tau)%nat) ^ 2))
  <= yin_noise u eta delta L (bigsum L (fun j => x j * x j)).
Proof. exact difference_error. Qed.
Print Assumptions C146_accuracy.
Theorem C146_binary64 : forall conv delta L x tau, conv_within delta (bpow radix2 (-1075)) conv -> delta <= 1 ->
  (Z.of_nat L <= 2 ^ 51)%Z -> (tau <= L)%nat ->
  Rabs (@difference_of binary64 conv L x tau - bigsum (L - tau) (fun j => (x j - x (j + tau)%nat) ^ 2))
  <= (6 * INR (L + 6) / 2 ^ 53 + 2 * delta) * bigsum L (fun j => x j * x j) + 12 * INR (L + 1) * bpow radix2 (-1075).
Proof. exact difference_binary64. Qed.
Print Assumptions C146_binary64.
(** the library's convolution may be correctly rounded *)
Example C146_conv : conv_within (/ 2 ^ 53) (bpow radix2 (-1075)) (best_conv rnd64).
Proof. apply best_conv_within, rnd64_accurate. Qed.
Example C146_binary64_example : forall x, (forall j, Rabs (x j) <= 1) ->
  Rabs (@difference_of binary64 (best_conv rnd64) 480 x 100 - bigsum 380 (fun j => (x j - x (j + 100)%nat) ^ 2)) <= 1.6e-10.
Proof.
  intros x Hx. eapply Rle_trans; [apply (C146_binary64 _ _ 480 x 100 C146_conv); [lra|lia|lia]|].
  assert (B : bigsum 480 (fun j => x j * x j) <= 480).
  { replace 480 with (bigsum 480 (fun _ => 1)) by (rewrite bigsum_const; cbn; lra). apply bigsum_le. intros j _.
    specialize (Hx j). apply Rabs_le_inv in Hx. nra. }
  assert (B0 : 0 <= bigsum 480 (fun j => x j * x j)) by (apply bigsum_nonneg; intros; apply Rle_0_sqr).
  assert (T : bpow radix2 (-1075) <= bpow radix2 (-60)) by (apply bpow_le; lia).
  set (e := bigsum 480 (fun j => x j * x j)) in *. set (z := bpow radix2 (-1075)) in *. clearbody e z.
  replace (INR (480 + 6)) with 486 by (cbn; lra). replace (INR (480 + 1)) with 481 by (cbn; lra). cbn in T. lra.
Qed.
(** Without rounding it is the model of C54-C58. *)
Theorem C146_exact : forall N x fs wl wh low high th L hop lo T,
  @yin_config exact_env fs wl wh low high L hop lo T -> (S T <= L)%nat ->
  @compute_yin_of exact_env lag_product (map x (seq 0 N)) fs wl wh low high th
  = @compute_yin exact_env (fvec N x) fs wl wh low high th.
Proof. exact yin_of_exact. Qed.
Print Assumptions C146_exact.
(** Whole numbers (16-bit samples, for example) whose energy in the window stays below 2^51 lose
    nothing in binary64. *)
Theorem C146_whole_numbers : forall L z tau, (isum L (fun t => z t * z t) < 2 ^ 51)%Z -> (tau <= L)%nat ->
  @difference_of binary64 (best_conv rnd64) L (fun t => IZR (z t)) tau
  = bigsum (L - tau) (fun j => (IZR (z j) - IZR (z (j + tau)%nat)) ^ 2).
Proof. exact difference_whole. Qed.
Print Assumptions C146_whole_numbers.
Example C146_whole_example : @difference_of binary64 (best_conv rnd64) 3 (fun t => IZR (nth t [30000; -20000; 7]%Z 0%Z)) 1
  = IZR 2900280049.
Proof. rewrite C146_whole_numbers by (vm_compute; reflexivity || lia). cbn. lra. Qed.
(** In exact arithmetic the differences are never negative (C54_nonneg).  In binary64 they can be. *)
Theorem C146_nonneg_refuted : exists L c tau, (tau <= L)%nat /\ rnd64 c = c /\
  @difference_of binary64 (best_conv rnd64) L (fun _ => c) tau < 0.
Proof.
  exists 7%nat, (rnd64 0.1), 5%nat. split; [lia|]. split; [|exact difference_negative].
  rewrite tenth_scaled. apply rnd64_id; lia.
Qed.
Print Assumptions C146_nonneg_refuted.

(** C147. The decisions.  A periodic window: it is voiced if its differences stand out of the noise. *)
Theorem C147_periodic : forall (E : Env) u eta delta conv N x fs wl wh low high th L hop lo T p,
  accurate u eta (@rnd E) -> conv_within delta eta conv -> (1 + u) ^ p <= 5 / 4 ->
  yin_config fs wl wh low high L hop lo T -> (S T <= L)%nat -> (1 <= lo <= p)%nat -> (p <= T)%nat -> 0 < th <= 1 -> 100 * eta <= th ->
  forall P H A tm, @compute_yin_of E conv (map x (seq 0 N)) fs wl wh low high th = Ok (P, H, A, tm) ->
  forall i, (i < yin_frames N L hop)%nat -> let f := yin_x hop x i in
  (forall t, (t + p < L)%nat -> f (t + p)%nat = f t) ->
  let noise := yin_noise u eta delta L (window_energy L f) in
  4 * INR p * (noise + eta) < th * yin_sum (yin_d L f) p ->
  exists q, (lo <= q <= T)%nat /\ nth i P NaN = Fin (@rnd E (IZR fs / INR q)) /\
    (monotone (@rnd E) -> ((S p <= T)%nat -> 12 * (noise + eta) <= yin_d L f (S p)) -> (q <= p)%nat).
Proof. exact yin_of_periodic. Qed.
Print Assumptions C147_periodic.
(** windows of 500 samples every 250 at 16 kHz, lags 5 to 319, a pulse every 100 samples *)
Lemma large_config : @yin_config binary64 16000 0.03125 0.015625 50 3200 500 250 5 319.
Proof.
  unfold yin_config. cbn [rnd binary64]. split; [lia|]. split; [lra|]. split; [lra|].
  replace (0.03125 * 16000) with (IZR 500) by lra. replace (0.015625 * 16000) with (IZR 250) by lra.
  replace (16000 / 3200) with (IZR 5) by lra. replace (16000 / 50) with (IZR 320) by lra. rewrite !rnd64_int by lia. rewrite !Ztrunc_IZR.
  repeat split; lia.
Qed.
Example C147_periodic_example : forall N P H A tm i, let x t := if Nat.eqb (t mod 100) 0 then 1 else 0 in
  @compute_yin_of binary64 (best_conv rnd64) (map x (seq 0 N)) 16000 0.03125 0.015625 50 3200 0.1 = Ok (P, H, A, tm) ->
  (i < yin_frames N 500 250)%nat ->
  exists q, (5 <= q <= 100)%nat /\ nth i P NaN = Fin (rnd64 (16000 / INR q)).
Proof.
  intros N P H A tm i x Hy Hi.
  assert (T : bpow radix2 (-1075) <= / IZR 1125899906842624) by exact (bpow_le radix2 (-1075) (-50) ltac:(lia)).
  assert (T0 : 0 < bpow radix2 (-1075)) by apply bpow_gt_0.
  set (f := yin_x 250 x i).
  assert (Per : forall t, f (t + 100)%nat = f t).
  { intros t. unfold f, yin_x, x. replace (i * 250 + (t + 100))%nat with (i * 250 + t + 1 * 100)%nat by lia.
    rewrite Nat.mod_add by lia. reflexivity. }
  destruct (pulse_train 100 (i * 250) ltac:(lia)) as (v & Hv & Hne).
  assert (V : (f v - f (S v)) ^ 2 = 1).
  { revert Hne. unfold f, yin_x, x. destruct (Nat.eqb ((i * 250 + v) mod 100) 0), (Nat.eqb ((i * 250 + S v) mod 100) 0);
      intros Hne; try (exfalso; apply Hne; reflexivity); ring. }
  assert (Q : forall k, (1 <= k <= 101)%nat -> (forall j, f (j + k)%nat = f (S j)) -> 1 <= yin_d 500 f k).
  { intros k Hk Hf. unfold yin_d. rewrite <- V. rewrite <- Hf.
    apply (bigsum_ge_term (500 - k) (fun j => (f j - f (j + k)%nat) ^ 2) v); [intros; apply pow2_ge_0|lia]. }
  assert (Q1 : 1 <= yin_d 500 f 1) by (apply Q; [lia|intros j; f_equal; lia]).
  assert (Q2 : 1 <= yin_d 500 f 101) by (apply Q; [lia|intros j; rewrite <- (Per (S j)); f_equal; lia]).
  assert (Q3 : 1 <= yin_sum (yin_d 500 f) 100).
  { eapply Rle_trans; [exact Q1|]. apply (bigsum_ge_term 100 (fun u => yin_d 500 f (S u)) 0%nat); [|lia].
    intros; apply bigsum_nonneg; intros; apply pow2_ge_0. }
  assert (En : yin_noise (/ 2 ^ 53) (bpow radix2 (-1075)) (/ 2 ^ 53) 500 (window_energy 500 f) <= 1e-8).
  { assert (B : window_energy 500 f <= 500).
    { unfold window_energy. replace 500 with (bigsum 500 (fun _ => 1)) by (rewrite bigsum_const; cbn; lra). apply bigsum_le. intros j _.
      unfold f, yin_x, x. destruct (Nat.eqb ((i * 250 + j) mod 100) 0); lra. }
    assert (B0 : 0 <= window_energy 500 f) by (apply bigsum_nonneg; intros; apply Rle_0_sqr).
    eapply Rle_trans; [apply noise_small; [apply rnd64_accurate|lra|lra|exact B0|]|]; rewrite !plus_INR, ?INR_IZR_INZ.
    - cbn. lra.
    - cbn [Z.of_nat Pos.of_succ_nat Pos.succ]. set (e := window_energy 500 f) in *. set (z := bpow radix2 (-1075)) in *. clearbody e z.  lra. }
  destruct (C147_periodic binary64 (/ 2 ^ 53) (bpow radix2 (-1075)) (/ 2 ^ 53) (best_conv rnd64) N x 16000 0.03125 0.015625 50 3200 0.1 500 250 5 319 100
    rnd64_accurate C146_conv) with (P := P) (H := H) (A := A) (tm := tm) (i := i) as (q & Hq & EP & Hle); auto; try lia; try lra.
  - exact large_config.
  - change (yin_x 250 x i) with f. rewrite INR_IZR_INZ. cbn [Z.of_nat Pos.of_succ_nat Pos.succ].  lra.
  - exists q. split; [|exact EP]. split; [lia|]. apply Hle; [exact rnd64_monotone|]. intros _. change (yin_x 250 x i) with f.  lra.
Qed.
(** The same lag, or the same silence, as exact arithmetic, if every comparison that decides it
    holds with room for the error of the curve; the harmonic rate is within that error too. *)
Theorem C147_stable : forall (E : Env) u eta delta conv N x fs wl wh low high th L hop lo T r,
  accurate u eta (@rnd E) -> conv_within delta eta conv ->
  yin_config fs wl wh low high L hop lo T -> (S T <= L)%nat -> (1 <= lo)%nat ->
  forall P H A tm, @compute_yin_of E conv (map x (seq 0 N)) fs wl wh low high th = Ok (P, H, A, tm) ->
  forall i, (i < yin_frames N L hop)%nat -> let f := yin_x hop x i in let d := yin_d L f in
  0 < yin_sum d lo -> yin_noise u eta delta L (window_energy L f) + eta <= r * yin_sum d lo ->
  INR T * (2 * u + 3 * r) <= 1 / 2 ->
  let c := yin_value d in let m t := yin_margin u eta r (c t) t in
  (forall s p, clear_lag c m lo (S T) th s p ->
     nth i P NaN = Fin (@rnd E (IZR fs / INR p)) /\ exists h, nth i H NaN = Fin h /\ Rabs (h - c p) <= m p) /\
  (clear_unvoiced c m lo (S T) th -> nth i P NaN = Fin 0).
Proof. exact yin_of_stable. Qed.
Print Assumptions C147_stable.
(** one second of windows of 6 samples, lags 1 to 3 *)
Lemma small_config : @yin_config binary64 6 1 0.25 1.5 6 6 1 1 3.
Proof.
  unfold yin_config. cbn [rnd binary64]. split; [lia|]. split; [lra|]. split; [lra|].
  replace (1 * 6) with (IZR 6) by lra. replace (0.25 * 6) with (IZR 3 * bpow radix2 (-1)) by (cbn; lra).
  replace (6 / 6) with (IZR 1) by lra. replace (6 / 1.5) with (IZR 4) by lra. rewrite rnd64_id, !rnd64_int by lia. rewrite !Ztrunc_IZR.
  replace (IZR 3 * bpow radix2 (-1)) with 1.5 by (cbn; lra).
  rewrite Ztrunc_floor by lra. repeat split; try lia. apply Zfloor_imp; cbn; lra.
Qed.
Example C147_stable_example : forall N P H A tm, let x t := if Nat.even t then 1 else 0 in
  @compute_yin_of binary64 (best_conv rnd64) (map x (seq 0 N)) 6 1 0.25 1.5 6 0.1 = Ok (P, H, A, tm) ->
  (6 < N)%nat -> nth 0 P NaN = Fin 3.
Proof.
  intros N P H A tm x Hy HN.
  assert (T : bpow radix2 (-1075) <= / IZR 1125899906842624) by exact (bpow_le radix2 (-1075) (-50) ltac:(lia)).
  assert (T0 : 0 < bpow radix2 (-1075)) by apply bpow_gt_0.
  destruct (C147_stable binary64 (/ 2 ^ 53) (bpow radix2 (-1075)) (/ 2 ^ 53) (best_conv rnd64) N x 6 1 0.25 1.5 6 0.1 6 1 1 3 0.001
    rnd64_accurate C146_conv small_config ltac:(lia) ltac:(lia) P H A tm Hy 0%nat) as (K & _).
  - unfold yin_frames. rewrite Nat.div_1_r. lia.
  - unfold yin_sum, yin_d, yin_x, x. cbn. lra.
  - eapply Rle_trans.
    + apply Rplus_le_compat_r. apply noise_small; [apply rnd64_accurate|lra|lra|apply squares_nonneg|cbn; lra].
    + unfold window_energy, yin_sum, yin_d, yin_x, x. set (z := bpow radix2 (-1075)) in *. clearbody z. cbn. lra.
  - cbn. lra.
  - destruct (K 2%nat 2%nat) as (K1 & _).
    + unfold yin_margin, yin_value, yin_sum, yin_d, yin_x, x. clear Hy K. set (z := bpow radix2 (-1075)) in *. clearbody z.
      unfold clear_lag. split; [lia|]. split; [lia|]. split; [cbn; lra|].
      split; [intros t Ht; assert (t = 1%nat) as -> by lia; cbn; lra|]. split; [intros; lia|]. intros _. cbn. lra.
    + rewrite K1. f_equal. replace (6 / INR 2) with (IZR 3) by (cbn; lra). apply rnd64_int. lia.
Qed.

(** C148. Windows without variation.  Silence, and a constant whole number, have pitch 0, harmonic
    rate 1 and argmin value 0, as in exact arithmetic (C86). *)
Theorem C148_silence : forall (E : Env) conv N x fs wl wh low high th L hop lo T,
  @rnd E 0 = 0 -> (forall g tau, (forall t, (t < L)%nat -> g t = 0) -> conv L g tau = 0) ->
  yin_config fs wl wh low high L hop lo T -> (S T <= L)%nat -> (1 <= lo)%nat -> (1 <= T)%nat ->
  forall P H A tm, @compute_yin_of E conv (map x (seq 0 N)) fs wl wh low high th = Ok (P, H, A, tm) ->
  forall i, (i < yin_frames N L hop)%nat -> (forall t, (t < L)%nat -> yin_x hop x i t = 0) ->
  nth i P NaN = Fin 0 /\ nth i H NaN = Fin 1 /\ nth i A NaN = Fin 0.
Proof. exact yin_of_silent. Qed.
Print Assumptions C148_silence.
Example C148_silence_conv : forall L g tau, (forall t, (t < L)%nat -> g t = 0) -> best_conv rnd64 L g tau = 0.
Proof. intros L g tau Hg. unfold best_conv, lag_product. rewrite bigsum_zero; [apply rnd64_0|]. intros j Hj. rewrite Hg by lia. ring. Qed.
Theorem C148_whole_constant : forall N z fs wl wh low high th L hop lo T,
  @yin_config binary64 fs wl wh low high L hop lo T -> (S T <= L)%nat -> (1 <= lo)%nat -> (1 <= T)%nat ->
  forall P H A tm, @compute_yin_of binary64 (best_conv rnd64) (map (fun t => IZR (z t)) (seq 0 N)) fs wl wh low high th = Ok (P, H, A, tm) ->
  forall i c, (i < yin_frames N L hop)%nat -> (forall t, (t < L)%nat -> z (i * hop + t)%nat = c) -> (Z.of_nat L * (c * c) < 2 ^ 51)%Z ->
  nth i P NaN = Fin 0 /\ nth i H NaN = Fin 1 /\ nth i A NaN = Fin 0.
Proof. exact yin_of_whole_constant. Qed.
Print Assumptions C148_whole_constant.
Example C148_example : forall P H A tm,
  @compute_yin_of binary64 (best_conv rnd64) (map (fun _ => IZR 12345) (seq 0 9)) 6 1 0.25 1.5 6 0.1 = Ok (P, H, A, tm) ->
  nth 2 P NaN = Fin 0 /\ nth 2 H NaN = Fin 1 /\ nth 2 A NaN = Fin 0.
Proof.
  intros P H A tm Hy.
  apply (C148_whole_constant 9 (fun _ => 12345%Z) 6 1 0.25 1.5 6 0.1 6 1 1 3 small_config ltac:(lia) ltac:(lia) ltac:(lia) P H A tm Hy 2 12345%Z).
  - unfold yin_frames. cbn. lia.
  - reflexivity.
  - reflexivity.
Qed.
(** Other constants need not: at 0.1 every window of a constant signal is reported as voiced with
    half the sampling frequency, however long the signal is. *)
Theorem C148_constant_refuted : forall N, exists P H A tm,
  @compute_yin_of binary64 (best_conv rnd64) (map (fun _ => rnd64 0.1) (seq 0 N)) 6 0.75 0.25 2 6 0.1 = Ok (P, H, A, tm) /\
  List.length P = (N - 4)%nat /\ Forall (fun v => v = Fin 3) P.
Proof. exact tenth_voiced. Qed.
Print Assumptions C148_constant_refuted.

(** C149. A gain by a power of two changes nothing (in the absence of underflow), nor does the
    polarity, if the library's convolution is as symmetric. *)
Theorem C149_gain : forall conv N x fs wl wh low high th L hop lo T k,
  (forall f tau, conv L (fun t => bpow radix2 k * f t) tau = bpow radix2 (2 * k) * conv L f tau) ->
  @yin_config binary53 fs wl wh low high L hop lo T -> (S T <= L)%nat ->
  @compute_yin_of binary53 conv (map (fun t => bpow radix2 k * x t) (seq 0 N)) fs wl wh low high th
  = @compute_yin_of binary53 conv (map x (seq 0 N)) fs wl wh low high th.
Proof. exact yin_of_gain. Qed.
Print Assumptions C149_gain.
Theorem C149_polarity : forall (E : Env) conv N x fs wl wh low high th L hop lo T,
  (forall f tau, conv L (fun t => - f t) tau = conv L f tau) ->
  yin_config fs wl wh low high L hop lo T -> (S T <= L)%nat ->
  @compute_yin_of E conv (map (fun t => - x t) (seq 0 N)) fs wl wh low high th
  = @compute_yin_of E conv (map x (seq 0 N)) fs wl wh low high th.
Proof. exact yin_of_polarity. Qed.
Print Assumptions C149_polarity.
Example C149_conv : forall k L f tau,
  best_conv rnd53 L (fun t => bpow radix2 k * f t) tau = bpow radix2 (2 * k) * best_conv rnd53 L f tau /\
  best_conv rnd53 L (fun t => - f t) tau = best_conv rnd53 L f tau.
Proof. intros. split; [apply best_conv_scale|apply best_conv_neg]. Qed.
(** A constant offset matters, unlike in exact arithmetic (C85_offset). *)
Theorem C149_offset_refuted : exists c fs wl wh low high th, rnd64 c = c /\
  forall N, (5 <= N)%nat -> exists P P' H H' A A' tm tm',
  @compute_yin_of binary64 (best_conv rnd64) (map (fun _ => 0) (seq 0 N)) fs wl wh low high th = Ok (P, H, A, tm) /\
  @compute_yin_of binary64 (best_conv rnd64) (map (fun _ => rnd64 (0 + c)) (seq 0 N)) fs wl wh low high th = Ok (P', H', A', tm') /\
  nth 0 P NaN = Fin 0 /\ nth 0 P' NaN = Fin 3.
Proof. exact offset_matters. Qed.
Print Assumptions C149_offset_refuted.
