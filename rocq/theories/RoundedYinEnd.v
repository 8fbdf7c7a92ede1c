(** * YIN in floating point: a readable bound, whole numbers, and a constant signal with a pitch *)
From Coq Require Import Reals ZArith List Lia Lra Psatz FunctionalExtensionality.
From Flocq Require Import Core.
From Verif Require Import Base BaseFacts SpecBase SpecMat BigSum MatFacts SpecFeatures LpcMore SpecPcm LpcPcm Lpc SpecLpc PcmFacts Yin SpecYin YinFacts Binary64 Rounded SpecRounded
  RoundedFacts RoundedWindows RoundedYin SpecRoundedYin RoundedYinFacts RoundedYinMore RoundedYinLaws RoundedYinCases.
Import ListNotations.
Local Open Scope R_scope.

Lemma pow_u_small : forall u n, 0 <= u -> INR n * u <= 1 / 2 -> (1 + u) ^ n <= 1 + 2 * (INR n * u).
Proof.
  intros u n Hu. induction n as [|n IH]; intros Hn; [cbn; lra|]. rewrite S_INR in Hn.
  assert (0 <= INR n * u) by (apply Rmult_le_pos; [apply pos_INR|exact Hu]).
  rewrite S_INR. cbn [pow]. specialize (IH ltac:(lra)).
  apply Rle_trans with ((1 + u) * (1 + 2 * (INR n * u))); [apply Rmult_le_compat_l; lra|].
  assert (0 <= u * (1 / 2 - INR n * u)) by (apply Rmult_le_pos; lra). lra.
Qed.
Lemma noise_small : forall u eta delta L e, 0 <= u -> 0 <= eta -> 0 <= delta <= 1 -> 0 <= e -> INR (L + 4) * u <= 1 / 2 ->
  yin_noise u eta delta L e <= (6 * INR (L + 6) * u + 2 * delta) * e + 12 * INR (L + 1) * eta.
Proof.
  intros u eta delta L e Hu He Hd Hp Hn. pose proof (pow_u_small u (L + 4) Hu Hn) as K. unfold yin_noise.
  set (w := (1 + u) ^ (L + 4)) in *. rewrite plus_INR in *. replace (INR 6) with 6 by (cbn; lra). replace (INR 4) with 4 in * by (cbn; lra).
  rewrite plus_INR. replace (INR 1) with 1 by reflexivity. pose proof (pos_INR L) as P.
  assert (U8 : u <= 1 / 8) by (assert (0 <= INR L * u) by (apply Rmult_le_pos; assumption); lra).
  apply Rplus_le_compat.
  - apply Rmult_le_compat_r; [exact Hp|].
    assert ((1 + u) ^ 2 * (1 + delta) - 1 <= 6 * u + delta); [|lra].
    assert (0 <= u * (1 / 8 - u)) by (apply Rmult_le_pos; lra).
    assert (0 <= u * (1 - delta)) by (apply Rmult_le_pos; lra).
    assert (0 <= u * delta) by (apply Rmult_le_pos; lra).
    assert (0 <= delta * (u * (1 / 8 - u))) by (apply Rmult_le_pos; lra). lra.
  - apply Rmult_le_compat_r; [exact He|]. assert (w <= 2) by lra.
    assert (0 <= (2 - w) * (6 * INR L + 6)) by (apply Rmult_le_pos; lra). lra.
Qed.
Lemma difference_binary64 : forall conv delta L x tau, conv_within delta (bpow radix2 (-1075)) conv -> delta <= 1 ->
  (Z.of_nat L <= 2 ^ 51)%Z -> (tau <= L)%nat ->
  Rabs (@difference_of binary64 conv L x tau - yin_d L x tau)
  <= (6 * INR (L + 6) / 2 ^ 53 + 2 * delta) * window_energy L x + 12 * INR (L + 1) * bpow radix2 (-1075).
Proof.
  intros conv delta L x tau Hc Hd HL Ht.
  eapply Rle_trans; [apply (difference_error binary64 (/ 2 ^ 53) (bpow radix2 (-1075))); [exact rnd64_accurate|exact Hc|exact Ht]|].
  unfold Rdiv. apply noise_small; [apply rnd64_accurate|apply rnd64_accurate|split; [apply Hc|exact Hd]|apply squares_nonneg|].
  rewrite INR_IZR_INZ, Nat2Z.inj_add. apply IZR_le in HL. rewrite plus_IZR. cbn in HL |- *. lra.
Qed.

(** a correctly rounded convolution is within u of the energy *)
Lemma best_conv_within : forall r u eta, accurate u eta r -> conv_within u eta (best_conv r).
Proof.
  intros r u eta Ha. split; [apply Ha|]. intros L x tau Ht. unfold best_conv.
  pose proof (proj2 (proj2 Ha) (lag_product L x tau)) as K.
  pose proof (lag_product_bound x L tau Ht) as B. pose proof (proj1 Ha) as U.
  eapply Rle_trans; [exact K|]. apply Rplus_le_compat_r. apply Rmult_le_compat_l; [exact U|exact B].
Qed.

Lemma best_conv_scale : forall k L f tau,
  best_conv rnd53 L (fun t => bpow radix2 k * f t) tau = bpow radix2 (2 * k) * best_conv rnd53 L f tau.
Proof.
  intros k L f tau. unfold best_conv. rewrite <- rnd53_scale. f_equal. unfold lag_product. rewrite <- bigsum_scal.
  apply bigsum_ext. intros j _. replace (2 * k)%Z with (k + k)%Z by lia. rewrite bpow_plus. ring.
Qed.
Lemma best_conv_neg : forall r L f tau, best_conv r L (fun t => - f t) tau = best_conv r L f tau.
Proof. intros. unfold best_conv. f_equal. apply bigsum_ext. intros. ring. Qed.
Lemma best_conv_ext : forall r L f g tau, (tau <= L)%nat -> (forall t, (t < L)%nat -> f t = g t) -> best_conv r L f tau = best_conv r L g tau.
Proof. intros r L f g tau Ht H. unfold best_conv. f_equal. apply bigsum_ext. intros j Hj. rewrite !H by lia. reflexivity. Qed.

(** ** whole numbers: the curve of the windows is that of exact arithmetic, up to the final quotient *)
Lemma window_whole : forall L hop z i k, (isum L (fun t => z (i * hop + t)%nat * z (i * hop + t)%nat) < 2 ^ 51)%Z -> (k <= L)%nat ->
  @difference_of binary64 (best_conv rnd64) L (window_fun L hop (fun t => IZR (z t)) i) k
  = yin_d L (yin_x hop (fun t => IZR (z t)) i) k.
Proof.
  intros L hop z i k HL Hk. rewrite (difference_ext _ _ L _ (fun t => IZR (z (i * hop + t)%nat))).
  - apply (difference_whole L (fun t => z (i * hop + t)%nat)); assumption.
  - intros t Ht. rewrite window_fun_in by exact Ht. reflexivity.
  - exact Hk.
  - apply best_conv_ext; [exact Hk|]. intros t Ht. rewrite window_fun_in by exact Ht. reflexivity.
Qed.
Lemma yin_of_whole_constant : forall N z fs wl wh low high th L hop lo T,
  @yin_config binary64 fs wl wh low high L hop lo T -> (S T <= L)%nat -> (1 <= lo)%nat -> (1 <= T)%nat ->
  forall P H A tm, @compute_yin_of binary64 (best_conv rnd64) (map (fun t => IZR (z t)) (seq 0 N)) fs wl wh low high th = Ok (P, H, A, tm) ->
  forall i c, (i < yin_frames N L hop)%nat -> (forall t, (t < L)%nat -> z (i * hop + t)%nat = c) -> (Z.of_nat L * (c * c) < 2 ^ 51)%Z ->
  nth i P NaN = Fin 0 /\ nth i H NaN = Fin 1 /\ nth i A NaN = Fin 0.
Proof.
  intros N z fs wl wh low high th L hop lo T Hc HL Hlo HT P H A tm Hy i c Hi Hz HB.
  apply (yin_of_flat binary64 (best_conv rnd64) N (fun t => IZR (z t)) fs wl wh low high th L hop lo T rnd64_0 Hc HL Hlo HT P H A tm Hy i Hi).
  intros k Hk. rewrite window_whole; [|  |lia].
  - apply bigsum_zero. intros j Hj. unfold yin_x. rewrite !Hz by lia. ring.
  - rewrite (isum_ext L _ (fun _ => (c * c)%Z)) by (intros t Ht; rewrite Hz by exact Ht; reflexivity).
    eapply Z.le_lt_trans; [|exact HB]. apply Z.eq_le_incl. clear. induction L as [|m IH]; [reflexivity|]. cbn [isum]. lia.
Qed.

(** ** a constant signal with a pitch *)
Lemma tenth_config : @yin_config binary64 6 0.75 0.25 2 6 4 1 1 2.
Proof.
  unfold yin_config. cbn [rnd binary64]. split; [lia|]. split; [lra|]. split; [lra|].
  replace (0.75 * 6) with (IZR 9 * bpow radix2 (-1)) by (cbn; lra). rewrite rnd64_id by lia.
  replace (0.25 * 6) with (IZR 3 * bpow radix2 (-1)) by (cbn; lra). rewrite rnd64_id by lia.
  replace (6 / 6) with (IZR 1) by lra. replace (6 / 2) with (IZR 3) by lra. rewrite !rnd64_int by lia. rewrite !Ztrunc_IZR.
  replace (IZR 9 * bpow radix2 (-1)) with 4.5 by (cbn; lra). replace (IZR 3 * bpow radix2 (-1)) with 1.5 by (cbn; lra).
  rewrite !Ztrunc_floor by lra. repeat split; try lia; apply Zfloor_imp; cbn; lra.
Qed.
Lemma tenth_scaled : rnd64 0.1 = IZR 3602879701896397 * bpow radix2 (-55).
Proof. rewrite r01. replace (-55)%Z with (1 + -56)%Z by lia. rewrite bpow_plus. cbn [bpow]. cbn. lra. Qed.
Lemma tenth_window : forall i k, (k <= 4)%nat ->
  @difference_of binary64 (best_conv rnd64) 4 (window_fun 4 1 (fun _ => rnd64 0.1) i) k = IZR (zdiff 4 (fun _ => 3602879701896397%Z) k) * bpow radix2 (-110).
Proof.
  intros i k Hk. change (-110)%Z with (2 * -55)%Z. rewrite <- difference_fl by lia. apply difference_ext; [|exact Hk|apply best_conv_ext; [exact Hk|]];
  intros t Ht; rewrite window_fun_in by exact Ht; apply tenth_scaled.
Qed.
Lemma tenth_curve : forall i, let c := @window_curve binary64 (best_conv rnd64) 4 1 (fun _ => rnd64 0.1) i in
  c 0%nat = Fin 1 /\ c 1%nat = Fin 1 /\ c 2%nat = Fin 0.
Proof.
  intros i c. split; [reflexivity|].
  assert (D1 : @difference_of binary64 (best_conv rnd64) 4 (window_fun 4 1 (fun _ => rnd64 0.1) i) 1 = IZR 1 * bpow radix2 (-57)).
  { rewrite tenth_window by lia. replace (zdiff 4 (fun _ => 3602879701896397%Z) 1) with (2 ^ 53)%Z by (vm_compute; reflexivity).
    change (2 ^ 53)%Z with (Zpower radix2 53). rewrite IZR_Zpower by lia. rewrite <- bpow_plus, Rmult_1_l. reflexivity. }
  assert (D2 : @difference_of binary64 (best_conv rnd64) 4 (window_fun 4 1 (fun _ => rnd64 0.1) i) 2 = 0).
  { rewrite tenth_window by lia. replace (zdiff 4 (fun _ => 3602879701896397%Z) 2) with 0%Z by (vm_compute; reflexivity). ring. }
  pose proof (bpow_gt_0 radix2 (-57)) as B.
  unfold c, window_curve, curve_of. cbn [Nat.eqb running rnd binary64]. rewrite D1, D2.
  change (INR 1) with 1. rewrite Rmult_1_r, Rmult_0_l, Rplus_0_r, rnd64_0, !rnd64_id by lia.
  rewrite !fdiv_Fin by lra. unfold rounded. cbn [rnd binary64].
  replace (IZR 1 * bpow radix2 (-57) / (IZR 1 * bpow radix2 (-57))) with 1 by (field; lra).
  replace (0 / (IZR 1 * bpow radix2 (-57))) with 0 by (unfold Rdiv; ring). rewrite rnd64_1, rnd64_0. auto.
Qed.
Lemma tenth_voiced : forall N, exists P H A tm,
  @compute_yin_of binary64 (best_conv rnd64) (map (fun _ => rnd64 0.1) (seq 0 N)) 6 0.75 0.25 2 6 0.1 = Ok (P, H, A, tm) /\
  List.length P = (N - 4)%nat /\ Forall (fun v => v = Fin 3) P.
Proof.
  intros N.
  destruct (yin_of_ok binary64 (best_conv rnd64) N (fun _ => rnd64 0.1) 6 0.75 0.25 2 6 0.1 4 1 1 2 tenth_config ltac:(lia)) as (P & H & A & tm & E1 & E2).
  do 4 eexists. split; [exact E1|]. unfold yin_frames in *. rewrite Nat.sub_diag, Nat.add_0_r, Nat.div_1_r in *.
  split; [rewrite map_length, seq_length; reflexivity|]. apply Forall_map, Forall_forall. intros i Hi. apply in_seq in Hi.
  destruct (E2 i ltac:(lia)) as (_ & K). destruct (tenth_curve i) as (C0 & C1 & C2). cbv zeta in *.
  set (c := @window_curve binary64 (best_conv rnd64) 4 1 (fun _ => rnd64 0.1) i) in *.
  assert (F2 : fltb (c 2%nat) (Fin 0.1) = true) by (rewrite C2; apply Rltb_true; lra).
  assert (F1 : fltb (c 1%nat) (Fin 0.1) = false) by (rewrite C1; apply Rltb_false; lra).
  destruct K as [(s & p & (B1 & B2 & B3 & _) & _ & -> & _)|([K|(s & (B1 & B2 & _))] & _)].
  - assert (s = 2%nat) as ->. { destruct (Nat.eq_dec s 1) as [->|]; [congruence|lia]. }
    assert (p = 2%nat) as -> by lia. f_equal. replace (6 / INR 2) with (IZR 3) by (cbn; lra). apply rnd64_int. lia.
  - exfalso. specialize (K 2%nat ltac:(lia)). congruence.
  - lia.
Qed.
Lemma difference_negative : @difference_of binary64 (best_conv rnd64) 7 (fun _ => rnd64 0.1) 5 < 0.
Proof.
  rewrite tenth_scaled. rewrite (difference_fl 7 (fun _ => 3602879701896397%Z)) by lia.
  replace (zdiff 7 (fun _ => 3602879701896397%Z) 5) with (- 2 ^ 53)%Z by (vm_compute; reflexivity).
  pose proof (bpow_gt_0 radix2 (2 * -55)). cbn [Z.pow Z.pow_pos Pos.iter Z.opp]. cbn. lra.
Qed.
