(** * Two samples 1, -1: a worked case for the dominant frequency in floating point *)
From Coq Require Import Reals ZArith List String Bool Lia Lra.
From Flocq Require Import Core.
From Verif Require Import Base SpecBase BigSum Preprocessing PreprocessingFacts SpecMat SpecFilters SpecFeatures SpecSpectral
  Dominant Binary64 Rounded SpecRounded RoundedFacts RoundedWindows RoundedBanksError SpecRoundedCeps RoundedDominant SpecRoundedDominant
  RoundedDominantLaws ExampleTools.
Import ListNotations.
Local Open Scope R_scope.

Definition pair (t : nat) : R := match t with O => 1 | S O => -1 | _ => 0 end.
Definition pair_re (q : nat) : lin :=
  match q with O => Scale 0.08 (Add (Load 0) (Load 1)) | _ => Scale 0.08 (Sub (Load 0) (Load 1)) end.
Definition pair_im (q : nat) : lin := Zero.

Lemma pair_cut : @cut_config exact_env 2 1 1 "hamming" 2 2 2.
Proof.
  unfold cut_config. repeat split; try lia; try lra; try (cbn; tauto); rewrite (flen_exact 2 1 2); try reflexivity; lra.
Qed.
Lemma pair_count : frame_count 2 2 2 = 1%nat.
Proof. reflexivity. Qed.
Lemma pair_window : forall t, (t < 2)%nat -> spec_window "hamming" 2 t = 0.08.
Proof.
  intros t Ht. unfold spec_window. cbn [Nat.leb String.eqb Ascii.eqb Bool.eqb]. unfold spec_hamming, spec_theta.
  replace (2 * PI * INR t / INR (2 - 1)) with (0 + 2 * INR t * PI) by (cbn [INR Nat.sub]; field). rewrite cos_period, cos_0. lra.
Qed.
Lemma pair_programs : frame_programs 2 2 (fun z => spec_frame "hamming" 2 2 z 0) (S (2 / 2)) pair_re pair_im.
Proof.
  intros z k Hk. unfold spec_re, spec_im, spec_frame. change (Nat.min 2 2) with 2%nat. cbn [bigsum].
  rewrite !pair_window by lia. change (0 * 2 + 0)%nat with 0%nat. change (0 * 2 + 1)%nat with 1%nat.
  change (2 / 2)%nat with 1%nat in Hk.
  replace (INR (0 * k)) with 0 by (cbn [INR Nat.mul]; reflexivity). replace (2 * PI * 0 / INR 2) with 0 by (cbn [INR]; field). rewrite cos_0, sin_0.
  destruct k as [|[|k]]; [| |lia]; cbn [pair_re pair_im lin_exact].
  - replace (2 * PI * INR (1 * 0) / INR 2) with 0 by (rewrite ?Nat.mul_0_r, ?Nat.mul_1_r; cbn [INR]; field). rewrite cos_0, sin_0. lra.
  - replace (2 * PI * INR (1 * 1) / INR 2) with PI by (rewrite ?Nat.mul_0_r, ?Nat.mul_1_r; cbn [INR]; field). rewrite cos_PI, sin_PI. lra.
Qed.
Lemma pair_mag0 : spec_mag 2 2 (spec_frame "hamming" 2 2 pair 0) 0 = 0.
Proof.
  unfold spec_mag, spec_sq. destruct (pair_programs pair 0%nat ltac:(cbn; lia)) as [<- <-]. cbn [pair_re pair_im lin_exact pair].
  replace ((0.08 * (1 + -1)) ^ 2 + 0 ^ 2) with 0 by lra. apply sqrt_0.
Qed.
Lemma pair_mag1 : spec_mag 2 2 (spec_frame "hamming" 2 2 pair 0) 1 = 0.16.
Proof.
  unfold spec_mag, spec_sq. destruct (pair_programs pair 1%nat ltac:(cbn; lia)) as [<- <-]. cbn [pair_re pair_im lin_exact pair].
  replace ((0.08 * (1 - -1)) ^ 2 + 0 ^ 2) with (0.16 ^ 2) by lra. apply sqrt_pow2. lra.
Qed.
Lemma pair_noise : forall q, 0 <= bin_noise (/ 2 ^ 53) 3 pair pair_re pair_im q <= 0.01.
Proof.
  intros q. split; [apply sqrt_pos|]. unfold bin_noise. rewrite <- (sqrt_pow2 0.01) by lra. apply sqrt_le_1_alt.
  assert (S : lin_size pair (pair_re q) = 0.16).
  { destruct q; cbn [pair_re lin_size pair]; rewrite Rabs_R1, (Rabs_left (-1)), Rabs_pos_eq by lra; lra. }
  rewrite S. cbn [pair_im lin_size]. set (g := (1 + / 2 ^ 53) ^ 3 - 1). assert (0 <= g <= / 2 ^ 50) by (unfold g; lra).
  replace ((g * 0) ^ 2) with 0 by ring. rewrite Rplus_0_r. apply pow_incr. lra.
Qed.
Lemma ratio_53 : 0.5 <= peak_ratio (/ 2 ^ 53) 0.
Proof.
  unfold peak_ratio. replace ((1 - 0) / (1 + 0)) with 1 by field. rewrite Rmult_1_r. rewrite <- (sqrt_pow2 0.5) by lra. apply sqrt_le_1_alt.
  apply Rle_trans with (0.9 ^ 7); [lra|]. apply pow_incr. split; [lra|].
  apply (Rmult_le_reg_r (1 + / 2 ^ 53)); [lra|]. unfold Rdiv. rewrite Rmult_assoc, Rinv_l; lra.
Qed.
Lemma hyp_scale : forall g a b, sqrt ((bpow radix2 g * a) ^ 2 + (bpow radix2 g * b) ^ 2) = bpow radix2 g * sqrt (a ^ 2 + b ^ 2).
Proof.
  intros g a b. pose proof (bpow_ge_0 radix2 g) as Hg.
  replace ((bpow radix2 g * a) ^ 2 + (bpow radix2 g * b) ^ 2) with (bpow radix2 g ^ 2 * (a ^ 2 + b ^ 2)) by ring.
  rewrite sqrt_mult_alt by apply pow2_ge_0. rewrite sqrt_pow2 by exact Hg. reflexivity.
Qed.
Lemma pair_stored : forall t, rnd64 (pair t) = pair t.
Proof.
  intros [|[|t]]; cbn [pair]; [apply (rnd64_int 1)|apply (rnd64_int (-1))|apply rnd64_0]; reflexivity.
Qed.
Lemma pair_stored_quiet : forall t, rnd64 (bpow radix2 (-600) * pair t) = bpow radix2 (-600) * pair t.
Proof.
  intros [|[|t]]; cbn [pair]; rewrite Rmult_comm.
  - apply (rnd64_id 1 (-600)); [reflexivity|lia].
  - apply (rnd64_id (-1) (-600)); [reflexivity|lia].
  - apply (rnd64_id 0 (-600)); [reflexivity|lia].
Qed.
Lemma sqrt_sane : hypot_sane (fun a b => sqrt (a ^ 2 + b ^ 2)).
Proof.
  intros a b. split; [apply sqrt_pos|]. pose proof (Rabs_pos a). pose proof (Rabs_pos b).
  apply Rle_trans with (Rabs a + Rabs b); [|lra]. rewrite <- (sqrt_pow2 (Rabs a + Rabs b)) by lra. apply sqrt_le_1_alt.
  rewrite <- (pow2_abs a), <- (pow2_abs b). pose proof (Rmult_le_pos _ _ H H0). lra.
Qed.
Lemma pair_quiet_size : forall c, 0 <= c <= 1 -> forall b : bool,
  (1 + / 2 ^ 53) ^ 2 * (c * (Rabs (bpow radix2 (-600) * 1) + Rabs (bpow radix2 (-600) * -1)) + (c * (0 + 0 + 1) + 1) * bpow radix2 (-1075)) <= bpow radix2 (-541).
Proof.
  intros c Hc _. rewrite !Rabs_mult, Rabs_R1, (Rabs_left (-1)), (Rabs_pos_eq (bpow radix2 (-600))) by (try apply bpow_ge_0; lra).
  replace (- (-1)) with 1 by ring. assert (A : bpow radix2 (-1075) <= bpow radix2 (-600)) by (apply bpow_le; lia).
  assert (B : 8 * bpow radix2 (-600) <= bpow radix2 (-541)).
  { change 8 with (bpow radix2 3). rewrite <- bpow_plus. apply bpow_le. lia. }
  pose proof (bpow_ge_0 radix2 (-600)) as P1. pose proof (bpow_ge_0 radix2 (-1075)) as P2. pose proof (bpow_ge_0 radix2 (-540)) as P3.
  set (a := bpow radix2 (-600)) in *. set (b' := bpow radix2 (-1075)) in *. set (e := bpow radix2 (-541)) in *.
  assert (c * (a * 1 + a * 1) <= 2 * a) by (apply Rle_trans with (1 * (a * 1 + a * 1)); [apply Rmult_le_compat_r; lra|lra]).
  assert ((c * (0 + 0 + 1) + 1) * b' <= 2 * b') by (apply Rmult_le_compat_r; lra).
  apply Rle_trans with ((1 + / 2 ^ 53) ^ 2 * (4 * a)); [apply Rmult_le_compat_l; [apply pow2_ge_0|lra]|].
  apply Rle_trans with (2 * (4 * a)); [apply Rmult_le_compat_r; lra|lra].
Qed.
Lemma pair_quiet : forall k, (k <= 2 / 2)%nat ->
  let bound p := (1 + / 2 ^ 53) ^ lin_depth p * (lin_size (fun t => bpow radix2 (-600) * pair t) p + lin_amp p * bpow radix2 (-1075)) in
  bound (pair_re k) <= bpow radix2 (-541) /\ bound (pair_im k) <= bpow radix2 (-541).
Proof.
  intros k _ bound. unfold bound. split.
  - assert (H : 0 <= Rabs 0.08 <= 1) by (rewrite Rabs_pos_eq; lra).
    pose proof (pair_quiet_size (Rabs 0.08) H true) as K. destruct k; exact K.
  - cbn [pair_im lin_depth lin_size lin_amp pow]. rewrite Rmult_0_l, Rplus_0_r, Rmult_0_r. apply bpow_ge_0.
Qed.
Lemma weight_64 : / 16 <= rnd64 0.08 <= 1.
Proof.
  split.
  - replace (/ 16) with (rnd64 (bpow radix2 (-4))); [apply rnd64_monotone; cbn; lra|]. rewrite rnd64_bpow by lia. cbn. lra.
  - rewrite <- rnd64_1. apply rnd64_monotone. lra.
Qed.
Lemma pair_quiet_value : @dominant_in binary64 2 2 (@bin_magnitude binary64 (fun a b => sqrt (a ^ 2 + b ^ 2))
    (fun q => @lin_stored binary64 (pair_re q)) (fun q => @lin_stored binary64 (pair_im q)) (fun t => bpow radix2 (-600) * pair t)) = 0.
Proof.
  apply quiet_dominant; [|lia|].
  - exact sqrt_sane.
  - intros k _ bound. unfold bound. split.
    + pose proof weight_64 as W. assert (H : 0 <= Rabs (rnd64 0.08) <= 1) by (rewrite Rabs_pos_eq; lra).
      pose proof (pair_quiet_size _ H true) as K. destruct k; exact K.
    + cbn [pair_im lin_stored lin_depth lin_size lin_amp pow]. rewrite Rmult_0_l, Rplus_0_r, Rmult_0_r. apply bpow_ge_0.
Qed.
Lemma pair_loud_value : @dominant_in binary64 2 2 (@bin_magnitude binary64 (fun a b => sqrt (a ^ 2 + b ^ 2))
    (fun q => @lin_stored binary64 (pair_re q)) (fun q => @lin_stored binary64 (pair_im q)) pair) = -1.
Proof.
  set (m := @bin_magnitude binary64 _ _ _ pair).
  assert (M0 : m 0%nat = 0).
  { unfold m, bin_magnitude. cbn [pair_re pair_im lin_stored lin_run rnd binary64 pair]. replace (1 + -1) with 0 by ring.
    rewrite rnd64_0, Rmult_0_r, rnd64_0. replace (0 ^ 2 + 0 ^ 2) with 0 by ring. apply sqrt_0. }
  assert (P : forall k, (-1074 <= k)%Z -> forall z, bpow radix2 k <= z -> bpow radix2 k <= rnd64 z).
  { intros k Hk z Hz. rewrite <- (rnd64_bpow k Hk). apply rnd64_monotone. exact Hz. }
  assert (M1 : bpow radix2 (-3) <= m 1%nat).
  { unfold m, bin_magnitude. cbn [pair_re pair_im lin_stored lin_run rnd binary64 pair]. replace (1 - -1) with 2 by ring.
    rewrite (rnd64_int 2) by reflexivity. set (a := rnd64 (rnd64 0.08 * 2)).
    assert (A : bpow radix2 (-3) <= a). { apply P; [lia|]. pose proof weight_64. cbn. lra. }
    assert (A0 : 0 <= a) by (pose proof (bpow_ge_0 radix2 (-3)); lra).
    replace (a ^ 2 + 0 ^ 2) with (a ^ 2) by ring. rewrite sqrt_pow2 by exact A0. exact A. }
  assert (Hf : rnd64 (1 / INR 2) = / 2).
  { replace (1 / INR 2) with (bpow radix2 (-1)) by (cbn; lra). rewrite rnd64_bpow by lia. cbn. lra. }
  assert (F : first_max (@dom_power binary64 2 m) 2 = 1%nat).
  { assert (D0 : @dom_power binary64 2 m 0 = 0).
    { unfold dom_power. rewrite M0. cbn [rnd binary64]. rewrite Rmult_0_r, rnd64_0, Rmult_0_r, rnd64_0, Rmult_0_r. apply rnd64_0. }
    assert (D1 : 0 < @dom_power binary64 2 m 1).
    { unfold dom_power. cbn [rnd binary64]. rewrite Hf. set (a := rnd64 (/ 2 * m 1%nat)).
      assert (A : bpow radix2 (-4) <= a) by (apply P; [lia|]; cbn in M1 |- *; lra).
      assert (B : bpow radix2 (-8) <= rnd64 (a * a)).
      { apply P; [lia|]. change (bpow radix2 (-8)) with (bpow radix2 (-4 + -4)). rewrite bpow_plus. pose proof (bpow_ge_0 radix2 (-4)). apply Rmult_le_compat; lra. }
      apply Rlt_le_trans with (bpow radix2 (-9)); [apply bpow_gt_0|]. apply P; [lia|]. cbn in B |- *. lra. }
    cbn [first_max]. destruct (rltb_case (@dom_power binary64 2 m 0) (@dom_power binary64 2 m 0)) as [[-> K]|[-> K]];
      destruct (rltb_case (@dom_power binary64 2 m 0) (@dom_power binary64 2 m 1)) as [[-> K']|[-> K']]; try reflexivity; lra. }
  unfold dominant_in. change (S (2 / 2)) with 2%nat. rewrite F.
  assert (A : @freq_axis binary64 2 2 1 = -1).
  { unfold freq_axis. cbn [rnd binary64 Nat.ltb Nat.leb Nat.sub Nat.div Nat.divmod fst]. 
    replace (1 / IZR 2) with (1 / INR 2) by (cbn; lra). rewrite Hf. replace (INR 2 * / 2) with 1 by (cbn; lra).
    rewrite rnd64_1. replace (1 / 1) with 1 by field. rewrite rnd64_1. replace ((INR 1 - INR 2) * 1) with (-1) by (cbn; lra).
    apply (rnd64_int (-1)). reflexivity. }
  rewrite A. unfold round3. cbn [rnd binary64]. replace (-1 * 1000) with (-1000) by ring. rewrite (rnd64_int (-1000)) by reflexivity.
  rewrite (Znearest_imp _ (-1000) (-1000)).
  - replace (-1000 / 1000) with (-1) by field. apply (rnd64_int (-1)). reflexivity.
  - rewrite Rminus_diag_eq by reflexivity. rewrite Rabs_R0. lra.
Qed.
