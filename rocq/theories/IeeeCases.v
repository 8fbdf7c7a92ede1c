(** * A library on binary64 numbers that meets the hypotheses, and a frame of two samples *)
From Coq Require Import Reals ZArith List Bool Lia Lra Psatz.
From Flocq Require Import Core IEEE754.BinarySingleNaN.
From Coquelicot Require Rcomplements.
From Verif Require Import Base Binary64 Rounded RoundedCeps SpecRounded RoundedFacts RoundedWindows RoundedBanksError SpecRoundedCeps SpecRoundedDominant RoundedLaws
  RoundedDominantLaws Ieee SpecIeee IeeeFacts IeeeLaws.
Local Open Scope R_scope.

(** r rounded to a multiple of 2^-1074 and then to a float *)
Definition of_R (r : R) : f64 := of_Z (ZnearestE (r * bpow radix2 1074)) (-1074).
Definition near (r : R) : R := rnd64 (IZR (ZnearestE (r * bpow radix2 1074)) * bpow radix2 (-1074)).
Lemma of_R_ok : forall r, Rabs (near r) < bpow radix2 1024 -> fin (of_R r) /\ val (of_R r) = near r.
Proof. intros r H. apply of_Z_ok. exact H. Qed.
Lemma near_0 : near 0 = 0.
Proof. unfold near. rewrite Rmult_0_l. replace (ZnearestE 0) with 0%Z; [rewrite Rmult_0_l; apply rnd64_0|]. symmetry. apply (@Zrnd_IZR ZnearestE _ 0). Qed.
Lemma near_nonneg : forall r, 0 <= r -> 0 <= near r.
Proof.
  intros r H. unfold near. rewrite <- rnd64_0. apply rnd64_monotone. apply Rmult_le_pos; [|apply bpow_ge_0]. apply IZR_le.
  rewrite <- (@Zrnd_IZR ZnearestE _ 0). apply (@Zrnd_le ZnearestE _). apply Rmult_le_pos; [exact H|apply bpow_ge_0].
Qed.
Lemma near_le : forall r, Rabs (near r) <= 4 * Rabs r.
Proof.
  intros r. unfold near. set (z := ZnearestE _).
  assert (A : Rabs (IZR z) * bpow radix2 (-1074) <= 2 * Rabs r).
  { assert (K : Rabs (IZR z) <= 2 * (Rabs r * bpow radix2 1074)).
    { replace (Rabs r * bpow radix2 1074) with (Rabs (r * bpow radix2 1074)) by (rewrite Rabs_mult; f_equal; apply Rabs_pos_eq, bpow_ge_0).
      set (t := r * bpow radix2 1074) in *. destruct (Rlt_or_le (Rabs t) (/2)) as [H|H].
      - assert (E : z = 0%Z) by (apply Znearest_imp; rewrite Rminus_0_r; exact H). rewrite E, Rabs_R0. pose proof (Rabs_pos t). lra.
      - pose proof (Znearest_half (fun x => negb (Z.even x)) t) as N. fold z in N. revert N. unfold Rabs in *. destruct (Rcase_abs (t - IZR z)), (Rcase_abs (IZR z)), (Rcase_abs t); lra. }
    apply Rle_trans with (2 * (Rabs r * bpow radix2 1074) * bpow radix2 (-1074)); [apply Rmult_le_compat_r; [apply bpow_ge_0|exact K]|].
    right. rewrite !Rmult_assoc, <- bpow_plus. change (bpow radix2 (1074 + -1074)) with 1. ring. }
  set (v := IZR z * bpow radix2 (-1074)) in *. assert (V : Rabs v = Rabs (IZR z) * bpow radix2 (-1074)) by (unfold v; rewrite Rabs_mult, (Rabs_pos_eq (bpow radix2 _)); [reflexivity|apply bpow_ge_0]).
  rewrite <- V in A. destruct (Z.eq_dec z 0) as [Z0|Z0].
  - unfold v. rewrite Z0, Rmult_0_l, rnd64_0, Rabs_R0. pose proof (Rabs_pos r). lra.
  - assert (L : bpow radix2 (-1074) <= Rabs v).
    { rewrite V. rewrite <- (Rmult_1_l (bpow radix2 (-1074))) at 1. apply Rmult_le_compat_r; [apply bpow_ge_0|]. rewrite <- abs_IZR. apply IZR_le. lia. }
    assert (E : bpow radix2 (-1075) = bpow radix2 (-1074) / 2) by (change (-1075)%Z with (-1074 + -1)%Z; rewrite bpow_plus; change (bpow radix2 (-1)) with (/ 2); reflexivity).
    destruct rnd64_accurate as (_ & _ & H). specialize (H v). replace (rnd64 v) with (v + (rnd64 v - v)) by ring.
    eapply Rle_trans; [apply Rabs_triang|]. rewrite E in H. pose proof (Rabs_pos v). lra.
Qed.

Definition hypot64 (a b : f64) : f64 :=
  match is_finite a, is_finite b with true, true => of_R (sqrt (val a ^ 2 + val b ^ 2)) | _, _ => B754_nan end.
Definition hypot_r (a b : R) : R := near (sqrt (a ^ 2 + b ^ 2)).
Definition ln64 (a : f64) : f64 := if is_finite a then of_R (ln (val a)) else a.
Definition ln_r (v : R) : R := near (ln v).
Definition cbrt64 (a : f64) : f64 := if is_finite a then of_R (Rpower (val a) (/ 3)) else a.
Definition cbrt_r (v : R) : R := near (Rpower v (/ 3)).
Lemma hypot64_ok : implements2 hypot64 hypot_r.
Proof. intros a b Ha Hb H. unfold hypot64. unfold fin in Ha, Hb. rewrite Ha, Hb. apply of_R_ok. exact H. Qed.
Lemma hypot_r_sane : hypot_sane hypot_r.
Proof.
  intros a b. unfold hypot_r. split; [apply near_nonneg, sqrt_pos|]. eapply Rle_trans; [apply Rle_abs|]. eapply Rle_trans; [apply near_le|].
  apply Rmult_le_compat_l; [lra|]. rewrite Rabs_pos_eq by apply sqrt_pos. rewrite <- (sqrt_pow2 (Rabs a + Rabs b)) by (pose proof (Rabs_pos a); pose proof (Rabs_pos b); lra).
  apply sqrt_le_1_alt. rewrite <- (pow2_abs a), <- (pow2_abs b). pose proof (Rmult_le_pos _ _ (Rabs_pos a) (Rabs_pos b)). lra.
Qed.
Lemma hypot64_strict : strict2 hypot64.
Proof. intros a b. unfold hypot64, fin. destruct (is_finite a), (is_finite b); cbn; intuition discriminate. Qed.
Lemma ln64_ok : implements1 (fun v => 0 < v) ln64 ln_r.
Proof. intros a Ha _ H. unfold ln64. unfold fin in Ha. rewrite Ha. apply of_R_ok. exact H. Qed.
Lemma ln_r_grows : forall v, 0 < v -> Rabs (ln_r v) <= 4 * Rabs (ln v) + 1.
Proof. intros v _. pose proof (near_le (ln v)). unfold ln_r. lra. Qed.
Lemma ln64_strict : strict1 ln64.
Proof. intros a. unfold ln64, fin. destruct (is_finite a) eqn:E; [reflexivity|]. rewrite E. discriminate. Qed.
Lemma cbrt64_ok : implements1 (fun v => 0 < v) cbrt64 cbrt_r.
Proof. intros a Ha _ H. unfold cbrt64. unfold fin in Ha. rewrite Ha. apply of_R_ok. exact H. Qed.
Lemma cbrt64_strict : strict1 cbrt64.
Proof. intros a. unfold cbrt64, fin. destruct (is_finite a) eqn:E; [reflexivity|]. rewrite E. discriminate. Qed.
Lemma cbrt_grows : forall v, 0 < v -> Rabs v <= bpow radix2 929 -> Rabs (cbrt_r v) <= bpow radix2 980.
Proof.
  intros v H0 H. rewrite Rabs_pos_eq in H by lra. unfold cbrt_r. eapply Rle_trans; [apply near_le|].
  assert (B : 1 <= bpow radix2 929) by (change 1 with (bpow radix2 0); apply bpow_le; lia).
  assert (P : Rabs (Rpower v (/ 3)) <= bpow radix2 929).
  { rewrite Rabs_pos_eq by (unfold Rpower; left; apply exp_pos). apply Rle_trans with (Rpower (bpow radix2 929) (/ 3)); [apply Rle_Rpower_l; lra|].
    rewrite <- (Rpower_1 (bpow radix2 929)) at 2 by lra. apply Rle_Rpower; lra. }
  apply Rle_trans with (4 * bpow radix2 929); [lra|]. change 4 with (bpow radix2 2). rewrite <- bpow_plus. apply bpow_le. lia.
Qed.

(** two samples, a 2-point transform with two bins, one band, two cepstral coefficients *)
Definition half64 : f64 := of_Z 1 (-1).
Definition two_re (q : nat) : flin := match q with O => FAdd (FLoad 0) (FLoad 1) | _ => FSub (FLoad 0) (FLoad 1) end.
Definition two_im (q : nat) : flin := FZero.
Definition two_bank (j : nat) : flin := FScaleAdd half64 (FLoad 0) (FScale half64 (FLoad 1)).
Definition two_dct (k : nat) : flin := match k with O => FLoad 0 | _ => FScale half64 (FLoad 0) end.
(** samples 2^e and 0 *)
Definition burst (e : Z) (i : nat) : f64 := match i with O => of_Z 1 e | _ => zero64 end.
Lemma power_of_2 : forall e, (-1074 <= e < 1024)%Z -> fin (of_Z 1 e) /\ val (of_Z 1 e) = bpow radix2 e.
Proof.
  intros e He. assert (E : rnd64 (IZR 1 * bpow radix2 e) = bpow radix2 e) by (rewrite Rmult_1_l; apply rnd64_bpow; lia).
  destruct (of_Z_ok 1 e) as [A B]; [rewrite E, Rabs_pos_eq by apply bpow_ge_0; apply bpow_lt; lia|]. split; [exact A|]. rewrite B. exact E.
Qed.
Lemma half_ok : fin half64 /\ Rabs (val half64) <= 1.
Proof. destruct (power_of_2 (-1)) as [A B]; [lia|]. split; [exact A|]. unfold half64. rewrite B. change (bpow radix2 (-1)) with (/ 2). rewrite Rabs_pos_eq; lra. Qed.
Lemma half_val : 0 <= val half64.
Proof. destruct (power_of_2 (-1)) as [_ B]; [lia|]. unfold half64. rewrite B. apply bpow_ge_0. Qed.
Lemma two_re_ok : forall q, (q < 2)%nat -> program 2 (two_re q) /\ program 2 (two_im q).
Proof. intros q Hq. unfold program. destruct q; cbn [two_re two_im unit_consts reals reads nodes INR Nat.add]; repeat split; try lia; try lra. Qed.
Lemma two_bank_ok : forall j, program 2 (two_bank j) /\ additive (reals (two_bank j)).
Proof.
  intros j. destruct half_ok as [A B]. pose proof half_val. unfold program. cbn [two_bank unit_consts reals reads nodes INR Nat.add additive]. repeat split; try lia; try lra; try assumption.
Qed.
Lemma two_dct_ok : forall k, program 1 (two_dct k).
Proof. intros k. destruct half_ok as [A B]. unfold program. destruct k; cbn [two_dct unit_consts reals reads nodes INR Nat.add]; repeat split; try lia; try lra; assumption. Qed.
Lemma burst_ok : forall e, (-1074 <= e <= 400)%Z -> forall i, (i < 2)%nat -> fin (burst e i) /\ Rabs (val (burst e i)) <= bpow radix2 400.
Proof.
  intros e He i _. destruct i; cbn [burst].
  - destruct (power_of_2 e) as [A B]; [lia|]. split; [exact A|]. rewrite B, Rabs_pos_eq by apply bpow_ge_0. apply bpow_le. lia.
  - split; [reflexivity|]. change (val zero64) with 0. rewrite Rabs_R0. apply bpow_ge_0.
Qed.
Lemma two_log : fin (log_cepstrum64 ln64 hypot64 two_re two_im 2 two_bank two_dct (burst 300) 1).
Proof.
  destruct (log_cepstrum_ieee hypot64 hypot_r ln64 ln_r two_re two_im two_bank two_dct (burst 300) 2 2 2 1 1 hypot64_ok hypot_r_sane ln64_ok ln_r_grows) as [A _];
    [lia|lia|apply burst_ok; lia|apply two_re_ok|intros; apply two_bank_ok|apply two_dct_ok|exact A].
Qed.
(** the magnitude of bin 0 of the samples 2^600, 0 *)
Lemma near_bpow : forall e, (0 <= e)%Z -> near (bpow radix2 e) = bpow radix2 e.
Proof.
  intros e He. unfold near. rewrite <- bpow_plus. replace (bpow radix2 (e + 1074)) with (IZR (2 ^ (e + 1074))) by (symmetry; rewrite <- IZR_Zpower by lia; reflexivity).
  rewrite (@Zrnd_IZR ZnearestE _). replace (IZR (2 ^ (e + 1074))) with (bpow radix2 (e + 1074)) by (rewrite <- IZR_Zpower by lia; reflexivity).
  rewrite <- bpow_plus. replace (e + 1074 + -1074)%Z with e by lia. apply rnd64_bpow. lia.
Qed.
Lemma burst_run : fin (flin_run (burst 600) (two_re 0)) /\ val (flin_run (burst 600) (two_re 0)) = bpow radix2 600.
Proof.
  destruct (power_of_2 600) as [A B]; [lia|]. cbn [two_re flin_run burst]. destruct (add64_ok (of_Z 1 600) zero64 A eq_refl) as [C D].
  - rewrite B. change (val zero64) with 0. rewrite Rplus_0_r, rnd64_bpow, Rabs_pos_eq by (try lia; apply bpow_ge_0). apply bpow_lt. lia.
  - split; [exact C|]. rewrite D, B. change (val zero64) with 0. rewrite Rplus_0_r. apply rnd64_bpow. lia.
Qed.
Lemma burst_magnitude : val (magnitude64 hypot64 two_re two_im (burst 600) 0) = bpow radix2 600.
Proof.
  destruct burst_run as [A B]. unfold magnitude64. assert (E : hypot_r (val (flin_run (burst 600) (two_re 0))) (val (flin_run (burst 600) (two_im 0))) = bpow radix2 600).
  { rewrite B. cbn [two_im flin_run]. change (val zero64) with 0. unfold hypot_r. replace (bpow radix2 600 ^ 2 + 0 ^ 2) with (bpow radix2 600 ^ 2) by ring.
    rewrite sqrt_pow2 by apply bpow_ge_0. apply near_bpow. lia. }
  destruct (hypot64_ok _ (flin_run (burst 600) (two_im 0)) A eq_refl) as [_ D].
  - rewrite E, Rabs_pos_eq by apply bpow_ge_0. apply bpow_lt. lia.
  - rewrite D. exact E.
Qed.
Lemma burst_fin : forall i, (i < 2)%nat -> fin (burst 600 i).
Proof. intros [|i] _; [apply power_of_2; lia|reflexivity]. Qed.
Lemma hypot_r_lower : forall a, 1 <= a -> a / 2 <= hypot_r a 0.
Proof.
  intros a Ha. unfold hypot_r. replace (a ^ 2 + 0 ^ 2) with (a ^ 2) by ring. rewrite sqrt_pow2 by lra. unfold near.
  assert (B : 16 <= bpow radix2 1074) by (change 16 with (bpow radix2 4); apply bpow_le; lia). assert (B' := bpow_gt_0 radix2 (-1074)).
  assert (E : bpow radix2 1074 * bpow radix2 (-1074) = 1) by (rewrite <- bpow_plus; reflexivity).
  set (t := a * bpow radix2 1074). assert (T : 16 <= t) by (unfold t; rewrite <- (Rmult_1_l 16); apply Rmult_le_compat; lra).
  pose proof (Znearest_half (fun x => negb (Z.even x)) t) as N. set (z := ZnearestE t) in *. fold z in N. apply Rcomplements.Rabs_le_between in N.
  destruct rnd64_accurate as (_ & _ & H). specialize (H (IZR z * bpow radix2 (-1074))). apply Rcomplements.Rabs_le_between in H.
  assert (V : 0.9 * a <= IZR z * bpow radix2 (-1074) <= 1.1 * a).
  { replace a with (t * bpow radix2 (-1074)) by (unfold t; rewrite Rmult_assoc, E; ring). rewrite <- !Rmult_assoc. split; apply Rmult_le_compat_r; lra. }
  assert (bpow radix2 (-1075) <= bpow radix2 (-4)) by (apply bpow_le; lia). assert (bpow radix2 (-4) = / 16) by (change (bpow radix2 (-4)) with (/ 16); reflexivity).
  rewrite Rabs_pos_eq in H by lra. lra.
Qed.
Lemma burst_loud : forall h g, implements2 h g -> hypot_sane g -> (forall a, 1 <= a -> a / 2 <= g a 0) ->
  bpow radix2 512 <= Rabs (val (magnitude64 h two_re two_im (burst 600) 0)).
Proof.
  intros h g Hi Hs Hl. destruct burst_run as [A B]. unfold magnitude64.
  assert (Q : bpow radix2 600 = 2 * bpow radix2 599) by (change 600%Z with (1 + 599)%Z; rewrite bpow_plus; reflexivity).
  assert (P : bpow radix2 602 = 4 * bpow radix2 600) by (change 602%Z with (2 + 600)%Z; rewrite bpow_plus; reflexivity).
  pose proof (bpow_gt_0 radix2 600) as P6. assert (O1 : 1 <= bpow radix2 600) by (change 1 with (bpow radix2 0); apply bpow_le; lia).
  specialize (Hl _ O1). specialize (Hs (bpow radix2 600) 0). rewrite Rabs_R0, (Rabs_pos_eq (bpow _ _)), Rplus_0_r in Hs by lra.
  assert (P512 : bpow radix2 512 <= bpow radix2 599) by (apply bpow_le; lia). pose proof (bpow_gt_0 radix2 512).
  destruct (Hi _ (flin_run (burst 600) (two_im 0)) A eq_refl) as [_ D].
  - rewrite B. change (val (flin_run (burst 600) (two_im 0))) with 0. rewrite Rabs_pos_eq by lra. apply Rle_lt_trans with (bpow radix2 602); [lra|]. apply bpow_lt. lia.
  - rewrite D, B. change (val (flin_run (burst 600) (two_im 0))) with 0. rewrite Rabs_pos_eq by lra. lra.
Qed.
Lemma burst_energy : forall j, 0 < @band_energy binary64 2 (@bin_magnitude binary64 hypot_r (fun q => reals (two_re q)) (fun q => reals (two_im q)) (fun i => val (burst 300 i)))
  (fun j => reals (two_bank j)) j.
Proof.
  intros j. set (m := @bin_magnitude binary64 _ _ _ _).
  assert (M : forall q, m q = bpow radix2 300).
  { intros q. unfold m, bin_magnitude. destruct (power_of_2 300) as [_ B]; [lia|]. assert (X0 : val (burst 300 0) = bpow radix2 300) by exact B. assert (X1 : val (burst 300 1) = 0) by reflexivity.
    assert (R : @lin_run binary64 (fun i => val (burst 300 i)) (reals (two_re q)) = bpow radix2 300).
    { destruct q; cbn [two_re reals lin_run rnd binary64]; rewrite X0, X1; rewrite ?Rplus_0_r, ?Rminus_0_r; apply rnd64_bpow; lia. }
    rewrite R. cbn [two_im reals lin_run]. unfold hypot_r. replace (bpow radix2 300 ^ 2 + 0 ^ 2) with (bpow radix2 300 ^ 2) by ring.
    rewrite sqrt_pow2 by apply bpow_ge_0. apply near_bpow. lia. }
  assert (P : forall q, @bin_power binary64 2 m q = bpow radix2 599).
  { intros q. unfold bin_power. rewrite M. cbn [rnd binary64]. replace (1 / INR 2) with (bpow radix2 (-1)) by (change (bpow radix2 (-1)) with (/ 2); cbn [INR]; lra).
    rewrite <- (bpow_plus radix2 300 300), !rnd64_bpow by lia. rewrite <- bpow_plus. apply rnd64_bpow. lia. }
  destruct (power_of_2 (-1)) as [_ B]; [lia|]. unfold band_energy. cbn [two_bank reals lin_run rnd binary64]. rewrite !P. unfold half64. rewrite B. rewrite <- bpow_plus.
  change (-1 + 599)%Z with 598%Z. rewrite rnd64_bpow by lia. replace (bpow radix2 598 + bpow radix2 598) with (bpow radix2 (1 + 598)) by (rewrite bpow_plus; change (bpow radix2 1) with 2; ring).
  rewrite rnd64_bpow by lia. apply bpow_gt_0.
Qed.
