(** * Lemmas about binary64 truncation of durations *)
From Coq Require Import Reals ZArith Lia Lra Psatz.
From Flocq Require Import Core Relative.
From Flocq Require Import IEEE754.Binary IEEE754.Bits.
From Verif Require Import Base BaseFacts Preprocessing PreprocessingFacts Binary64.
Local Open Scope R_scope.

#[local] Instance valid64 : Valid_exp (FLT_exp (-1074) 53).
Proof. apply FLT_exp_valid. reflexivity. Qed.

Lemma rnd64_rel : forall x, bpow radix2 (-1022) <= Rabs x ->
  exists d, Rabs d <= bpow radix2 (-53) /\ rnd64 x = x * (1 + d).
Proof.
  intros x Hx.
  destruct (relative_error_N_FLT_ex radix2 (-1074) 53 ltac:(reflexivity) (fun z => negb (Z.even z)) x) as (d & Hd & He).
  - exact Hx.
  - exists d. split; [|exact He]. replace (bpow radix2 (-53)) with (/ 2 * bpow radix2 (- (53) + 1)).
    exact Hd. symmetry. transitivity (bpow radix2 (-1) * bpow radix2 (- (53) + 1)); [|reflexivity].
    rewrite <- bpow_plus. reflexivity.
Qed.

Definition u53 : R := bpow radix2 (-53).
Lemma u53_val : u53 * 9007199254740992 = 1.
Proof. unfold u53. change (IZR 9007199254740992) with (bpow radix2 53). rewrite <- bpow_plus. reflexivity. Qed.

Lemma big_bpow : forall x, 1 <= x * 1125899906842624 -> bpow radix2 (-1022) <= x.
Proof.
  intros x Hx.
  apply Rle_trans with (bpow radix2 (-50)).
  - apply bpow_le. lia.
  - apply Rmult_le_reg_r with 1125899906842624; [lra|].
    change (IZR 1125899906842624) with (bpow radix2 50) at 1. rewrite <- bpow_plus. simpl (bpow radix2 (-50 + 50)). lra.
Qed.

Lemma duration_truncation : forall k fs : Z,
  (1 <= k <= 2 ^ 50)%Z -> (1 <= fs <= 2 ^ 50)%Z ->
  let n := flen (H := binary64) fs (rnd64 (IZR k / IZR fs)) in n = k \/ n = (k - 1)%Z.
Proof.
  intros k fs Hk Hfs. cbv zeta. unfold flen. simpl (rnd _).
  assert (Hk1 : 1 <= IZR k <= 1125899906842624) by (split; apply IZR_le; lia).
  assert (Hf1 : 1 <= IZR fs <= 1125899906842624) by (split; apply IZR_le; lia).
  pose proof u53_val as Hu. assert (Hu0 : 0 < u53) by apply bpow_gt_0.
  set (q := IZR k / IZR fs).
  assert (Hq : q * IZR fs = IZR k) by (unfold q; field; lra).
  assert (Hqpos : 0 < q) by (unfold q; apply Rdiv_lt_0_compat; lra).
  destruct (rnd64_rel q) as (d1 & Hd1 & He1).
  { rewrite Rabs_pos_eq by lra. apply big_bpow. nra. }
  fold u53 in Hd1. rewrite He1.
  assert (Hd1' : - u53 <= d1 <= u53) by (apply Rabs_def2b || (split; apply Rabs_le_inv in Hd1; lra); auto).
  replace (q * (1 + d1) * IZR fs) with (IZR k * (1 + d1)) by (rewrite <- Hq; ring).
  assert (Hsmall : u53 < / 1000000). { apply Rmult_lt_reg_r with 9007199254740992; [lra|]. rewrite Hu. lra. }
  destruct (rnd64_rel (IZR k * (1 + d1))) as (d2 & Hd2 & He2).
  { rewrite Rabs_pos_eq by nra. apply big_bpow. nra. }
  fold u53 in Hd2. rewrite He2.
  assert (Hd2' : - u53 <= d2 <= u53) by (split; apply Rabs_le_inv in Hd2; lra).
  set (v := IZR k * (1 + d1) * (1 + d2)).
  assert (Hv : IZR k - 1 < v < IZR k + 1).
  { assert (Hku : IZR k * u53 <= / 8).
    { apply Rmult_le_reg_r with 9007199254740992; [lra|]. rewrite Rmult_assoc, Hu. lra. }
    assert (Hprod : - (3 * u53) <= (1 + d1) * (1 + d2) - 1 <= 3 * u53) by nra.
    unfold v. rewrite Rmult_assoc. set (w := (1 + d1) * (1 + d2)) in *. nra. }
  assert (Hvpos : 0 <= v) by lra.
  rewrite Ztrunc_floor by auto.
  assert (H1 : (k - 1 <= Zfloor v)%Z). { apply Zfloor_lub. rewrite minus_IZR. lra. }
  assert (H2 : (Zfloor v < k + 1)%Z).
  { apply lt_IZR. apply Rle_lt_trans with v. apply Zfloor_lb. rewrite plus_IZR. lra. }
  lia.
Qed.

(** evaluating one rounding: [e] is the exponent, [m] the integer mantissa *)
Lemma rnd64_eval : forall x e m,
  bpow radix2 (e - 1) <= x < bpow radix2 e -> (-1021 <= e)%Z ->
  Rabs (x * bpow radix2 (53 - e) - IZR m) < / 2 ->
  rnd64 x = IZR m * bpow radix2 (e - 53).
Proof.
  intros x e m Hx He Hm. unfold rnd64, round, F2R. simpl.
  assert (Hx0 : 0 < x) by (apply Rlt_le_trans with (bpow radix2 (e - 1)); [apply bpow_gt_0|lra]).
  assert (Hmag : mag radix2 x = e :> Z) by (apply mag_unique; rewrite Rabs_pos_eq; lra).
  unfold scaled_mantissa, cexp. rewrite Hmag.
  assert (Hc : FLT_exp (-1074) 53 e = (e - 53)%Z) by (unfold FLT_exp; lia).
  rewrite Hc. replace (- (e - 53))%Z with (53 - e)%Z by lia.
  rewrite (Znearest_imp _ _ m); auto.
Qed.

(** 0.29 s at 100 Hz is 29 samples, but the code takes 28 *)
Lemma duration_truncation_witness :
  flen (H := binary64) 100 (rnd64 (29 / 100)) = 28%Z.
Proof.
  unfold flen. simpl (rnd _).
  assert (H1 : rnd64 (29 / 100) = IZR 5224175567749775 * bpow radix2 (-1 - 53)).
  { apply rnd64_eval.
    - change (bpow radix2 (-1 - 1)) with (/ 4). change (bpow radix2 (-1)) with (/ 2). lra.
    - lia.
    - change (bpow radix2 (53 - -1)) with (IZR 18014398509481984).
      apply Rabs_lt. lra. }
  rewrite H1.
  assert (H2 : rnd64 (IZR 5224175567749775 * bpow radix2 (-1 - 53) * 100) = IZR 8162774324609023 * bpow radix2 (5 - 53)).
  { change (bpow radix2 (-1 - 53)) with (/ IZR 18014398509481984).
    apply rnd64_eval.
    - change (bpow radix2 (5 - 1)) with 16. change (bpow radix2 5) with 32. lra.
    - lia.
    - change (bpow radix2 (53 - 5)) with (IZR 281474976710656). apply Rabs_lt. lra. }
  rewrite H2. change (bpow radix2 (5 - 53)) with (/ IZR 281474976710656).
  rewrite Ztrunc_floor by lra. apply Zfloor_imp. simpl. lra.
Qed.
