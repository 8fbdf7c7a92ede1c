(** * binary64: numpy's windows and constant columns *)
From Coq Require Import Reals ZArith List Lia Lra Psatz Permutation.
From Flocq Require Import Core Relative.
From Verif Require Import Base SpecBase BigSum Binary64 Rounded SpecRounded RoundedFacts RoundedLaws.
Import ListNotations.
Local Open Scope R_scope.

(** ** rounding of a number whose scaled mantissa is known *)
Lemma rnd64_scaled : forall x m e, (-1074 <= e)%Z ->
  bpow radix2 (52 + e) <= Rabs x < bpow radix2 (53 + e) -> ZnearestE (x * bpow radix2 (- e)) = m -> rnd64 x = IZR m * bpow radix2 e.
Proof.
  intros x m e He Hx Hm. unfold rnd64, round, scaled_mantissa.
  assert (E : cexp radix2 (FLT_exp (-1074) 53) x = e).
  { rewrite (cexp_fexp radix2 _ x (53 + e)); [unfold FLT_exp; lia|]. replace (53 + e - 1)%Z with (52 + e)%Z by lia. exact Hx. }
  rewrite E, Hm. reflexivity.
Qed.
Lemma rnd64_near : forall x m e, (-1074 <= e)%Z ->
  bpow radix2 (52 + e) <= Rabs x < bpow radix2 (53 + e) -> Rabs (x * bpow radix2 (- e) - IZR m) < / 2 -> rnd64 x = IZR m * bpow radix2 e.
Proof. intros x m e He Hx Hm. apply rnd64_scaled; auto. apply Znearest_imp. exact Hm. Qed.
Lemma rnd64_id : forall m e, (Z.abs m < 2 ^ 53)%Z -> (-1074 <= e)%Z -> rnd64 (IZR m * bpow radix2 e) = IZR m * bpow radix2 e.
Proof.
  intros m e Hm He. apply round_generic; [apply valid_rnd_N|].
  apply generic_format_FLT. exists (Float radix2 m e); [reflexivity|exact Hm|exact He].
Qed.
Lemma rnd64_int : forall m, (Z.abs m < 2 ^ 53)%Z -> rnd64 (IZR m) = IZR m.
Proof. intros m Hm. rewrite <- (Rmult_1_r (IZR m)). change 1 with (bpow radix2 0). apply rnd64_id; [exact Hm|lia]. Qed.
Lemma rnd64_0 : rnd64 0 = 0.
Proof. apply (rnd64_int 0). lia. Qed.
Lemma rnd64_1 : rnd64 1 = 1.
Proof. apply (rnd64_int 1). lia. Qed.
Lemma rnd64_idem : forall x, rnd64 (rnd64 x) = rnd64 x.
Proof.
  intros x. unfold rnd64 at 1. apply round_generic; [apply valid_rnd_N|].
  apply generic_format_round; [apply FLT_exp_valid; reflexivity|apply valid_rnd_N].
Qed.
(** ** the decimal constants *)
Lemma r042 : rnd64 0.42 = IZR 7566047373982433 * bpow radix2 (-54).
Proof.
  apply rnd64_near; [lia| |].
  - change (bpow radix2 (52 + -54)) with (/ IZR 4). change (bpow radix2 (53 + -54)) with (/ IZR 2).
    rewrite Rabs_pos_eq by lra. lra.
  - change (bpow radix2 (- - 54)) with (IZR 18014398509481984). apply Rabs_def1; lra.
Qed.
Lemma r054 : rnd64 0.54 = IZR 4863887597560136 * bpow radix2 (-53).
Proof.
  apply rnd64_near; [lia| |].
  - change (bpow radix2 (52 + -53)) with (/ IZR 2). change (bpow radix2 (53 + -53)) with 1.
    rewrite Rabs_pos_eq by lra. lra.
  - change (bpow radix2 (- - 53)) with (IZR 9007199254740992). apply Rabs_def1; lra.
Qed.
Lemma r046 : rnd64 0.46 = IZR 8286623314361713 * bpow radix2 (-54).
Proof.
  apply rnd64_near; [lia| |].
  - change (bpow radix2 (52 + -54)) with (/ IZR 4). change (bpow radix2 (53 + -54)) with (/ IZR 2).
    rewrite Rabs_pos_eq by lra. lra.
  - change (bpow radix2 (- - 54)) with (IZR 18014398509481984). apply Rabs_def1; lra.
Qed.
Lemma r008 : rnd64 0.08 = IZR 5764607523034235 * bpow radix2 (-56).
Proof.
  apply rnd64_near; [lia| |].
  - change (bpow radix2 (52 + -56)) with (/ IZR 16). change (bpow radix2 (53 + -56)) with (/ IZR 8).
    rewrite Rabs_pos_eq by lra. lra.
  - change (bpow radix2 (- - 56)) with (IZR 72057594037927936). apply Rabs_def1; lra.
Qed.
Lemma r01 : rnd64 0.1 = IZR 7205759403792794 * bpow radix2 (-56).
Proof.
  apply rnd64_near; [lia| |].
  - change (bpow radix2 (52 + -56)) with (/ IZR 16). change (bpow radix2 (53 + -56)) with (/ IZR 8).
    rewrite Rabs_pos_eq by lra. lra.
  - change (bpow radix2 (- - 56)) with (IZR 72057594037927936). apply Rabs_def1; lra.
Qed.
Lemma r05 : rnd64 0.5 = 0.5.
Proof.
  replace 0.5 with (IZR 1 * bpow radix2 (-1)) by (change (bpow radix2 (-1)) with (/ 2); lra). apply rnd64_id; lia.
Qed.

(** ** windows *)
Lemma rnd64_between : forall a b x, rnd64 a = a -> rnd64 b = b -> a <= x <= b -> a <= rnd64 x <= b.
Proof. intros a b x Ha Hb [H1 H2]. apply rnd64_monotone in H1. apply rnd64_monotone in H2. lra. Qed.
Lemma rnd64_neg : forall a, rnd64 a = a -> rnd64 (- a) = - a.
Proof. intros a Ha. rewrite rnd64_odd, Ha. reflexivity. Qed.

Lemma angle_mirror : forall (E : Env) pi M n, odd (@rnd E) -> (n < M)%nat -> @angle E pi M (M - 1 - n) = - @angle E pi M n.
Proof.
  intros E pi M n Ho Hn. unfold angle. rewrite <- Ho. f_equal.
  replace (- (@rnd E (pi * (2 * INR n - (INR M - 1))) / (INR M - 1))) with (- @rnd E (pi * (2 * INR n - (INR M - 1))) / (INR M - 1)) by (unfold Rdiv; ring).
  rewrite <- Ho. f_equal. f_equal. rewrite !minus_INR by lia. cbn [INR]. ring.
Qed.
Lemma bartlett_mirror : forall (E : Env) M n, odd (@rnd E) -> (n < M)%nat -> @bartlett_of E M (M - 1 - n) = @bartlett_of E M n.
Proof.
  intros E M n Ho Hn. unfold bartlett_of. cbv zeta. set (L := INR M - 1). set (k := 2 * INR n - L).
  replace (2 * INR (M - 1 - n) - L) with (- k).
  2:{ unfold k, L. rewrite !minus_INR by lia. cbn [INR]. ring. }
  replace (- k / L) with (- (k / L)) by (unfold Rdiv; ring). rewrite Ho.
  destruct (Rle_dec k 0), (Rle_dec (- k) 0); try lra.
  - assert (K : k = 0) by lra. rewrite K. unfold Rdiv. rewrite Rmult_0_l, (odd_zero _ Ho). f_equal. ring.
  - f_equal. ring.
  - f_equal.
Qed.

Lemma hanning_range : forall pi cosf M n, (forall y, -1 <= cosf y <= 1) -> 0 <= @hanning_of binary64 pi cosf M n <= 1.
Proof.
  intros pi cosf M n Hc. unfold hanning_of. cbn [rnd binary64]. rewrite r05.
  apply rnd64_between; [apply rnd64_0|apply rnd64_1|].
  assert (K : Ropp 0.5 <= rnd64 (0.5 * cosf (@angle binary64 pi M n)) <= 0.5).
  { apply rnd64_between; [apply rnd64_neg, r05|apply r05|].
    specialize (Hc (@angle binary64 pi M n)). lra. }
  lra.
Qed.
Lemma hamming_range : forall pi cosf M n, (forall y, -1 <= cosf y <= 1) -> 0.0799 <= @hamming_of binary64 pi cosf M n <= 1.
Proof.
  intros pi cosf M n Hc. unfold hamming_of. cbn [rnd binary64]. set (c := cosf _).
  assert (K : - rnd64 0.46 <= rnd64 (rnd64 0.46 * c) <= rnd64 0.46).
  { apply rnd64_between; [apply rnd64_neg, rnd64_idem|apply rnd64_idem|]. specialize (Hc (@angle binary64 pi M n)). fold c in Hc.
    assert (0 <= rnd64 0.46) by (rewrite r046; change (bpow radix2 (-54)) with (/ IZR 18014398509481984); lra). nra. }
  assert (Ha : rnd64 0.54 = IZR 9727775195120272 * bpow radix2 (-54)).
  { rewrite r054. change (bpow radix2 (-53)) with (/ IZR 9007199254740992). change (bpow radix2 (-54)) with (/ IZR 18014398509481984). lra. }
  split.
  - apply Rle_trans with (rnd64 (rnd64 0.54 - rnd64 0.46)).
    + rewrite Ha, r046, <- Rmult_minus_distr_r, <- minus_IZR. change (9727775195120272 - 8286623314361713)%Z with 1441151880758559%Z.
      rewrite rnd64_id; [|reflexivity|lia]. change (bpow radix2 (-54)) with (/ IZR 18014398509481984). lra.
    + apply rnd64_monotone. lra.
  - apply Rle_trans with (rnd64 (rnd64 0.54 + rnd64 0.46)).
    + apply rnd64_monotone. lra.
    + right. rewrite Ha, r046. transitivity (IZR 4503599627370496 * bpow radix2 (-52)).
      * apply rnd64_near; [lia| |].
        -- change (bpow radix2 (52 + -52)) with 1. change (bpow radix2 (53 + -52)) with 2. change (bpow radix2 (-54)) with (/ IZR 18014398509481984).
           rewrite Rabs_pos_eq by lra. lra.
        -- change (bpow radix2 (- -52)) with (IZR 4503599627370496). change (bpow radix2 (-54)) with (/ IZR 18014398509481984).
           apply Rabs_def1; lra.
      * change (bpow radix2 (-52)) with (/ IZR 4503599627370496). lra.
Qed.
Lemma bartlett_range : forall M n, (n < M)%nat -> (2 <= M)%nat -> 0 <= @bartlett_of binary64 M n <= 1.
Proof.
  intros M n Hn HM. unfold bartlett_of. cbn [rnd binary64]. cbv zeta. set (L := INR M - 1). set (k := 2 * INR n - L).
  assert (HL : 0 < L). { unfold L. apply le_INR in HM. cbn in HM. lra. }
  assert (Hk : - L <= k <= L).
  { unfold k. pose proof (pos_INR n). assert (INR n <= L). { unfold L. apply le_INR in Hn. rewrite S_INR in Hn. lra. } lra. }
  assert (Hd : -1 <= k / L <= 1).
  { split; [apply (Rmult_le_reg_r L); [exact HL|]|apply (Rmult_le_reg_r L); [exact HL|]]; unfold Rdiv; rewrite Rmult_assoc, Rinv_l by lra; lra. }
  destruct (Rle_dec k 0) as [H0|H0].
  - assert (k / L <= 0). { unfold Rdiv. pose proof (Rinv_0_lt_compat L HL). nra. }
    assert (-1 <= rnd64 (k / L) <= 0) by (apply rnd64_between; [apply (rnd64_int (-1)); lia|apply rnd64_0|lra]).
    apply rnd64_between; [apply rnd64_0|apply rnd64_1|lra].
  - assert (0 <= k / L). { unfold Rdiv. pose proof (Rinv_0_lt_compat L HL). nra. }
    assert (0 <= rnd64 (k / L) <= 1) by (apply rnd64_between; [apply rnd64_0|apply rnd64_1|lra]).
    apply rnd64_between; [apply rnd64_0|apply rnd64_1|lra].
Qed.

(** cosine close to the ends of the period *)
Lemma sin_abs_le : forall x, Rabs (sin x) <= Rabs x.
Proof.
  assert (P : forall x, 0 <= x -> Rabs (sin x) <= x).
  { intros x [Hx|<-]; [|rewrite sin_0, Rabs_R0; lra].
    destruct (MVT_cor2 sin cos 0 x Hx) as (c & Hc & _); [intros; apply derivable_pt_lim_sin|].
    rewrite sin_0, !Rminus_0_r in Hc. rewrite Hc, Rabs_mult, (Rabs_pos_eq x) by lra.
    rewrite <- (Rmult_1_l x) at 2. apply Rmult_le_compat_r; [lra|]. apply Rabs_le, COS_bound. }
  intros x. destruct (Rle_dec 0 x) as [H|H].
  - rewrite (Rabs_pos_eq x H). apply P. exact H.
  - rewrite <- (Rabs_Ropp x), <- (Rabs_Ropp (sin x)), <- sin_neg, (Rabs_pos_eq (- x)) by lra. apply P. lra.
Qed.
Lemma cos_near : forall d, 1 - d * d / 2 <= cos d.
Proof.
  intros d. replace d with (2 * (d / 2)) at 3 by field. rewrite cos_2a_sin.
  pose proof (sin_abs_le (d / 2)) as H. apply Rsqr_le_abs_1 in H. unfold Rsqr in H. lra.
Qed.
Lemma rnd64_cos_one : forall c, 1 - / IZR (2 ^ 60) <= c <= 1 -> rnd64 c = 1.
Proof.
  intros c [Hl Hc]. destruct Hc as [Hh|Hh]; [|rewrite Hh; apply rnd64_1].
  change (2 ^ 60)%Z with 1152921504606846976%Z in Hl.
  rewrite (rnd64_near c 9007199254740992 (-53)); [| lia | |].
  - change (bpow radix2 (-53)) with (/ IZR 9007199254740992). lra.
  - change (bpow radix2 (52 + -53)) with (/ 2). change (bpow radix2 (53 + -53)) with 1. rewrite Rabs_pos_eq by lra. lra.
  - change (bpow radix2 (- -53)) with (IZR 9007199254740992). apply Rabs_def1; lra.
Qed.
(** the angle of the first entry *)
Lemma angle_first : forall p M, (2 <= M)%nat -> 0 <= p <= 8 -> Rabs (@angle binary64 p M 0 + p) <= / IZR (2 ^ 48).
Proof.
  intros p M HM Hp. unfold angle. cbn [rnd binary64 INR]. set (L := INR M - 1).
  assert (HL : 1 <= L). { unfold L. apply le_INR in HM. cbn in HM. lra. }
  destruct rnd64_accurate as (_ & _ & Hr). set (eta := bpow radix2 (-1075)) in *.
  assert (He : 0 <= eta <= / IZR (2 ^ 60)).
  { split; [apply bpow_ge_0|]. change (/ IZR (2 ^ 60)) with (bpow radix2 (-60)). apply bpow_le. lia. }
  change (2 ^ 60)%Z with 1152921504606846976%Z in He. change (2 ^ 48)%Z with 281474976710656%Z.
  assert (Hu : / 2 ^ 53 = / IZR 9007199254740992). { rewrite (pow_IZR 2 53). reflexivity. }
  rewrite Hu in Hr. set (u := / IZR 9007199254740992) in *.
  replace (p * (2 * 0 - L)) with (- (p * L)) by ring.
  pose proof (Hr (- (p * L))) as H1. rewrite Rabs_Ropp, (Rabs_pos_eq (p * L)) in H1 by nra.
  set (r1 := rnd64 (- (p * L))) in *.
  assert (H2 : Rabs (r1 / L + p) <= u * p + eta).
  { replace (r1 / L + p) with ((r1 - - (p * L)) * / L) by (field; lra).
    assert (Hi : 0 < / L <= 1). { split; [apply Rinv_0_lt_compat; lra|]. rewrite <- Rinv_1. apply Rinv_le_contravar; lra. }
    rewrite Rabs_mult, (Rabs_pos_eq (/ L)) by lra.
    eapply Rle_trans; [apply Rmult_le_compat_r; [lra|exact H1]|].
    replace ((u * (p * L) + eta) * / L) with (u * p + eta * / L) by (field; lra). nra. }
  pose proof (Hr (r1 / L)) as H3.
  assert (H4 : Rabs (r1 / L) <= p + (u * p + eta)).
  { replace (r1 / L) with ((r1 / L + p) + - p) by ring. eapply Rle_trans; [apply Rabs_triang|]. rewrite Rabs_Ropp, (Rabs_pos_eq p) by lra. lra. }
  replace (rnd64 (r1 / L) + p) with ((rnd64 (r1 / L) - r1 / L) + (r1 / L + p)) by ring.
  eapply Rle_trans; [apply Rabs_triang|].
  assert (Hu0 : 0 < u) by (unfold u; apply Rinv_0_lt_compat; lra).
  assert (u * Rabs (r1 / L) <= u * (p + (u * p + eta))) by (apply Rmult_le_compat_l; lra).
  unfold u in *. nra.
Qed.
Lemma rnd64_pi : 0 <= rnd64 PI <= 4 /\ Rabs (rnd64 PI - PI) <= / IZR (2 ^ 50).
Proof.
  pose proof PI_4. pose proof PI_RGT_0. split.
  - apply rnd64_between; [apply rnd64_0|apply (rnd64_int 4); lia|lra].
  - destruct rnd64_accurate as (_ & _ & Hr). eapply Rle_trans; [apply Hr|]. rewrite (Rabs_pos_eq PI) by lra.
    assert (He : bpow radix2 (-1075) <= / IZR (2 ^ 60)).
    { change (/ IZR (2 ^ 60)) with (bpow radix2 (-60)). apply bpow_le. lia. }
    change (2 ^ 60)%Z with 1152921504606846976%Z in He. change (2 ^ 50)%Z with 1125899906842624%Z.
    assert (Hu : / 2 ^ 53 = / IZR 9007199254740992). { rewrite (pow_IZR 2 53). reflexivity. }
    rewrite Hu. lra.
Qed.
Lemma cos_first : forall M, (2 <= M)%nat -> rnd64 (cos (@angle binary64 (rnd64 PI) M 0)) = -1.
Proof.
  intros M HM. destruct rnd64_pi as [Hp Hd]. pose proof (angle_first (rnd64 PI) M HM ltac:(lra)) as Ha.
  set (y := @angle binary64 (rnd64 PI) M 0) in *.
  assert (Hy : Rabs (y + PI) <= / IZR (2 ^ 47)).
  { replace (y + PI) with ((y + rnd64 PI) + - (rnd64 PI - PI)) by ring. eapply Rle_trans; [apply Rabs_triang|]. rewrite Rabs_Ropp.
    eapply Rle_trans; [apply Rplus_le_compat; [exact Ha|exact Hd]|].
    change (2 ^ 48)%Z with 281474976710656%Z. change (2 ^ 50)%Z with 1125899906842624%Z. change (2 ^ 47)%Z with 140737488355328%Z. lra. }
  replace (cos y) with (- cos (y + PI)) by (rewrite neg_cos; ring). rewrite rnd64_odd. change (-1) with (Ropp 1). f_equal.
  apply rnd64_cos_one. split; [|apply COS_bound]. eapply Rle_trans; [|apply cos_near].
  apply Rabs_le_inv in Hy. change (2 ^ 47)%Z with 140737488355328%Z in Hy. change (2 ^ 60)%Z with 1152921504606846976%Z. nra.
Qed.
Lemma cos_first2 : forall M, (2 <= M)%nat -> rnd64 (cos (@angle binary64 (rnd64 (2 * rnd64 PI)) M 0)) = 1.
Proof.
  intros M HM. destruct rnd64_pi as [Hp Hd]. set (p := rnd64 (2 * rnd64 PI)).
  assert (Hp8 : 0 <= p <= 8) by (apply rnd64_between; [apply rnd64_0|apply (rnd64_int 8); lia|lra]).
  assert (Hpp : Rabs (p - 2 * PI) <= / IZR (2 ^ 48)).
  { destruct rnd64_accurate as (_ & _ & Hr). specialize (Hr (2 * rnd64 PI)). fold p in Hr.
    rewrite (Rabs_pos_eq (2 * rnd64 PI)) in Hr by lra.
    assert (He : bpow radix2 (-1075) <= / IZR (2 ^ 60)).
    { change (/ IZR (2 ^ 60)) with (bpow radix2 (-60)). apply bpow_le. lia. }
    change (2 ^ 60)%Z with 1152921504606846976%Z in He. change (2 ^ 50)%Z with 1125899906842624%Z in Hd.
    change (2 ^ 48)%Z with 281474976710656%Z.
    assert (Hu : / 2 ^ 53 = / IZR 9007199254740992). { rewrite (pow_IZR 2 53). reflexivity. }
    rewrite Hu in Hr. apply Rabs_le_inv in Hr. apply Rabs_le_inv in Hd. apply Rabs_le. lra. }
  pose proof (angle_first p M HM Hp8) as Ha. set (y := @angle binary64 p M 0) in *.
  assert (Hy : Rabs (y + 2 * PI) <= / IZR (2 ^ 47)).
  { replace (y + 2 * PI) with ((y + p) + - (p - 2 * PI)) by ring. eapply Rle_trans; [apply Rabs_triang|]. rewrite Rabs_Ropp.
    eapply Rle_trans; [apply Rplus_le_compat; [exact Ha|exact Hpp]|].
    change (2 ^ 48)%Z with 281474976710656%Z. change (2 ^ 47)%Z with 140737488355328%Z. lra. }
  replace (cos y) with (cos (y + 2 * PI)) by (rewrite <- (cos_period y 1); f_equal; cbn; ring).
  apply rnd64_cos_one. split; [|apply COS_bound]. eapply Rle_trans; [|apply cos_near].
  apply Rabs_le_inv in Hy. change (2 ^ 47)%Z with 140737488355328%Z in Hy. change (2 ^ 60)%Z with 1152921504606846976%Z. nra.
Qed.

(** the first entries, with the cosine rounded correctly *)
Lemma hanning_first : forall M, (2 <= M)%nat -> @hanning_of binary64 (rnd64 PI) (fun y => rnd64 (cos y)) M 0 = 0.
Proof.
  intros M HM. unfold hanning_of. cbn [rnd binary64]. rewrite cos_first, r05 by exact HM.
  replace (0.5 * -1) with (Ropp 0.5) by lra. rewrite (rnd64_neg _ r05). replace (0.5 + Ropp 0.5) with 0 by lra. apply rnd64_0.
Qed.
Lemma blackman_first : forall M, (2 <= M)%nat -> @blackman_of binary64 (rnd64 PI) (fun y => rnd64 (cos y)) M 0 = - bpow radix2 (-56).
Proof.
  intros M HM. unfold blackman_of. cbn [rnd binary64]. rewrite cos_first, cos_first2, r05, Rmult_1_r, rnd64_idem by exact HM.
  replace (0.5 * -1) with (Ropp 0.5) by lra. rewrite (rnd64_neg _ r05).
  replace (rnd64 0.42 + Ropp 0.5) with (IZR (-5764607523034236) * bpow radix2 (-56)).
  2:{ rewrite r042. change (bpow radix2 (-54)) with (/ IZR 18014398509481984). change (bpow radix2 (-56)) with (/ IZR 72057594037927936). lra. }
  rewrite rnd64_id; [|reflexivity|lia]. rewrite r008.
  replace (IZR (-5764607523034236) * bpow radix2 (-56) + IZR 5764607523034235 * bpow radix2 (-56)) with (IZR (-1) * bpow radix2 (-56)).
  2:{ rewrite <- Rmult_plus_distr_r, <- plus_IZR. reflexivity. }
  rewrite rnd64_id; [|reflexivity|lia]. ring.
Qed.

(** ** constant columns *)
Lemma dots_constant : forall z l s, dots (fun _ => 1) l s -> (Z.of_nat (length l) * Z.abs z < 2 ^ 53)%Z ->
  @lin_run binary64 (fun _ => IZR z) s = IZR (Z.of_nat (length l) * z).
Proof.
  intros z l s H. induction H as [|i Hi|i|i l p H IH|i l p Hi H IH|l l' p q Hl Hl' H IH H' IH']; cbn [length lin_run rnd binary64]; intros Hz.
  - reflexivity.
  - f_equal. lia.
  - rewrite Rmult_1_l. rewrite rnd64_int by lia. f_equal. lia.
  - rewrite IH by lia. rewrite Rmult_1_l, <- plus_IZR, rnd64_int by lia. f_equal. lia.
  - lra.
  - rewrite app_length in *. rewrite IH, IH' by nia. rewrite <- plus_IZR, rnd64_int by nia. f_equal. lia.
Qed.
Lemma mean_constant : forall z n s, (0 < n)%nat -> dot_program (fun _ => 1) n s -> (Z.of_nat n * Z.abs z < 2 ^ 53)%Z ->
  @mean_of binary64 s n (fun _ => IZR z) = IZR z.
Proof.
  intros z n s Hn (l & Hl & H) Hz. apply Permutation_length in Hl. rewrite seq_length in Hl. subst n.
  unfold mean_of. rewrite (dots_constant z l s H Hz), mult_IZR, <- INR_IZR_INZ.
  assert (0 < INR (length l)) by (apply lt_0_INR; exact Hn).
  replace (INR (length l) * IZR z / INR (length l)) with (IZR z) by (field; lra). apply rnd64_int. nia.
Qed.
Lemma std_constant : forall z n s, (0 < n)%nat -> dot_program (fun _ => 1) n s -> (Z.of_nat n * Z.abs z < 2 ^ 53)%Z ->
  @std_of binary64 s n (fun _ => IZR z) = 0.
Proof.
  intros z n s Hn Hs Hz. unfold std_of. rewrite (mean_constant z n s Hn Hs Hz). cbv zeta. cbn [rnd binary64].
  rewrite (Rminus_diag_eq (IZR z) (IZR z) eq_refl), rnd64_0, Rmult_0_r, rnd64_0.
  rewrite (mean_constant 0 n s Hn Hs ltac:(lia)), sqrt_0. apply rnd64_0.
Qed.
Lemma mvn_constant_int : forall z n s i, (0 < n)%nat -> dot_program (fun _ => 1) n s -> (Z.of_nat n * Z.abs z < 2 ^ 53)%Z ->
  @mvn_of binary64 s n (fun _ => IZR z) i = NaN.
Proof.
  intros z n s i Hn Hs Hz. unfold mvn_of, centred. rewrite (std_constant z n s Hn Hs Hz), (mean_constant z n s Hn Hs Hz).
  cbn [rnd binary64]. rewrite (Rminus_diag_eq (IZR z) (IZR z) eq_refl), rnd64_0.
  cbn [fdiv]. destruct (Req_EM_T 0 0) as [_|H]; [|congruence].
  unfold finfmul. destruct (Req_EM_T 0 0) as [_|H]; [reflexivity|congruence].
Qed.

Lemma tie_even : forall n, Z.even n = false -> ZnearestE (IZR n + / 2) = (n + 1)%Z.
Proof.
  intros n Hn. unfold Znearest.
  assert (Hf : Zfloor (IZR n + / 2) = n) by (apply Zfloor_imp; rewrite plus_IZR; lra).
  rewrite Hf. rewrite Rcompare_Eq by ring. rewrite Hn. cbn [negb].
  apply Zceil_imp. rewrite minus_IZR, plus_IZR. lra.
Qed.
Lemma mean_tenth : @mean_of binary64 (sum_left 3) 3 (fun _ => rnd64 0.1) = IZR 7205759403792795 * bpow radix2 (-56).
Proof.
  unfold mean_of. cbn [sum_left lin_run rnd binary64]. rewrite r01.
  replace (IZR 7205759403792794 * bpow radix2 (-56) + IZR 7205759403792794 * bpow radix2 (-56)) with (IZR 7205759403792794 * bpow radix2 (-55)).
  2:{ change (-55)%Z with (1 + -56)%Z. rewrite bpow_plus. change (bpow radix2 1) with 2. ring. }
  rewrite rnd64_id; [|reflexivity|lia].
  rewrite (rnd64_scaled (IZR 7205759403792794 * bpow radix2 (-55) + IZR 7205759403792794 * bpow radix2 (-56)) 5404319552844596 (-54)); [|lia| |].
  - apply rnd64_near; [lia| |].
    + change (bpow radix2 (52 + -56)) with (/ 16). change (bpow radix2 (53 + -56)) with (/ 8).
      change (bpow radix2 (-54)) with (/ IZR 18014398509481984). rewrite Rabs_pos_eq; cbn [INR]; lra.
    + change (bpow radix2 (- -56)) with (IZR 72057594037927936). change (bpow radix2 (-54)) with (/ IZR 18014398509481984).
      cbn [INR]. apply Rabs_def1; lra.
  - change (bpow radix2 (52 + -54)) with (/ 4). change (bpow radix2 (53 + -54)) with (/ 2).
    change (bpow radix2 (-55)) with (/ IZR 36028797018963968). change (bpow radix2 (-56)) with (/ IZR 72057594037927936).
    rewrite Rabs_pos_eq; lra.
  - replace ((IZR 7205759403792794 * bpow radix2 (-55) + IZR 7205759403792794 * bpow radix2 (-56)) * bpow radix2 (- -54))
      with (IZR 5404319552844595 + / 2).
    + rewrite tie_even; reflexivity.
    + change (bpow radix2 (-55)) with (/ IZR 36028797018963968). change (bpow radix2 (-56)) with (/ IZR 72057594037927936).
      change (bpow radix2 (- -54)) with (IZR 18014398509481984). lra.
Qed.
Lemma mvn_tenth : forall i, @mvn_of binary64 (sum_left 3) 3 (fun _ => rnd64 0.1) i = Fin (-1).
Proof.
  intros i. unfold mvn_of, centred.
  assert (Hd : rnd64 (rnd64 0.1 - @mean_of binary64 (sum_left 3) 3 (fun _ => rnd64 0.1)) = - bpow radix2 (-56)).
  { rewrite mean_tenth, r01, <- Rmult_minus_distr_r, <- minus_IZR. change (7205759403792794 - 7205759403792795)%Z with (-1)%Z.
    rewrite rnd64_id; [|reflexivity|lia]. ring. }
  assert (Hs : @std_of binary64 (sum_left 3) 3 (fun _ => rnd64 0.1) = bpow radix2 (-56)).
  { unfold std_of. cbn [rnd binary64]. rewrite Hd. cbv zeta.
    replace (- bpow radix2 (-56) * - bpow radix2 (-56)) with (IZR 1 * bpow radix2 (-112)).
    2:{ change (-112)%Z with (-56 + -56)%Z. rewrite bpow_plus. ring. }
    rewrite rnd64_id; [|reflexivity|lia]. unfold mean_of. cbn [sum_left lin_run rnd binary64].
    rewrite <- Rmult_plus_distr_r, <- plus_IZR. change (1 + 1)%Z with 2%Z. rewrite rnd64_id; [|reflexivity|lia].
    rewrite <- Rmult_plus_distr_r, <- plus_IZR. change (2 + 1)%Z with 3%Z. rewrite rnd64_id; [|reflexivity|lia].
    replace (IZR 3 * bpow radix2 (-112) / INR 3) with (IZR 1 * bpow radix2 (-112)) by (cbn [INR]; lra).
    rewrite rnd64_id; [|reflexivity|lia].
    replace (IZR 1 * bpow radix2 (-112)) with (bpow radix2 (-56) * bpow radix2 (-56)).
    2:{ rewrite <- bpow_plus. change (-56 + -56)%Z with (-112)%Z. ring. }
    rewrite sqrt_square by apply bpow_ge_0. rewrite <- (Rmult_1_l (bpow radix2 (-56))). apply rnd64_id; [reflexivity|lia]. }
  cbn [rnd binary64]. rewrite Hd, Hs. cbn [fdiv]. pose proof (bpow_gt_0 radix2 (-56)) as Hp.
  destruct (Req_EM_T (bpow radix2 (-56)) 0) as [H|_]; [lra|]. f_equal. field. lra.
Qed.
