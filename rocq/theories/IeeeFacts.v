(** * IEEE binary64 evaluation agrees with the rounding model as long as nothing overflows *)
From Coq Require Import Reals ZArith List Bool Lia Lra Psatz.
From Flocq Require Import Core IEEE754.BinarySingleNaN.
From Verif Require Import Base Binary64 Rounded RoundedCeps SpecRounded RoundedFacts RoundedWindows RoundedBanksError SpecRoundedCeps SpecRoundedDominant RoundedLaws Ieee SpecIeee.
Local Open Scope R_scope.

(** ** single operations *)
Lemma fits_true : forall r, Rabs (rnd64 r) < bpow radix2 1024 -> Rlt_bool (Rabs (rnd64 r)) (bpow radix2 1024) = true.
Proof. intros. apply Rlt_bool_true. assumption. Qed.
Lemma add64_ok : forall a b, fin a -> fin b -> Rabs (rnd64 (val a + val b)) < bpow radix2 1024 ->
  fin (add64 a b) /\ val (add64 a b) = rnd64 (val a + val b).
Proof.
  intros a b Ha Hb H. pose proof (@Bplus_correct 53 1024 prec_ok emax_ok mode_NE a b Ha Hb) as K.
  change (round radix2 (SpecFloat.fexp 53 1024) (round_mode mode_NE) (B2R a + B2R b)) with (rnd64 (val a + val b)) in K.
  rewrite fits_true in K by exact H. destruct K as (K1 & K2 & _). split; assumption.
Qed.
Lemma sub64_ok : forall a b, fin a -> fin b -> Rabs (rnd64 (val a - val b)) < bpow radix2 1024 ->
  fin (sub64 a b) /\ val (sub64 a b) = rnd64 (val a - val b).
Proof.
  intros a b Ha Hb H. pose proof (@Bminus_correct 53 1024 prec_ok emax_ok mode_NE a b Ha Hb) as K.
  change (round radix2 (SpecFloat.fexp 53 1024) (round_mode mode_NE) (B2R a - B2R b)) with (rnd64 (val a - val b)) in K.
  rewrite fits_true in K by exact H. destruct K as (K1 & K2 & _). split; assumption.
Qed.
Lemma mul64_ok : forall a b, fin a -> fin b -> Rabs (rnd64 (val a * val b)) < bpow radix2 1024 ->
  fin (mul64 a b) /\ val (mul64 a b) = rnd64 (val a * val b).
Proof.
  intros a b Ha Hb H. pose proof (@Bmult_correct 53 1024 prec_ok emax_ok mode_NE a b) as K.
  change (round radix2 (SpecFloat.fexp 53 1024) (round_mode mode_NE) (B2R a * B2R b)) with (rnd64 (val a * val b)) in K.
  rewrite fits_true in K by exact H. destruct K as (K1 & K2 & _). unfold fin in *. rewrite Ha, Hb in K2. split; assumption.
Qed.
Lemma div64_ok : forall a b, fin a -> val b <> 0 -> Rabs (rnd64 (val a / val b)) < bpow radix2 1024 ->
  fin (div64 a b) /\ val (div64 a b) = rnd64 (val a / val b).
Proof.
  intros a b Ha Hb H. pose proof (@Bdiv_correct 53 1024 prec_ok emax_ok mode_NE a b Hb) as K.
  change (round radix2 (SpecFloat.fexp 53 1024) (round_mode mode_NE) (B2R a / B2R b)) with (rnd64 (val a / val b)) in K.
  rewrite fits_true in K by exact H. destruct K as (K1 & K2 & _). unfold fin in *. rewrite Ha in K2. split; assumption.
Qed.
Lemma fma64_ok : forall a b c, fin a -> fin b -> fin c -> Rabs (rnd64 (val a * val b + val c)) < bpow radix2 1024 ->
  fin (fma64 a b c) /\ val (fma64 a b c) = rnd64 (val a * val b + val c).
Proof.
  intros a b c Ha Hb Hc H. pose proof (@Bfma_correct 53 1024 prec_ok emax_ok mode_NE a b c Ha Hb Hc) as K. cbv zeta in K.
  change (round radix2 (SpecFloat.fexp 53 1024) (round_mode mode_NE) (B2R a * B2R b + B2R c)) with (rnd64 (val a * val b + val c)) in K.
  rewrite fits_true in K by exact H. destruct K as (K1 & K2 & _). split; assumption.
Qed.
Lemma of_Z_ok : forall m e, Rabs (rnd64 (IZR m * bpow radix2 e)) < bpow radix2 1024 -> fin (of_Z m e) /\ val (of_Z m e) = rnd64 (IZR m * bpow radix2 e).
Proof.
  intros m e H. pose proof (@binary_normalize_correct 53 1024 prec_ok emax_ok mode_NE m e false) as K. cbv zeta in K.
  change (round radix2 (SpecFloat.fexp 53 1024) (round_mode mode_NE) (F2R (Float radix2 m e))) with (rnd64 (IZR m * bpow radix2 e)) in K.
  rewrite fits_true in K by exact H. destruct K as (K1 & K2 & _). split; assumption.
Qed.
Lemma zero_ok : fin zero64 /\ val zero64 = 0.
Proof. split; reflexivity. Qed.

(** ** sizes *)
Definition u64 : R := / 2 ^ 53.
Lemma u64_pos : 0 < u64. Proof. unfold u64. lra. Qed.
Lemma rnd64_grow : forall a, Rabs (rnd64 a) <= (1 + u64) * Rabs a + 1.
Proof.
  intros a. destruct rnd64_accurate as (_ & _ & H). specialize (H a).
  assert (bpow radix2 (-1075) <= 1) by (change 1 with (bpow radix2 0); apply bpow_le; lia).
  replace (rnd64 a) with (a + (rnd64 a - a)) by ring. eapply Rle_trans; [apply Rabs_triang|]. unfold u64. lra.
Qed.
Lemma nodes_pos : forall p, (1 <= nodes p)%nat.
Proof. induction p; cbn; lia. Qed.
(** size of the result of a program whose inputs are at most Y *)
Lemma run_bound : forall n y Y p, 1 <= Y -> (forall i, (i < n)%nat -> Rabs (y i) <= Y) -> unit_consts p -> reads n (reals p) ->
  Rabs (@lin_run binary64 y (reals p)) <= (1 + u64) ^ nodes p * (INR (nodes p) * Y).
Proof.
  intros n y Y p HY Hy. pose proof u64_pos as Hu.
  assert (P : forall a b, (a <= b)%nat -> 1 <= (1 + u64) ^ a <= (1 + u64) ^ b).
  { intros a b Hab. split; [apply pow_R1_Rle; lra|apply Rle_pow; [lra|exact Hab]]. }
  assert (step : forall a b N (r : R), r <= INR a * Y * (1 + u64) ^ N + INR b * Y * (1 + u64) ^ N ->
    (1 + u64) * r + 1 <= (1 + u64) ^ S N * (INR (S (a + b)) * Y)).
  { intros a b N r Hr. rewrite S_INR, plus_INR. cbn [pow]. destruct (P 0%nat N ltac:(lia)) as [_ Q]. cbn [pow] in Q.
    assert ((1 + u64) * r <= (1 + u64) * (INR a * Y * (1 + u64) ^ N + INR b * Y * (1 + u64) ^ N)) by (apply Rmult_le_compat_l; lra).
    assert (G : forall s t, 1 <= s -> 1 <= t -> 1 <= s * t) by (intros s t Hs Ht; nra).
    assert (1 <= (1 + u64) * (1 + u64) ^ N * Y) by (repeat apply G; lra).
    lra. }
  assert (up : forall a N, (a <= N)%nat -> forall v, v <= (1 + u64) ^ a * (INR a * Y) -> v <= INR a * Y * (1 + u64) ^ N).
  { intros a N HaN v Hv. eapply Rle_trans; [exact Hv|]. rewrite Rmult_comm. apply Rmult_le_compat_l; [|apply P; exact HaN].
    apply Rmult_le_pos; [apply pos_INR|lra]. }
  induction p as [i| |p IHp q IHq|p IHp q IHq|c p IHp|c p IHp q IHq]; cbn [unit_consts reals reads lin_run nodes]; intros Hc Hr.
  - cbn [pow INR]. specialize (Hy i Hr). pose proof (Rabs_pos (y i)). assert (0 <= u64 * Y) by (apply Rmult_le_pos; lra). lra.
  - rewrite Rabs_R0. cbn [pow INR]. assert (0 <= u64 * Y) by (apply Rmult_le_pos; lra). lra.
  - destruct Hc as [C1 C2]. destruct Hr as [R1 R2]. specialize (IHp C1 R1). specialize (IHq C2 R2). cbn [rnd binary64].
    eapply Rle_trans; [apply rnd64_grow|]. apply step.
    eapply Rle_trans; [apply Rabs_triang|]. apply Rplus_le_compat; apply up; try assumption; lia.
  - destruct Hc as [C1 C2]. destruct Hr as [R1 R2]. specialize (IHp C1 R1). specialize (IHq C2 R2). cbn [rnd binary64].
    eapply Rle_trans; [apply rnd64_grow|]. apply step. unfold Rminus.
    eapply Rle_trans; [apply Rabs_triang|]. rewrite Rabs_Ropp. apply Rplus_le_compat; apply up; try assumption; lia.
  - destruct Hc as (_ & Hc & C1). specialize (IHp C1 Hr). cbn [rnd binary64]. eapply Rle_trans; [apply rnd64_grow|].
    pose proof (step (nodes p) 0%nat (nodes p)) as K. rewrite Nat.add_0_r in K. apply K. cbn [INR]. rewrite Rmult_0_l, Rmult_0_l, Rplus_0_r. apply up; [lia|].
    rewrite Rabs_mult. eapply Rle_trans; [|exact IHp]. rewrite <- (Rmult_1_l (Rabs (lin_run y (reals p)))) at 2. apply Rmult_le_compat_r; [apply Rabs_pos|exact Hc].
  - destruct Hc as (_ & Hc & C1 & C2). destruct Hr as [R1 R2]. specialize (IHp C1 R1). specialize (IHq C2 R2). cbn [rnd binary64].
    eapply Rle_trans; [apply rnd64_grow|]. apply step. eapply Rle_trans; [apply Rabs_triang|].
    apply Rplus_le_compat; apply up; try assumption; try lia.
    rewrite Rabs_mult. eapply Rle_trans; [|exact IHp]. rewrite <- (Rmult_1_l (Rabs (lin_run y (reals p)))) at 2. apply Rmult_le_compat_r; [apply Rabs_pos|exact Hc].
Qed.
Lemma pow_nodes : forall N, INR N <= 2 ^ 40 -> (1 + u64) ^ N <= 2.
Proof.
  intros N H. pose proof u64_pos as Hu. apply Rle_trans with (exp (INR N * u64)).
  - rewrite <- Rpower_pow by lra. unfold Rpower. destruct (Rle_or_lt (INR N * ln (1 + u64)) (INR N * u64)) as [[K|K]|K].
    + left. apply exp_increasing. exact K.
    + right. f_equal. exact K.
    + exfalso. apply (Rlt_not_le _ _ K). apply Rmult_le_compat_l; [apply pos_INR|].
      rewrite <- (ln_exp u64) at 2. apply Rcomplements.ln_le; [lra|apply exp_ineq1_le].
  - apply Rle_trans with (exp (ln 2)); [|rewrite exp_ln by lra; lra].
    destruct (Rlt_or_le (INR N * u64) (ln 2)) as [K|K]; [left; apply exp_increasing; exact K|].
    exfalso. pose proof ln_lt_2. assert (INR N * u64 <= 2 ^ 40 * u64) by (apply Rmult_le_compat_r; lra). unfold u64 in *. lra.
Qed.
Lemma b8 : forall k, 4 * (bpow radix2 k + bpow radix2 k) = bpow radix2 (3 + k).
Proof. intros k. rewrite bpow_plus. change (bpow radix2 3) with 8. ring. Qed.
Lemma b41 : bpow radix2 41 = 2 * 2 ^ 40.
Proof. cbn. lra. Qed.
Lemma program_bound : forall n y k p, (0 <= k)%Z -> (forall i, (i < n)%nat -> Rabs (y i) <= bpow radix2 k) -> program n p ->
  Rabs (@lin_run binary64 y (reals p)) <= bpow radix2 (41 + k).
Proof.
  intros n y k p Hk Hy (H1 & H2 & H3). assert (B : 1 <= bpow radix2 k) by (change 1 with (bpow radix2 0); apply bpow_le; exact Hk).
  eapply Rle_trans; [apply (run_bound n y (bpow radix2 k) p B Hy H1 H2)|]. pose proof (pow_nodes _ H3) as K.
  rewrite bpow_plus. rewrite b41, Rmult_assoc.
  assert (0 <= INR (nodes p) * bpow radix2 k) by (apply Rmult_le_pos; [apply pos_INR|lra]).
  pose proof u64_pos. apply Rmult_le_compat; [apply pow_le; lra|assumption|exact K|]. apply Rmult_le_compat_r; lra.
Qed.

(** ** programs *)
Lemma flin_run_val : forall n x y Y p, 1 <= Y -> (forall i, (i < n)%nat -> fin (x i) /\ val (x i) = y i) -> (forall i, (i < n)%nat -> Rabs (y i) <= Y) ->
  unit_consts p -> reads n (reals p) -> (1 + u64) ^ nodes p * (INR (nodes p) * Y) < bpow radix2 1024 ->
  fin (flin_run x p) /\ val (flin_run x p) = @lin_run binary64 y (reals p).
Proof.
  intros n x y Y p HY Hx Hy. pose proof u64_pos as Hu.
  assert (mono : forall a b, (a <= b)%nat -> (1 + u64) ^ b * (INR b * Y) < bpow radix2 1024 -> (1 + u64) ^ a * (INR a * Y) < bpow radix2 1024).
  { intros a b Hab. apply Rle_lt_trans. pose proof (pos_INR a). assert (0 <= INR a * Y) by (apply Rmult_le_pos; lra).
    apply Rmult_le_compat; [apply pow_le; lra|assumption|apply Rle_pow; [lra|exact Hab]|]. apply Rmult_le_compat_r; [lra|]. apply le_INR. exact Hab. }
  intros Hc Hr HB. pose proof (run_bound n y Y p HY Hy Hc Hr) as Hrb. assert (Hlt := Rle_lt_trans _ _ _ Hrb HB). clear Hrb.
  revert Hc Hr HB Hlt. induction p as [i| |p IHp q IHq|p IHp q IHq|c p IHp|c p IHp q IHq]; cbn [unit_consts reals reads lin_run flin_run nodes]; intros Hc Hr HB Hlt.
  - apply Hx. exact Hr.
  - apply zero_ok.
  - destruct Hc as [C1 C2]. destruct Hr as [R1 R2].
    assert (B1 := mono (nodes p) (S (nodes p + nodes q)) ltac:(lia) HB). assert (B2 := mono (nodes q) (S (nodes p + nodes q)) ltac:(lia) HB).
    destruct (IHp C1 R1 B1 (Rle_lt_trans _ _ _ (run_bound n y Y p HY Hy C1 R1) B1)) as [F1 V1].
    destruct (IHq C2 R2 B2 (Rle_lt_trans _ _ _ (run_bound n y Y q HY Hy C2 R2) B2)) as [F2 V2].
    cbn [rnd binary64] in *. rewrite <- V1, <- V2 in *. apply add64_ok; assumption.
  - destruct Hc as [C1 C2]. destruct Hr as [R1 R2].
    assert (B1 := mono (nodes p) (S (nodes p + nodes q)) ltac:(lia) HB). assert (B2 := mono (nodes q) (S (nodes p + nodes q)) ltac:(lia) HB).
    destruct (IHp C1 R1 B1 (Rle_lt_trans _ _ _ (run_bound n y Y p HY Hy C1 R1) B1)) as [F1 V1].
    destruct (IHq C2 R2 B2 (Rle_lt_trans _ _ _ (run_bound n y Y q HY Hy C2 R2) B2)) as [F2 V2].
    cbn [rnd binary64] in *. rewrite <- V1, <- V2 in *. apply sub64_ok; assumption.
  - destruct Hc as (Fc & Hc & C1). assert (B1 := mono (nodes p) (S (nodes p)) ltac:(lia) HB).
    destruct (IHp C1 Hr B1 (Rle_lt_trans _ _ _ (run_bound n y Y p HY Hy C1 Hr) B1)) as [F1 V1].
    cbn [rnd binary64] in *. rewrite <- V1 in *. apply mul64_ok; assumption.
  - destruct Hc as (Fc & Hc & C1 & C2). destruct Hr as [R1 R2].
    assert (B1 := mono (nodes p) (S (nodes p + nodes q)) ltac:(lia) HB). assert (B2 := mono (nodes q) (S (nodes p + nodes q)) ltac:(lia) HB).
    destruct (IHp C1 R1 B1 (Rle_lt_trans _ _ _ (run_bound n y Y p HY Hy C1 R1) B1)) as [F1 V1].
    destruct (IHq C2 R2 B2 (Rle_lt_trans _ _ _ (run_bound n y Y q HY Hy C2 R2) B2)) as [F2 V2].
    cbn [rnd binary64] in *. rewrite <- V1, <- V2 in *. apply fma64_ok; assumption.
Qed.
Lemma program_val : forall n x y k p, (0 <= k <= 982)%Z -> (forall i, (i < n)%nat -> fin (x i) /\ val (x i) = y i) ->
  (forall i, (i < n)%nat -> Rabs (y i) <= bpow radix2 k) -> program n p ->
  fin (flin_run x p) /\ val (flin_run x p) = @lin_run binary64 y (reals p).
Proof.
  intros n x y k p Hk Hx Hy (H1 & H2 & H3). assert (B : 1 <= bpow radix2 k) by (change 1 with (bpow radix2 0); apply bpow_le; lia).
  apply (flin_run_val n x y (bpow radix2 k) p B Hx Hy H1 H2). pose proof (pow_nodes _ H3) as K. pose proof u64_pos.
  assert (0 <= INR (nodes p) * bpow radix2 k) by (apply Rmult_le_pos; [apply pos_INR|lra]).
  apply Rle_lt_trans with (2 * (2 ^ 40 * bpow radix2 k)).
  - apply Rmult_le_compat; [apply pow_le; lra|assumption|exact K|]. apply Rmult_le_compat_r; lra.
  - replace (2 * (2 ^ 40 * bpow radix2 k)) with (bpow radix2 41 * bpow radix2 k) by (rewrite b41; ring). rewrite <- bpow_plus. apply bpow_lt. lia.
Qed.

(** ** the chain *)
Lemma rnd64_le_bpow : forall a k, (-1074 <= k)%Z -> Rabs a <= bpow radix2 k -> Rabs (rnd64 a) <= bpow radix2 k.
Proof.
  intros a k Hk Ha. apply Rabs_le_inv in Ha. apply Rabs_le. split.
  - rewrite <- (rnd64_bpow k Hk), <- rnd64_odd. apply rnd64_monotone. lra.
  - rewrite <- (rnd64_bpow k Hk). apply rnd64_monotone. lra.
Qed.
Lemma inverse_ok : forall nfft, (1 <= nfft)%nat -> (Z.of_nat nfft < 2 ^ 53)%Z ->
  let w := div64 (of_Z 1 0) (of_Z (Z.of_nat nfft) 0) in fin w /\ val w = rnd64 (1 / INR nfft) /\ 0 <= val w <= 1.
Proof.
  intros nfft H1 H2 w.
  assert (I : forall z, (Z.abs z < 2 ^ 53)%Z -> fin (of_Z z 0) /\ val (of_Z z 0) = IZR z).
  { intros z Hz. assert (E : rnd64 (IZR z * bpow radix2 0) = IZR z) by (cbn [bpow]; rewrite Rmult_1_r; apply rnd64_int; exact Hz).
    destruct (of_Z_ok z 0) as [A B].
    - rewrite E. rewrite <- abs_IZR. apply Rlt_trans with (IZR (2 ^ 53)); [apply IZR_lt; exact Hz|]. change (IZR (2 ^ 53)) with (bpow radix2 53). apply bpow_lt. lia.
    - split; [exact A|]. rewrite B. exact E. }
  destruct (I 1%Z ltac:(lia)) as [F1 V1]. destruct (I (Z.of_nat nfft) ltac:(lia)) as [F2 V2]. rewrite <- INR_IZR_INZ in V2.
  assert (N : 1 <= INR nfft) by (change 1 with (INR 1); apply le_INR; exact H1).
  assert (Q : 0 <= rnd64 (1 / INR nfft) <= 1).
  { split.
    - rewrite <- rnd64_0. apply rnd64_monotone. apply Rlt_le, Rdiv_lt_0_compat; lra.
    - rewrite <- rnd64_1 at 2. apply rnd64_monotone. apply (Rmult_le_reg_r (INR nfft)); [lra|]. unfold Rdiv. rewrite Rmult_assoc, Rinv_l; lra. }
  destruct (div64_ok (of_Z 1 0) (of_Z (Z.of_nat nfft) 0) F1) as [A B].
  - rewrite V2. lra.
  - rewrite V1, V2. rewrite Rabs_pos_eq by lra. apply Rle_lt_trans with 1; [lra|]. change 1 with (bpow radix2 0). apply bpow_lt. lia.
  - fold w in A, B. rewrite V1, V2 in B. split; [exact A|]. split; [exact B|]. rewrite B. exact Q.
Qed.

Section Chain.
  Variables (h : f64 -> f64 -> f64) (g : R -> R -> R) (re im bank : nat -> flin) (x : nat -> f64) (N bins nfft : nat).
  Hypothesis Himpl : implements2 h g.
  Hypothesis Hsane : hypot_sane g.
  Hypothesis Hn : (1 <= nfft)%nat.
  Hypothesis Hn2 : (Z.of_nat nfft < 2 ^ 53)%Z.
  Hypothesis Hx : forall i, (i < N)%nat -> fin (x i) /\ Rabs (val (x i)) <= bpow radix2 400.
  Hypothesis Hre : forall k, (k < bins)%nat -> program N (re k) /\ program N (im k).

  Let y (i : nat) : R := val (x i).
  Let rre (k : nat) : lin := reals (re k).
  Let rim (k : nat) : lin := reals (im k).

  Lemma magnitude_val : forall k, (k < bins)%nat ->
    fin (magnitude64 h re im x k) /\ val (magnitude64 h re im x k) = @bin_magnitude binary64 g rre rim y k /\
    0 <= @bin_magnitude binary64 g rre rim y k <= bpow radix2 444.
  Proof.
    intros k Hk. destruct (Hre k Hk) as [P1 P2].
    assert (Hy : forall i, (i < N)%nat -> fin (x i) /\ val (x i) = y i) by (intros i Hi; split; [apply Hx; exact Hi|reflexivity]).
    assert (Hb : forall i, (i < N)%nat -> Rabs (y i) <= bpow radix2 400) by (intros i Hi; apply Hx; exact Hi).
    destruct (program_val N x y 400 (re k) ltac:(lia) Hy Hb P1) as [F1 V1]. destruct (program_val N x y 400 (im k) ltac:(lia) Hy Hb P2) as [F2 V2].
    pose proof (program_bound N y 400 (re k) ltac:(lia) Hb P1) as B1. pose proof (program_bound N y 400 (im k) ltac:(lia) Hb P2) as B2.
    assert (G : 0 <= @bin_magnitude binary64 g rre rim y k <= bpow radix2 444).
    { unfold bin_magnitude, rre, rim. destruct (Hsane (@lin_run binary64 y (reals (re k))) (@lin_run binary64 y (reals (im k)))) as [A B]. split; [exact A|].
      eapply Rle_trans; [exact B|]. change (41 + 400)%Z with 441%Z in *. change 444%Z with (3 + 441)%Z. rewrite <- b8. lra. }
    assert (Q : Rabs (g (val (flin_run x (re k))) (val (flin_run x (im k)))) < bpow radix2 1024).
    { rewrite V1, V2. change (g _ _) with (@bin_magnitude binary64 g rre rim y k). rewrite Rabs_pos_eq by apply G. eapply Rle_lt_trans; [apply G|]. apply bpow_lt. lia. }
    destruct (Himpl _ _ F1 F2 Q) as [F3 V3]. split; [exact F3|]. split; [|exact G]. unfold magnitude64. rewrite V3, V1, V2. reflexivity.
  Qed.

  Lemma power_val : forall k, (k < bins)%nat ->
    fin (power64 nfft (magnitude64 h re im x) k) /\
    val (power64 nfft (magnitude64 h re im x) k) = @bin_power binary64 nfft (@bin_magnitude binary64 g rre rim y) k /\
    0 <= @bin_power binary64 nfft (@bin_magnitude binary64 g rre rim y) k <= bpow radix2 888.
  Proof.
    intros k Hk. destruct (magnitude_val k Hk) as (F1 & V1 & B1). destruct (inverse_ok nfft Hn Hn2) as (F2 & V2 & B2).
    unfold power64, bin_power. cbn [rnd binary64]. set (m := @bin_magnitude binary64 g rre rim y k) in *. set (mf := magnitude64 h re im x k) in *.
    set (w := div64 (of_Z 1 0) (of_Z (Z.of_nat nfft) 0)) in *.
    assert (M2 : 0 <= m * m <= bpow radix2 888).
    { split; [apply Rmult_le_pos; lra|]. change 888%Z with (444 + 444)%Z. rewrite bpow_plus. apply Rmult_le_compat; lra. }
    assert (M3 : Rabs (rnd64 (m * m)) <= bpow radix2 888) by (apply rnd64_le_bpow; [lia|]; rewrite Rabs_pos_eq; lra).
    assert (M4 : 0 <= rnd64 (m * m)) by (rewrite <- rnd64_0; apply rnd64_monotone; lra).
    destruct (mul64_ok mf mf F1 F1) as [F3 V3].
    { rewrite V1. eapply Rle_lt_trans; [exact M3|]. apply bpow_lt. lia. }
    rewrite V1 in V3.
    assert (M5 : 0 <= val w * rnd64 (m * m) <= bpow radix2 888).
    { rewrite Rabs_pos_eq in M3 by exact M4. split; [apply Rmult_le_pos; lra|]. rewrite <- (Rmult_1_l (bpow radix2 888)). apply Rmult_le_compat; lra. }
    assert (M6 : Rabs (rnd64 (val w * rnd64 (m * m))) <= bpow radix2 888) by (apply rnd64_le_bpow; [lia|]; rewrite Rabs_pos_eq; lra).
    assert (M7 : 0 <= rnd64 (val w * rnd64 (m * m))) by (rewrite <- rnd64_0; apply rnd64_monotone; lra).
    destruct (mul64_ok w (mul64 mf mf) F2 F3) as [F4 V4].
    { rewrite V3. eapply Rle_lt_trans; [exact M6|]. apply bpow_lt. lia. }
    rewrite <- V2. rewrite V3 in V4. split; [exact F4|]. split; [exact V4|]. rewrite Rabs_pos_eq in M6 by exact M7. split; assumption.
  Qed.

  Lemma band_val : forall j, program bins (bank j) ->
    fin (band64 nfft (magnitude64 h re im x) bank j) /\
    val (band64 nfft (magnitude64 h re im x) bank j) = @band_energy binary64 nfft (@bin_magnitude binary64 g rre rim y) (fun j => reals (bank j)) j /\
    Rabs (@band_energy binary64 nfft (@bin_magnitude binary64 g rre rim y) (fun j => reals (bank j)) j) <= bpow radix2 929.
  Proof.
    intros j Hp. unfold band64, band_energy.
    assert (A : forall i, (i < bins)%nat -> fin (power64 nfft (magnitude64 h re im x) i) /\
      val (power64 nfft (magnitude64 h re im x) i) = @bin_power binary64 nfft (@bin_magnitude binary64 g rre rim y) i).
    { intros i Hi. destruct (power_val i Hi) as (P1 & P2 & _). split; assumption. }
    assert (B : forall i, (i < bins)%nat -> Rabs (@bin_power binary64 nfft (@bin_magnitude binary64 g rre rim y) i) <= bpow radix2 888).
    { intros i Hi. destruct (power_val i Hi) as (_ & _ & P). rewrite Rabs_pos_eq by apply P. apply P. }
    destruct (program_val bins _ _ 888 (bank j) ltac:(lia) A B Hp) as [F V]. split; [exact F|]. split; [exact V|].
    exact (program_bound bins _ 888 (bank j) ltac:(lia) B Hp).
  Qed.

  Lemma band_nonneg : forall j, program bins (bank j) -> additive (reals (bank j)) ->
    0 <= @band_energy binary64 nfft (@bin_magnitude binary64 g rre rim y) (fun j => reals (bank j)) j.
  Proof.
    intros j (_ & Hr & _) Ha. unfold band_energy.
    assert (B : forall i, (i < bins)%nat -> 0 <= @bin_power binary64 nfft (@bin_magnitude binary64 g rre rim y) i) by (intros i Hi; apply power_val; exact Hi).
    set (pw := @bin_power binary64 nfft (@bin_magnitude binary64 g rre rim y)) in *. clearbody pw.
    assert (Z0 : forall v, 0 <= v -> 0 <= rnd64 v) by (intros v Hv; rewrite <- rnd64_0; apply rnd64_monotone; exact Hv).
    revert Hr Ha. generalize (reals (bank j)). intros p.
    induction p as [i| |p IHp q IHq|p IHp q IHq|c p IHp|c p IHp q IHq]; cbn [reads additive lin_run rnd binary64]; intros Hr Ha.
    - apply B. exact Hr.
    - lra.
    - destruct Hr as [R1 R2]. destruct Ha as [A1 A2]. apply Z0. pose proof (IHp R1 A1). pose proof (IHq R2 A2). lra.
    - contradiction.
    - destruct Ha as [A0 A1]. apply Z0. apply Rmult_le_pos; auto.
    - destruct Hr as [R1 R2]. destruct Ha as (A0 & A1 & A2). apply Z0. pose proof (IHq R2 A2). pose proof (Rmult_le_pos _ _ A0 (IHp R1 A1)). lra.
  Qed.
End Chain.
