(** * Properties of normalisation in floating point *)
From Coq Require Import Reals ZArith List String Bool Lia Lra.
From Verif Require Import Base BaseFacts SpecBase SpecMat MatFacts BigSum Preprocessing Cepstral CepstralFacts Features Extractors Binary64
  Rounded SpecRounded RoundedFacts RoundedLaws SpecOptions RoundedNormal SpecRoundedNormal RoundedNormalFacts.
Import ListNotations.
Local Open Scope R_scope.
Local Open Scope string_scope.

(** ** C165: normalisation in floating point stays close to normalisation of the exact features *)
(** x is the matrix that exact arithmetic gives, z the one the program has, off by at most d and bounded
    by M.  The sums are taken in any order. *)
Theorem C165_ms : forall (E : Env) u, accurate u 0 (@rnd E) -> forall r c x z d M, (0 < r)%nat -> (0 < c)%nat ->
  close r c d x z -> bounded r c M z -> forall sc, sums r sc ->
  exists y, normalize_ceps (fmat r c x) "ms" = Ok (fmat r c y) /\
  forall i j, (i < r)%nat -> (j < c)%nat -> Rabs (@ms_float E sc r z i j - y i j) <= 2 * d + dev_error u r M.
Proof. exact ms_float_error. Qed.
Print Assumptions C165_ms.

Theorem C165_mvn : forall (E : Env) u, accurate u 0 (@rnd E) -> u <= 1 -> forall r c x z d M, (0 < r)%nat -> (0 < c)%nat ->
  close r c d x z -> bounded r c M z -> forall sc sa, sums r sc -> sums (r * c) sa ->
  let s := spec_std r c x in let q := std_error u (r * c) M d s in q < s ->
  exists y, normalize_ceps (fmat r c x) "mvn" = Ok (fmat r c y) /\
  forall i j, (i < r)%nat -> (j < c)%nat ->
    Rabs (@mvn_float E sc sa r c z i j - y i j) <= quotient_error u (2 * d + dev_error u r M) q s (y i j).
Proof. exact mvn_float_error. Qed.
Print Assumptions C165_mvn.

Theorem C165_vn : forall (E : Env) u, accurate u 0 (@rnd E) -> u <= 1 -> forall r c x z d M, (0 < r)%nat -> (0 < c)%nat ->
  close r c d x z -> bounded r c M z -> forall sa, sums (r * c) sa ->
  let s := spec_std r c x in let q := std_error u (r * c) M d s in q < s ->
  exists y, normalize_ceps (fmat r c x) "vn" = Ok (fmat r c y) /\
  forall i j, (i < r)%nat -> (j < c)%nat -> Rabs (@vn_float E sa r c z i j - y i j) <= quotient_error u d q s (y i j).
Proof. exact vn_float_error. Qed.
Print Assumptions C165_vn.

(** mx' and mn' are the largest and smallest entry of z, which the program finds without rounding *)
Theorem C165_mn : forall (E : Env) u, accurate u 0 (@rnd E) -> forall r c x z d M, (0 < r)%nat -> (0 < c)%nat ->
  close r c d x z -> bounded r c M z -> forall sa mx mn mx' mn', sums (r * c) sa ->
  extremes r c x mx mn -> extremes r c z mx' mn' ->
  let g := mx - mn in let q := (1 + u) * (2 * d) + u * g in q < g ->
  exists y, normalize_ceps (fmat r c x) "mn" = Ok (fmat r c y) /\
  forall i j, (i < r)%nat -> (j < c)%nat ->
    Rabs (@mn_float E sa r c z mx' mn' i j - y i j) <= quotient_error u (2 * d + dev_error u (r * c) M) q g (y i j).
Proof. exact mn_float_error. Qed.
Print Assumptions C165_mn.

(** On top of an extractor: z are the features the program has before normalisation, for instance those
    that C154 and C161 bound. *)
Theorem C165_features_ms : forall (E : Env) u, accurate u 0 (@rnd E) -> forall e sig a c r k x z d M sc,
  c_lifter c = None -> c_normalize c = Some "ms" ->
  @run exact_env e sig a (plain_options c) = Ok (fmat r k x) -> (0 < r)%nat -> (0 < k)%nat ->
  close r k d x z -> bounded r k M z -> sums r sc ->
  exists y, @run exact_env e sig a c = Ok (fmat r k y) /\
  forall i j, (i < r)%nat -> (j < k)%nat -> Rabs (@ms_float E sc r z i j - y i j) <= 2 * d + dev_error u r M.
Proof. exact run_ms_float. Qed.
Print Assumptions C165_features_ms.

Theorem C165_features_mvn : forall (E : Env) u, accurate u 0 (@rnd E) -> u <= 1 -> forall e sig a c r k x z d M sc sa,
  c_lifter c = None -> c_normalize c = Some "mvn" ->
  @run exact_env e sig a (plain_options c) = Ok (fmat r k x) -> (0 < r)%nat -> (0 < k)%nat ->
  close r k d x z -> bounded r k M z -> sums r sc -> sums (r * k) sa ->
  let s := spec_std r k x in let q := std_error u (r * k) M d s in q < s ->
  exists y, @run exact_env e sig a c = Ok (fmat r k y) /\
  forall i j, (i < r)%nat -> (j < k)%nat ->
    Rabs (@mvn_float E sc sa r k z i j - y i j) <= quotient_error u (2 * d + dev_error u r M) q s (y i j).
Proof. exact run_mvn_float. Qed.
Print Assumptions C165_features_mvn.

(** Without rounding these are the entries that normalize_ceps returns. *)
Theorem C165_model : forall r c x, (0 < r)%nat -> (0 < c)%nat -> forall sc sa, sums r sc -> sums (r * c) sa ->
  normalize_ceps (fmat r c x) "ms" = Ok (fmat r c (@ms_float exact_env sc r x)) /\
  (0 < spec_std r c x ->
    normalize_ceps (fmat r c x) "mvn" = Ok (fmat r c (@mvn_float exact_env sc sa r c x)) /\
    normalize_ceps (fmat r c x) "vn" = Ok (fmat r c (@vn_float exact_env sa r c x))) /\
  (forall mx mn, extremes r c x mx mn -> mn < mx ->
    normalize_ceps (fmat r c x) "mn" = Ok (fmat r c (@mn_float exact_env sa r c x mx mn))).
Proof.
  intros r c x Hr Hc sc sa Hs Ha. split; [|split].
  - apply ms_float_exact; assumption.
  - intros Hp. split; [apply mvn_float_exact|apply vn_float_exact]; assumption.
  - intros mx mn He Hp. apply mn_float_exact; assumption.
Qed.
Print Assumptions C165_model.

(** 53-bit arithmetic on [[1, 1], [3, 3]], known up to 1 in 10^12: "mvn" gives -1 and 1, "mn" -1/2 and 1/2, up to
    1 in 10^11, whatever the order of the sums *)
Example C165_example : forall z sc sa mx' mn', let x (i j : nat) := 1 + 2 * INR i in
  close 2 2 (/ 10 ^ 12) x z -> sums 2 sc -> sums 4 sa -> extremes 2 2 z mx' mn' ->
  forall i j, (i < 2)%nat -> (j < 2)%nat ->
    Rabs (@ms_float binary53 sc 2 z i j - (2 * INR i - 1)) <= / 10 ^ 11 /\
    Rabs (@mvn_float binary53 sc sa 2 2 z i j - (2 * INR i - 1)) <= / 10 ^ 11 /\
    Rabs (@vn_float binary53 sa 2 2 z i j - x i j) <= / 10 ^ 11 /\
    Rabs (@mn_float binary53 sa 2 2 z mx' mn' i j - (INR i - 1 / 2)) <= / 10 ^ 11.
Proof.
  intros z sc sa mx' mn' x Hz Hsc Hsa He i j Hi Hj.
  assert (Mn : spec_mean 2 2 x = 2) by (unfold spec_mean, x; cbn; lra).
  assert (Sd : spec_std 2 2 x = 1).
  { unfold spec_std. rewrite Mn. rewrite <- sqrt_1. f_equal. unfold spec_mean, x. cbn. lra. }
  assert (HM : bounded 2 2 4 z).
  { intros a b Ha Hb. specialize (Hz a b Ha Hb). replace (z a b) with (z a b - x a b + x a b) by ring.
    eapply Rle_trans; [apply Rabs_triang|]. assert (Rabs (x a b) <= 3); [|lra].
    unfold x. destruct a as [|[|]]; try lia; cbn [INR]; apply Rabs_le; lra. }
  assert (D2 : dev_error (/ 2 ^ 53) 2 4 <= / 10 ^ 14) by (unfold dev_error; cbn [Nat.add]; lra).
  assert (D4 : dev_error (/ 2 ^ 53) 4 4 <= / 10 ^ 14) by (unfold dev_error; cbn [Nat.add]; lra).
  assert (Q : 0 <= std_error (/ 2 ^ 53) 4 4 (/ 10 ^ 12) 1 <= 1.1 / 10 ^ 12) by (unfold std_error, dev_error; cbn [Nat.add]; lra).
  assert (Qe : forall p q s y, 0 <= p <= 2.1 / 10 ^ 12 -> 0 <= q <= 2.1 / 10 ^ 12 -> 1 <= s <= 2 -> Rabs y <= 3 ->
    quotient_error (/ 2 ^ 53) p q s y <= / 10 ^ 11).
  { intros p q s y Hp Hq Hs Hy. unfold quotient_error. pose proof (Rabs_pos y) as Py.
    assert (q * Rabs y <= 2.1 / 10 ^ 12 * 3) by (apply Rmult_le_compat; lra).
    assert ((p + q * Rabs y) / (s - q) <= 8.5 / 10 ^ 12).
    { apply (Rmult_le_reg_r (s - q)); [lra|]. unfold Rdiv at 1. rewrite Rmult_assoc, Rinv_l, Rmult_1_r by lra.
      apply Rle_trans with (8.5 / 10 ^ 12 * (1 - 2.1 / 10 ^ 12)); [lra|]. apply Rmult_le_compat_l; lra. }
    lra. }
  assert (Ex : extremes 2 2 x 3 1).
  { split; [|split].
    - exists 1%nat, 0%nat. split; [lia|]. split; [lia|]. unfold x. cbn. lra.
    - exists 0%nat, 0%nat. split; [lia|]. split; [lia|]. unfold x. cbn. lra.
    - intros a b Ha _. unfold x. destruct a as [|[|]]; try lia; cbn; lra. }
  assert (Dp : forall n, 0 <= dev_error (/ 2 ^ 53) n 4).
  { intros n. unfold dev_error. pose proof (pow_u_ge1 (/ 2 ^ 53) (n + 2) ltac:(lra)). apply Rmult_le_pos; lra. }
  pose proof (Dp 2%nat) as P2. pose proof (Dp 4%nat) as P4.
  assert (Ai : Rabs (2 * INR i - 1) <= 1) by (destruct i as [|[|]]; try lia; cbn [INR]; apply Rabs_le; lra).
  split; [|split; [|split]].
  - destruct (C165_ms binary53 (/ 2 ^ 53) rnd53_accurate 2 2 x z (/ 10 ^ 12) 4 ltac:(lia) ltac:(lia) Hz HM sc Hsc) as (y & A & B).
    rewrite norm_ms in A by lia. apply Ok_inj in A. pose proof (fmat_inj _ _ _ _ A i j Hi Hj) as V. cbv beta in V.
    specialize (B i j Hi Hj). rewrite <- V in B. replace (2 * INR i - 1) with (x i j - cmean 2 x j); [lra|].
    unfold cmean, x. cbn [bigsum INR]. lra.
  - destruct (C165_mvn binary53 (/ 2 ^ 53) rnd53_accurate ltac:(lra) 2 2 x z (/ 10 ^ 12) 4 ltac:(lia) ltac:(lia) Hz HM sc sa Hsc Hsa) as (y & A & B).
    { rewrite Sd. cbn [Nat.mul Nat.add]. lra. }
    rewrite norm_mvn in A by (try lia; lra). apply Ok_inj in A. pose proof (fmat_inj _ _ _ _ A i j Hi Hj) as V. cbv beta in V.
    rewrite Sd in V. replace ((x i j - cmean 2 x j) / 1) with (2 * INR i - 1) in V by (unfold cmean, x; cbn [bigsum INR]; lra).
    specialize (B i j Hi Hj). rewrite <- V, Sd in B. cbn [Nat.mul Nat.add] in B. eapply Rle_trans; [exact B|]. apply Qe; lra.
  - destruct (C165_vn binary53 (/ 2 ^ 53) rnd53_accurate ltac:(lra) 2 2 x z (/ 10 ^ 12) 4 ltac:(lia) ltac:(lia) Hz HM sa Hsa) as (y & A & B).
    { rewrite Sd. cbn [Nat.mul Nat.add]. lra. }
    rewrite norm_vn in A by (try lia; lra). apply Ok_inj in A. pose proof (fmat_inj _ _ _ _ A i j Hi Hj) as V. cbv beta in V.
    rewrite Sd in V. replace (x i j / 1) with (x i j) in V by lra.
    specialize (B i j Hi Hj). rewrite <- V, Sd in B. cbn [Nat.mul Nat.add] in B. eapply Rle_trans; [exact B|]. apply Qe; try lra.
    unfold x. destruct i as [|[|]]; try lia; cbn [INR]; apply Rabs_le; lra.
  - destruct (C165_mn binary53 (/ 2 ^ 53) rnd53_accurate 2 2 x z (/ 10 ^ 12) 4 ltac:(lia) ltac:(lia) Hz HM sa 3 1 mx' mn' Hsa Ex He) as (y & A & B).
    { lra. }
    assert (K : normalize_ceps (fmat 2 2 x) "mn" = Ok (fmat 2 2 (fun i _ => INR i - 1 / 2))).
    { assert (N : non_constant 2 2 x) by (exists 1%nat, 0%nat, 0%nat, 0%nat; repeat split; try lia; unfold x; cbn; lra).
      destruct (norm_mn 2 2 x ltac:(lia) ltac:(lia) N) as (i1 & j1 & i2 & j2 & I1 & J1 & I2 & J2 & _ & L & ->).
      f_equal. apply fmat_ext. intros a b Ha Hb. rewrite Mn. unfold x in *.
      destruct i1 as [|[|]]; try lia; destruct i2 as [|[|]]; try lia; cbn [INR] in *; lra. }
    rewrite K in A. apply Ok_inj in A. pose proof (fmat_inj _ _ _ _ A i j Hi Hj) as V. cbv beta in V.
    specialize (B i j Hi Hj). rewrite <- V in B. cbn [Nat.mul Nat.add] in B. eapply Rle_trans; [exact B|]. apply Qe; try lra.
    destruct i as [|[|]]; try lia; cbn [INR]; apply Rabs_le; lra.
Qed.
