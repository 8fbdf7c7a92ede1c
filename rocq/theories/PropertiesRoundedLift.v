(** * Properties of liftering and deltas in floating point *)
From Coq Require Import Reals ZArith List String Bool Lia Lra.
From Flocq Require Import Core.
From Coquelicot Require Rcomplements.
From Verif Require Import Base BaseFacts SpecBase SpecMat MatFacts SpecFilters BigSum Preprocessing Cepstral CepstralFacts Features Extractors FeaturesFacts FeaturesMore FeaturesLaws ExampleFeatures Binary64
  Rounded SpecRounded RoundedFacts RoundedLaws SpecOptions RoundedNormal SpecRoundedNormal RoundedNormalFacts RoundedLift SpecRoundedLift RoundedLiftFacts.
Import ListNotations.
Local Open Scope R_scope.
Local Open Scope string_scope.

(** ** C167: liftering and deltas in floating point stay close to those of the exact features *)
(** x is the matrix that exact arithmetic gives, z the one the program has, off by at most d and bounded
    by M.  The weights w are stored with the relative error v. *)
Theorem C167_lifter : forall (E : Env) u, accurate u 0 (@rnd E) -> forall r c x z d M, (0 < r)%nat -> (0 < c)%nat ->
  close r c d x z -> bounded r c M z -> forall l v w p, 0 < l <= 10 -> weights_within v l c w -> diagonal_programs w c p ->
  exists y, lifter_ceps (fmat r c x) l = Ok (fmat r c y) /\
  forall i j, (i < r)%nat -> (j < c)%nat -> Rabs (@lift_float E p z i j - y i j) <= spec_lift l j * lift_error u v c M d.
Proof. exact lift_float_error. Qed.
Print Assumptions C167_lifter.

(** a negative lifter: weights 1 + L/2 sin(pi n / L) *)
Theorem C167_sine_lifter : forall (E : Env) u, accurate u 0 (@rnd E) -> forall r c x z d M, (0 < r)%nat ->
  close r c d x z -> bounded r c M z -> forall l v sinf, l <= -1 -> sin_within v sinf ->
  let L := IZR (Ztrunc (- l)) in
  exists y, lifter_ceps (fmat r c x) l = Ok (fmat r c y) /\
  forall i j, (i < r)%nat -> (j < c)%nat ->
    Rabs (@sine_float E sinf L z i j - y i j)
    <= ((1 + u) * sine_error u v L j + u * (1 + L / 2)) * M + d * (1 + L / 2).
Proof. exact sine_float_error. Qed.
Print Assumptions C167_sine_lifter.

(** deltas over 2h+1 neighbours, multiplied and added up in any order *)
Theorem C167_deltas : forall (E : Env) u, accurate u 0 (@rnd E) -> forall r c x z d M, (0 < r)%nat -> (0 < c)%nat ->
  close r c d x z -> bounded r c M z -> forall h w p, (w / 2 = Z.of_nat h)%Z -> window_program h p ->
  exists y, deltas (fmat r c x) w = Ok (fmat r c y) /\
  forall i t, (i < r)%nat -> (t < c)%nat ->
    Rabs (@delta_float E p c h z i t - y i t) <= INR h * (INR h + 1) * (((1 + u) ^ (2 * h + 1) - 1) * M + d).
Proof. exact delta_float_error. Qed.
Print Assumptions C167_deltas.

(** Without rounding these are the entries that lifter_ceps and deltas return. *)
Theorem C167_model : forall r c x, (0 < r)%nat -> (0 < c)%nat ->
  (forall l p, 0 < l <= 10 -> diagonal_programs (spec_lift l) c p -> lifter_ceps (fmat r c x) l = Ok (fmat r c (@lift_float exact_env p x))) /\
  (forall l, l <= -1 -> lifter_ceps (fmat r c x) l = Ok (fmat r c (@sine_float exact_env sin (IZR (Ztrunc (- l))) x))) /\
  (forall h w p, (w / 2 = Z.of_nat h)%Z -> window_program h p -> deltas (fmat r c x) w = Ok (fmat r c (@delta_float exact_env p c h x))).
Proof.
  intros r c x Hr Hc. split; [|split].
  - intros l p Hl Hp. apply lift_float_exact; assumption.
  - intros l Hl. apply sine_float_exact; assumption.
  - intros h w p Hw Hp. apply delta_float_exact; assumption.
Qed.
Print Assumptions C167_model.

(** On top of an extractor, with a lifter and a normalisation: z are the features the program has before
    both, for instance those that C154, C161 and C166 bound. *)
Theorem C167_features_ms : forall (E : Env) u, accurate u 0 (@rnd E) -> forall e sig a c r k x z d M l v w p sc,
  c_lifter c = Some l -> 0 < l <= 10 -> c_normalize c = Some "ms" ->
  @run exact_env e sig a (plain_options c) = Ok (fmat r k x) -> (0 < r)%nat -> (0 < k)%nat ->
  close r k d x z -> bounded r k M z -> weights_within v l k w -> diagonal_programs w k p -> sums r sc ->
  let t := spec_lift l (k - 1) in
  exists y, @run exact_env e sig a c = Ok (fmat r k y) /\
  forall i j, (i < r)%nat -> (j < k)%nat ->
    Rabs (@ms_float E sc r (@lift_float E p z) i j - y i j)
    <= 2 * (t * lift_error u v k M d) + dev_error u r (t * ((1 + u) ^ k * (1 + v) * M)).
Proof. exact run_lift_ms. Qed.
Print Assumptions C167_features_ms.

Theorem C167_features_mvn : forall (E : Env) u, accurate u 0 (@rnd E) -> u <= 1 -> forall e sig a c r k x z d M l v w p sc sa,
  c_lifter c = Some l -> 0 < l <= 10 -> c_normalize c = Some "mvn" ->
  @run exact_env e sig a (plain_options c) = Ok (fmat r k x) -> (0 < r)%nat -> (0 < k)%nat ->
  close r k d x z -> bounded r k M z -> weights_within v l k w -> diagonal_programs w k p -> sums r sc -> sums (r * k) sa ->
  let t := spec_lift l (k - 1) in let d' := t * lift_error u v k M d in let M' := t * ((1 + u) ^ k * (1 + v) * M) in
  let s := spec_std r k (fun i j => x i j * spec_lift l j) in let q := std_error u (r * k) M' d' s in q < s ->
  exists y, @run exact_env e sig a c = Ok (fmat r k y) /\
  forall i j, (i < r)%nat -> (j < k)%nat ->
    Rabs (@mvn_float E sc sa r k (@lift_float E p z) i j - y i j) <= quotient_error u (2 * d' + dev_error u r M') q s (y i j).
Proof. exact run_lift_mvn. Qed.
Print Assumptions C167_features_mvn.

(** *** 53-bit arithmetic on [[1, 1], [3, 3]], known up to 1 in 10^12 *)
Lemma diagonal_left : forall w c, diagonal_programs w c (fun j => dot_left (fun k => if Nat.eqb k j then w j else 0) c).
Proof. intros w c j _. apply dot_left_program. Qed.
(** lifter 2: weights 1 and 1 *)
Example C167_lifter_example : forall z, let x (i j : nat) := 1 + 2 * INR i in close 2 2 (/ 10 ^ 12) x z -> bounded 2 2 4 z ->
  forall i j, (i < 2)%nat -> (j < 2)%nat ->
  Rabs (@lift_float binary53 (fun j => dot_left (fun k => if Nat.eqb k j then 1 else 0) 2) z i j - x i j) <= / 10 ^ 11.
Proof.
  intros z x Hz HM i j Hi Hj.
  assert (W : forall k, (k < 2)%nat -> spec_lift 2 k = 1).
  { intros [|[|k]] Hk; try lia; unfold spec_lift; cbn [Nat.eqb]; [reflexivity|]. unfold Rpower. change (INR 1) with 1. rewrite ln_1, Rmult_0_r, exp_0. reflexivity. }
  destruct (C167_lifter binary53 (/ 2 ^ 53) rnd53_accurate 2 2 x z (/ 10 ^ 12) 4 ltac:(lia) ltac:(lia) Hz HM 2 0 (fun _ => 1)
    (fun j => dot_left (fun k => if Nat.eqb k j then 1 else 0) 2)) as (y & Hy & H).
  - lra.
  - split; [lra|]. intros k Hk. rewrite W by exact Hk. rewrite Rminus_diag_eq, Rabs_R0 by reflexivity. lra.
  - apply (diagonal_left (fun _ => 1)).
  - rewrite lifter_pos in Hy by (try lia; lra). apply Ok_inj in Hy. pose proof (fmat_inj _ _ _ _ Hy i j Hi Hj) as V. cbv beta in V.
    change (liftR 2 j) with (spec_lift 2 j) in V. rewrite (W j Hj), Rmult_1_r in V.
    specialize (H i j Hi Hj). rewrite <- V, (W j Hj) in H. eapply Rle_trans; [exact H|]. unfold lift_error. lra.
Qed.
(** lifter -2: weights 1 + sin(pi/2) = 2 and 1 + sin(pi) = 1 *)
Example C167_sine_example : forall z, let x (i j : nat) := 1 + 2 * INR i in close 2 2 (/ 10 ^ 12) x z -> bounded 2 2 4 z ->
  forall i j, (i < 2)%nat -> (j < 2)%nat ->
  Rabs (@sine_float binary53 (fun t => rnd53 (sin t)) 2 z i j - x i j * (2 - INR j)) <= / 10 ^ 11.
Proof.
  intros z x Hz HM i j Hi Hj.
  assert (T : IZR (Ztrunc (- -2)) = 2) by (replace (- -2) with (IZR 2) by lra; rewrite Ztrunc_IZR; reflexivity).
  destruct (C167_sine_lifter binary53 (/ 2 ^ 53) rnd53_accurate 2 2 x z (/ 10 ^ 12) 4 ltac:(lia) Hz HM (-2) (/ 2 ^ 53) (fun t => rnd53 (sin t)))
    as (y & Hy & H).
  - lra.
  - split; [lra|]. intros t. destruct rnd53_accurate as (_ & _ & A). specialize (A (sin t)). cbn [rnd binary53] in A.
    assert (Rabs (sin t) <= 1) by (pose proof (SIN_bound t); apply Rabs_le; lra). lra.
  - cbv zeta in H. rewrite T in H. rewrite lifter_neg in Hy by (try lia; lra). apply Ok_inj in Hy. pose proof (fmat_inj _ _ _ _ Hy i j Hi Hj) as V.
    cbv beta in V. rewrite T in V. specialize (H i j Hi Hj). rewrite <- V in H.
    assert (S : sinR 2 j = 2 - INR j).
    { unfold sinR. destruct j as [|[|j]]; try lia; cbn [Nat.add].
      - replace (PI * INR 1 / 2) with (PI / 2) by (cbn [INR]; field). rewrite sin_PI2. cbn [INR]. lra.
      - replace (PI * INR 2 / 2) with PI by (cbn [INR]; field). rewrite sin_PI. cbn [INR]. lra. }
    rewrite S in H. eapply Rle_trans; [exact H|]. unfold sine_error.
    assert (P : 0 <= PI * INR (j + 1) / 2 <= 4).
    { pose proof PI_RGT_0. pose proof PI_4. destruct j as [|[|j]]; try lia; cbn [Nat.add INR]; lra. }
    set (t := PI * INR (j + 1) / 2) in *. clearbody t. lra.
Qed.
(** deltas with w = 3 of [[1, 2, 4]]: [[1, 3, 2]] *)
Example C167_deltas_example : forall z p, let x (i j : nat) := nth j [1; 2; 4] 0 in close 1 3 (/ 10 ^ 12) x z -> bounded 1 3 5 z -> window_program 1 p ->
  forall t, (t < 3)%nat -> Rabs (@delta_float binary53 p 3 1 z 0 t - nth t [1; 3; 2] 0) <= / 10 ^ 11.
Proof.
  intros z p x Hz HM Hp t Ht.
  destruct (C167_deltas binary53 (/ 2 ^ 53) rnd53_accurate 1 3 x z (/ 10 ^ 12) 5 ltac:(lia) ltac:(lia) Hz HM 1 3 p eq_refl Hp) as (y & Hy & H).
  rewrite (deltas_fmat 1 3 x 1 3 ltac:(lia) ltac:(lia) eq_refl) in Hy. apply Ok_inj in Hy.
  pose proof (fmat_inj _ _ _ _ Hy 0%nat t ltac:(lia) Ht) as V. cbv beta in V. specialize (H 0%nat t ltac:(lia) Ht). rewrite <- V in H.
  replace (bigsum (2 * 1 + 1) (fun m => (INR m - INR 1) * x 0%nat (clampidx 3 t m 1))) with (nth t [1; 3; 2] 0) in H.
  - eapply Rle_trans; [exact H|]. cbn [Nat.mul Nat.add INR]. lra.
  - unfold x. destruct t as [|[|[|t]]]; try lia; cbn; lra.
Qed.
(** the rows (1, 1), (3, 3) with the sine lifter 2: column 1 has the weight 1 + sin pi = 1 *)
Example C167_model_example : let x (i j : nat) := 1 + 2 * INR i in
  lifter_ceps (fmat 2 2 x) (- 2) = Ok (fmat 2 2 (@sine_float exact_env sin 2 x)) /\ @sine_float exact_env sin 2 x 1 0 = 6 /\ @sine_float exact_env sin 2 x 1 1 = 3.
Proof.
  intros x. split.
  - destruct (C167_model 2 2 x ltac:(lia) ltac:(lia)) as (_ & H & _). rewrite (H (- 2) ltac:(lra)). do 2 f_equal.
    replace (- - 2) with (IZR 2) by lra. rewrite Ztrunc_IZR. reflexivity.
  - unfold sine_float, sine_weight, x. cbn [rnd exact_env Nat.add INR]. unfold id. split.
    + replace (PI * 1 / 2) with (PI / 2) by lra. rewrite sin_PI2. lra.
    + replace (PI * (1 + 1) / 2) with PI by lra. rewrite sin_PI. lra.
Qed.
(** mfcc of 1000 zeros, two coefficients, lifter 3: every row is (-52 ln 2 sqrt 24, 0), so centring gives zeros;
    from features known up to 1 in 10^10 the program gets them up to 1 in 10^9 *)
Lemma silent_size : - 260 <= ln (/ 2 ^ 52) * sqrt (INR 24) <= - 104.
Proof.
  assert (L : / 2 <= ln 2 <= 1).
  { split; [|rewrite <- (ln_exp 1); apply Rcomplements.ln_le; [lra|]; pose proof (exp_ineq1_le 1); lra].
    rewrite <- (ln_exp (/ 2)). apply Rcomplements.ln_le; [apply exp_pos|].
    assert (Q : exp (/ 2) * exp (/ 2) = exp 1) by (rewrite <- exp_plus; f_equal; lra). pose proof exp_le_3 as E3.
    destruct (Rle_dec (exp (/ 2)) 2) as [|N]; [assumption|]. assert (2 * 2 <= exp (/ 2) * exp (/ 2)) by (apply Rmult_le_compat; lra). lra. }
  assert (S : 4 <= sqrt (INR 24) <= 5).
  { replace (INR 24) with 24 by (rewrite INR_IZR_INZ; reflexivity). split.
    - rewrite <- (sqrt_pow2 4) by lra. apply sqrt_le_1_alt. lra.
    - rewrite <- (sqrt_pow2 5) by lra. apply sqrt_le_1_alt. lra. }
  rewrite ln_Rinv, ln_pow by lra. replace (INR 52) with 52 by (rewrite INR_IZR_INZ; reflexivity).
  set (s := sqrt _) in *. set (l := ln 2) in *.
  assert (/ 2 * 4 <= l * s) by (apply Rmult_le_compat; lra). assert (l * s <= 1 * 5) by (apply Rmult_le_compat; lra). lra.
Qed.
Example C167_features_example : let c t := mkC 2 2 false (Some 3) (Some t) in let x (i k : nat) := if Nat.eqb k 0 then ln (/ 2 ^ 52) * sqrt (INR 24) else 0 in
  @mfcc exact_env (fvec 1000 (fun _ => 0)) default_sargs (plain_options (c "ms")) = Ok (fmat 4 2 x) /\
  forall z sc sa, close 4 2 (/ 10 ^ 10) x z -> bounded 4 2 261 z -> sums 4 sc -> sums 8 sa ->
  let f := @lift_float binary53 (fun j => dot_left (fun k => if Nat.eqb k j then 1 else 0) 2) z in
  (exists y, @mfcc exact_env (fvec 1000 (fun _ => 0)) default_sargs (c "ms") = Ok (fmat 4 2 y) /\
     forall i j, (i < 4)%nat -> (j < 2)%nat -> y i j = 0 /\ Rabs (@ms_float binary53 sc 4 f i j - y i j) <= / 10 ^ 9) /\
  (exists y, @mfcc exact_env (fvec 1000 (fun _ => 0)) default_sargs (c "mvn") = Ok (fmat 4 2 y) /\
     forall i j, (i < 4)%nat -> (j < 2)%nat -> y i j = 0 /\ Rabs (@mvn_float binary53 sc sa 4 2 f i j - y i j) <= / 10 ^ 9).
Proof.
  intros c x.
  assert (R0 : forall t, @run exact_env Mfcc (fvec 1000 (fun _ => 0)) default_sargs (plain_options (c t)) = Ok (fmat 4 2 x)).
  { intros t. destruct (@valid_band_bank exact_env Mfcc default_sargs 24 default_band) as (B & HB & _); [auto|simpl; lia|].
    apply (@run_silence_log exact_env Mfcc default_sargs (plain_options (c t)) 1000 400 160 24 B); auto; try (simpl; lia); try (left; reflexivity).
    apply default_framed. lia. }
  split; [exact (R0 "ms")|]. intros z sc sa Hz HM Hsc Hsa f.
  assert (W : forall k, (k < 2)%nat -> spec_lift 3 k = 1).
  { intros [|[|k]] Hk; try lia; unfold spec_lift; cbn [Nat.eqb]; [reflexivity|]. unfold Rpower. change (INR 1) with 1. rewrite ln_1, Rmult_0_r, exp_0. reflexivity. }
  assert (Hw : weights_within 0 3 2 (fun _ => 1)).
  { split; [lra|]. intros k Hk. rewrite W by exact Hk. rewrite Rminus_diag_eq, Rabs_R0 by reflexivity. lra. }
  assert (Hp := diagonal_left (fun _ => 1) 2). cbv beta in Hp.
  pose proof silent_size as A. set (a := ln (/ 2 ^ 52) * sqrt (INR 24)) in *.
  assert (Lx : forall i k, (k < 2)%nat -> x i k * spec_lift 3 k = x i k) by (intros i k Hk; rewrite W by exact Hk; ring).
  assert (Mn : spec_mean 4 2 x = a / 2) by (unfold spec_mean, x; cbn; lra).
  assert (Sd : spec_std 4 2 (fun i j => x i j * spec_lift 3 j) = - a / 2).
  { rewrite (spec_std_ext 4 2 _ x) by (intros; apply Lx; assumption). unfold spec_std. rewrite Mn.
    rewrite <- (sqrt_pow2 (- a / 2)) by lra. f_equal. unfold spec_mean, x. cbn. field. }
  assert (D : spec_lift 3 (2 - 1) * lift_error (/ 2 ^ 53) 0 2 261 (/ 10 ^ 10) <= 1.1 / 10 ^ 10).
  { rewrite W by lia. unfold lift_error. lra. }
  assert (D0 : 0 <= spec_lift 3 (2 - 1) * lift_error (/ 2 ^ 53) 0 2 261 (/ 10 ^ 10)).
  { rewrite W by lia. unfold lift_error. lra. }
  assert (M1 : 0 <= spec_lift 3 (2 - 1) * ((1 + / 2 ^ 53) ^ 2 * (1 + 0) * 261) <= 262).
  { rewrite W by lia. lra. }
  set (d := spec_lift 3 (2 - 1) * lift_error _ _ _ _ _) in *. set (m := spec_lift 3 (2 - 1) * ((1 + / 2 ^ 53) ^ 2 * (1 + 0) * 261)) in *.
  assert (V4 : 0 <= dev_error (/ 2 ^ 53) 4 m <= / 10 ^ 11). { unfold dev_error. cbn [Nat.add]. clearbody m. lra. }
  split.
  - destruct (C167_features_ms binary53 (/ 2 ^ 53) rnd53_accurate Mfcc (fvec 1000 (fun _ => 0)) default_sargs (c "ms") 4 2 x z (/ 10 ^ 10) 261 3 0
      (fun _ => 1) _ sc eq_refl ltac:(lra) eq_refl (R0 "ms") ltac:(lia) ltac:(lia) Hz HM Hw Hp Hsc) as (y & Hy & H).
    exists y. split; [exact Hy|]. intros i j Hi Hj. specialize (H i j Hi Hj). cbv zeta in H. fold d m in H. fold f in H.
    split; [|clearbody d m; lra].
    rewrite (lifted_run 3 4 2 x ltac:(lia) ltac:(lia) ltac:(lra) Mfcc _ _ (c "ms") "ms" eq_refl eq_refl ltac:(discriminate) (R0 "ms")) in Hy.
    rewrite norm_ms in Hy by lia. apply Ok_inj in Hy. rewrite <- (fmat_inj _ _ _ _ Hy i j Hi Hj). cbv beta.
    unfold cmean. cbn [bigsum]. unfold x. cbn [INR]. destruct j as [|[|j]]; try lia; cbn [Nat.eqb]; lra.
  - destruct (C167_features_mvn binary53 (/ 2 ^ 53) rnd53_accurate ltac:(lra) Mfcc (fvec 1000 (fun _ => 0)) default_sargs (c "mvn") 4 2 x z (/ 10 ^ 10) 261 3 0
      (fun _ => 1) _ sc sa eq_refl ltac:(lra) eq_refl (R0 "mvn") ltac:(lia) ltac:(lia) Hz HM Hw Hp Hsc Hsa) as (y & Hy & H).
    { rewrite Sd. fold d m. unfold std_error, dev_error. cbn [Nat.add Nat.mul]. clearbody d m. lra. }
    exists y. split; [exact Hy|]. intros i j Hi Hj. specialize (H i j Hi Hj). cbv zeta in H. rewrite Sd in H. fold d m in H. fold f in H.
    assert (Y0 : y i j = 0).
    { rewrite (lifted_run 3 4 2 x ltac:(lia) ltac:(lia) ltac:(lra) Mfcc _ _ (c "mvn") "mvn" eq_refl eq_refl ltac:(discriminate) (R0 "mvn")) in Hy.
      rewrite norm_mvn in Hy by (try lia; rewrite Sd; lra). apply Ok_inj in Hy. rewrite <- (fmat_inj _ _ _ _ Hy i j Hi Hj). cbv beta.
      replace (x i j * spec_lift 3 j - cmean 4 (fun i0 j0 => x i0 j0 * spec_lift 3 j0) j) with 0; [unfold Rdiv; ring|].
      unfold cmean. cbn [bigsum]. unfold x. cbn [INR]. destruct j as [|[|j]]; try lia; cbn [Nat.eqb]; lra. }
    split; [exact Y0|]. eapply Rle_trans; [exact H|]. unfold quotient_error. rewrite Y0, Rabs_R0, !Rmult_0_r, !Rplus_0_r.
    assert (Q : 0 <= std_error (/ 2 ^ 53) (4 * 2) m d (- a / 2) <= 1).
    { unfold std_error, dev_error. cbn [Nat.add Nat.mul]. clearbody d m. lra. }
    set (q := std_error _ _ _ _ _) in *. set (v := dev_error _ _ _) in *. clearbody d m q v.
    assert ((2 * d + v) / (- a / 2 - q) <= 2 * d + v).
    { apply (Rmult_le_reg_r (- a / 2 - q)); [lra|]. unfold Rdiv at 1. rewrite Rmult_assoc, Rinv_l, Rmult_1_r by lra.
      pose proof (Rmult_le_compat_l (2 * d + v) 1 (- a / 2 - q) ltac:(lra) ltac:(lra)). lra. }
    lra.
Qed.
