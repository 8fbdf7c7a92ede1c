(** * Properties of the options lifter and normalize, and of small changes *)
From Coq Require Import Reals ZArith List String Bool Lia Lra.
From Verif Require Import Base BaseFacts SpecBase SpecMat SpecFilters BigSum MatFacts Preprocessing Cepstral CepstralFacts Features
  Extractors Pncc Cqt Lpc Rplp SpecOptions OptionFacts SpecRoundedNormal StabilityFacts.
Import ListNotations.
Local Open Scope R_scope.
Local Open Scope string_scope.

(** ** C164: lifter and normalize act on the finished features only *)
(** A call with the two options returns what the call without them returns, passed through lifter_ceps
    and then normalize_ceps; exceptions included. *)
Theorem C164_cepstra : forall (E : Env) e sig a c,
  @run E e sig a c = rbind (@run E e sig a (plain_options c)) (after (c_lifter c) (c_normalize c)).
Proof. exact run_options. Qed.
Print Assumptions C164_cepstra.

Theorem C164_others : forall (E : Env) sig a c,
  (forall g, @psrcc E sig a g c = rbind (@psrcc E sig a g (plain_options c)) (after (c_lifter c) (c_normalize c))) /\
  (forall p, @pncc E sig a p c = rbind (@pncc E sig a p (plain_options c)) (after (c_lifter c) (c_normalize c))) /\
  (forall q r, @cqcc E sig q r c = rbind (@cqcc E sig q r (plain_options c)) (after (c_lifter c) (c_normalize c))).
Proof.
  intros E sig a c. split; [|split]; intros.
  - apply psrcc_options.
  - apply pncc_options.
  - apply cqcc_options.
Qed.
Print Assumptions C164_others.

Theorem C164_prediction : forall (E : Env) sig l t,
  (forall fs order pe co w, @lpcc E sig fs order pe co w l t = rbind (@lpcc E sig fs order pe co w None None) (after l t)) /\
  (forall a order ra, @rastaplp E sig a order ra l t = rbind (@rastaplp E sig a order ra None None) (after l t)).
Proof.
  intros E sig l t. split; intros.
  - apply lpcc_options.
  - apply rastaplp_options.
Qed.
Print Assumptions C164_prediction.

(** lifter 2 and then "ms" on three columns (0, 1): the lifter multiplies column 2 by 4, "ms" centres *)
Example C164_after_example :
  after (Some (INR 2)) (Some "ms") (fmat 2 3 (fun i _ => INR i)) = Ok (fmat 2 3 (fun i j => (INR i - 1 / 2) * nth j [1; 1; 4] 0)) /\
  after (Some 0) (Some "") (fmat 2 3 (fun i _ => INR i)) = Ok (fmat 2 3 (fun i _ => INR i)) /\
  after None (Some "cmvn") [[f1]] = Raise KeyError.
Proof.
  unfold after. split; [|split].
  - unfold Reqb. destruct (Req_EM_T (INR 2) 0) as [Eq|_]; [cbn in Eq; lra|].
    rewrite lifter_pos by (try lia; cbn; lra). cbn [rbind String.eqb].
    rewrite norm_ms by lia. f_equal. apply fmat_ext. intros i j Hi Hj.
    unfold cmean. rewrite !liftR_nat by lia.
    destruct i as [|[|]]; try lia; destruct j as [|[|[|]]]; try lia; cbn; lra.
  - unfold Reqb. destruct (Req_EM_T 0 0) as [_|N]; [reflexivity|congruence].
  - reflexivity.
Qed.

(** ** C164: a small change of a matrix changes its normalisation only a little *)
(** [close r c d x x'] : the entries of x' are within d of those of x. *)
Theorem C164_ms : forall r c x x' d, (0 < r)%nat -> (0 < c)%nat -> close r c d x x' ->
  exists y y', normalize_ceps (fmat r c x) "ms" = Ok (fmat r c y) /\ normalize_ceps (fmat r c x') "ms" = Ok (fmat r c y') /\
  close r c (2 * d) y y'.
Proof. exact ms_near. Qed.
Print Assumptions C164_ms.

Theorem C164_mvn : forall r c x x' d, (0 < r)%nat -> (0 < c)%nat -> close r c d x x' -> d < spec_std r c x ->
  exists y y', normalize_ceps (fmat r c x) "mvn" = Ok (fmat r c y) /\ normalize_ceps (fmat r c x') "mvn" = Ok (fmat r c y') /\
  forall i j, (i < r)%nat -> (j < c)%nat -> Rabs (y' i j - y i j) <= d * (2 + Rabs (y i j)) / (spec_std r c x - d).
Proof. exact mvn_near. Qed.
Print Assumptions C164_mvn.

Theorem C164_vn : forall r c x x' d, (0 < r)%nat -> (0 < c)%nat -> close r c d x x' -> d < spec_std r c x ->
  exists y y', normalize_ceps (fmat r c x) "vn" = Ok (fmat r c y) /\ normalize_ceps (fmat r c x') "vn" = Ok (fmat r c y') /\
  forall i j, (i < r)%nat -> (j < c)%nat -> Rabs (y' i j - y i j) <= d * (1 + Rabs (y i j)) / (spec_std r c x - d).
Proof. exact vn_near. Qed.
Print Assumptions C164_vn.

Theorem C164_mn : forall r c x x' d, (0 < r)%nat -> (0 < c)%nat -> close r c d x x' ->
  forall g, (exists i1 j1 i2 j2, (i1 < r)%nat /\ (j1 < c)%nat /\ (i2 < r)%nat /\ (j2 < c)%nat /\ g <= x i1 j1 - x i2 j2) -> 2 * d < g ->
  exists y y', normalize_ceps (fmat r c x) "mn" = Ok (fmat r c y) /\ normalize_ceps (fmat r c x') "mn" = Ok (fmat r c y') /\
  forall i j, (i < r)%nat -> (j < c)%nat -> Rabs (y' i j - y i j) <= 2 * d * (1 + Rabs (y i j)) / (g - 2 * d).
Proof. exact mn_near. Qed.
Print Assumptions C164_mn.

(** liftering scales the change with the weight of the column, deltas with the window *)
Theorem C164_lifter : forall r c x x' d l, (0 < r)%nat -> (0 < c)%nat -> 0 < l <= 10 -> close r c d x x' ->
  exists y y', lifter_ceps (fmat r c x) l = Ok (fmat r c y) /\ lifter_ceps (fmat r c x') l = Ok (fmat r c y') /\
  forall i j, (i < r)%nat -> (j < c)%nat -> Rabs (y' i j - y i j) <= d * spec_lift l j.
Proof. exact lifter_near. Qed.
Print Assumptions C164_lifter.

Theorem C164_deltas : forall r c x x' d w, (0 < r)%nat -> (0 < c)%nat -> (0 <= w)%Z -> close r c d x x' ->
  let h := IZR (w / 2) in
  exists y y', deltas (fmat r c x) w = Ok (fmat r c y) /\ deltas (fmat r c x') w = Ok (fmat r c y') /\
  close r c (d * (h * (h + 1))) y y'.
Proof. exact deltas_near. Qed.
Print Assumptions C164_deltas.

(** Without a condition on the spread there is no such bound for "mvn", "vn" and "mn": an arbitrarily small
    change moves an entry by 1 or more. *)
Theorem C164_spread_refuted : forall t, In t ["mvn"; "vn"; "mn"] ->
  ~ exists K, forall r c x x' d y y', 0 < d -> close r c d x x' ->
    normalize_ceps (fmat r c x) t = Ok (fmat r c y) -> normalize_ceps (fmat r c x') t = Ok (fmat r c y') ->
    close r c (K * d) y y'.
Proof. exact normal_no_constant. Qed.
Print Assumptions C164_spread_refuted.

(** x = [[1, 1], [3, 3]] has standard deviation 1; 0.1 more on the diagonal moves "ms" by at most 0.2, "mvn"
    by at most 1/3 and "vn" by at most 4/9 *)
Example C164_example :
  let x i j := 1 + 2 * INR i in let x' i j := x i j + (if Nat.eqb i j then 0.1 else 0) in
  close 2 2 0.1 x x' /\ spec_std 2 2 x = 1 /\
  (exists y y', normalize_ceps (fmat 2 2 x) "ms" = Ok (fmat 2 2 y) /\ normalize_ceps (fmat 2 2 x') "ms" = Ok (fmat 2 2 y') /\
    close 2 2 0.2 y y') /\
  (exists y', normalize_ceps (fmat 2 2 x) "mvn" = Ok (fmat 2 2 (fun i j => 2 * INR i - 1)) /\
    normalize_ceps (fmat 2 2 x') "mvn" = Ok (fmat 2 2 y') /\ close 2 2 (1 / 3) (fun i j => 2 * INR i - 1) y') /\
  (exists y', normalize_ceps (fmat 2 2 x) "vn" = Ok (fmat 2 2 x) /\
    normalize_ceps (fmat 2 2 x') "vn" = Ok (fmat 2 2 y') /\ close 2 2 (4 / 9) x y') /\
  (exists y y', normalize_ceps (fmat 2 2 x) "mn" = Ok (fmat 2 2 y) /\ normalize_ceps (fmat 2 2 x') "mn" = Ok (fmat 2 2 y') /\
    Rabs (y' 0%nat 0%nat - y 0%nat 0%nat) <= 0.2 * (1 + Rabs (y 0%nat 0%nat)) / 1.8) /\
  (exists y y', lifter_ceps (fmat 2 2 x) 3 = Ok (fmat 2 2 y) /\ lifter_ceps (fmat 2 2 x') 3 = Ok (fmat 2 2 y') /\
    Rabs (y' 1%nat 0%nat - y 1%nat 0%nat) <= 0.1) /\
  (exists y y', deltas (fmat 2 2 x) 5 = Ok (fmat 2 2 y) /\ deltas (fmat 2 2 x') 5 = Ok (fmat 2 2 y') /\ close 2 2 0.6 y y').
Proof.
  intros x x'.
  assert (C : close 2 2 0.1 x x').
  { intros i j _ _. unfold x'. destruct (Nat.eqb i j); apply Rabs_le; lra. }
  assert (Mn : spec_mean 2 2 x = 2) by (unfold spec_mean, x; cbn; lra).
  assert (Sd : spec_std 2 2 x = 1).
  { unfold spec_std. rewrite Mn. rewrite <- sqrt_1. f_equal. unfold spec_mean, x. cbn. lra. }
  split; [exact C|]. split; [exact Sd|]. split; [|split; [|split; [|split; [|split]]]].
  - destruct (C164_ms 2 2 x x' 0.1 ltac:(lia) ltac:(lia) C) as (y & y' & A & B & D).
    exists y, y'. split; [exact A|]. split; [exact B|]. replace 0.2 with (2 * 0.1) by lra. exact D.
  - destruct (C164_mvn 2 2 x x' 0.1 ltac:(lia) ltac:(lia) C ltac:(lra)) as (y & y' & A & B & D). rewrite Sd in D.
    assert (A' : normalize_ceps (fmat 2 2 x) "mvn" = Ok (fmat 2 2 (fun i j => 2 * INR i - 1))).
    { rewrite norm_mvn by (try lia; lra). f_equal. apply fmat_ext. intros i j Hi Hj. rewrite Sd. unfold cmean, x.
      cbn [bigsum INR]. lra. }
    exists y'. split; [exact A'|]. split; [exact B|]. intros i j Hi Hj. rewrite A' in A. apply Ok_inj in A.
    pose proof (fmat_inj _ _ _ _ A i j Hi Hj) as V. cbv beta in V. specialize (D i j Hi Hj). rewrite <- V in D.
    eapply Rle_trans; [exact D|]. destruct i as [|[|]]; try lia; cbn [INR];
      [rewrite Rabs_left by lra|rewrite Rabs_pos_eq by lra]; lra.
  - destruct (C164_vn 2 2 x x' 0.1 ltac:(lia) ltac:(lia) C ltac:(lra)) as (y & y' & A & B & D). rewrite Sd in D.
    assert (A' : normalize_ceps (fmat 2 2 x) "vn" = Ok (fmat 2 2 x)).
    { rewrite norm_vn by (try lia; lra). f_equal. apply fmat_ext. intros i j Hi Hj. rewrite Sd. lra. }
    exists y'. split; [exact A'|]. split; [exact B|]. intros i j Hi Hj. rewrite A' in A. apply Ok_inj in A.
    pose proof (fmat_inj _ _ _ _ A i j Hi Hj) as V. cbv beta in V. specialize (D i j Hi Hj). rewrite <- V in D.
    eapply Rle_trans; [exact D|]. unfold x. destruct i as [|[|]]; try lia; cbn [INR]; rewrite Rabs_pos_eq by lra; lra.
  - destruct (C164_mn 2 2 x x' 0.1 ltac:(lia) ltac:(lia) C 2) as (y & y' & A & B & D).
    + exists 1%nat, 0%nat, 0%nat, 0%nat. repeat split; try lia. unfold x. cbn. lra.
    + lra.
    + exists y, y'. split; [exact A|]. split; [exact B|]. specialize (D 0%nat 0%nat ltac:(lia) ltac:(lia)).
      replace (2 - 2 * 0.1) with 1.8 in D by lra. replace (2 * 0.1) with 0.2 in D by lra. exact D.
  - destruct (C164_lifter 2 2 x x' 0.1 3 ltac:(lia) ltac:(lia) ltac:(lra) C) as (y & y' & A & B & D).
    exists y, y'. split; [exact A|]. split; [exact B|]. specialize (D 1%nat 0%nat ltac:(lia) ltac:(lia)).
    unfold spec_lift in D. cbn [Nat.eqb] in D. lra.
  - destruct (C164_deltas 2 2 x x' 0.1 5 ltac:(lia) ltac:(lia) ltac:(lia) C) as (y & y' & A & B & D).
    exists y, y'. split; [exact A|]. split; [exact B|]. change (5 / 2)%Z with 2%Z in D.
    replace 0.6 with (0.1 * (2 * (2 + 1))) by lra. exact D.
Qed.
