(** * Lemmas about normalisation, liftering and deltas *)
From Coq Require Import Reals ZArith List String Bool Lia Lra Psatz.
From Flocq Require Import Core.Raux.
From Verif Require Import Base BaseFacts SpecBase SpecMat BigSum MatFacts Preprocessing Cepstral.
Import ListNotations.
Local Open Scope R_scope.

(** ** Statistics of a finite matrix *)
Section Stats.
  Variables (r c : nat) (x : nat -> nat -> R).
  Hypotheses (Hr : (0 < r)%nat) (Hc : (0 < c)%nat).

  Lemma INR_rc : 0 < INR r * INR c.
  Proof. apply Rmult_lt_0_compat; apply lt_0_INR; auto. Qed.

  Lemma fmean_all : fmean (List.concat (fmat r c x)) = Fin (spec_mean r c x).
  Proof.
    rewrite concat_fmat by auto. rewrite fmean_fvec by nia. rewrite bigsum_flat' by auto.
    rewrite mult_INR. reflexivity.
  Qed.

  Lemma spec_var_nonneg : 0 <= spec_mean r c (fun i j => (x i j - spec_mean r c x) ^ 2).
  Proof.
    unfold spec_mean at 1. apply Rmult_le_pos.
    - apply bigsum_nonneg; intros; apply bigsum_nonneg; intros. apply pow2_ge_0.
    - left; apply Rinv_0_lt_compat, INR_rc.
  Qed.

  Lemma fstd_all : fstd (List.concat (fmat r c x)) = Fin (spec_std r c x).
  Proof.
    unfold fstd. rewrite fmean_all. rewrite concat_fmat by auto.
    rewrite (fvec_map _ _ _ (fun v => (v - spec_mean r c x) ^ 2)).
    2:{ intros v. simpl. f_equal. ring. }
    rewrite fmean_fvec by nia.
    replace (bigsum (r * c) (fun i => (flat c x i - spec_mean r c x) ^ 2) / INR (r * c))
      with (spec_mean r c (fun i j => (x i j - spec_mean r c x) ^ 2)).
    - apply fsqrt_nonneg, spec_var_nonneg.
    - unfold spec_mean at 1. rewrite mult_INR. f_equal.
      rewrite <- bigsum_flat' by auto. reflexivity.
  Qed.

  Lemma spec_std_0 : spec_std r c x = 0 ->
    forall i j, (i < r)%nat -> (j < c)%nat -> x i j = spec_mean r c x.
  Proof.
    intros H i j Hi Hj. apply sqrt_eq_0 in H; [|apply spec_var_nonneg].
    unfold spec_mean at 1 in H. pose proof INR_rc.
    assert (Hs : bigsum r (fun i => bigsum c (fun j => (x i j - spec_mean r c x) ^ 2)) = 0).
    { apply Rmult_integral in H as [H|H]; auto. apply Rinv_neq_0_compat in H; [contradiction|lra]. }
    assert (Hp : forall i, (i < r)%nat -> 0 <= bigsum c (fun j => (x i j - spec_mean r c x) ^ 2))
      by (intros; apply bigsum_nonneg; intros; apply pow2_ge_0).
    pose proof (bigsum_eq0 _ _ Hp Hs i Hi) as Hrow. cbv beta in Hrow.
    pose proof (bigsum_eq0 c (fun j => (x i j - spec_mean r c x) ^ 2)
                  (fun k _ => pow2_ge_0 _) Hrow j Hj) as He. cbv beta in He. nra.
  Qed.

  Lemma spec_std_pos : non_constant r c x -> 0 < spec_std r c x.
  Proof.
    intros (i & j & i' & j' & Hi & Hj & Hi' & Hj' & Hne).
    assert (0 <= spec_std r c x) by apply sqrt_pos.
    destruct (Req_dec (spec_std r c x) 0) as [E|]; [|lra]. exfalso. apply Hne.
    rewrite (spec_std_0 E i j), (spec_std_0 E i' j') by auto. auto.
  Qed.

  Lemma minmax_all : exists i1 j1 i2 j2, (i1 < r)%nat /\ (j1 < c)%nat /\ (i2 < r)%nat /\ (j2 < c)%nat /\
    fmaxl (List.concat (fmat r c x)) = Ok (Fin (x i1 j1)) /\
    fminl (List.concat (fmat r c x)) = Ok (Fin (x i2 j2)) /\
    (forall i j, (i < r)%nat -> (j < c)%nat -> x i2 j2 <= x i j <= x i1 j1).
  Proof.
    rewrite concat_fmat by auto.
    destruct (fmaxl_fvec (r * c) (flat c x) ltac:(nia)) as [k1 [Hk1 [E1 B1]]].
    destruct (fminl_fvec (r * c) (flat c x) ltac:(nia)) as [k2 [Hk2 [E2 B2]]].
    destruct (flat_idx _ _ _ Hk1), (flat_idx _ _ _ Hk2).
    exists (k1 / c)%nat, (k1 mod c)%nat, (k2 / c)%nat, (k2 mod c)%nat.
    repeat split; auto.
    - rewrite <- (flat_at c x i j) by auto. apply B2. nia.
    - rewrite <- (flat_at c x i j) by auto. apply B1. nia.
  Qed.

  Lemma col_means_fmat : col_means (fmat r c x) = fvec c (fun j => bigsum r (fun i => x i j) / INR r).
  Proof.
    unfold col_means. rewrite ncols_fmat by auto. unfold fvec at 1. apply map_ext_in; intros j Hj.
    apply in_seq in Hj. rewrite column_fmat by lia. apply fmean_fvec; auto.
  Qed.
End Stats.

(** ** normalize_ceps *)
Lemma spec_mean_ext : forall r c x y, (forall i j, (i < r)%nat -> (j < c)%nat -> x i j = y i j) ->
  spec_mean r c x = spec_mean r c y.
Proof.
  intros. unfold spec_mean. f_equal. apply bigsum_ext; intros. apply bigsum_ext; intros; auto.
Qed.
Lemma spec_std_ext : forall r c x y, (forall i j, (i < r)%nat -> (j < c)%nat -> x i j = y i j) ->
  spec_std r c x = spec_std r c y.
Proof.
  intros. unfold spec_std. f_equal. rewrite (spec_mean_ext r c x y H).
  apply spec_mean_ext; intros. rewrite H; auto.
Qed.

Definition cmean (r : nat) (x : nat -> nat -> R) (j : nat) : R := bigsum r (fun i => x i j) / INR r.

Section Norm.
  Variables (r c : nat) (x : nat -> nat -> R).
  Hypotheses (Hr : (0 < r)%nat) (Hc : (0 < c)%nat).

  Lemma norm_ms : normalize_ceps (fmat r c x) "ms" = Ok (fmat r c (fun i j => x i j - cmean r x j)).
  Proof.
    destruct (minmax_all r c x Hr Hc) as (i1&j1&i2&j2&_&_&_&_&E1&E2&_).
    unfold normalize_ceps. rewrite E1, E2. cbn [rbind String.eqb Ascii.eqb Bool.eqb].
    f_equal. rewrite col_means_fmat by auto.
    apply fmat_map_rows; intros. apply fvec_map2. reflexivity.
  Qed.
  Lemma norm_mvn : 0 < spec_std r c x ->
    normalize_ceps (fmat r c x) "mvn" = Ok (fmat r c (fun i j => (x i j - cmean r x j) / spec_std r c x)).
  Proof.
    intros Hs. destruct (minmax_all r c x Hr Hc) as (i1&j1&i2&j2&_&_&_&_&E1&E2&_).
    unfold normalize_ceps. rewrite E1, E2. cbn [rbind String.eqb Ascii.eqb Bool.eqb].
    f_equal. rewrite col_means_fmat, fstd_all by auto.
    apply fmat_map_rows; intros.
    apply (fvec_map2 _ _ _ _ (fun a b => (a - b) / spec_std r c x)).
    intros. unfold fsub; cbn [fneg fadd]. rewrite fdiv_Fin by lra. f_equal; lra.
  Qed.
  Lemma norm_vn : 0 < spec_std r c x ->
    normalize_ceps (fmat r c x) "vn" = Ok (fmat r c (fun i j => x i j / spec_std r c x)).
  Proof.
    intros Hs. destruct (minmax_all r c x Hr Hc) as (i1&j1&i2&j2&_&_&_&_&E1&E2&_).
    unfold normalize_ceps. rewrite E1, E2. cbn [rbind String.eqb Ascii.eqb Bool.eqb].
    f_equal. rewrite fstd_all by auto.
    apply (fmat_map _ _ _ _ (fun v => v / spec_std r c x)).
    intros. rewrite fdiv_Fin by lra. auto.
  Qed.
  Lemma norm_mn : non_constant r c x ->
    exists i1 j1 i2 j2, (i1 < r)%nat /\ (j1 < c)%nat /\ (i2 < r)%nat /\ (j2 < c)%nat /\
    (forall i j, (i < r)%nat -> (j < c)%nat -> x i2 j2 <= x i j <= x i1 j1) /\
    x i2 j2 < x i1 j1 /\
    normalize_ceps (fmat r c x) "mn"
    = Ok (fmat r c (fun i j => (x i j - spec_mean r c x) / (x i1 j1 - x i2 j2))).
  Proof.
    intros Hn. destruct (minmax_all r c x Hr Hc) as (i1&j1&i2&j2&L1&L2&L3&L4&E1&E2&B).
    exists i1, j1, i2, j2. repeat match goal with |- _ /\ _ => split; auto end.
    - destruct Hn as (i & j & i' & j' & Hi & Hj & Hi' & Hj' & Hne).
      pose proof (B i j Hi Hj). pose proof (B i' j' Hi' Hj'). lra.
    - assert (x i2 j2 < x i1 j1).
      { destruct Hn as (i & j & i' & j' & Hi & Hj & Hi' & Hj' & Hne).
        pose proof (B i j Hi Hj). pose proof (B i' j' Hi' Hj'). lra. }
      unfold normalize_ceps. rewrite E1, E2. cbn [rbind String.eqb Ascii.eqb Bool.eqb].
      f_equal. rewrite fmean_all by auto.
      apply (fmat_map _ _ _ _ (fun v => (v - spec_mean r c x) / (x i1 j1 - x i2 j2))).
      intros. unfold fsub; cbn [fneg fadd]. rewrite fdiv_Fin by lra. f_equal.
  Qed.
End Norm.

Lemma colsum_centered : forall r x j, (0 < r)%nat -> bigsum r (fun i => x i j - cmean r x j) = 0.
Proof.
  intros. rewrite bigsum_minus, bigsum_const. unfold cmean. field. apply not_0_INR; lia.
Qed.

Lemma mean_sub : forall r c x m, (0 < r)%nat -> (0 < c)%nat ->
  spec_mean r c (fun i j => x i j - m) = spec_mean r c x - m.
Proof.
  intros. unfold spec_mean.
  rewrite (bigsum_ext r _ (fun i => bigsum c (fun j => x i j) - INR c * m)).
  - rewrite bigsum_minus, bigsum_const. field. split; apply not_0_INR; lia.
  - intros. rewrite bigsum_minus, bigsum_const; auto.
Qed.
Lemma mean_affine : forall r c x a b, (0 < r)%nat -> (0 < c)%nat ->
  spec_mean r c (fun i j => a * x i j + b) = a * spec_mean r c x + b.
Proof.
  intros. unfold spec_mean.
  rewrite (bigsum_ext r _ (fun i => a * bigsum c (fun j => x i j) + INR c * b)).
  - rewrite bigsum_plus, bigsum_scal, bigsum_const. field. split; apply not_0_INR; lia.
  - intros. rewrite bigsum_plus, bigsum_scal, bigsum_const; auto.
Qed.
Lemma mean_div : forall r c x d, spec_mean r c (fun i j => x i j / d) = spec_mean r c x / d.
Proof.
  intros. unfold spec_mean.
  rewrite (bigsum_ext r _ (fun i => bigsum c (fun j => x i j) / d)) by (intros; apply bigsum_div).
  rewrite bigsum_div. unfold Rdiv. ring.
Qed.
Lemma std_affine : forall r c x a b, (0 < r)%nat -> (0 < c)%nat -> 0 < a ->
  spec_std r c (fun i j => a * x i j + b) = a * spec_std r c x.
Proof.
  intros r c x a b Hr Hc Ha. unfold spec_std. rewrite mean_affine by auto.
  rewrite (spec_mean_ext r c _ (fun i j => a ^ 2 * (x i j - spec_mean r c x) ^ 2 + 0)).
  2:{ intros; ring. }
  rewrite mean_affine by auto. rewrite Rplus_0_r.
  rewrite sqrt_mult_alt by (apply pow2_ge_0). f_equal.
  replace (a ^ 2) with (a * a) by ring. apply sqrt_square; lra.
Qed.
Lemma std_normalised : forall r c x, (0 < r)%nat -> (0 < c)%nat -> 0 < spec_std r c x ->
  spec_std r c (fun i j => x i j / spec_std r c x) = 1.
Proof.
  intros r c x Hr Hc Hs.
  rewrite (spec_std_ext r c _ (fun i j => / spec_std r c x * x i j + 0)).
  - rewrite std_affine; auto. field; lra. apply Rinv_0_lt_compat; auto.
  - intros. unfold Rdiv; ring.
Qed.

(** ms *)
Lemma ms_spec : forall r c x, (0 < r)%nat -> (0 < c)%nat ->
  exists y, normalize_ceps (fmat r c x) "ms" = Ok (fmat r c y) /\
    (forall j, (j < c)%nat -> bigsum r (fun i => y i j) = 0) /\
    (forall i i' j, y i j - y i' j = x i j - x i' j).
Proof.
  intros. eexists. split; [apply norm_ms; auto|]. cbv beta. split; intros.
  - apply colsum_centered; auto.
  - ring.
Qed.
Lemma ms_shift : forall r c x b, (0 < r)%nat -> (0 < c)%nat ->
  normalize_ceps (fmat r c (fun i j => x i j + b j)) "ms" = normalize_ceps (fmat r c x) "ms".
Proof.
  intros. rewrite !norm_ms by auto. f_equal. apply fmat_ext; intros. unfold cmean.
  rewrite bigsum_plus, bigsum_const. field. apply not_0_INR; lia.
Qed.
Lemma ms_idem : forall r c x, (0 < r)%nat -> (0 < c)%nat ->
  (do y <- normalize_ceps (fmat r c x) "ms" ; normalize_ceps y "ms") = normalize_ceps (fmat r c x) "ms".
Proof.
  intros. rewrite (norm_ms r c x) by auto. simpl rbind. rewrite norm_ms by auto.
  f_equal. apply fmat_ext; intros. unfold cmean at 2. rewrite colsum_centered by auto. unfold Rdiv; ring.
Qed.
(** mvn *)
Lemma mvn_spec : forall r c x, (0 < r)%nat -> (0 < c)%nat -> non_constant r c x ->
  exists y, normalize_ceps (fmat r c x) "mvn" = Ok (fmat r c y) /\
    (forall j, (j < c)%nat -> bigsum r (fun i => y i j) = 0) /\
    (forall i i' j, y i j - y i' j = (x i j - x i' j) / spec_std r c x).
Proof.
  intros r c x Hr Hc Hn. pose proof (spec_std_pos r c x Hr Hc Hn). eexists. split; [apply norm_mvn; auto|]. cbv beta. split; intros.
  - rewrite bigsum_div, colsum_centered by auto. unfold Rdiv; ring.
  - field; lra.
Qed.
Lemma non_constant_affine : forall r c x a b, a <> 0 -> non_constant r c x ->
  non_constant r c (fun i j => a * x i j + b).
Proof.
  intros r c x a b Ha (i & j & i' & j' & Hi & Hj & Hi' & Hj' & Hne).
  exists i, j, i', j'. repeat split; auto. intro E. apply Hne. apply (Rmult_eq_reg_l a); auto. lra.
Qed.
Lemma mvn_affine : forall r c x a b, (0 < r)%nat -> (0 < c)%nat -> 0 < a -> non_constant r c x ->
  normalize_ceps (fmat r c (fun i j => a * x i j + b)) "mvn" = normalize_ceps (fmat r c x) "mvn".
Proof.
  intros r c x a b Hr Hc Ha Hn. pose proof (spec_std_pos r c x Hr Hc Hn).
  rewrite !norm_mvn; auto.
  2:{ rewrite std_affine by auto. apply Rmult_lt_0_compat; auto. }
  rewrite std_affine by auto. f_equal. apply fmat_ext; intros. unfold cmean.
  rewrite bigsum_plus, bigsum_scal, bigsum_const. field. repeat split; try lra. apply not_0_INR; lia.
Qed.
Lemma vn_scale : forall r c x a, (0 < r)%nat -> (0 < c)%nat -> 0 < a -> non_constant r c x ->
  normalize_ceps (fmat r c (fun i j => a * x i j)) "vn" = normalize_ceps (fmat r c x) "vn".
Proof.
  intros r c x a Hr Hc Ha Hn. pose proof (spec_std_pos r c x Hr Hc Hn).
  assert (E : spec_std r c (fun i j => a * x i j) = a * spec_std r c x).
  { rewrite <- (std_affine r c x a 0) by auto. apply spec_std_ext; intros; ring. }
  rewrite !norm_vn; auto.
  2:{ rewrite E. apply Rmult_lt_0_compat; auto. }
  rewrite E. f_equal. apply fmat_ext; intros. field. split; lra.
Qed.
Lemma mn_affine : forall r c x a b, (0 < r)%nat -> (0 < c)%nat -> 0 < a -> non_constant r c x ->
  normalize_ceps (fmat r c (fun i j => a * x i j + b)) "mn" = normalize_ceps (fmat r c x) "mn".
Proof.
  intros r c x a b Hr Hc Ha Hn.
  destruct (norm_mn r c x Hr Hc Hn) as (i1&j1&i2&j2&L1&L2&L3&L4&B&Hlt&E).
  destruct (norm_mn r c _ Hr Hc (non_constant_affine r c x a b ltac:(lra) Hn))
    as (k1&l1&k2&l2&M1&M2&M3&M4&B'&Hlt'&E'). cbv beta in *.
  rewrite E, E'. f_equal. apply fmat_ext; intros. rewrite mean_affine by auto.
  assert (E1 : x k1 l1 = x i1 j1).
  { pose proof (B k1 l1 M1 M2). pose proof (B' i1 j1 L1 L2). nra. }
  assert (E2 : x k2 l2 = x i2 j2).
  { pose proof (B k2 l2 M3 M4). pose proof (B' i2 j2 L3 L4). nra. }
  rewrite E1, E2. field. split; nra.
Qed.
Lemma mn_spec : forall r c x, (0 < r)%nat -> (0 < c)%nat -> non_constant r c x ->
  exists y, normalize_ceps (fmat r c x) "mn" = Ok (fmat r c y) /\
    spec_mean r c y = 0 /\
    (forall i j, (i < r)%nat -> (j < c)%nat -> -1 <= y i j <= 1) /\
    (forall i j i' j', (i < r)%nat -> (j < c)%nat -> (i' < r)%nat -> (j' < c)%nat -> y i j - y i' j' <= 1) /\
    (exists i j i' j', (i < r)%nat /\ (j < c)%nat /\ (i' < r)%nat /\ (j' < c)%nat /\ y i j - y i' j' = 1) /\
    (exists d, 0 < d /\ forall i j i' j', y i j - y i' j' = (x i j - x i' j') / d).
Proof.
  intros r c x Hr Hc Hn. destruct (norm_mn r c x Hr Hc Hn) as (i1&j1&i2&j2&L1&L2&L3&L4&B&Hlt&E).
  eexists. split; [exact E|]. cbv beta.
  set (d := x i1 j1 - x i2 j2) in *. assert (Hd : 0 < d) by (unfold d; lra).
  assert (Hm : x i2 j2 <= spec_mean r c x <= x i1 j1).
  { unfold spec_mean. pose proof (INR_rc r c Hr Hc).
    split.
    - apply Rmult_le_reg_r with (INR r * INR c); auto. unfold Rdiv. rewrite Rmult_assoc, Rinv_l, Rmult_1_r by lra.
      rewrite <- (bigsum_const r (INR c * x i2 j2)) || idtac.
      replace (x i2 j2 * (INR r * INR c)) with (bigsum r (fun _ => bigsum c (fun _ => x i2 j2))).
      + apply bigsum_le; intros; apply bigsum_le; intros. apply B; auto.
      + rewrite !bigsum_const. ring.
    - apply Rmult_le_reg_r with (INR r * INR c); auto. unfold Rdiv. rewrite Rmult_assoc, Rinv_l, Rmult_1_r by lra.
      replace (x i1 j1 * (INR r * INR c)) with (bigsum r (fun _ => bigsum c (fun _ => x i1 j1))).
      + apply bigsum_le; intros; apply bigsum_le; intros. apply B; auto.
      + rewrite !bigsum_const. ring. }
  split; [|split; [|split; [|split]]].
  - rewrite mean_div, mean_sub by auto. unfold Rdiv; ring.
  - intros i j Hi Hj. pose proof (B i j Hi Hj). split; apply Rmult_le_reg_r with d; auto.
    + unfold Rdiv. rewrite Rmult_assoc, Rinv_l by lra. unfold d; lra.
    + unfold Rdiv. rewrite Rmult_assoc, Rinv_l by lra. unfold d; lra.
  - intros i j i' j' Hi Hj Hi' Hj'. pose proof (B i j Hi Hj). pose proof (B i' j' Hi' Hj').
    replace ((x i j - spec_mean r c x) / d - (x i' j' - spec_mean r c x) / d) with ((x i j - x i' j') / d) by (field; lra).
    apply Rmult_le_reg_r with d; auto. unfold Rdiv. rewrite Rmult_assoc, Rinv_l by lra. unfold d; lra.
  - exists i1, j1, i2, j2. repeat split; auto. unfold d; field. lra.
  - exists d; split; auto. intros. field; lra.
Qed.

Lemma norm_empty : forall m t, List.concat m = [] -> normalize_ceps m t = Raise ValueError.
Proof. intros m t H. unfold normalize_ceps. rewrite H. reflexivity. Qed.

Lemma fmaxl_ok : forall l, l <> [] -> exists v, fmaxl l = Ok v.
Proof. destruct l; simpl; intros; [contradiction|eauto]. Qed.
Lemma fminl_ok : forall l, l <> [] -> exists v, fminl l = Ok v.
Proof. destruct l; simpl; intros; [contradiction|eauto]. Qed.

Lemma norm_unknown : forall m t, List.concat m <> [] -> ~ In t ["mvn"; "ms"; "vn"; "mn"]%string ->
  normalize_ceps m t = Raise KeyError.
Proof.
  intros m t H Ht. unfold normalize_ceps.
  destruct (fmaxl_ok _ H) as [a ->], (fminl_ok _ H) as [b ->]. simpl rbind.
  repeat match goal with
  | |- context [String.eqb t ?s] => destruct (String.eqb_spec t s);
      [exfalso; apply Ht; subst; simpl; tauto|] end. reflexivity.
Qed.

Lemma norm_constant : forall r c v, (0 < r)%nat -> (0 < c)%nat ->
  normalize_ceps (fmat r c (fun _ _ => v)) "mvn" = Ok (repeat (repeat NaN c) r) /\
  normalize_ceps (fmat r c (fun _ _ => v)) "mn" = Ok (repeat (repeat NaN c) r).
Proof.
  intros r c v Hr Hc. set (x := fun _ _ : nat => v).
  assert (Em : spec_mean r c x = v).
  { unfold spec_mean, x. rewrite (bigsum_const' r (INR c * v)) by (intros; apply bigsum_const).
    field. split; apply not_0_INR; lia. }
  assert (Es : spec_std r c x = 0).
  { unfold spec_std. rewrite Em.
    rewrite (spec_mean_ext r c _ (fun _ _ => 0)) by (intros; unfold x; ring).
    unfold spec_mean. rewrite (bigsum_zero r) by (intros; apply bigsum_0).
    unfold Rdiv; rewrite Rmult_0_l. apply sqrt_0. }
  assert (Ec : forall j, cmean r x j = v).
  { intros. unfold cmean, x. rewrite bigsum_const. field. apply not_0_INR; lia. }
  destruct (minmax_all r c x Hr Hc) as (i1&j1&i2&j2&_&_&_&_&E1&E2&_).
  assert (Hrep : forall g, (forall i, (i < r)%nat -> g (fvec c (x i)) = repeat NaN c) ->
                 map g (fmat r c x) = repeat (repeat NaN c) r).
  { intros g Hg. unfold fmat. rewrite map_map. 
    replace (repeat (repeat NaN c) r) with (map (fun _ : nat => repeat NaN c) (seq 0 r)).
    - apply map_ext_in; intros i Hi. apply in_seq in Hi. apply Hg; lia.
    - clear. generalize 0%nat. induction r; simpl; intros; auto. rewrite IHr; auto. }
  assert (Hnan : forall (h : F -> F), h (Fin v) = NaN -> map h (fvec c (fun _ => v)) = repeat NaN c).
  { intros h Hh. rewrite <- fvec_repeat. clear - Hh. induction c; simpl; auto. rewrite Hh, IHc; auto. }
  split; unfold normalize_ceps; rewrite E1, E2; cbn [rbind String.eqb Ascii.eqb Bool.eqb]; f_equal.
  - rewrite col_means_fmat, fstd_all by auto. rewrite Es.
    apply Hrep; intros i Hi.
    rewrite (fvec_ext c (fun j => bigsum r (fun i0 => x i0 j) / INR r) (fun _ => v)) by (intros; apply Ec).
    unfold x. rewrite (map2_diag _ _ (fun a m => fdiv (fsub a m) (Fin 0))).
    apply Hnan. unfold fsub; cbn [fneg fadd]. replace (v + - v) with 0 by ring. unfold fdiv, finfmul.
    destruct (Req_EM_T 0 0); [auto|lra].
  - rewrite fmean_all by auto. rewrite Em. apply Hrep; intros. unfold x.
    apply Hnan. unfold fsub; cbn [fneg fadd].
    replace (v + - v) with 0 by ring. unfold fdiv, finfmul.
    destruct (Req_EM_T 0 0); [auto|lra].
Qed.

(** ** lifter_ceps *)
Definition liftR (lift : R) (j : nat) : R := if Nat.eqb j 0 then 1 else Rpower (INR j) lift.

Lemma lifter_id : forall ceps lift, lift = 0 \/ 10 < lift -> lifter_ceps ceps lift = Ok ceps.
Proof.
  intros ceps lift [->|H]; unfold lifter_ceps.
  - rewrite Reqb_refl. reflexivity.
  - rewrite (Rltb_true 10 lift) by auto. rewrite orb_true_r. reflexivity.
Qed.

Lemma lifter_pos : forall r c x lift, (0 < r)%nat -> (0 < c)%nat -> 0 < lift <= 10 ->
  lifter_ceps (fmat r c x) lift = Ok (fmat r c (fun i j => x i j * liftR lift j)).
Proof.
  intros r c x lift Hr Hc Hl. unfold lifter_ceps.
  rewrite Reqb_false, (Rltb_false 10 lift), (Rltb_true 0 lift) by lra. cbn [orb].
  rewrite ncols_fmat by auto.
  cbn [List.length]. rewrite map_length, seq_length.
  replace (Nat.eqb (S (c - 1)) c) with true by (symmetry; apply Nat.eqb_eq; lia).
  f_equal. apply fmat_map_rows; intros i Hi. unfold fvec at 2. apply map_ext_in; intros j Hj. apply in_seq in Hj.
  assert (E : map (fun k => if Nat.eqb k j then nth k (f1 :: map (fun i0 => Fin (Rpower (INR i0) lift)) (seq 1 (c - 1))) NaN else f0) (seq 0 c)
          = fvec c (fun k => if Nat.eqb k j then liftR lift k else 0)).
  { unfold fvec. apply map_ext_in; intros k Hk. apply in_seq in Hk. destruct (Nat.eqb_spec k j); [|reflexivity].
    unfold liftR. destruct k; [reflexivity|]. simpl nth.
    rewrite (nth_map _ _ _ _ _ O) by (rewrite seq_length; lia). rewrite seq_nth by lia. reflexivity. }
  rewrite E, fdot_fvec. f_equal.
  rewrite (bigsum_ext c _ (fun k => if Nat.eqb k j then x i k * liftR lift k else 0)).
  - rewrite bigsum_delta by lia. auto.
  - intros k Hk. destruct (Nat.eqb k j); ring.
Qed.

Lemma liftR_pos : forall l j, 0 < liftR l j.
Proof. intros. unfold liftR. destruct (Nat.eqb j 0); [lra|]. unfold Rpower. apply exp_pos. Qed.

Lemma liftR_plus : forall a b j, liftR a j * liftR b j = liftR (a + b) j.
Proof. intros. unfold liftR. destruct (Nat.eqb j 0); [lra|]. rewrite Rpower_plus; auto. Qed.

Lemma liftR_nat : forall k j, liftR (INR k) j = if Nat.eqb j 0 then 1 else INR j ^ k.
Proof.
  intros. unfold liftR. destruct (Nat.eqb_spec j 0); auto. apply Rpower_pow. apply lt_0_INR; lia.
Qed.

Lemma lifter_compose : forall r c x a b, (0 < r)%nat -> (0 < c)%nat -> 0 < a -> 0 < b -> a + b <= 10 ->
  (do y <- lifter_ceps (fmat r c x) a ; lifter_ceps y b) = lifter_ceps (fmat r c x) (a + b).
Proof.
  intros. rewrite (lifter_pos r c x a), (lifter_pos r c x (a + b)) by (auto; lra). simpl rbind.
  rewrite lifter_pos by (auto; lra). f_equal. apply fmat_ext; intros. rewrite Rmult_assoc, liftR_plus; auto.
Qed.

Lemma lifter_injective : forall r c x y a, (0 < r)%nat -> (0 < c)%nat -> 0 < a <= 10 ->
  lifter_ceps (fmat r c x) a = lifter_ceps (fmat r c y) a -> fmat r c x = fmat r c y.
Proof.
  intros r c x y a Hr Hc Ha E. rewrite !lifter_pos in E by auto. apply Ok_inj in E.
  apply fmat_ext; intros. pose proof (fmat_inj _ _ _ _ E i j H H0) as E'. cbv beta in E'.
  apply Rmult_eq_reg_r in E'; auto. pose proof (liftR_pos a j); lra.
Qed.

Definition sinR (L : R) (j : nat) : R := 1 + L / 2 * sin (PI * INR (j + 1) / L).

Lemma lifter_neg : forall r c x lift, (0 < r)%nat -> lift <= -1 ->
  lifter_ceps (fmat r c x) lift
  = Ok (fmat r c (fun i j => x i j * sinR (IZR (Ztrunc (- lift))) j)).
Proof.
  intros r c x lift Hr Hl. unfold lifter_ceps.
  rewrite Reqb_false, (Rltb_false 10 lift), (Rltb_false 0 lift) by lra. cbn [orb].
  rewrite ncols_fmat by auto. replace (-1 * lift) with (- lift) by lra.
  set (L := IZR (Ztrunc (- lift))).
  assert (HL : 1 <= L).
  { unfold L. apply IZR_le. rewrite <- (Ztrunc_IZR 1). apply Ztrunc_le. lra. }
  f_equal. apply fmat_map_rows; intros i Hi.
  assert (E : map (fun j => fadd f1 (fmul (Fin (L / 2)) (fsin (fdiv (Fin (PI * INR j)) (Fin L))))) (seq 1 c)
        = fvec c (sinR L)).
  { unfold fvec. rewrite <- seq_shift, map_map. apply map_ext; intros j.
    rewrite fdiv_Fin by lra. unfold sinR. rewrite Nat.add_1_r. reflexivity. }
  rewrite E. apply fvec_map2. reflexivity.
Qed.

Lemma sinR_ge1 : forall (L j : nat), (1 <= L)%nat -> (j < L)%nat -> 1 <= sinR (INR L) j.
Proof.
  intros L j HL Hj. unfold sinR.
  assert (HL' : 0 < INR L) by (apply lt_0_INR; lia).
  assert (Hj1 : 0 <= INR (j + 1) <= INR L) by (split; [apply pos_INR | apply le_INR; lia]).
  assert (0 <= sin (PI * INR (j + 1) / INR L)).
  { pose proof PI_RGT_0. apply sin_ge_0.
    - apply Rmult_le_pos; [apply Rmult_le_pos; lra | left; apply Rinv_0_lt_compat; auto].
    - apply Rmult_le_reg_r with (INR L); auto. unfold Rdiv. rewrite Rmult_assoc, Rinv_l by lra. nra. }
  nra.
Qed.

Lemma sinR_period : forall (L j : nat), (1 <= L)%nat -> sinR (INR L) (j + 2 * L) = sinR (INR L) j.
Proof.
  intros. unfold sinR. do 2 f_equal.
  rewrite <- (sin_period (PI * INR (j + 1) / INR L) 1).
  f_equal. rewrite !plus_INR, mult_INR. change (INR 2) with 2. change (INR 1) with 1.
  field. apply not_0_INR; lia.
Qed.

Lemma lifter_small : forall m lift, -1 < lift < 0 ->
  (forall row, In row m -> List.length row = ncols m) ->
  lifter_ceps m lift = Ok (map (map (fun _ => NaN)) m).
Proof.
  intros m lift Hl Hm. unfold lifter_ceps.
  rewrite Reqb_false, (Rltb_false 10 lift), (Rltb_false 0 lift) by lra. cbn [orb].
  assert (E : Ztrunc (-1 * lift) = 0%Z).
  { rewrite Ztrunc_floor by lra. apply Zfloor_imp. simpl. lra. }
  rewrite E. f_equal. apply map_ext_in; intros row Hrow.
  assert (Hv : map (fun j => fadd f1 (fmul (Fin (0 / 2)) (fsin (fdiv (Fin (PI * INR j)) (Fin 0))))) (seq 1 (ncols m))
     = repeat NaN (ncols m)).
  { apply (list_eq_nth _ NaN); rewrite ?map_length, ?seq_length, ?repeat_length; auto.
    intros i Hi. rewrite (nth_map _ _ _ _ _ O) by (rewrite seq_length; auto).
    rewrite seq_nth by auto. rewrite nth_repeat.
    unfold fdiv, finfmul. destruct (Req_EM_T 0 0); [|lra].
    destruct (Req_EM_T (PI * INR (1 + i)) 0); [reflexivity|].
    destruct (Rlt_dec 0 (PI * INR (1 + i))); reflexivity. }
  rewrite Hv. specialize (Hm _ Hrow). rewrite <- Hm. clear.
  induction row; simpl; auto. rewrite IHrow. f_equal. destruct a; auto.
Qed.

(** ** deltas *)
Lemma fir_fvec : forall p n b x,
  fir (fvec p b) (fvec n x)
  = fvec n (fun t => bigsum (Nat.min (S t) p) (fun k => b k * x (t - k)%nat)).
Proof.
  intros. unfold fir. rewrite !fvec_length. unfold fvec at 3. apply map_ext_in; intros t Ht. apply in_seq in Ht.
  rewrite <- fsum_fvec. f_equal. unfold fvec at 3. apply map_ext_in; intros k Hk. apply in_seq in Hk.
  rewrite !fvec_nth by lia. reflexivity.
Qed.

(** index t + m - h clamped to 0..c-1 *)
Definition clampidx (c t m h : nat) : nat := Nat.min (c - 1) (t + m - h).

Lemma deltas_fmat : forall r c x (h : nat) w, (0 < r)%nat -> (0 < c)%nat -> (w / 2 = Z.of_nat h)%Z ->
  deltas (fmat r c x) w
  = Ok (fmat r c (fun i t => bigsum (2 * h + 1) (fun m => (INR m - INR h) * x i (clampidx c t m h)))).
Proof.
  intros r c x h w Hr Hc Hw. unfold deltas. rewrite ncols_fmat by auto. rewrite Hw.
  destruct (Nat.eqb_spec c 0); [lia|].
  destruct (Z.ltb_spec (Z.of_nat h) 0); [lia|]. rewrite Nat2Z.id. f_equal.
  apply fmat_map_rows; intros i Hi.
  assert (Ewin : map fZ (map (fun k => (Z.of_nat h - Z.of_nat k)%Z) (seq 0 (2 * h + 1)))
          = fvec (2 * h + 1) (fun k => INR h - INR k)).
  { unfold fvec. rewrite map_map. apply map_ext; intros. unfold fZ. rewrite minus_IZR, <- !INR_IZR_INZ. auto. }
  rewrite Ewin. rewrite !fvec_nth by lia. rewrite !fvec_repeat.
  assert (Exx : fvec h (fun _ => x i 0%nat) ++ fvec c (x i) ++ fvec h (fun _ => x i (c - 1)%nat)
        = fvec (h + (c + h)) (fun k => x i (Nat.min (c - 1) (k - h)))).
  { rewrite !fvec_app. f_equal; [|f_equal].
    - apply fvec_ext; intros. f_equal. lia.
    - apply fvec_ext; intros. f_equal. lia.
    - apply fvec_ext; intros. f_equal. lia. }
  rewrite Exx, fir_fvec. rewrite fvec_skipn by lia. rewrite fvec_firstn by lia.
  apply fvec_ext; intros t Ht.
  replace (Nat.min (S (2 * h + t)) (2 * h + 1)) with (2 * h + 1)%nat by lia.
  rewrite bigsum_rev. apply bigsum_ext; intros m Hm. f_equal.
  - rewrite !minus_INR, !plus_INR, !mult_INR by lia. simpl. lra.
  - f_equal. unfold clampidx. lia.
Qed.

Lemma sum_odd_zero : forall h, bigsum (2 * h + 1) (fun m => INR m - INR h) = 0.
Proof.
  intros. rewrite bigsum_minus, bigsum_const.
  assert (E : forall n, bigsum n INR = INR n * (INR n - 1) / 2).
  { induction n; [simpl; field|]. rewrite bigsum_S, IHn, S_INR. field. }
  rewrite E, plus_INR, mult_INR. change (INR 2) with 2. change (INR 1) with 1. field.
Qed.

Lemma sum_sq : forall h, bigsum (2 * h + 1) (fun m => (INR m - INR h) ^ 2) = INR h * (INR h + 1) * (2 * INR h + 1) / 3.
Proof.
  intros h.
  assert (E : forall n, bigsum n (fun m => (INR m - INR h) ^ 2)
     = INR n * (INR n - 1) * (2 * INR n - 1) / 6 - INR h * (INR n * (INR n - 1)) + INR n * INR h ^ 2).
  { induction n; [simpl; field|]. rewrite bigsum_S, IHn, S_INR. field. }
  rewrite E, plus_INR, mult_INR. change (INR 2) with 2. change (INR 1) with 1. field.
Qed.

Lemma deltas_const_shift : forall r c x b w, (0 < r)%nat -> (0 < c)%nat -> (0 <= w)%Z ->
  deltas (fmat r c (fun i j => x i j + b i)) w = deltas (fmat r c x) w.
Proof.
  intros r c x b w Hr Hc Hw.
  assert (Hh : (w / 2 = Z.of_nat (Z.to_nat (w / 2)))%Z) by (rewrite Z2Nat.id; auto; apply Z.div_pos; lia).
  rewrite !(deltas_fmat r c _ (Z.to_nat (w / 2)) w) by auto. f_equal.
  apply fmat_ext; intros i t Hi Ht. set (h := Z.to_nat (w / 2)).
  rewrite (bigsum_ext _ _ (fun m => (INR m - INR h) * x i (clampidx c t m h) + (INR m - INR h) * b i)) by (intros; ring).
  rewrite bigsum_plus, bigsum_scal_r, sum_odd_zero. ring.
Qed.

Lemma deltas_linear : forall r c a s (h : nat) w, (0 < r)%nat -> (0 < c)%nat -> (w / 2 = Z.of_nat h)%Z ->
  exists y, deltas (fmat r c (fun i t => a i + s i * INR t)) w = Ok (fmat r c y) /\
    forall i t, (i < r)%nat -> (h <= t)%nat -> (t + h < c)%nat ->
      y i t = s i * (INR h * (INR h + 1) * (2 * INR h + 1) / 3).
Proof.
  intros r c a s h w Hr Hc Hw. eexists; split; [apply deltas_fmat; eauto|]. cbv beta.
  intros i t Hi Ht1 Ht2. rewrite <- sum_sq.
  rewrite (bigsum_ext _ _ (fun m => (INR m - INR h) * (a i + s i * INR t) + s i * (INR m - INR h) ^ 2)).
  - rewrite bigsum_plus, bigsum_scal_r, sum_odd_zero, bigsum_scal. ring.
  - intros m Hm. unfold clampidx. replace (Nat.min (c - 1) (t + m - h)) with (t + m - h)%nat by lia.
    rewrite minus_INR, plus_INR by lia. ring.
Qed.

Lemma deltas_even_odd : forall x w, Z.even w = true -> deltas x (w + 1) = deltas x w.
Proof.
  intros x w Hw. apply Z.even_spec in Hw as [k ->]. unfold deltas.
  replace ((2 * k + 1) / 2)%Z with k. replace (2 * k / 2)%Z with k; auto.
  - rewrite Z.mul_comm, Z.div_mul; lia.
  - rewrite Z.add_comm, Z.mul_comm, Z.div_add by lia. auto.
Qed.
