(** * Facts: normalize_ceps in floating point *)
From Coq Require Import Reals ZArith List String Bool Lia Lra Psatz Permutation.
From Coquelicot Require Rcomplements.
From Verif Require Import Base BaseFacts SpecBase SpecMat SpecFilters BigSum MatFacts Preprocessing Cepstral CepstralFacts
  Rounded SpecRounded RoundedFacts RoundedLaws StabilityFacts RoundedNormal SpecRoundedNormal Features Extractors SpecOptions OptionFacts.
Import ListNotations.
Local Open Scope R_scope.

Section Float.
Context (E : Env) (u : R).
Hypothesis Ha : accurate u 0 (@rnd E).
Hypothesis Hu1 : u <= 1.

Lemma u0 : 0 <= u.
Proof. exact (proj1 Ha). Qed.
Lemma rnd_near : forall v e p, Rabs (v - e) <= p -> Rabs (@rnd E v - e) <= (1 + u) * p + u * Rabs e.
Proof.
  intros v e p H. destruct Ha as (Hu & _ & Hr). specialize (Hr v). rewrite Rplus_0_r in Hr.
  assert (Hv : Rabs v <= Rabs e + p).
  { replace v with (e + (v - e)) by ring. eapply Rle_trans; [apply Rabs_triang|]. lra. }
  pose proof (Rmult_le_compat_l _ _ _ Hu Hv).
  replace (@rnd E v - e) with ((@rnd E v - v) + (v - e)) by ring. eapply Rle_trans; [apply Rabs_triang|]. lra.
Qed.

Lemma mean_near : forall s n x M, (0 < n)%nat -> sums n s -> (forall k, (k < n)%nat -> Rabs (x k) <= M) ->
  Rabs (@mean_of E s n x - bigsum n x / INR n) <= ((1 + u) ^ (n + 1) - 1) * M.
Proof.
  intros s n x M Hn Hs Hx. pose proof u0 as Hu. assert (P : 0 < INR n) by (apply lt_0_INR, Hn).
  assert (HM : 0 <= M) by (eapply Rle_trans; [apply Rabs_pos|apply (Hx 0%nat Hn)]).
  pose proof (lin_error E u 0 x s Ha) as K. rewrite Rmult_0_r, Rplus_0_r in K.
  rewrite (dot_exact _ _ _ x Hs), (dot_size _ _ _ x Hs) in K.
  rewrite (bigsum_ext n _ x) in K by (intros; ring).
  assert (Sz : bigsum n (fun k => Rabs (1 * x k)) <= INR n * M).
  { rewrite <- bigsum_const. apply bigsum_le. intros k Hk. rewrite Rmult_1_l. apply Hx, Hk. }
  pose proof (pow_u_le u _ n Hu (dot_depth _ _ _ Hs)) as D. pose proof (pow_u_ge1 u (lin_depth s) Hu) as D1.
  assert (K2 : Rabs (@lin_run E x s - bigsum n x) <= ((1 + u) ^ n - 1) * (INR n * M)).
  { eapply Rle_trans; [exact K|]. apply Rmult_le_compat; try lra. apply bigsum_nonneg. intros. apply Rabs_pos. }
  assert (K3 : Rabs (@lin_run E x s / INR n - bigsum n x / INR n) <= ((1 + u) ^ n - 1) * M).
  { replace (@lin_run E x s / INR n - bigsum n x / INR n) with ((@lin_run E x s - bigsum n x) * / INR n) by (field; lra).
    rewrite Rabs_mult, (Rabs_pos_eq (/ INR n)) by (left; apply Rinv_0_lt_compat, P).
    apply (Rmult_le_reg_r (INR n)); [exact P|]. rewrite Rmult_assoc, Rinv_l by lra. lra. }
  assert (B : Rabs (bigsum n x / INR n) <= M).
  { unfold Rdiv. rewrite Rabs_mult, (Rabs_pos_eq (/ INR n)) by (left; apply Rinv_0_lt_compat, P).
    apply (Rmult_le_reg_r (INR n)); [exact P|]. rewrite Rmult_assoc, Rinv_l, Rmult_1_r by lra.
    eapply Rle_trans; [apply bigsum_Rabs|]. rewrite Rmult_comm, <- bigsum_const. apply bigsum_le. exact Hx. }
  unfold mean_of. pose proof (rnd_near _ _ _ K3) as K4. pose proof (Rmult_le_compat_l _ _ _ Hu B).
  rewrite pow_add, pow_1. replace (((1 + u) ^ n * (1 + u) - 1) * M) with ((1 + u) * (((1 + u) ^ n - 1) * M) + u * M) by ring. lra.
Qed.
Lemma mean_small : forall n x M, (0 < n)%nat -> (forall k, (k < n)%nat -> Rabs (x k) <= M) -> Rabs (bigsum n x / INR n) <= M.
Proof.
  intros n x M Hn Hx. assert (P : 0 < INR n) by (apply lt_0_INR, Hn).
  unfold Rdiv. rewrite Rabs_mult, (Rabs_pos_eq (/ INR n)) by (left; apply Rinv_0_lt_compat, P).
  apply (Rmult_le_reg_r (INR n)); [exact P|]. rewrite Rmult_assoc, Rinv_l, Rmult_1_r by lra.
  eapply Rle_trans; [apply bigsum_Rabs|]. rewrite Rmult_comm, <- bigsum_const. apply bigsum_le. exact Hx.
Qed.
Lemma deviation_near : forall s n x M k, (k < n)%nat -> sums n s -> (forall k, (k < n)%nat -> Rabs (x k) <= M) ->
  Rabs (@rnd E (x k - @mean_of E s n x) - (x k - bigsum n x / INR n)) <= dev_error u n M.
Proof.
  intros s n x M k Hk Hs Hx. pose proof u0 as Hu. assert (Hn : (0 < n)%nat) by lia.
  pose proof (mean_near s n x M Hn Hs Hx) as K. pose proof (mean_small n x M Hn Hx) as B. pose proof (Hx k Hk) as B2.
  assert (K1 : Rabs (x k - @mean_of E s n x - (x k - bigsum n x / INR n)) <= ((1 + u) ^ (n + 1) - 1) * M).
  { replace (x k - @mean_of E s n x - (x k - bigsum n x / INR n)) with (- (@mean_of E s n x - bigsum n x / INR n)) by ring.
    rewrite Rabs_Ropp. exact K. }
  pose proof (rnd_near _ _ _ K1) as K2.
  assert (B3 : Rabs (x k - bigsum n x / INR n) <= 2 * M).
  { unfold Rminus. eapply Rle_trans; [apply Rabs_triang|]. rewrite Rabs_Ropp. lra. }
  pose proof (Rmult_le_compat_l _ _ _ Hu B3).
  unfold dev_error. replace (n + 2)%nat with (S (n + 1)) by lia. cbn [pow].
  replace (((1 + u) * (1 + u) ^ (n + 1) - 1 + u) * M) with ((1 + u) * (((1 + u) ^ (n + 1) - 1) * M) + u * (2 * M)) by ring. lra.
Qed.

Lemma pow_minus : forall k, 1 - ((1 + u) ^ k - 1) <= (1 - u) ^ k.
Proof.
  pose proof u0 as Hu.
  assert (L : forall k, 0 <= (1 - u) ^ k <= 1).
  { intros k. split; [apply pow_le; lra|]. eapply Rle_trans; [apply (pow_incr (1 - u) 1); lra|]. rewrite pow1. lra. }
  induction k as [|k IH]; [cbn; lra|]. cbn [pow]. specialize (L k). pose proof (pow_u_ge1 u k Hu).
  set (a := (1 - u) ^ k) in *. set (b := (1 + u) ^ k) in *. clearbody a b.
  assert (u * a <= u * 1) by (apply Rmult_le_compat_l; lra).
  assert (u * 1 <= u * b) by (apply Rmult_le_compat_l; lra). lra.
Qed.
Lemma sqrt_pow_le : forall t k, 1 <= t -> 0 <= k -> sqrt (t * k ^ 2) <= t * k.
Proof.
  intros t k Ht Hk. rewrite <- (sqrt_pow2 (t * k)) by (apply Rmult_le_pos; lra). apply sqrt_le_1_alt.
  replace ((t * k) ^ 2) with (t * (t * k ^ 2)) by ring. pose proof (pow2_ge_0 k).
  rewrite <- (Rmult_1_l (t * k ^ 2)) at 1. apply Rmult_le_compat_r; [apply Rmult_le_pos; lra|lra].
Qed.
Lemma sqrt_pow_ge : forall t k, 0 <= t <= 1 -> 0 <= k -> t * k <= sqrt (t * k ^ 2).
Proof.
  intros t k Ht Hk. rewrite <- (sqrt_pow2 (t * k)) at 1 by (apply Rmult_le_pos; lra). apply sqrt_le_1_alt.
  replace ((t * k) ^ 2) with (t * (t * k ^ 2)) by ring. pose proof (pow2_ge_0 k).
  rewrite <- (Rmult_1_l (t * k ^ 2)) at 2. apply Rmult_le_compat_r; [apply Rmult_le_pos; lra|lra].
Qed.
(** the root of the mean of rounded squares *)
Lemma root_mean_near : forall s n v, (0 < n)%nat -> sums n s ->
  let q := sqrt (bigsum n (fun k => v k ^ 2) / INR n) in
  Rabs (@rnd E (sqrt (@mean_of E s n (fun k => @rnd E (v k * v k)))) - q) <= ((1 + u) ^ (n + 3) - 1) * q.
Proof.
  intros s n v Hn Hs q. pose proof u0 as Hu. assert (P : 0 < INR n) by (apply lt_0_INR, Hn).
  assert (Nn : 0 <= bigsum n (fun k => v k ^ 2) / INR n).
  { apply Rmult_le_pos; [apply bigsum_nonneg; intros; apply pow2_ge_0|left; apply Rinv_0_lt_compat, P]. }
  assert (Q0 : 0 <= q) by apply sqrt_pos. assert (Q2 : q ^ 2 = bigsum n (fun k => v k ^ 2) / INR n) by (apply pow2_sqrt, Nn).
  assert (S1 : (1 - u) ^ (lin_depth s + 1) * bigsum n (fun k => v k ^ 2) <= @lin_run E (fun k => @rnd E (v k * v k)) s
               <= (1 + u) ^ (lin_depth s + 1) * bigsum n (fun k => v k ^ 2)).
  { pose proof (additive_bounds E u (fun k => v k ^ 2) (fun k => @rnd E (v k * v k)) s 1 Ha Hu1
      (dot_additive (fun _ => 1) n s ltac:(intros; lra) Hs) ltac:(intros; apply pow2_ge_0)) as K.
    rewrite (dot_exact _ _ _ _ Hs), (bigsum_ext n _ (fun k => v k ^ 2)) in K by (intros; ring).
    apply K. intros i. cbn beta. rewrite !pow_1. replace (v i ^ 2) with (v i * v i) by ring.
    apply relative_bounds; try assumption. apply Rle_0_sqr. }
  set (T := bigsum n (fun k => v k ^ 2)) in *. set (R0 := @lin_run E _ s) in *.
  assert (T0 : 0 <= T) by (apply bigsum_nonneg; intros; apply pow2_ge_0).
  assert (L1 : forall a b, (a <= b)%nat -> (1 - u) ^ b <= (1 - u) ^ a).
  { intros a b Hab. replace b with (a + (b - a))%nat by lia. rewrite pow_add.
    assert (0 <= (1 - u) ^ a) by (apply pow_le; lra).
    assert ((1 - u) ^ (b - a) <= 1) by (eapply Rle_trans; [apply (pow_incr (1 - u) 1); lra|]; rewrite pow1; lra).
    rewrite <- (Rmult_1_r ((1 - u) ^ a)) at 2. apply Rmult_le_compat_l; lra. }
  pose proof (dot_depth _ _ _ Hs) as D.
  assert (S2 : (1 - u) ^ (n + 1) * q ^ 2 <= R0 / INR n <= (1 + u) ^ (n + 1) * q ^ 2).
  { rewrite Q2. unfold Rdiv. rewrite <- !Rmult_assoc. destruct S1 as [S1 S1'].
    pose proof (L1 (lin_depth s + 1)%nat (n + 1)%nat ltac:(lia)). pose proof (pow_u_le u (lin_depth s + 1) (n + 1) Hu ltac:(lia)).
    split; apply Rmult_le_compat_r; try (left; apply Rinv_0_lt_compat, P).
    - eapply Rle_trans; [|exact S1]. apply Rmult_le_compat_r; assumption.
    - eapply Rle_trans; [exact S1'|]. apply Rmult_le_compat_r; assumption. }
  unfold mean_of. fold R0.
  pose proof (bounds_step (@rnd E) u (R0 / INR n) (q ^ 2) (n + 1) Ha Hu1 (pow2_ge_0 q) S2) as S3.
  replace (S (n + 1)) with (n + 2)%nat in S3 by lia. set (m := @rnd E (R0 / INR n)) in *.
  assert (U : 0 <= (1 - u) ^ (n + 2) <= 1) by (split; [apply pow_le; lra|eapply Rle_trans; [apply (pow_incr (1 - u) 1); lra|]; rewrite pow1; lra]).
  assert (S4 : (1 - u) ^ (n + 2) * q <= sqrt m <= (1 + u) ^ (n + 2) * q).
  { split.
    - eapply Rle_trans; [apply (sqrt_pow_ge _ q U Q0)|]. apply sqrt_le_1_alt. lra.
    - eapply Rle_trans; [apply sqrt_le_1_alt; apply S3|]. apply sqrt_pow_le; [apply pow_u_ge1, Hu|exact Q0]. }
  pose proof (bounds_step (@rnd E) u (sqrt m) q (n + 2) Ha Hu1 Q0 S4) as S5.
  replace (S (n + 2)) with (n + 3)%nat in S5 by lia.
  pose proof (pow_minus (n + 3)) as PM. pose proof (Rmult_le_compat_r _ _ _ Q0 PM).
  apply Rcomplements.Rabs_le_between. lra.
Qed.

Section Matrix.
Variables (r c : nat) (x z : nat -> nat -> R) (d M : R).
Hypotheses (Hr : (0 < r)%nat) (Hc : (0 < c)%nat).
Hypothesis Hd : close r c d x z.
Hypothesis HM : bounded r c M z.
Let n := (r * c)%nat.

Lemma n_pos : (0 < n)%nat.
Proof. unfold n. nia. Qed.
Lemma entries_bound : forall k, (k < n)%nat -> Rabs (entries c z k) <= M.
Proof.
  intros k Hk. unfold entries. apply HM.
  - apply Nat.div_lt_upper_bound; [lia|]. unfold n in Hk. nia.
  - apply Nat.mod_upper_bound. lia.
Qed.
Lemma entries_sum : forall f, bigsum n (entries c f) / INR n = spec_mean r c f.
Proof.
  intros f. unfold spec_mean, n. rewrite mult_INR. f_equal. apply (bigsum_flat' r c f). exact Hc.
Qed.
Lemma std_float_near : forall sa, sums n sa ->
  Rabs (@std_of E sa n (entries c z) - spec_std r c x) <= std_error u n M d (spec_std r c x).
Proof.
  intros sa Hs. pose proof u0 as Hu. pose proof n_pos as Hn. pose proof (d_nonneg r c x z d Hr Hc Hd) as D.
  set (dv := fun k => @rnd E (entries c z k - @mean_of E sa n (entries c z))).
  pose proof (root_mean_near sa n dv Hn Hs) as K. cbv zeta in K.
  change (@rnd E (sqrt (@mean_of E sa n (fun k => @rnd E (dv k * dv k))))) with (@std_of E sa n (entries c z)) in K.
  assert (Er : sqrt (bigsum n (fun k => dv k ^ 2) / INR n) = rms r c (fun i j => dv (i * c + j)%nat)).
  { unfold rms. f_equal. rewrite <- entries_sum. f_equal. apply bigsum_ext. intros k Hk. unfold entries.
    rewrite (Nat.mul_comm (k / c)), <- Nat.div_mod by lia. reflexivity. }
  rewrite Er in K. set (q := rms r c _) in *.
  assert (B : Rabs (q - spec_std r c z) <= dev_error u n M).
  { rewrite std_rms. unfold q. apply rms_near; auto.
    - unfold dev_error. pose proof (pow_u_ge1 u (n + 2) Hu).
      assert (0 <= M) by (eapply Rle_trans; [apply Rabs_pos|apply (HM 0%nat 0%nat); assumption]).
      apply Rmult_le_pos; lra.
    - intros i j Hi Hj. unfold dv.
      pose proof (deviation_near sa n (entries c z) M (i * c + j)%nat ltac:(unfold n; nia) Hs entries_bound) as K1.
      rewrite entries_sum in K1. unfold entries at 1 3 in K1.
      replace ((i * c + j) / c)%nat with i in K1 by (rewrite Nat.div_add_l, Nat.div_small by lia; lia).
      replace ((i * c + j) mod c)%nat with j in K1 by (rewrite Nat.add_comm, Nat.mod_add, Nat.mod_small by lia; reflexivity).
      unfold entries at 1. replace ((i * c + j) / c)%nat with i by (rewrite Nat.div_add_l, Nat.div_small by lia; lia).
      replace ((i * c + j) mod c)%nat with j by (rewrite Nat.add_comm, Nat.mod_add, Nat.mod_small by lia; reflexivity).
      exact K1. }
  pose proof (std_near r c Hr Hc x z d D Hd) as S1.
  apply Rcomplements.Rabs_le_between in K, B, S1. pose proof (pow_u_ge1 u (n + 3) Hu) as P3.
  assert (Q : q <= spec_std r c x + d + dev_error u n M) by lra.
  pose proof (Rmult_le_compat_l ((1 + u) ^ (n + 3) - 1) _ _ ltac:(lra) Q).
  unfold std_error. apply Rcomplements.Rabs_le_between. lra.
Qed.
Lemma ms_float_near : forall sc i j, sums r sc -> (i < r)%nat -> (j < c)%nat ->
  Rabs (@ms_float E sc r z i j - (x i j - cmean r x j)) <= 2 * d + dev_error u r M.
Proof.
  intros sc i j Hs Hi Hj. unfold ms_float, centred.
  pose proof (deviation_near sc r (fun q => z q j) M i Hi Hs ltac:(intros; apply HM; assumption)) as K.
  pose proof (Hd i j Hi Hj) as K1. pose proof (cmean_near r c Hr x z d j Hj Hd) as K2. unfold cmean in *.
  apply Rcomplements.Rabs_le_between in K, K1, K2. apply Rcomplements.Rabs_le_between. lra.
Qed.
Lemma quotient_float : forall a a' s s' p q, 0 <= q -> q < s -> Rabs (a' - a) <= p -> Rabs (s' - s) <= q ->
  Rabs (@rnd E (a' / s') - a / s) <= quotient_error u p q s (a / s).
Proof.
  intros a a' s s' p q Hq Hqs Hp Hs. destruct (quotient_near a a' s s' p q ltac:(lra) Hq Hqs Hp Hs) as [_ K].
  unfold quotient_error. apply rnd_near, K.
Qed.
Lemma std_error_nonneg : 0 <= std_error u n M d (spec_std r c x).
Proof.
  pose proof u0 as Hu. pose proof (d_nonneg r c x z d Hr Hc Hd) as D.
  assert (0 <= M) by (eapply Rle_trans; [apply Rabs_pos|apply (HM 0%nat 0%nat); assumption]).
  assert (0 <= dev_error u n M) by (unfold dev_error; pose proof (pow_u_ge1 u (n + 2) Hu); apply Rmult_le_pos; lra).
  assert (0 <= spec_std r c x) by apply sqrt_pos. pose proof (pow_u_ge1 u (n + 3) Hu).
  assert (0 <= ((1 + u) ^ (n + 3) - 1) * (spec_std r c x + d + dev_error u n M)) by (apply Rmult_le_pos; lra).
  unfold std_error. lra.
Qed.

Theorem ms_float_error : forall sc, sums r sc -> exists y, normalize_ceps (fmat r c x) "ms" = Ok (fmat r c y) /\
  forall i j, (i < r)%nat -> (j < c)%nat -> Rabs (@ms_float E sc r z i j - y i j) <= 2 * d + dev_error u r M.
Proof.
  intros sc Hs. eexists. split; [apply norm_ms; assumption|]. intros i j Hi Hj. cbv beta. apply ms_float_near; assumption.
Qed.
Theorem mvn_float_error : forall sc sa, sums r sc -> sums n sa ->
  let s := spec_std r c x in let q := std_error u n M d s in q < s ->
  exists y, normalize_ceps (fmat r c x) "mvn" = Ok (fmat r c y) /\
  forall i j, (i < r)%nat -> (j < c)%nat ->
    Rabs (@mvn_float E sc sa r c z i j - y i j) <= quotient_error u (2 * d + dev_error u r M) q s (y i j).
Proof.
  intros sc sa Hsc Hsa s q Hq. pose proof std_error_nonneg as Q0. fold s in Q0. fold q in Q0.
  eexists. split; [apply norm_mvn; try assumption; fold s; lra|]. intros i j Hi Hj. cbv beta. fold s.
  apply quotient_float; [exact Q0|exact Hq|apply ms_float_near; assumption|apply std_float_near, Hsa].
Qed.
Theorem vn_float_error : forall sa, sums n sa ->
  let s := spec_std r c x in let q := std_error u n M d s in q < s ->
  exists y, normalize_ceps (fmat r c x) "vn" = Ok (fmat r c y) /\
  forall i j, (i < r)%nat -> (j < c)%nat -> Rabs (@vn_float E sa r c z i j - y i j) <= quotient_error u d q s (y i j).
Proof.
  intros sa Hsa s q Hq. pose proof std_error_nonneg as Q0. fold s in Q0. fold q in Q0.
  eexists. split; [apply norm_vn; try assumption; fold s; lra|]. intros i j Hi Hj. cbv beta. fold s.
  apply quotient_float; [exact Q0|exact Hq|apply Hd; assumption|apply std_float_near, Hsa].
Qed.
Theorem mn_float_error : forall sa mx mn mx' mn', sums n sa -> extremes r c x mx mn -> extremes r c z mx' mn' ->
  let g := mx - mn in let q := (1 + u) * (2 * d) + u * g in q < g ->
  exists y, normalize_ceps (fmat r c x) "mn" = Ok (fmat r c y) /\
  forall i j, (i < r)%nat -> (j < c)%nat ->
    Rabs (@mn_float E sa r c z mx' mn' i j - y i j) <= quotient_error u (2 * d + dev_error u n M) q g (y i j).
Proof.
  intros sa mx mn mx' mn' Hsa (X1 & X2 & X3) (Z1 & Z2 & Z3) g q Hq. pose proof u0 as Hu.
  pose proof (d_nonneg r c x z d Hr Hc Hd) as D.
  destruct X1 as (a1 & b1 & A1 & B1 & <-). destruct X2 as (a2 & b2 & A2 & B2 & <-).
  destruct Z1 as (a3 & b3 & A3 & B3 & <-). destruct Z2 as (a4 & b4 & A4 & B4 & <-).
  assert (G0 : 0 <= g) by (unfold g; pose proof (X3 a1 b1 A1 B1); lra).
  assert (Q0 : 0 <= q) by (unfold q; pose proof (Rmult_le_pos _ _ Hu G0); assert (0 <= (1 + u) * (2 * d)) by (apply Rmult_le_pos; lra); lra).
  assert (N : non_constant r c x) by (exists a1, b1, a2, b2; repeat split; auto; intros Eq; unfold g in *; lra).
  destruct (norm_mn r c x Hr Hc N) as (i1 & j1 & i2 & j2 & I1 & J1 & I2 & J2 & B & L & Eq).
  assert (Eg : x i1 j1 - x i2 j2 = g).
  { unfold g. pose proof (B a1 b1 A1 B1). pose proof (B a2 b2 A2 B2). pose proof (X3 i1 j1 I1 J1). pose proof (X3 i2 j2 I2 J2). lra. }
  rewrite Eg in Eq. eexists. split; [exact Eq|]. intros i j Hi Hj. cbv beta. unfold mn_float. fold n.
  apply quotient_float; [exact Q0|exact Hq| |].
  - pose proof (deviation_near sa n (entries c z) M (i * c + j)%nat ltac:(unfold n; nia) Hsa entries_bound) as K1.
    rewrite entries_sum in K1. unfold entries at 1 3 in K1.
    replace ((i * c + j) / c)%nat with i in K1 by (rewrite Nat.div_add_l, Nat.div_small by lia; lia).
    replace ((i * c + j) mod c)%nat with j in K1 by (rewrite Nat.add_comm, Nat.mod_add, Nat.mod_small by lia; reflexivity).
    pose proof (Hd i j Hi Hj) as K2.
    pose proof (spec_mean_abs r c Hr Hc (fun i j => z i j - x i j) d Hd) as K3. rewrite spec_mean_sub in K3.
    apply Rcomplements.Rabs_le_between in K1, K2, K3. apply Rcomplements.Rabs_le_between. lra.
  - assert (K : Rabs (z a3 b3 - z a4 b4 - g) <= 2 * d).
    { unfold g. pose proof (Z3 a1 b1 A1 B1). pose proof (Z3 a2 b2 A2 B2). pose proof (X3 a3 b3 A3 B3). pose proof (X3 a4 b4 A4 B4).
      pose proof (Hd a1 b1 A1 B1) as D1. pose proof (Hd a2 b2 A2 B2) as D2. pose proof (Hd a3 b3 A3 B3) as D3. pose proof (Hd a4 b4 A4 B4) as D4.
      apply Rcomplements.Rabs_le_between in D1, D2, D3, D4. apply Rcomplements.Rabs_le_between. lra. }
    pose proof (rnd_near _ _ _ K) as K2. rewrite (Rabs_pos_eq g G0) in K2. exact K2.
Qed.
End Matrix.
End Float.

(** ** without rounding *)
Lemma exact_accurate0 : accurate 0 0 (@rnd exact_env).
Proof. split; [lra|]. split; [lra|]. intros x. cbn. replace (x - x) with 0 by ring. rewrite Rabs_R0. lra. Qed.
Lemma dev_error0 : forall n M, dev_error 0 n M = 0.
Proof. intros n M. unfold dev_error. replace (1 + 0) with 1 by ring. rewrite pow1. ring. Qed.
Lemma std_error0 : forall n M s, std_error 0 n M 0 s = 0.
Proof. intros n M s. unfold std_error. rewrite !dev_error0. replace (1 + 0) with 1 by ring. rewrite pow1. ring. Qed.
Lemma quotient_error0 : forall s y, quotient_error 0 0 0 s y = 0.
Proof. intros s y. unfold quotient_error, Rdiv. ring. Qed.
Lemma finite_bound : forall r c x, exists M, bounded r c M x.
Proof.
  intros r c x. exists (bigsum r (fun i => bigsum c (fun j => Rabs (x i j)))). intros i j Hi Hj.
  assert (T : forall n f k, (k < n)%nat -> (forall k, 0 <= f k) -> f k <= bigsum n f).
  { intros n f k Hk Hf. replace n with (S k + (n - S k))%nat by lia. rewrite bigsum_split.
    cbn [bigsum]. pose proof (bigsum_nonneg k f (fun i _ => Hf i)).
    pose proof (bigsum_nonneg (n - S k) (fun i => f (S k + i)%nat) (fun i _ => Hf _)). lra. }
  eapply Rle_trans; [|apply (T r (fun i => bigsum c (fun j => Rabs (x i j))) i Hi)].
  - apply (T c (fun j => Rabs (x i j)) j Hj). intros. apply Rabs_pos.
  - intros. apply bigsum_nonneg. intros. apply Rabs_pos.
Qed.
Lemma close_refl : forall r c x, close r c 0 x x.
Proof. intros r c x i j _ _. replace (x i j - x i j) with 0 by ring. rewrite Rabs_R0. lra. Qed.
Lemma abs_zero : forall a b, Rabs (a - b) <= 0 -> b = a.
Proof. intros a b H. apply Rcomplements.Rabs_le_between in H. lra. Qed.
Section Exact.
Variables (r c : nat) (x : nat -> nat -> R).
Hypotheses (Hr : (0 < r)%nat) (Hc : (0 < c)%nat).
Theorem ms_float_exact : forall sc, sums r sc ->
  normalize_ceps (fmat r c x) "ms" = Ok (fmat r c (@ms_float exact_env sc r x)).
Proof.
  intros sc Hs. destruct (finite_bound r c x) as [M HM].
  destruct (ms_float_error exact_env 0 exact_accurate0 r c x x 0 M Hr Hc (close_refl _ _ _) HM sc Hs) as (y & -> & B).
  f_equal. apply fmat_ext. intros i j Hi Hj. apply abs_zero. specialize (B i j Hi Hj). rewrite dev_error0 in B. lra.
Qed.
Theorem mvn_float_exact : forall sc sa, sums r sc -> sums (r * c) sa -> 0 < spec_std r c x ->
  normalize_ceps (fmat r c x) "mvn" = Ok (fmat r c (@mvn_float exact_env sc sa r c x)).
Proof.
  intros sc sa Hs Ha Hp. destruct (finite_bound r c x) as [M HM].
  destruct (mvn_float_error exact_env 0 exact_accurate0 ltac:(lra) r c x x 0 M Hr Hc (close_refl _ _ _) HM sc sa Hs Ha) as (y & -> & B).
  { rewrite std_error0. exact Hp. }
  f_equal. apply fmat_ext. intros i j Hi Hj. apply abs_zero. specialize (B i j Hi Hj).
  rewrite dev_error0, std_error0, Rmult_0_r, Rplus_0_r, quotient_error0 in B. exact B.
Qed.
Theorem vn_float_exact : forall sa, sums (r * c) sa -> 0 < spec_std r c x ->
  normalize_ceps (fmat r c x) "vn" = Ok (fmat r c (@vn_float exact_env sa r c x)).
Proof.
  intros sa Ha Hp. destruct (finite_bound r c x) as [M HM].
  destruct (vn_float_error exact_env 0 exact_accurate0 ltac:(lra) r c x x 0 M Hr Hc (close_refl _ _ _) HM sa Ha) as (y & -> & B).
  { rewrite std_error0. exact Hp. }
  f_equal. apply fmat_ext. intros i j Hi Hj. apply abs_zero. specialize (B i j Hi Hj).
  rewrite std_error0, quotient_error0 in B. exact B.
Qed.
Theorem mn_float_exact : forall sa mx mn, sums (r * c) sa -> extremes r c x mx mn -> mn < mx ->
  normalize_ceps (fmat r c x) "mn" = Ok (fmat r c (@mn_float exact_env sa r c x mx mn)).
Proof.
  intros sa mx mn Ha Hx Hp. destruct (finite_bound r c x) as [M HM].
  destruct (mn_float_error exact_env 0 exact_accurate0 r c x x 0 M Hr Hc (close_refl _ _ _) HM sa mx mn mx mn Ha Hx Hx) as (y & -> & B).
  { lra. }
  f_equal. apply fmat_ext. intros i j Hi Hj. apply abs_zero. specialize (B i j Hi Hj).
  rewrite dev_error0 in B. replace ((1 + 0) * (2 * 0) + 0 * (mx - mn)) with 0 in B by ring.
  replace (2 * 0 + 0) with 0 in B by ring. rewrite quotient_error0 in B. exact B.
Qed.
End Exact.

(** ** on top of an extractor *)
Theorem run_ms_float : forall (E : Env) u, accurate u 0 (@rnd E) -> forall e sig a c r k x z d M sc,
  c_lifter c = None -> c_normalize c = Some "ms"%string ->
  @run exact_env e sig a (plain_options c) = Ok (fmat r k x) -> (0 < r)%nat -> (0 < k)%nat ->
  close r k d x z -> bounded r k M z -> sums r sc ->
  exists y, @run exact_env e sig a c = Ok (fmat r k y) /\
  forall i j, (i < r)%nat -> (j < k)%nat -> Rabs (@ms_float E sc r z i j - y i j) <= 2 * d + dev_error u r M.
Proof.
  intros E u Hu e sig a c r k x z d M sc Hl Hn Hx Hr Hk Hd HM Hs. rewrite run_options, Hx, Hl, Hn. unfold after. cbn [rbind String.eqb].
  exact (ms_float_error E u Hu r k x z d M Hr Hk Hd HM sc Hs).
Qed.
Theorem run_mvn_float : forall (E : Env) u, accurate u 0 (@rnd E) -> u <= 1 -> forall e sig a c r k x z d M sc sa,
  c_lifter c = None -> c_normalize c = Some "mvn"%string ->
  @run exact_env e sig a (plain_options c) = Ok (fmat r k x) -> (0 < r)%nat -> (0 < k)%nat ->
  close r k d x z -> bounded r k M z -> sums r sc -> sums (r * k) sa ->
  let s := spec_std r k x in let q := std_error u (r * k) M d s in q < s ->
  exists y, @run exact_env e sig a c = Ok (fmat r k y) /\
  forall i j, (i < r)%nat -> (j < k)%nat ->
    Rabs (@mvn_float E sc sa r k z i j - y i j) <= quotient_error u (2 * d + dev_error u r M) q s (y i j).
Proof.
  intros E u Hu H1 e sig a c r k x z d M sc sa Hl Hn Hx Hr Hk Hd HM Hs Hsa s q Hq. rewrite run_options, Hx, Hl, Hn. unfold after. cbn [rbind String.eqb].
  exact (mvn_float_error E u Hu H1 r k x z d M Hr Hk Hd HM sc sa Hs Hsa Hq).
Qed.
