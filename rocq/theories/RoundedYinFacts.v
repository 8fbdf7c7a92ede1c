(** * YIN in floating point: error of the difference function *)
From Coq Require Import Reals ZArith List Lia Lra Psatz.
From Flocq Require Import Core.
From Verif Require Import Base BaseFacts SpecBase BigSum Yin SpecYin YinFacts Rounded SpecRounded RoundedFacts RoundedYin SpecRoundedYin.
Import ListNotations.
Local Open Scope R_scope.

Lemma pow_u1 : forall u n, 0 <= u -> 1 <= (1 + u) ^ n.
Proof. intros u n Hu. apply pow_R1_Rle. lra. Qed.
Lemma pow_u_le : forall u m n, 0 <= u -> (m <= n)%nat -> (1 + u) ^ m <= (1 + u) ^ n.
Proof. intros u m n Hu Hm. apply Rle_pow; [lra|exact Hm]. Qed.

Lemma rnd_step : forall (E : Env) u eta x y A, accurate u eta (@rnd E) -> Rabs (x - y) <= A ->
  Rabs (@rnd E x - y) <= (1 + u) * A + u * Rabs y + eta.
Proof.
  intros E u eta x y A (Hu & He & Hr) HA. specialize (Hr x).
  assert (Rabs x <= Rabs y + A) by (replace x with (y + (x - y)) by ring; eapply Rle_trans; [apply Rabs_triang|lra]).
  replace (rnd x - y) with ((rnd x - x) + (x - y)) by ring.
  eapply Rle_trans; [apply Rabs_triang|]. nra.
Qed.

Section Difference.
Context (E : Env) (u eta : R).
Hypothesis Ha : accurate u eta (@rnd E).
Let Hu : 0 <= u := proj1 Ha.
Let Heta : 0 <= eta := proj1 (proj2 Ha).

(** running sums of numbers known up to an error *)
Lemma running_error : forall v w k (e : nat -> R), (forall j, 0 <= e j) ->
  (forall j, (j < k)%nat -> Rabs (v j - w j) <= e j) ->
  let s := bigsum k (fun j => Rabs (w j)) in let se := bigsum k e in
  Rabs (@running E v k - bigsum k w) <= se + ((1 + u) ^ k - 1) * (s + se) + INR k * (1 + u) ^ k * eta.
Proof.
  pose proof Hu as U. pose proof Heta as T.
  intros v w k. induction k as [|m IH]; intros e He Hv s se.
  - unfold s, se. cbn [running bigsum INR pow]. rewrite Rminus_0_r, Rabs_R0. lra.
  - unfold s, se in *. clear s se. cbv zeta in IH.
    specialize (IH e He (fun j Hj => Hv j (Nat.lt_lt_succ_r _ _ Hj))). rewrite !bigsum_S.
    set (sm := bigsum m (fun j => Rabs (w j))) in *. set (sem := bigsum m e) in *.
    pose proof (pow_u1 u m U) as P1. pose proof (pos_INR m) as PM.
    assert (S0 : 0 <= sm) by (apply bigsum_nonneg; intros; apply Rabs_pos).
    assert (S1 : 0 <= sem) by (apply bigsum_nonneg; intros; apply He).
    pose proof (Rabs_pos (w m)) as W0. specialize (Hv m ltac:(lia)). pose proof (He m) as E0.
    destruct m as [|m'].
    + unfold sm, sem. cbn [running bigsum INR pow]. rewrite !Rplus_0_l, Rmult_1_r. nra.
    + set (m := S m') in *. change (@running E v (S m)) with (@rnd E (@running E v m + v m)).
      assert (K : Rabs (@running E v m + v m - (bigsum m w + w m))
                  <= sem + ((1 + u) ^ m - 1) * (sm + sem) + INR m * (1 + u) ^ m * eta + e m).
      { replace (@running E v m + v m - (bigsum m w + w m)) with ((@running E v m - bigsum m w) + (v m - w m)) by ring.
        eapply Rle_trans; [apply Rabs_triang|]. lra. }
      eapply Rle_trans; [apply (rnd_step E u eta _ _ _ Ha K)|].
      assert (B : Rabs (bigsum m w + w m) <= sm + Rabs (w m)).
      { eapply Rle_trans; [apply Rabs_triang|]. apply Rplus_le_compat_r. apply bigsum_Rabs. }
      rewrite S_INR. cbn [pow]. set (P := (1 + u) ^ m) in *. set (M := INR m) in *. clearbody P M sm sem.
      set (y := Rabs (bigsum m w + w m)) in *. set (z := Rabs (w m)) in *. set (em := e m) in *. clearbody y z em.
      assert (u * y <= u * (sm + z)) by (apply Rmult_le_compat_l; lra).
      assert (0 <= (P - 1) * z) by (apply Rmult_le_pos; lra).
      assert (0 <= u * ((P - 1) * z)) by (apply Rmult_le_pos; lra).
      assert (0 <= (P - 1) * em) by (apply Rmult_le_pos; lra).
      assert (0 <= u * ((P - 1) * em)) by (apply Rmult_le_pos; lra).
      assert (0 <= u * z) by (apply Rmult_le_pos; lra).
      assert (eta <= (1 + u) * P * eta).
      { rewrite <- (Rmult_1_l eta) at 1. apply Rmult_le_compat_r; [lra|]. nra. }
      nra.
Qed.

(** cumulative sums of squares *)
Lemma squares_error : forall x k, let s := bigsum k (fun j => x j * x j) in
  Rabs (@running E (fun t => @rnd E (x t * x t)) k - s) <= ((1 + u) ^ (k + 1) - 1) * s + 2 * INR k * (1 + u) ^ k * eta.
Proof.
  pose proof Hu as U. pose proof Heta as T. intros x k s.
  assert (Q : forall j, 0 <= x j * x j) by (intros; apply Rle_0_sqr).
  pose proof (running_error (fun t => @rnd E (x t * x t)) (fun j => x j * x j) k (fun j => u * (x j * x j) + eta)) as K.
  cbv zeta in K. eapply Rle_trans; [apply K|].
  - intros j. pose proof (Rmult_le_pos _ _ U (Q j)). lra.
  - intros j _. pose proof (proj2 (proj2 Ha) (x j * x j)) as Hr. rewrite (Rabs_pos_eq (x j * x j)) in Hr by apply Q. exact Hr.
  - rewrite (bigsum_ext k (fun j => Rabs (x j * x j)) (fun j => x j * x j)) by (intros; apply Rabs_pos_eq, Q).
    rewrite bigsum_plus, bigsum_scal, bigsum_const. fold s. rewrite Nat.add_1_r. cbn [pow].
    right. ring.
Qed.

Lemma squares_nonneg : forall x k, 0 <= bigsum k (fun j => x j * x j).
Proof. intros. apply bigsum_nonneg. intros. apply Rle_0_sqr. Qed.
Lemma squares_mono : forall x k n, (k <= n)%nat -> bigsum k (fun j => x j * x j) <= bigsum n (fun j => x j * x j).
Proof.
  intros x k n Hk. replace n with (k + (n - k))%nat by lia. rewrite bigsum_split.
  pose proof (bigsum_nonneg (n - k) (fun i => x (k + i)%nat * x (k + i)%nat) (fun i _ => Rle_0_sqr _)). lra.
Qed.
Lemma lag_product_bound : forall x L tau, (tau <= L)%nat -> Rabs (lag_product L x tau) <= window_energy L x.
Proof.
  intros x L tau Ht. unfold lag_product, window_energy. eapply Rle_trans; [apply bigsum_Rabs|].
  apply Rle_trans with (bigsum (L - tau) (fun j => / 2 * (x j * x j) + / 2 * (x (tau + j)%nat * x (tau + j)%nat))).
  - apply bigsum_le. intros j _. rewrite (Nat.add_comm j tau). apply Rabs_le.
    pose proof (Rle_0_sqr (x j - x (tau + j)%nat)). pose proof (Rle_0_sqr (x j + x (tau + j)%nat)). unfold Rsqr in *. split; lra.
  - rewrite bigsum_plus, !bigsum_scal. pose proof (squares_mono x (L - tau) L ltac:(lia)).
    replace L with (tau + (L - tau))%nat at 3 by lia. rewrite bigsum_split.
    pose proof (squares_nonneg x tau).
    pose proof (bigsum_split tau (L - tau) (fun j => x j * x j)) as B. replace (tau + (L - tau))%nat with L in B by lia. lra.
Qed.
Lemma yin_d_split : forall L x tau, (tau <= L)%nat -> yin_d L x tau
  = bigsum (L - tau) (fun j => x j * x j) + (bigsum L (fun j => x j * x j) - bigsum tau (fun j => x j * x j)) - 2 * lag_product L x tau.
Proof.
  intros L x tau Ht. pose proof (bigsum_split tau (L - tau) (fun j => x j * x j)) as B. replace (tau + (L - tau))%nat with L in B by lia.
  rewrite B. unfold yin_d, lag_product. rewrite <- bigsum_scal.
  replace (bigsum tau (fun j => x j * x j) + bigsum (L - tau) (fun i => x (tau + i)%nat * x (tau + i)%nat) - bigsum tau (fun j => x j * x j))
    with (bigsum (L - tau) (fun i => x (tau + i)%nat * x (tau + i)%nat)) by ring.
  rewrite <- bigsum_plus, <- bigsum_minus. apply bigsum_ext. intros j _. rewrite (Nat.add_comm tau j). ring.
Qed.

Lemma difference_error : forall conv delta L x tau, conv_within delta eta conv -> (tau <= L)%nat ->
  Rabs (@difference_of E conv L x tau - yin_d L x tau) <= yin_noise u eta delta L (window_energy L x).
Proof.
  pose proof Hu as U. pose proof Heta as T. intros conv delta L x tau (Hd & Hc) Ht. specialize (Hc L x tau Ht).
  unfold difference_of. rewrite yin_d_split by exact Ht. fold (window_energy L x).
  pose proof (squares_error x L) as C1. pose proof (squares_error x tau) as C2. pose proof (squares_error x (L - tau)) as C3.
  cbv zeta in *. pose proof (squares_mono x tau L Ht) as M1. pose proof (squares_mono x (L - tau) L ltac:(lia)) as M2.
  pose proof (squares_nonneg x tau) as N1. pose proof (squares_nonneg x (L - tau)) as N2.
  pose proof (lag_product_bound x L tau Ht) as B.
  fold (window_energy L x) in *. set (e := window_energy L x) in *.
  set (s1 := bigsum tau (fun j => x j * x j)) in *. set (s2 := bigsum (L - tau) (fun j => x j * x j)) in *.
  set (cs := @running E (fun t => @rnd E (x t * x t))) in *.
  set (P := (1 + u) ^ (L + 1)). assert (P1 : 1 <= P) by (apply pow_u1; exact U).
  assert (W : forall k, (k <= L)%nat -> 2 * INR k * (1 + u) ^ k * eta <= 2 * INR L * P * eta).
  { intros k Hk. apply Rmult_le_compat_r; [exact T|]. pose proof (le_INR k L Hk). pose proof (pos_INR k).
    pose proof (pow_u1 u k U). pose proof (pow_u_le u k (L + 1) U ltac:(lia)). apply Rmult_le_compat; unfold P; lra. }
  assert (V : forall k s, (k <= L)%nat -> 0 <= s -> ((1 + u) ^ (k + 1) - 1) * s <= (P - 1) * s).
  { intros k s Hk Hs. apply Rmult_le_compat_r; [exact Hs|]. pose proof (pow_u_le u (k + 1) (L + 1) U ltac:(lia)). unfold P. lra. }
  pose proof (W tau Ht) as W1. pose proof (W (L - tau)%nat ltac:(lia)) as W2. pose proof (W L ltac:(lia)) as W3.
  pose proof (V tau s1 Ht N1) as V1. pose proof (V (L - tau)%nat s2 ltac:(lia) N2) as V2. fold P in C1.
  set (q := 2 * INR L * P * eta) in *.
  assert (q0 : 0 <= q). { unfold q. repeat apply Rmult_le_pos; try lra. apply pos_INR. }
  assert (K1 : Rabs (cs L - cs tau - (e - s1)) <= (P - 1) * (e + s1) + 2 * q).
  { replace (cs L - cs tau - (e - s1)) with ((cs L - e) - (cs tau - s1)) by ring.
    eapply Rle_trans; [apply Rabs_triang|]. rewrite Rabs_Ropp. lra. }
  apply (rnd_step E u eta _ _ _ Ha) in K1.
  rewrite (Rabs_pos_eq (e - s1)) in K1 by lra.
  assert (K2 : Rabs (cs (L - tau)%nat + @rnd E (cs L - cs tau) - (s2 + (e - s1)))
               <= ((1 + u) * ((P - 1) * (e + s1) + 2 * q) + u * (e - s1) + eta) + ((P - 1) * s2 + q)).
  { replace (cs (L - tau)%nat + @rnd E (cs L - cs tau) - (s2 + (e - s1)))
      with ((cs (L - tau)%nat - s2) + (@rnd E (cs L - cs tau) - (e - s1))) by ring.
    eapply Rle_trans; [apply Rabs_triang|]. lra. }
  apply (rnd_step E u eta _ _ _ Ha) in K2. rewrite (Rabs_pos_eq (s2 + (e - s1))) in K2 by lra.
  assert (K3 : Rabs (2 * conv L x tau - 2 * lag_product L x tau) <= 2 * (delta * e + eta)).
  { rewrite <- Rmult_minus_distr_l, Rabs_mult, (Rabs_pos_eq 2) by lra. lra. }
  apply (rnd_step E u eta _ _ _ Ha) in K3. rewrite Rabs_mult, (Rabs_pos_eq 2) in K3 by lra.
  set (A2 := (1 + u) * ((1 + u) * ((P - 1) * (e + s1) + 2 * q) + u * (e - s1) + eta + ((P - 1) * s2 + q)) + u * (s2 + (e - s1)) + eta) in *.
  set (A3 := (1 + u) * (2 * (delta * e + eta)) + u * (2 * Rabs (lag_product L x tau)) + eta) in *.
  match goal with |- Rabs (rnd (?a - ?b) - _) <= _ => set (va := a) in *; set (vb := b) in * end.
  assert (K4 : Rabs (va - vb - (s2 + (e - s1) - 2 * lag_product L x tau)) <= A2 + A3).
  { replace (va - vb - (s2 + (e - s1) - 2 * lag_product L x tau))
      with ((va - (s2 + (e - s1))) - (vb - 2 * lag_product L x tau)) by ring.
    eapply Rle_trans; [apply Rabs_triang|]. rewrite Rabs_Ropp. lra. }
  apply (rnd_step E u eta _ _ _ Ha) in K4. eapply Rle_trans; [exact K4|].
  assert (K5 : Rabs (s2 + (e - s1) - 2 * lag_product L x tau) <= s2 + (e - s1) + 2 * e).
  { eapply Rle_trans; [apply Rabs_triang|]. rewrite Rabs_Ropp, Rabs_mult, (Rabs_pos_eq 2) by lra.
    rewrite (Rabs_pos_eq (s2 + (e - s1))) by lra. lra. }
  unfold yin_noise. replace (L + 4)%nat with (L + 1 + 3)%nat by lia. rewrite pow_add. fold P.
  assert (A3b : A3 <= (1 + u) * (2 * (delta * e + eta)) + u * (2 * e) + eta).
  { unfold A3. assert (u * Rabs (lag_product L x tau) <= u * e) by (apply Rmult_le_compat_l; lra). lra. }
  set (r := Rabs (s2 + (e - s1) - 2 * lag_product L x tau)) in *. clearbody r A3.
  assert (u * r <= u * (s2 + (e - s1) + 2 * e)) by (apply Rmult_le_compat_l; lra).
  assert ((1 + u) * A3 <= (1 + u) * ((1 + u) * (2 * (delta * e + eta)) + u * (2 * e) + eta)) by (apply Rmult_le_compat_l; lra).
  assert (A2b : A2 <= ((1 + u) ^ 2 * P - 1) * (3 * e) + (1 + u) ^ 2 * (3 * q) + ((1 + u) ^ 2 + 1) * eta).
  { unfold A2.
    assert (0 <= u * s1) by (repeat first [lra | apply Rmult_le_pos]). assert (0 <= u * s2) by (repeat first [lra | apply Rmult_le_pos]). assert (0 <= u * q) by (repeat first [lra | apply Rmult_le_pos]). assert (0 <= u * u) by (repeat first [lra | apply Rmult_le_pos]).
    assert (0 <= u * u * s1) by (repeat first [lra | apply Rmult_le_pos]). assert (0 <= u * u * q) by (repeat first [lra | apply Rmult_le_pos]). assert (0 <= u * eta) by (repeat first [lra | apply Rmult_le_pos]).
    assert (0 <= u * u * eta) by (repeat first [lra | apply Rmult_le_pos]).
    assert (0 <= (e - s1) * (P - 1)) by (repeat first [lra | apply Rmult_le_pos]). assert (0 <= (e - s2) * (P - 1)) by (repeat first [lra | apply Rmult_le_pos]).
    assert (0 <= u * ((e - s1) * (P - 1))) by (repeat first [lra | apply Rmult_le_pos]). assert (0 <= u * ((e - s2) * (P - 1))) by (repeat first [lra | apply Rmult_le_pos]).
    assert (0 <= u * u * ((e - s1) * (P - 1))) by (repeat first [lra | apply Rmult_le_pos]). assert (0 <= u * u * ((e - s2) * (P - 1))) by (repeat first [lra | apply Rmult_le_pos]).
    assert (0 <= u * (e - s1)) by (repeat first [lra | apply Rmult_le_pos]). assert (0 <= u * (e - s2)) by (repeat first [lra | apply Rmult_le_pos]).
    assert (0 <= u * u * (e - s1)) by (repeat first [lra | apply Rmult_le_pos]). assert (0 <= u * u * (e - s2)) by (repeat first [lra | apply Rmult_le_pos]).
    assert (0 <= (P - 1) * e) by (repeat first [lra | apply Rmult_le_pos]). assert (0 <= u * ((P - 1) * e)) by (repeat first [lra | apply Rmult_le_pos]). assert (0 <= u * u * ((P - 1) * e)) by (repeat first [lra | apply Rmult_le_pos]).
    assert (0 <= (P - 1) * s2) by (repeat first [lra | apply Rmult_le_pos]). assert (0 <= u * ((P - 1) * s2)) by (repeat first [lra | apply Rmult_le_pos]). assert (0 <= u * u * ((P - 1) * s2)) by (repeat first [lra | apply Rmult_le_pos]).
    lra. }
  clearbody A2.
  apply Rle_trans with ((1 + u) * (((1 + u) ^ 2 * P - 1) * (3 * e) + (1 + u) ^ 2 * (3 * q) + ((1 + u) ^ 2 + 1) * eta)
     + (1 + u) * ((1 + u) * (2 * (delta * e + eta)) + u * (2 * e) + eta) + u * (s2 + (e - s1) + 2 * e) + eta).
  - assert ((1 + u) * A2 <= (1 + u) * (((1 + u) ^ 2 * P - 1) * (3 * e) + (1 + u) ^ 2 * (3 * q) + ((1 + u) ^ 2 + 1) * eta))
      by (apply Rmult_le_compat_l; lra). lra.
  - unfold q. assert (0 <= u * (2 * e - s2 + s1)) by (apply Rmult_le_pos; lra).
    assert (X : ((1 + u) * ((1 + u) ^ 2 + 1) + (1 + u) + 1 + 2 * (1 + u) ^ 2) * eta <= P * (1 + u) ^ 3 * 6 * eta).
    { apply Rmult_le_compat_r; [exact T|].
      assert (1 <= (1 + u) ^ 3) by (apply (pow_u1 u 3 U)).
      assert ((1 + u) <= (1 + u) ^ 3) by (pose proof (pow_u_le u 1 3 U ltac:(lia)); lra).
      assert (1 * ((1 + u) ^ 3 * 6) <= P * ((1 + u) ^ 3 * 6)) by (apply Rmult_le_compat_r; lra).
      assert ((1 + u) ^ 2 <= (1 + u) ^ 3) by (apply (pow_u_le u 2 3 U); lia).
      simpl pow in *. lra. }
    lra.
Qed.
End Difference.
