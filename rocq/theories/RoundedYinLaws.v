(** * YIN in floating point: periodic, whole-number, silent and scaled windows *)
From Coq Require Import Reals ZArith List Lia Lra Psatz.
From Flocq Require Import Core.
From Verif Require Import Base BaseFacts SpecBase SpecMat BigSum MatFacts SpecFeatures LpcMore Yin SpecYin YinFacts Binary64 Rounded SpecRounded RoundedFacts RoundedWindows
  RoundedYin SpecRoundedYin RoundedYinFacts RoundedYinMore.
Import ListNotations.
Local Open Scope R_scope.

(** ** the curve at a period *)
Section Period.
Context (E : Env) (u eta : R).
Hypothesis Ha : accurate u eta (@rnd E).
Context (d d' : nat -> R) (p : nat) (eps th : R).
Hypothesis Hp : (1 <= p)%nat.
Hypothesis He : 0 <= eps.
Hypothesis Hd : forall k, 0 <= d k.
Hypothesis Hdp : d p = 0.
Hypothesis Hn : forall k, (1 <= k <= S p)%nat -> Rabs (d' k - d k) <= eps.
Hypothesis Hpow : (1 + u) ^ p <= 5 / 4.
Hypothesis Hth : 0 < th <= 1.
Hypothesis Het : 100 * eta <= th.
Hypothesis Hs : 4 * INR p * (eps + eta) < th * yin_sum d p.

Lemma period_facts : 0 <= u <= 1 / 4 /\ 0 <= eta /\ 1 <= INR p /\ 0 < yin_sum d p /\
  0.4375 * yin_sum d p < @running E (fun v => d' (S v)) p /\
  Rabs (@rnd E (d' p * INR p)) <= 5 / 4 * (INR p * (eps + eta)).
Proof.
  destruct Ha as (U & T & Hr).
  assert (P1 : 1 <= INR p) by (change 1 with (INR 1); apply le_INR; exact Hp).
  assert (U4 : u <= 1 / 4) by (pose proof (pow_u_le u 1 p U Hp) as K; lra).
  assert (M0 : 0 <= INR p * (eps + eta)) by (apply Rmult_le_pos; lra).
  assert (S0 : 0 < yin_sum d p).
  { apply Rnot_le_lt. intros K. pose proof (Rmult_le_compat_l th _ 0 ltac:(lra) K) as K2. rewrite Rmult_0_r in K2. lra. }
  assert (TS : th * yin_sum d p <= yin_sum d p) by (rewrite <- (Rmult_1_l (yin_sum d p)) at 2; apply Rmult_le_compat_r; lra).
  split; [lra|]. split; [exact T|]. split; [exact P1|]. split; [exact S0|]. split.
  - pose proof (running_error E u eta Ha (fun v => d' (S v)) (fun v => d (S v)) p (fun _ => eps) (fun _ => He)
      (fun j Hj => Hn (S j) ltac:(lia))) as K. cbv beta zeta in K.
    rewrite (bigsum_ext p (fun j => Rabs (d (S j))) (fun j => d (S j))) in K by (intros; apply Rabs_pos_eq, Hd).
    rewrite bigsum_const in K. fold (yin_sum d p) in K. apply Rabs_le_inv in K. destruct K as [K _].
    pose proof (pow_u1 u p U) as Q1. set (Q := (1 + u) ^ p) in *.
    assert ((Q - 1) * (yin_sum d p + INR p * eps) <= (5 / 4 - 1) * (yin_sum d p + INR p * eps)).
    { apply Rmult_le_compat_r; [|lra]. assert (0 <= INR p * eps) by (apply Rmult_le_pos; lra). lra. }
    assert (INR p * Q * eta <= INR p * (5 / 4) * eta).
    { apply Rmult_le_compat_r; [exact T|]. apply Rmult_le_compat_l; lra. }
    lra.
  - specialize (Hn p ltac:(lia)). rewrite Hdp, Rminus_0_r in Hn. specialize (Hr (d' p * INR p)).
    assert (K : Rabs (d' p * INR p) <= INR p * eps).
    { rewrite Rabs_mult, (Rabs_pos_eq (INR p)) by lra. rewrite Rmult_comm. apply Rmult_le_compat_l; lra. }
    assert (K2 : u * Rabs (d' p * INR p) <= 1 / 4 * (INR p * eps)).
    { apply Rmult_le_compat; try lra. apply Rabs_pos. }
    replace (rnd (d' p * INR p)) with ((rnd (d' p * INR p) - d' p * INR p) + d' p * INR p) by ring.
    eapply Rle_trans; [apply Rabs_triang|].
    assert (eta <= INR p * eta) by (rewrite <- (Rmult_1_l eta) at 1; apply Rmult_le_compat_r; lra). lra.
Qed.

Lemma period_below : fltb (@curve_of E d' p) (Fin th) = true.
Proof.
  destruct period_facts as (U & T & P1 & S0 & RR & NN).
  unfold curve_of. destruct (Nat.eqb_spec p 0); [lia|].
  set (q := @running E (fun v => d' (S v)) p) in *. set (m := @rnd E (d' p * INR p)) in *. clearbody q m.
  rewrite fdiv_Fin by lra. cbn [rounded fltb]. apply Rltb_true.
  assert (q0 : 0 < q) by lra.
  assert (B : Rabs (m / q) <= 0.72 * th).
  { unfold Rdiv at 1. rewrite Rabs_mult, (Rabs_pos_eq (/ q)) by (left; apply Rinv_0_lt_compat; lra).
    apply Rmult_le_reg_r with q; [lra|]. rewrite Rmult_assoc, Rinv_l, Rmult_1_r by lra.
    assert (th * (0.4375 * yin_sum d p) <= th * q) by (apply Rmult_le_compat_l; lra).
    assert (0 <= th * q) by (apply Rmult_le_pos; lra). lra. }
  destruct Ha as (_ & _ & Hr). specialize (Hr (m / q)). apply Rabs_le_inv in Hr.
  assert (u * Rabs (m / q) <= 1 / 4 * Rabs (m / q)) by (apply Rmult_le_compat_r; [apply Rabs_pos|lra]).
  pose proof (Rle_abs (m / q)). lra.
Qed.

(** the curve does not fall after the period if the next difference stands out of the noise *)
Lemma period_rises : monotone (@rnd E) -> d (S p) <= yin_sum d p -> 12 * (eps + eta) <= d (S p) ->
  fltb (@curve_of E d' (S p)) (@curve_of E d' p) = false.
Proof.
  intros Hm Hle Hbig. destruct period_facts as (U & T & P1 & S0 & RR & NN).
  unfold curve_of. destruct (Nat.eqb_spec (S p) 0); [lia|]. destruct (Nat.eqb_spec p 0); [lia|].
  destruct p as [|p0] eqn:Ep; [lia|]. rewrite <- Ep in *.
  assert (Er : @running E (fun v => d' (S v)) (S p) = @rnd E (@running E (fun v => d' (S v)) p + d' (S p))) by (rewrite Ep; reflexivity).
  set (q := @running E (fun v => d' (S v)) p) in *. set (q' := @running E (fun v => d' (S v)) (S p)) in *.
  set (m := @rnd E (d' p * INR p)) in *. set (m' := @rnd E (d' (S p) * INR (S p))) in *.
  specialize (Hn (S p) ltac:(lia)). apply Rabs_le_inv in Hn.
  destruct Ha as (_ & _ & Hr).
  assert (M0 : 0 <= INR p * (eps + eta)) by (apply Rmult_le_pos; lra).
  assert (TS : th * yin_sum d p <= yin_sum d p) by (rewrite <- (Rmult_1_l (yin_sum d p)) at 2; apply Rmult_le_compat_r; lra).
  assert (EE : eps + eta <= INR p * (eps + eta)) by (rewrite <- (Rmult_1_l (eps + eta)) at 1; apply Rmult_le_compat_r; lra).
  assert (Q' : 0 < q' <= 5.5 * q).
  { pose proof (Hr (q + d' (S p))) as K. rewrite <- Er in K. apply Rabs_le_inv in K.
    rewrite (Rabs_pos_eq (q + d' (S p))) in K by lra.
    assert (u * (q + d' (S p)) <= 1 / 4 * (q + d' (S p))) by (apply Rmult_le_compat_r; lra).
    split; lra. }
  assert (B1 : 3 / 4 * (11 * (INR p * (eps + eta))) - eta <= m').
  { pose proof (Hr (d' (S p) * INR (S p))) as K. fold m' in K. apply Rabs_le_inv in K.
    assert (G : 11 * (eps + eta) <= d' (S p)) by lra.
    assert (G2 : 11 * (eps + eta) * INR p <= d' (S p) * INR (S p)).
    { apply Rmult_le_compat; try lra. rewrite S_INR. lra. }
    rewrite (Rabs_pos_eq (d' (S p) * INR (S p))) in K by lra.
    assert (u * (d' (S p) * INR (S p)) <= 1 / 4 * (d' (S p) * INR (S p))) by (apply Rmult_le_compat_r; lra). lra. }
  clearbody q q' m m'. rewrite !fdiv_Fin by lra. cbn [rounded fltb]. apply Rltb_false.
  apply Hm.
  apply Rmult_le_reg_r with (q * q'); [apply Rmult_lt_0_compat; lra|].
  replace (m / q * (q * q')) with (m * q') by (field; lra). replace (m' / q' * (q * q')) with (m' * q) by (field; lra).
  apply Rabs_le_inv in NN.
  apply Rle_trans with (5 / 4 * (INR p * (eps + eta)) * (5.5 * q)).
  - apply Rle_trans with (5 / 4 * (INR p * (eps + eta)) * q'); [apply Rmult_le_compat_r; lra|apply Rmult_le_compat_l; lra].
  - replace (5 / 4 * (INR p * (eps + eta)) * (5.5 * q)) with (6.875 * (INR p * (eps + eta)) * q) by lra.
    apply Rmult_le_compat_r; [lra|]. lra.
Qed.
End Period.

Lemma next_difference : forall L f p, (1 <= p)%nat -> (forall t, (t + p < L)%nat -> f (t + p)%nat = f t) ->
  yin_d L f (S p) <= yin_sum (yin_d L f) p.
Proof.
  intros L f p Hp Hf. apply Rle_trans with (yin_d L f 1).
  - unfold yin_d. destruct (Nat.le_gt_cases (S p) L) as [K|K].
    + rewrite (bigsum_ext (L - S p) _ (fun j => (f j - f (j + 1)%nat) ^ 2)).
      * replace (L - 1)%nat with ((L - S p) + p)%nat by lia. rewrite bigsum_split.
        match goal with |- _ <= _ + ?b => assert (0 <= b) by (apply bigsum_nonneg; intros; apply pow2_ge_0) end. lra.
      * intros j Hj. replace (j + S p)%nat with (j + 1 + p)%nat by lia. rewrite Hf by lia. reflexivity.
    + replace (L - S p)%nat with O by lia. cbn [bigsum]. apply bigsum_nonneg. intros. apply pow2_ge_0.
  - unfold yin_sum. apply (bigsum_ge_term p (fun v => yin_d L f (S v)) 0); [intros; apply yin_d_nonneg|lia].
Qed.

Lemma window_energy_ext : forall L f g, (forall t, (t < L)%nat -> f t = g t) -> window_energy L f = window_energy L g.
Proof. intros L f g H. apply bigsum_ext. intros. rewrite H by assumption. reflexivity. Qed.
Lemma yin_d_ext : forall L f g k, (forall t, (t < L)%nat -> f t = g t) -> yin_d L f k = yin_d L g k.
Proof. intros L f g k H. apply bigsum_ext. intros. rewrite !H by lia. reflexivity. Qed.
Lemma noise_nonneg : forall u eta delta L e, 0 <= u -> 0 <= eta -> 0 <= delta -> 0 <= e -> 0 <= yin_noise u eta delta L e.
Proof.
  intros u eta delta L e U T D He. unfold yin_noise. pose proof (pow_u1 u (L + 4) U). pose proof (pow_u1 u 2 U). pose proof (pos_INR L).
  assert (1 <= (1 + u) ^ 2 * (1 + delta)) by (rewrite <- (Rmult_1_l 1) at 1; apply Rmult_le_compat; lra).
  apply Rplus_le_le_0_compat; repeat apply Rmult_le_pos; lra.
Qed.

Lemma yin_of_periodic : forall (E : Env) u eta delta conv N x fs wl wh low high th L hop lo T p,
  accurate u eta (@rnd E) -> conv_within delta eta conv -> (1 + u) ^ p <= 5 / 4 ->
  yin_config fs wl wh low high L hop lo T -> (S T <= L)%nat -> (1 <= lo <= p)%nat -> (p <= T)%nat -> 0 < th <= 1 -> 100 * eta <= th ->
  forall P H A tm, @compute_yin_of E conv (map x (seq 0 N)) fs wl wh low high th = Ok (P, H, A, tm) ->
  forall i, (i < yin_frames N L hop)%nat -> let f := yin_x hop x i in
  (forall t, (t + p < L)%nat -> f (t + p)%nat = f t) ->
  let noise := yin_noise u eta delta L (window_energy L f) in
  4 * INR p * (noise + eta) < th * yin_sum (yin_d L f) p ->
  exists q, (lo <= q <= T)%nat /\ nth i P NaN = Fin (@rnd E (IZR fs / INR q)) /\
    (monotone (@rnd E) -> ((S p <= T)%nat -> 12 * (noise + eta) <= yin_d L f (S p)) -> (q <= p)%nat).
Proof.
  intros E u eta delta conv N x fs wl wh low high th L hop lo T p Ha Hconv Hpow Hc HL Hlo Hp Hth Het P0 H0 A0 tm0 Hy i Hi f Hf noise Hs.
  destruct (yin_of_ok E conv N x fs wl wh low high th L hop lo T Hc HL) as (P & H & A & tm & E1 & E2).
  rewrite E1 in Hy. apply Ok_inj in Hy. injection Hy as <- _ _ _. rewrite !nth_map_seq by auto.
  destruct (E2 i Hi) as (_ & Hq). cbv zeta in *. unfold window_curve in Hq.
  set (g := window_fun L hop x i) in *. set (d' := @difference_of E conv L g) in *.
  assert (Efg : forall t, (t < L)%nat -> g t = f t) by (intros; apply window_fun_in; assumption).
  assert (Nn : 0 <= noise).
  { apply noise_nonneg; try apply Ha; [apply Hconv|apply squares_nonneg]. }
  assert (Hn : forall k, (1 <= k <= S p)%nat -> Rabs (d' k - yin_d L f k) <= noise).
  { intros k Hk. rewrite <- (yin_d_ext L g f) by exact Efg. unfold noise. rewrite <- (window_energy_ext L g f) by exact Efg.
    apply difference_error; [exact Ha|exact Hconv|lia]. }
  assert (Hdp : yin_d L f p = 0) by (apply bigsum_zero; intros j Hj; rewrite Hf by lia; ring).
  assert (Hv : fltb (@curve_of E d' p) (Fin th) = true).
  { apply (period_below E u eta Ha (yin_d L f) d' p noise th); auto; try lia. intros; apply yin_d_nonneg. }
  destruct Hq as [(s & q & Hl & Hq & EP & _)|([Hun|(s & Hl)] & _)].
  - destruct Hl as (B1 & B2 & B3 & B4 & B5 & B6). exists q. split; [lia|]. split; [exact EP|]. intros Hm Hnext.
    destruct (Nat.le_gt_cases q p) as [K|K]; [exact K|exfalso].
    assert (s <= p)%nat. { destruct (Nat.le_gt_cases s p) as [K1|K1]; [exact K1|exfalso]. rewrite B4 in Hv by lia. discriminate. }
    specialize (B5 p ltac:(lia)).
    rewrite (period_rises E u eta Ha (yin_d L f) d' p noise th) in B5; auto; try lia; try discriminate.
    + intros; apply yin_d_nonneg.
    + apply next_difference; [lia|exact Hf].
    + apply Hnext. lia.
  - exfalso. rewrite Hun in Hv by lia. discriminate.
  - exfalso. destruct Hl as (B1 & _). lia.
Qed.
