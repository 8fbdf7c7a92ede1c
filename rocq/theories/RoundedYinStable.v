(** * YIN in floating point: the decisions of exact arithmetic, away from ties *)
From Coq Require Import Reals ZArith List Lia Lra Psatz.
From Flocq Require Import Core.
From Verif Require Import Base BaseFacts SpecBase SpecMat BigSum MatFacts SpecFeatures LpcMore Yin SpecYin YinFacts Binary64 Rounded SpecRounded
  RoundedFacts RoundedWindows RoundedYin SpecRoundedYin RoundedYinFacts RoundedYinMore RoundedYinLaws RoundedYinCases RoundedYinEnd.
Import ListNotations.
Local Open Scope R_scope.

Lemma yin_sum_mono : forall d m n, (forall k, 0 <= d k) -> (m <= n)%nat -> yin_sum d m <= yin_sum d n.
Proof. intros d m n Hd Hm. induction Hm; [lra|]. unfold yin_sum in *. rewrite bigsum_S. pose proof (Hd (S m0)). lra. Qed.
Lemma yin_sum_term : forall d t, (forall k, 0 <= d k) -> (1 <= t)%nat -> d t <= yin_sum d t.
Proof.
  intros d [|t] Hd Ht; [lia|]. unfold yin_sum. rewrite bigsum_S.
  assert (0 <= bigsum t (fun u => d (S u))) by (apply bigsum_nonneg; intros; apply Hd). lra.
Qed.

Section Curve.
Context (E : Env) (u eta : R).
Hypothesis Ha : accurate u eta (@rnd E).
Context (d d' : nat -> R) (t : nat) (eps r : R).
Hypothesis Ht : (1 <= t)%nat.
Hypothesis He : 0 <= eps.
Hypothesis Hd : forall k, 0 <= d k.
Hypothesis Hn : forall k, (1 <= k <= t)%nat -> Rabs (d' k - d k) <= eps.
Hypothesis Hs : 0 < yin_sum d t.
Hypothesis Hr0 : 0 <= r.
Hypothesis Hr : eps + eta <= r * yin_sum d t.
Hypothesis Hw : INR t * (2 * u + 3 * r) <= 1 / 2.

Lemma curve_error : exists v, @curve_of E d' t = Fin v /\
  Rabs (v - yin_value d t) <= yin_margin u eta r (yin_value d t) t.
Proof.
  destruct Ha as (U & T & HR).
  assert (P1 : 1 <= INR t) by (change 1 with (INR 1); apply le_INR; exact Ht).
  assert (TU : 0 <= INR t * u) by (apply Rmult_le_pos; lra).
  assert (TR : 0 <= INR t * r) by (apply Rmult_le_pos; lra).
  assert (TE : 0 <= INR t * eps) by (apply Rmult_le_pos; lra).
  assert (TT : 0 <= INR t * eta) by (apply Rmult_le_pos; lra).
  pose proof (yin_sum_term d t Hd Ht) as D1. pose proof (Hd t) as D0.
  set (S := yin_sum d t) in *. set (N := INR t) in *.
  assert (TS : N * (eps + eta) <= N * r * S) by (rewrite Rmult_assoc; apply Rmult_le_compat_l; lra).
  assert (W0 : 0 <= N * (2 * u + 3 * r)) by lra.
  set (q := @running E (fun v => d' (Datatypes.S v)) t).
  assert (Q : Rabs (q - S) <= N * (2 * u + 3 * r) * S).
  { pose proof (running_error E u eta Ha (fun v => d' (Datatypes.S v)) (fun v => d (Datatypes.S v)) t (fun _ => eps) (fun _ => He)
      (fun j Hj => Hn (Datatypes.S j) ltac:(lia))) as K. cbv beta zeta in K.
    rewrite (bigsum_ext t (fun j => Rabs (d (Datatypes.S j))) (fun j => d (Datatypes.S j))) in K by (intros; apply Rabs_pos_eq, Hd).
    rewrite bigsum_const in K. fold (yin_sum d t) in K. fold S N q in K. eapply Rle_trans; [exact K|]. clear K.
    pose proof (pow_u1 u t U) as Q1. pose proof (pow_u_small u t U ltac:(fold N; lra)) as Q2. fold N in Q2. set (Pw := (1 + u) ^ t) in *.
    assert (G1 : (Pw - 1) * (S + N * eps) <= 2 * (N * u) * (S + N * eps)) by (apply Rmult_le_compat_r; lra).
    assert (G2 : 2 * (N * u) * (N * eps) <= 1 / 2 * (N * eps)) by (apply Rmult_le_compat_r; lra).
    assert (G3 : Pw * (N * eta) <= 3 / 2 * (N * eta)) by (apply Rmult_le_compat_r; lra).
    assert (0 <= N * r * S) by (apply Rmult_le_pos; lra).
    lra. }
  set (m := @rnd E (d' t * N)).
  assert (M : Rabs (m - N * d t) <= N * (2 * u + 3 * r) * S).
  { specialize (Hn t ltac:(lia)). specialize (HR (d' t * N)). fold m in HR.
    assert (B : Rabs (d' t) <= d t + eps).
    { replace (d' t) with ((d' t - d t) + d t) by ring. eapply Rle_trans; [apply Rabs_triang|]. rewrite (Rabs_pos_eq (d t)) by exact D0. lra. }
    rewrite Rabs_mult, (Rabs_pos_eq N) in HR by lra.
    assert (G1 : N * u * Rabs (d' t) <= N * u * (S + eps)) by (apply Rmult_le_compat_l; lra).
    assert (G2 : N * u * eps <= 1 / 4 * eps) by (apply Rmult_le_compat_r; lra).
    assert (G3 : eta <= N * eta) by (rewrite <- (Rmult_1_l eta) at 1; apply Rmult_le_compat_r; lra).
    assert (G4 : eps <= N * eps) by (rewrite <- (Rmult_1_l eps) at 1; apply Rmult_le_compat_r; lra).
    assert (G5 : Rabs (d' t * N - N * d t) <= N * eps).
    { replace (d' t * N - N * d t) with (N * (d' t - d t)) by ring. rewrite Rabs_mult, (Rabs_pos_eq N) by lra. apply Rmult_le_compat_l; lra. }
    replace (m - N * d t) with ((m - d' t * N) + (d' t * N - N * d t)) by ring. eapply Rle_trans; [apply Rabs_triang|].
    assert (0 <= N * u * S) by (apply Rmult_le_pos; lra).
    assert (0 <= N * r * S) by (apply Rmult_le_pos; lra). lra. }
  set (W := N * (2 * u + 3 * r)) in *.
  assert (Q0 : S / 2 <= q).
  { apply Rabs_le_inv in Q. assert (W * S <= 1 / 2 * S) by (apply Rmult_le_compat_r; lra). lra. }
  unfold curve_of. destruct (Nat.eqb_spec t 0); [lia|]. fold q N m. rewrite fdiv_Fin by lra. cbn [rounded].
  exists (@rnd E (m / q)). split; [reflexivity|]. unfold yin_value, yin_margin. fold S N.
  set (c := d t * N / S).
  assert (C0 : 0 <= c) by (unfold c; apply Rmult_le_pos; [apply Rmult_le_pos; lra|left; apply Rinv_0_lt_compat; lra]).
  assert (CS : c * S = N * d t) by (unfold c; field; lra).
  assert (V : Rabs (m / q - c) <= 2 * W * (1 + c)).
  { replace (m / q - c) with (((m - N * d t) - c * (q - S)) / q) by (rewrite Rmult_minus_distr_l, CS; field; lra).
    unfold Rdiv. rewrite Rabs_mult, (Rabs_pos_eq (/ q)) by (left; apply Rinv_0_lt_compat; lra).
    apply Rmult_le_reg_r with q; [lra|]. rewrite Rmult_assoc, Rinv_l, Rmult_1_r by lra.
    assert (G1 : Rabs (m - N * d t - c * (q - S)) <= W * S + c * (W * S)).
    { unfold Rminus at 1. eapply Rle_trans; [apply Rabs_triang|]. rewrite Rabs_Ropp, Rabs_mult, (Rabs_pos_eq c) by exact C0.
      apply Rplus_le_compat; [exact M|]. apply Rmult_le_compat_l; [exact C0|exact Q]. }
    assert (G2 : W * (1 + c) * (2 * (S / 2)) <= W * (1 + c) * (2 * q)) by (apply Rmult_le_compat_l; [apply Rmult_le_pos; lra|lra]).
    lra. }
  specialize (HR (m / q)).
  assert (X : Rabs (m / q) <= c + (1 + c)).
  { replace (m / q) with ((m / q - c) + c) by ring. eapply Rle_trans; [apply Rabs_triang|]. rewrite (Rabs_pos_eq c) by exact C0.
    assert (2 * W * (1 + c) <= 1 * (1 + c)) by (apply Rmult_le_compat_r; lra). lra. }
  assert (Y : u * Rabs (m / q) <= u * (2 * (1 + c))) by (apply Rmult_le_compat_l; lra).
  assert (Z : u * (2 * (1 + c)) <= N * u * (2 * (1 + c))) by (apply Rmult_le_compat_r; [lra|]; rewrite <- (Rmult_1_l u) at 1; apply Rmult_le_compat_r; lra).
  replace (rnd (m / q) - c) with ((rnd (m / q) - m / q) + (m / q - c)) by ring. eapply Rle_trans; [apply Rabs_triang|].
  unfold W in V. lra.
Qed.
End Curve.

Lemma clear_voiced : forall (c m : nat -> R) (c' : nat -> F) lo hi th s p,
  (forall t, (lo <= t < hi)%nat -> exists v, c' t = Fin v /\ Rabs (v - c t) <= m t) ->
  clear_lag c m lo hi th s p -> yin_lag c' lo hi th s p.
Proof.
  intros c m c' lo hi th s p Hc (B1 & B2 & B3 & B4 & B5 & B6). split; [exact B1|]. split; [exact B2|].
  assert (K : forall t, (lo <= t < hi)%nat -> exists v, c' t = Fin v /\ c t - m t <= v <= c t + m t).
  { intros t Ht. destruct (Hc t Ht) as (v & E & H). exists v. split; [exact E|]. apply Rabs_le_inv in H. lra. }
  split; [destruct (K s) as (v & -> & ?); [lia|]; apply Rltb_true; lra|].
  split; [intros t Ht; specialize (B4 t Ht); destruct (K t) as (v & -> & ?); [lia|]; apply Rltb_false; lra|].
  split.
  - intros t Ht. specialize (B5 t Ht). destruct (K t) as (v & -> & ?); [lia|]. destruct (K (S t)) as (w & -> & ?); [lia|]. apply Rltb_true. lra.
  - intros Hh. specialize (B6 Hh). destruct (K p) as (v & -> & ?); [lia|]. destruct (K (S p)) as (w & -> & ?); [lia|]. apply Rltb_false. lra.
Qed.
Lemma clear_silent : forall (c m : nat -> R) (c' : nat -> F) lo hi th,
  (forall t, (lo <= t < hi)%nat -> exists v, c' t = Fin v /\ Rabs (v - c t) <= m t) ->
  clear_unvoiced c m lo hi th -> yin_unvoiced c' lo hi th.
Proof.
  intros c m c' lo hi th Hc Hu t Ht. specialize (Hu t Ht). destruct (Hc t Ht) as (v & -> & H). apply Rabs_le_inv in H. apply Rltb_false. lra.
Qed.
Lemma yin_curve_within : forall (E : Env) u eta delta conv L hop x i lo T r,
  accurate u eta (@rnd E) -> conv_within delta eta conv -> (S T <= L)%nat -> (1 <= lo)%nat ->
  let d := yin_d L (yin_x hop x i) in
  0 < yin_sum d lo -> yin_noise u eta delta L (window_energy L (yin_x hop x i)) + eta <= r * yin_sum d lo ->
  INR T * (2 * u + 3 * r) <= 1 / 2 ->
  forall t, (lo <= t <= T)%nat -> exists v, @window_curve E conv L hop x i t = Fin v /\
    Rabs (v - yin_value d t) <= yin_margin u eta r (yin_value d t) t.
Proof.
  intros E u eta delta conv L hop x i lo T r Ha Hc HL Hlo d Hs Hr Hw t Ht.
  assert (D0 : forall k, 0 <= d k) by (intros k; apply bigsum_nonneg; intros; apply pow2_ge_0).
  assert (Nn : 0 <= yin_noise u eta delta L (window_energy L (yin_x hop x i))).
  { apply noise_nonneg; try apply Ha; [apply Hc|apply squares_nonneg]. }
  assert (T0 : 0 <= eta) by apply Ha. assert (U0 : 0 <= u) by apply Ha.
  assert (r0 : 0 <= r).
  { apply Rnot_lt_le. intros K. assert (r * yin_sum d lo < 0); [|lra].
    replace 0 with (0 * yin_sum d lo) by ring. apply Rmult_lt_compat_r; assumption. }
  pose proof (yin_sum_mono d lo t D0 ltac:(lia)) as Sm.
  unfold window_curve. apply (curve_error E u eta Ha d _ t (yin_noise u eta delta L (window_energy L (yin_x hop x i))) r); auto; try lia; try lra.
  - intros k Hk. unfold d. rewrite <- (yin_d_ext L (window_fun L hop x i)) by (intros; apply window_fun_in; assumption).
    rewrite <- (window_energy_ext L (window_fun L hop x i)) by (intros; apply window_fun_in; assumption).
    apply difference_error; [exact Ha|exact Hc|lia].
  - eapply Rle_trans; [exact Hr|]. apply Rmult_le_compat_l; lra.
  - eapply Rle_trans; [|exact Hw]. apply Rmult_le_compat_r; [lra|]. apply le_INR. lia.
Qed.
Lemma yin_of_stable : forall (E : Env) u eta delta conv N x fs wl wh low high th L hop lo T r,
  accurate u eta (@rnd E) -> conv_within delta eta conv ->
  yin_config fs wl wh low high L hop lo T -> (S T <= L)%nat -> (1 <= lo)%nat ->
  forall P H A tm, @compute_yin_of E conv (map x (seq 0 N)) fs wl wh low high th = Ok (P, H, A, tm) ->
  forall i, (i < yin_frames N L hop)%nat -> let f := yin_x hop x i in let d := yin_d L f in
  0 < yin_sum d lo -> yin_noise u eta delta L (window_energy L f) + eta <= r * yin_sum d lo ->
  INR T * (2 * u + 3 * r) <= 1 / 2 ->
  let c := yin_value d in let m t := yin_margin u eta r (c t) t in
  (forall s p, clear_lag c m lo (S T) th s p ->
     nth i P NaN = Fin (@rnd E (IZR fs / INR p)) /\ exists h, nth i H NaN = Fin h /\ Rabs (h - c p) <= m p) /\
  (clear_unvoiced c m lo (S T) th -> nth i P NaN = Fin 0).
Proof.
  intros E u eta delta conv N x fs wl wh low high th L hop lo T r Ha Hconv Hc HL Hlo P0 H0 A0 tm0 Hy i Hi f d Hs Hr Hw c m.
  destruct (yin_of_ok E conv N x fs wl wh low high th L hop lo T Hc HL) as (P & H & A & tm & E1 & E2).
  rewrite E1 in Hy. apply Ok_inj in Hy. injection Hy as <- <- _ _. rewrite !nth_map_seq by auto.
  destruct (E2 i Hi) as (_ & Hq). cbv zeta in Hq.
  pose proof (yin_curve_within E u eta delta conv L hop x i lo T r Ha Hconv HL Hlo Hs Hr Hw) as K. cbv zeta in K.
  fold f in K. fold d in K. fold c in K.
  assert (K' : forall t, (lo <= t < S T)%nat -> exists v, @window_curve E conv L hop x i t = Fin v /\ Rabs (v - c t) <= m t).
  { intros t Ht. apply K. lia. }
  split.
  - intros s p Hl. pose proof (clear_voiced c m _ lo (S T) th s p K' Hl) as Hl'.
    destruct Hq as [(s1 & p1 & Hl1 & Hp1 & -> & ->)|([Hq|(s1 & Hl1)] & _)].
    + destruct (yin_lag_unique _ _ _ _ _ _ _ _ Hl' Hl1) as (_ & <-). split; [reflexivity|].
      destruct (K' p) as (v & -> & Hv); [destruct Hl as (? & ? & _); lia|]. exists v. auto.
    + exfalso. exact (yin_lag_voiced _ _ _ _ _ _ Hl' Hq).
    + exfalso. destruct Hl1 as (? & ? & _). lia.
  - intros Hu. pose proof (clear_silent c m _ lo (S T) th K' Hu) as Hu'.
    destruct Hq as [(s1 & p1 & (B1 & B2 & B3 & _) & _)|(_ & -> & _)]; [|reflexivity].
    exfalso. rewrite Hu' in B3 by lia. discriminate.
Qed.

(** ** silence, and an offset that matters *)
Lemma yin_of_silent : forall (E : Env) conv N x fs wl wh low high th L hop lo T,
  @rnd E 0 = 0 -> (forall g tau, (forall t, (t < L)%nat -> g t = 0) -> conv L g tau = 0) ->
  yin_config fs wl wh low high L hop lo T -> (S T <= L)%nat -> (1 <= lo)%nat -> (1 <= T)%nat ->
  forall P H A tm, @compute_yin_of E conv (map x (seq 0 N)) fs wl wh low high th = Ok (P, H, A, tm) ->
  forall i, (i < yin_frames N L hop)%nat -> (forall t, (t < L)%nat -> yin_x hop x i t = 0) ->
  nth i P NaN = Fin 0 /\ nth i H NaN = Fin 1 /\ nth i A NaN = Fin 0.
Proof.
  intros E conv N x fs wl wh low high th L hop lo T R0 Hz Hc HL Hlo HT P H A tm Hy i Hi Hx.
  apply (yin_of_flat E conv N x fs wl wh low high th L hop lo T R0 Hc HL Hlo HT P H A tm Hy i Hi).
  assert (W : forall t, (t < L)%nat -> window_fun L hop x i t = 0) by (intros t Ht; rewrite window_fun_in by exact Ht; apply Hx; exact Ht).
  intros k Hk. unfold difference_of. cbv zeta.
  assert (Z : forall n, (n <= L)%nat -> @running E (fun t => @rnd E (window_fun L hop x i t * window_fun L hop x i t)) n = 0).
  { intros n Hn. apply running_zero; [exact R0|]. intros j Hj. rewrite W by lia. rewrite Rmult_0_l. exact R0. }
  rewrite !Z by lia. rewrite Hz by exact W.
  rewrite Rminus_0_r, R0, Rplus_0_l, R0, Rmult_0_r, R0, Rminus_0_r. exact R0.
Qed.
Lemma best_conv_silent : forall L g tau, (tau <= L)%nat -> (forall t, (t < L)%nat -> g t = 0) -> best_conv rnd64 L g tau = 0.
Proof.
  intros L g tau Ht Hg. unfold best_conv, lag_product. rewrite bigsum_zero; [apply rnd64_0|]. intros j Hj. rewrite Hg by lia. ring.
Qed.
Lemma offset_matters : exists c fs wl wh low high th, rnd64 c = c /\
  forall N, (5 <= N)%nat -> exists P P' H H' A A' tm tm',
  @compute_yin_of binary64 (best_conv rnd64) (map (fun _ => 0) (seq 0 N)) fs wl wh low high th = Ok (P, H, A, tm) /\
  @compute_yin_of binary64 (best_conv rnd64) (map (fun _ => rnd64 (0 + c)) (seq 0 N)) fs wl wh low high th = Ok (P', H', A', tm') /\
  nth 0 P NaN = Fin 0 /\ nth 0 P' NaN = Fin 3.
Proof.
  exists (rnd64 0.1), 6%Z, 0.75, 0.25, 2, 6, 0.1.
  assert (R1 : rnd64 (rnd64 0.1) = rnd64 0.1) by (rewrite tenth_scaled; apply rnd64_id; lia). split; [exact R1|]. intros N HN.
  destruct (yin_of_ok binary64 (best_conv rnd64) N (fun _ => 0) 6 0.75 0.25 2 6 0.1 4 1 1 2 tenth_config ltac:(lia)) as (P & H & A & tm & E1 & _).
  destruct (tenth_voiced N) as (P' & H' & A' & tm' & E2 & Hl & Hf).
  do 8 eexists. split; [exact E1|]. rewrite Rplus_0_l, R1. split; [exact E2|]. split.
  - apply (yin_of_whole_constant N (fun _ => 0%Z) 6 0.75 0.25 2 6 0.1 4 1 1 2 tenth_config ltac:(lia) ltac:(lia) ltac:(lia) _ _ _ _ E1 0%nat 0%Z).
    + unfold yin_frames. rewrite Nat.div_1_r. lia.
    + reflexivity.
    + reflexivity.
  - rewrite Forall_forall in Hf. apply Hf. apply nth_In. lia.
Qed.
