(** * Facts: the recursions of pncc.py in floating point and their sensitivity *)
From Coq Require Import Reals ZArith List Lia Lra.
From Flocq Require Import Core.
From Verif Require Import Base SpecBase SpecMat SpecFeatures BigSum MatFacts Binary64 Rounded SpecRounded RoundedFacts RoundedLaws
  SpecPncc Pncc PnccFacts RoundedPncc.
Local Open Scope R_scope.

(** ** one step of the filter is a contraction in the old output and 1-Lipschitz overall *)
Lemma asym_step_lip : forall la lb k o o' q q' d e, 0 <= la <= k -> 0 <= lb <= k -> k <= 1 ->
  Rabs (o - o') <= d -> Rabs (q - q') <= e -> Rabs (asym_step la lb o q - asym_step la lb o' q')
  <= Rmax (la * d + (1 - la) * e) (lb * d + (1 - lb) * e).
Proof.
  intros la lb k o o' q q' d e Ha Hb Hk Ho Hq.
  apply Rabs_le_inv in Ho. apply Rabs_le_inv in Hq.
  assert (same : forall t, 0 <= t <= 1 -> - (t * d + (1 - t) * e) <= t * o + (1 - t) * q - (t * o' + (1 - t) * q') <= t * d + (1 - t) * e).
  { intros t Ht. assert (t * - d <= t * (o - o') <= t * d) by (split; apply Rmult_le_compat_l; lra).
    assert ((1 - t) * - e <= (1 - t) * (q - q') <= (1 - t) * e) by (split; apply Rmult_le_compat_l; lra). lra. }
  pose proof (same la ltac:(lra)) as Sa. pose proof (same lb ltac:(lra)) as Sb.
  pose proof (Rmax_l (la * d + (1 - la) * e) (lb * d + (1 - lb) * e)).
  pose proof (Rmax_r (la * d + (1 - la) * e) (lb * d + (1 - lb) * e)).
  apply Rabs_le. unfold asym_step.
  destruct (Rle_dec o q) as [H1|H1], (Rle_dec o' q') as [H2|H2]; try lra.
  (* different branches: the value with the other coefficient is on the other side *)
  - apply Rnot_le_lt in H2.
    destruct (Rle_dec la lb) as [K|K].
    + assert (0 <= (lb - la) * (q - o)) by (apply Rmult_le_pos; lra).
      assert (0 <= (lb - la) * (o' - q')) by (apply Rmult_le_pos; lra). lra.
    + apply Rnot_le_lt in K.
      assert (0 <= (la - lb) * (q - o)) by (apply Rmult_le_pos; lra).
      assert (0 <= (la - lb) * (o' - q')) by (apply Rmult_le_pos; lra). lra.
  - apply Rnot_le_lt in H1.
    destruct (Rle_dec la lb) as [K|K].
    + assert (0 <= (lb - la) * (o - q)) by (apply Rmult_le_pos; lra).
      assert (0 <= (lb - la) * (q' - o')) by (apply Rmult_le_pos; lra). lra.
    + apply Rnot_le_lt in K.
      assert (0 <= (la - lb) * (o - q)) by (apply Rmult_le_pos; lra).
      assert (0 <= (la - lb) * (q' - o')) by (apply Rmult_le_pos; lra). lra.
Qed.

Lemma asymR_lip : forall la lb i i' x x' d m, 0 <= la <= 1 -> 0 <= lb <= 1 ->
  Rabs (i - i') <= d -> (forall j, (j <= m)%nat -> Rabs (x j - x' j) <= d) ->
  Rabs (asymR la lb i x m - asymR la lb i' x' m) <= d.
Proof.
  intros la lb i i' x x' d m Ha Hb Hi Hx.
  assert (St : forall o o' q q', Rabs (o - o') <= d -> Rabs (q - q') <= d -> Rabs (asym_step la lb o q - asym_step la lb o' q') <= d).
  { intros. eapply Rle_trans; [apply (asym_step_lip la lb 1 o o' q q' d d); auto; lra|].
    apply Rmax_lub; lra. }
  induction m as [|m IH]; cbn [asymR]; apply St; auto.
Qed.

(** ** rounding errors of a step *)
Section Step.
  Context {E : Env}.
  Variables (u eta : R).
  Hypothesis Ha : accurate u eta rnd.
  Let G : R := (1 + u) ^ 3 - 1.
  Let loss (B : R) : R := (1 + u) * (2 * eta + (1 + u) * eta * B) + eta.

  Lemma half_step : forall t o q A B, 0 <= t <= 1 -> Rabs o <= A -> Rabs q <= A -> Rabs q <= B ->
    Rabs (rnd (rnd (t * o) + rnd (rnd (1 - t) * q)) - (t * o + (1 - t) * q)) <= G * A + loss B.
  Proof.
    intros t o q A B Ht Ho Hq HB. destruct Ha as (Hu & He & Hr).
    set (r1 := rnd (t * o)). set (c := rnd (1 - t)). set (r2 := rnd (c * q)).
    pose proof (Hr (t * o)) as E1. fold r1 in E1. rewrite Rabs_mult, (Rabs_pos_eq t) in E1 by lra.
    pose proof (Hr (1 - t)) as E2. fold c in E2. rewrite (Rabs_pos_eq (1 - t)) in E2 by lra.
    pose proof (Hr (c * q)) as E3. fold r2 in E3. rewrite Rabs_mult in E3.
    pose proof (Hr (r1 + r2)) as E4.
    pose proof (Rabs_pos o). pose proof (Rabs_pos q).
    assert (Hc : Rabs c <= (1 + u) * (1 - t) + eta).
    { replace c with ((c - (1 - t)) + (1 - t)) by ring. eapply Rle_trans; [apply Rabs_triang|]. rewrite (Rabs_pos_eq (1 - t)) by lra. lra. }
    assert (D2 : Rabs (r2 - (1 - t) * q) <= ((1 + u) ^ 2 - 1) * ((1 - t) * Rabs q) + ((1 + u) * eta * B + eta)).
    { replace (r2 - (1 - t) * q) with ((r2 - c * q) + (c - (1 - t)) * q) by ring.
      eapply Rle_trans; [apply Rabs_triang|]. rewrite Rabs_mult.
      assert (Rabs c * Rabs q <= ((1 + u) * (1 - t) + eta) * Rabs q) by (apply Rmult_le_compat_r; auto).
      assert (u * (Rabs c * Rabs q) <= u * (((1 + u) * (1 - t) + eta) * Rabs q)) by (apply Rmult_le_compat_l; auto).
      assert (Rabs (c - (1 - t)) * Rabs q <= (u * (1 - t) + eta) * Rabs q) by (apply Rmult_le_compat_r; auto).
      assert ((1 + u) * eta * Rabs q <= (1 + u) * eta * B) by (apply Rmult_le_compat_l; auto; apply Rmult_le_pos; lra).
      lra. }
    set (s := t * o + (1 - t) * q) in *.
    set (S1 := t * Rabs o + (1 - t) * Rabs q).
    assert (HS : 0 <= S1 <= A).
    { unfold S1. split; [apply Rplus_le_le_0_compat; apply Rmult_le_pos; lra|].
      assert (t * Rabs o <= t * A) by (apply Rmult_le_compat_l; lra).
      assert ((1 - t) * Rabs q <= (1 - t) * A) by (apply Rmult_le_compat_l; lra). lra. }
    assert (Hs : Rabs s <= S1).
    { unfold s, S1. eapply Rle_trans; [apply Rabs_triang|]. rewrite !Rabs_mult, (Rabs_pos_eq t), (Rabs_pos_eq (1 - t)) by lra. lra. }
    assert (D3 : Rabs (r1 + r2 - s) <= ((1 + u) ^ 2 - 1) * S1 + (2 * eta + (1 + u) * eta * B)).
    { replace (r1 + r2 - s) with ((r1 - t * o) + (r2 - (1 - t) * q)) by (unfold s; ring).
      eapply Rle_trans; [apply Rabs_triang|]. unfold S1.
      assert (0 <= t * Rabs o) by (apply Rmult_le_pos; lra).
      assert (u * (t * Rabs o) <= ((1 + u) ^ 2 - 1) * (t * Rabs o)) by (apply Rmult_le_compat_r; [assumption|nra]). lra. }
    replace (rnd (r1 + r2) - s) with ((rnd (r1 + r2) - (r1 + r2)) + (r1 + r2 - s)) by ring.
    eapply Rle_trans; [apply Rabs_triang|].
    assert (D4 : Rabs (r1 + r2) <= S1 + Rabs (r1 + r2 - s)).
    { replace (r1 + r2) with (s + (r1 + r2 - s)) at 1 by ring. eapply Rle_trans; [apply Rabs_triang|]. lra. }
    assert (u * Rabs (r1 + r2) <= u * (S1 + Rabs (r1 + r2 - s))) by (apply Rmult_le_compat_l; auto).
    assert ((1 + u) * Rabs (r1 + r2 - s) <= (1 + u) * (((1 + u) ^ 2 - 1) * S1 + (2 * eta + (1 + u) * eta * B))) by (apply Rmult_le_compat_l; lra).
    assert (G * S1 <= G * A). { apply Rmult_le_compat_l; [|lra]. unfold G. pose proof (pow_u_ge1 u 3 Hu). lra. }
    assert (G * S1 = u * S1 + (1 + u) * (((1 + u) ^ 2 - 1) * S1)) by (unfold G; ring).
    unfold loss. lra.
  Qed.

  Lemma step_error : forall la lb o q A B, 0 <= la <= 1 -> 0 <= lb <= 1 -> Rabs o <= A -> Rabs q <= A -> Rabs q <= B ->
    Rabs (asym_step_of la lb o q - asym_step la lb o q) <= G * A + loss B.
  Proof.
    intros. unfold asym_step_of, asym_step. destruct (Rle_dec o q); apply half_step; auto.
  Qed.

  (** the error of the whole recursion, for every number of frames *)
  Lemma asym_error : forall n la lb k x B m, 0 <= la <= k -> 0 <= lb <= k -> k + G < 1 ->
    (forall i, (i <= m)%nat -> 0 <= x i <= B) ->
    Rabs (asym_of n la lb x m - asymR la lb (asym_init n (x 0%nat)) x m) <= (G * B + loss B) / (1 - k - G).
  Proof.
    intros n la lb k x B m Hla Hlb HG Hx.
    pose proof Ha as (Hu & He & Hr).
    assert (HG0 : 0 <= G) by (unfold G; pose proof (pow_u_ge1 u 3 Hu); lra).
    assert (HB : 0 <= B) by (pose proof (Hx 0%nat ltac:(lia)); lra).
    assert (Hl : 0 <= loss B).
    { unfold loss. apply Rplus_le_le_0_compat; [|lra]. apply Rmult_le_pos; [lra|].
      apply Rplus_le_le_0_compat; [lra|]. apply Rmult_le_pos; [apply Rmult_le_pos|]; lra. }
    set (D := (G * B + loss B) / (1 - k - G)).
    assert (HD : k * D + (G * (B + D) + loss B) = D) by (unfold D; field; lra).
    assert (HD0 : 0 <= D).
    { unfold D. apply Rmult_le_pos; [apply Rplus_le_le_0_compat; [apply Rmult_le_pos; lra|lra]|].
      apply Rlt_le, Rinv_0_lt_compat. lra. }
    assert (HGD : G * B + loss B <= D).
    { assert (0 <= k * D) by (apply Rmult_le_pos; lra). assert (0 <= G * D) by (apply Rmult_le_pos; lra). lra. }
    assert (St : forall o o' q, 0 <= q <= B -> 0 <= o' <= B -> Rabs (o - o') <= D ->
      Rabs (asym_step_of la lb o q - asym_step la lb o' q) <= D).
    { intros o o' q Hq Ho' Ho.
      replace (asym_step_of la lb o q - asym_step la lb o' q)
        with ((asym_step_of la lb o q - asym_step la lb o q) + (asym_step la lb o q - asym_step la lb o' q)) by ring.
      eapply Rle_trans; [apply Rabs_triang|]. apply Rle_trans with (k * D + (G * (B + D) + loss B)); [|lra].
      rewrite Rplus_comm. apply Rplus_le_compat.
      - eapply Rle_trans; [apply (asym_step_lip la lb k o o' q q D 0); try lra|].
        + replace (q - q) with 0 by ring. rewrite Rabs_R0. lra.
        + apply Rmax_lub; rewrite Rmult_0_r, Rplus_0_r; apply Rmult_le_compat_r; lra.
      - apply step_error; try lra.
        + replace o with ((o - o') + o') by ring. eapply Rle_trans; [apply Rabs_triang|]. rewrite (Rabs_pos_eq o') by lra. lra.
        + rewrite Rabs_pos_eq; lra.
        + rewrite Rabs_pos_eq; lra. }
    assert (Hi : 0 <= asym_init n (x 0%nat) <= B).
    { unfold asym_init. pose proof (Hx 0%nat ltac:(lia)). destruct (Nat.eqb n 1); lra. }
    induction m as [|m IH]; cbn [asym_of asymR].
    - apply St; auto. unfold asym_init. pose proof (Hx 0%nat ltac:(lia)) as H0. destruct (Nat.eqb n 1).
      + (* 0.9 * x(0): two roundings *)
        eapply Rle_trans; [|exact HGD].
        pose proof (Hr 0.9) as E1. rewrite (Rabs_pos_eq 0.9) in E1 by lra.
        pose proof (Hr (rnd 0.9 * x 0%nat)) as E2. rewrite Rabs_mult, (Rabs_pos_eq (x 0%nat)) in E2 by lra.
        assert (Hc : Rabs (rnd 0.9) <= 0.9 * (1 + u) + eta).
        { replace (rnd 0.9) with ((rnd 0.9 - 0.9) + 0.9) by ring. eapply Rle_trans; [apply Rabs_triang|]. rewrite (Rabs_pos_eq 0.9) by lra. lra. }
        replace (rnd (rnd 0.9 * x 0%nat) - 0.9 * x 0%nat)
          with ((rnd (rnd 0.9 * x 0%nat) - rnd 0.9 * x 0%nat) + (rnd 0.9 - 0.9) * x 0%nat) by ring.
        eapply Rle_trans; [apply Rabs_triang|]. rewrite (Rabs_mult (rnd 0.9 - 0.9)), (Rabs_pos_eq (x 0%nat)) by lra.
        assert (Rabs (rnd 0.9) * x 0%nat <= (0.9 * (1 + u) + eta) * x 0%nat) by (apply Rmult_le_compat_r; lra).
        assert (u * (Rabs (rnd 0.9) * x 0%nat) <= u * ((0.9 * (1 + u) + eta) * x 0%nat)) by (apply Rmult_le_compat_l; lra).
        assert (Rabs (rnd 0.9 - 0.9) * x 0%nat <= (u * 0.9 + eta) * x 0%nat) by (apply Rmult_le_compat_r; lra).
        set (X := x 0%nat) in *.
        assert (P1 : 0.9 * ((1 + u) ^ 2 - 1) * X <= G * B).
        { unfold G. apply Rmult_le_compat; [|lra| |lra].
          - apply Rmult_le_pos; [lra|]. pose proof (pow_u_ge1 u 2 Hu). lra.
          - pose proof (pow_u_ge1 u 2 Hu). assert ((1 + u) ^ 3 = (1 + u) ^ 2 + u * (1 + u) ^ 2) by ring.
            assert (0 <= u * (1 + u) ^ 2) by (apply Rmult_le_pos; lra). lra. }
        assert (P2 : (1 + u) * (eta * X) + eta <= loss B).
        { unfold loss. assert (K0 : 0 <= (1 + u) * eta) by (apply Rmult_le_pos; lra).
          assert (K1 : (1 + u) * eta * X <= (1 + u) * eta * B) by (apply Rmult_le_compat_l; lra).
          assert (K2 : 0 <= (1 + u) * eta * B) by (apply Rmult_le_pos; lra).
          assert (K3 : 0 <= u * ((1 + u) * eta * B)) by (apply Rmult_le_pos; lra). lra. }
        lra.
      + rewrite Rminus_0_r, Rabs_R0. exact HD0.
    - apply St; [apply Hx; lia| |apply IH; intros; apply Hx; lia].
      apply asymR_bounds; try lra; auto; intros; apply Hx; lia.
  Qed.

  (** ** the decaying peak *)
  Lemma peakR_range : forall lam x B m, 0 <= lam <= 1 -> (forall i, (i <= m)%nat -> 0 <= x i <= B) -> 0 <= peakR lam x m <= B.
  Proof.
    intros lam x B m Hl Hx. induction m as [|m IH]; cbn [peakR]; [apply Hx; lia|].
    pose proof (IH ltac:(intros; apply Hx; lia)) as HI. pose proof (Hx (S m) ltac:(lia)) as HS.
    assert (0 <= lam * peakR lam x m <= 1 * B) by (split; [apply Rmult_le_pos; lra|apply Rmult_le_compat; lra]).
    unfold Rmax. destruct (Rle_dec _ _); lra.
  Qed.
  Lemma Rmax_lip : forall a b c d, Rabs (a - b) <= d -> 0 <= d -> Rabs (Rmax a c - Rmax b c) <= d.
  Proof.
    intros a b c d H Hd. apply Rabs_le_inv in H. apply Rabs_le. unfold Rmax.
    destruct (Rle_dec a c), (Rle_dec b c); lra.
  Qed.
  Lemma decay_error : forall lam p p' B D, 0 <= lam -> Rabs (p - p') <= D -> 0 <= p' <= B ->
    Rabs (rnd (lam * p) - lam * p') <= lam * D + (u * (lam * (B + D)) + eta).
  Proof.
    intros lam p p' B D Hl Hp Hp'. destruct Ha as (Hu & He & Hr).
    replace (rnd (lam * p) - lam * p') with ((rnd (lam * p) - lam * p) + lam * (p - p')) by ring.
    eapply Rle_trans; [apply Rabs_triang|]. rewrite (Rabs_mult lam (p - p')), (Rabs_pos_eq lam) by lra.
    rewrite Rplus_comm. apply Rplus_le_compat; [apply Rmult_le_compat_l; lra|].
    eapply Rle_trans; [apply Hr|]. apply Rplus_le_compat_r. apply Rmult_le_compat_l; [lra|].
    rewrite Rabs_mult, (Rabs_pos_eq lam) by lra. apply Rmult_le_compat_l; [lra|].
    replace p with ((p - p') + p') by ring. eapply Rle_trans; [apply Rabs_triang|]. rewrite (Rabs_pos_eq p') by lra. lra.
  Qed.
  Let bound lam B := (u * B + eta) / (1 - lam - u).
  Lemma bound_eq : forall lam B, lam + u < 1 -> 0 <= lam -> 0 <= B -> 0 <= bound lam B /\
    forall t, 0 <= t <= lam -> t * bound lam B + (u * (t * (B + bound lam B)) + eta) <= bound lam B.
  Proof.
    intros lam B H Hl HB. destruct Ha as (Hu & He & _).
    assert (D0 : 0 <= bound lam B).
    { unfold bound. apply Rmult_le_pos; [apply Rplus_le_le_0_compat; [apply Rmult_le_pos|]; lra|]. apply Rlt_le, Rinv_0_lt_compat. lra. }
    split; [exact D0|]. intros t Ht.
    assert (Eq : lam * bound lam B + u * bound lam B + u * B + eta = bound lam B) by (unfold bound; field; lra).
    set (D := bound lam B) in *.
    assert (t * D <= lam * D) by (apply Rmult_le_compat_r; lra).
    assert (t * (B + D) <= 1 * (B + D)) by (apply Rmult_le_compat_r; lra).
    assert (u * (t * (B + D)) <= u * (1 * (B + D))) by (apply Rmult_le_compat_l; lra). lra.
  Qed.
  Lemma peak_error : forall lam x B m, 0 <= lam -> lam + u < 1 -> (forall i, (i <= m)%nat -> 0 <= x i <= B) ->
    Rabs (peak_of lam x m - peakR lam x m) <= bound lam B.
  Proof.
    intros lam x B m Hl H Hx. pose proof Ha as (Hu & He & _).
    assert (HB : 0 <= B) by (pose proof (Hx 0%nat ltac:(lia)); lra).
    destruct (bound_eq lam B H Hl HB) as [D0 Hb].
    induction m as [|m IH]; cbn [peak_of peakR].
    - replace (x 0%nat - x 0%nat) with 0 by ring. rewrite Rabs_R0. exact D0.
    - apply Rmax_lip; [|exact D0]. eapply Rle_trans; [|apply (Hb lam); lra].
      apply decay_error; [lra|apply IH; intros; apply Hx; lia|]. apply peakR_range; [lra|]. intros; apply Hx; lia.
  Qed.
  (** away from the switching point the masked value is right *)
  Lemma mask_error : forall lam mu x B m, 0 <= mu <= lam -> lam + u < 1 -> (forall i, (i <= S m)%nat -> 0 <= x i <= B) ->
    bound lam B < Rabs (x (S m) - lam * peakR lam x m) ->
    Rabs (mask_of lam mu x (S m) - maskR lam mu x (S m)) <= bound lam B.
  Proof.
    intros lam mu x B m Hm H Hx Hgap. pose proof Ha as (Hu & He & _).
    assert (HB : 0 <= B) by (pose proof (Hx 0%nat ltac:(lia)); lra).
    destruct (bound_eq lam B H ltac:(lra) HB) as [D0 Hb].
    assert (Hx' : forall i, (i <= m)%nat -> 0 <= x i <= B) by (intros; apply Hx; lia).
    assert (Hp : 0 <= peakR lam x m <= B) by (apply peakR_range; [lra|exact Hx']).
    pose proof (peak_error lam x B m ltac:(lra) H Hx') as Hpe.
    assert (De : forall t, 0 <= t <= lam -> Rabs (rnd (t * peak_of lam x m) - t * peakR lam x m) <= bound lam B).
    { intros t Ht. eapply Rle_trans; [apply (decay_error t _ _ B (bound lam B)); auto; lra|]. apply Hb. exact Ht. }
    cbn [mask_of maskR]. pose proof (De lam ltac:(lra)) as Dl. apply Rabs_le_inv in Dl.
    destruct (Rle_dec (rnd (lam * peak_of lam x m)) (x (S m))) as [K1|K1], (Rle_dec (lam * peakR lam x m) (x (S m))) as [K2|K2].
    - replace (x (S m) - x (S m)) with 0 by ring. rewrite Rabs_R0. exact D0.
    - exfalso. apply Rnot_le_lt in K2. rewrite Rabs_left in Hgap by lra. lra.
    - exfalso. apply Rnot_le_lt in K1. rewrite Rabs_pos_eq in Hgap by lra. lra.
    - apply De. lra.
  Qed.
End Step.

(** ** signs *)
Section Sign.
  Context {E : Env}.
  Hypothesis Hm : monotone rnd.
  Hypothesis H0 : rnd 0 = 0.
  Lemma rnd_nonneg : forall v, 0 <= v -> 0 <= rnd v.
  Proof. intros v Hv. rewrite <- H0. apply Hm. exact Hv. Qed.
  Lemma asym_nonneg : forall n la lb x m, 0 <= la <= 1 -> 0 <= lb <= 1 -> (forall i, (i <= m)%nat -> 0 <= x i) ->
    0 <= asym_of n la lb x m.
  Proof.
    intros n la lb x m Ha Hb Hx.
    assert (St : forall o q, 0 <= o -> 0 <= q -> 0 <= asym_step_of la lb o q).
    { intros o q Ho Hq. unfold asym_step_of.
      assert (K : forall t, 0 <= t <= 1 -> 0 <= rnd (rnd (t * o) + rnd (rnd (1 - t) * q))).
      { intros t Ht. apply rnd_nonneg. apply Rplus_le_le_0_compat; apply rnd_nonneg; apply Rmult_le_pos; try lra.
        apply rnd_nonneg. lra. }
      destruct (Rle_dec o q); apply K; assumption. }
    induction m as [|m IH]; cbn [asym_of]; apply St.
    - destruct (Nat.eqb n 1); [|lra]. apply rnd_nonneg, Rmult_le_pos; [apply rnd_nonneg; lra|apply Hx; lia].
    - apply Hx. lia.
    - apply IH. intros; apply Hx; lia.
    - apply Hx. lia.
  Qed.
  Lemma peak_nonneg : forall lam x m, (forall i, (i <= m)%nat -> 0 <= x i) -> 0 <= peak_of lam x m.
  Proof.
    intros lam x m Hx. destruct m as [|m]; cbn [peak_of]; [apply Hx; lia|].
    eapply Rle_trans; [apply (Hx (S m)); lia|apply Rmax_r].
  Qed.
  Lemma mask_nonneg : forall lam mu x m, 0 <= mu -> (forall i, (i <= m)%nat -> 0 <= x i) -> 0 <= mask_of lam mu x m.
  Proof.
    intros lam mu x m Hu Hx. destruct m as [|m]; cbn [mask_of]; [apply Hx; lia|].
    destruct (Rle_dec _ _); [apply Hx; lia|]. apply rnd_nonneg, Rmult_le_pos; [exact Hu|]. apply peak_nonneg. intros; apply Hx; lia.
  Qed.
  Lemma rectified_nonneg : forall n t x m, 0 <= t -> 0 <= rectified_of n t x m.
  Proof. intros n t x m Ht. unfold rectified_of. destruct (Rlt_dec _ _); lra. Qed.
  Lemma suppressed_nonneg : forall n t x m, rnd 1 = 1 -> 0 <= t -> 0 <= suppressed_of n t x m.
  Proof.
    intros n t x m H1 Ht. unfold suppressed_of.
    assert (C : forall c, 0 <= c <= 1 -> 0 <= rnd c <= 1).
    { intros c Hc. split; [apply rnd_nonneg; lra|]. apply Rle_trans with (rnd 1); [apply Hm; lra|lra]. }
    destruct (Rle_dec _ _).
    - apply mask_nonneg; [apply C; lra|]. intros. apply rectified_nonneg. exact Ht.
    - apply asym_nonneg; try (apply C; lra). intros. apply rectified_nonneg. exact Ht.
  Qed.
End Sign.

(** ** mean power *)
Lemma myu_bounds : forall (E : Env) u lam L T mu m, accurate u 0 (@rnd E) -> u <= 1 -> 0 <= lam <= 1 -> (1 <= L)%nat ->
  (forall i l, 0 <= T i l) -> mu 0%nat = 0.0001 ->
  (forall i, mu (S i) = lam * mu i + (1 - lam) * (bigsum L (T (S i)) / INR L)) ->
  0 <= mu m /\ (1 - u) ^ (2 * m + L + 4) * mu m <= @myu_of E lam L T m <= (1 + u) ^ (2 * m + L + 4) * mu m.
Proof.
  intros E u lam L T mu m Ha Hu Hl HL HT M0 MS. pose proof Ha as (Hu0 & _ & _).
  assert (HLp : 0 < INR L) by (apply lt_0_INR; lia).
  assert (Sn : forall i, 0 <= bigsum L (T i)) by (intros; apply bigsum_nonneg; auto).
  assert (prod : forall a b x y c d, 0 <= a -> 0 <= b -> (1 - u) ^ c * a <= x <= (1 + u) ^ c * a -> (1 - u) ^ d * b <= y <= (1 + u) ^ d * b ->
    (1 - u) ^ (c + d) * (a * b) <= x * y <= (1 + u) ^ (c + d) * (a * b)).
  { intros a b x y c d Ha0 Hb0 Hx Hy. rewrite !pow_add.
    assert (0 <= (1 - u) ^ c) by (apply pow_le; lra). assert (0 <= (1 - u) ^ d) by (apply pow_le; lra).
    assert (0 <= (1 - u) ^ c * a) by (apply Rmult_le_pos; auto). assert (0 <= (1 - u) ^ d * b) by (apply Rmult_le_pos; auto).
    split.
    - replace ((1 - u) ^ c * (1 - u) ^ d * (a * b)) with (((1 - u) ^ c * a) * ((1 - u) ^ d * b)) by ring. apply Rmult_le_compat; lra.
    - replace ((1 + u) ^ c * (1 + u) ^ d * (a * b)) with (((1 + u) ^ c * a) * ((1 + u) ^ d * b)) by ring. apply Rmult_le_compat; lra. }
  induction m as [|m [IHp IH]]; cbn [myu_of].
  - rewrite M0. split; [lra|]. apply bounds_widen with 1%nat; try lra; [lia|].
    pose proof (relative_bounds (@rnd E) u 0.0001 Ha Hu ltac:(lra)). cbn [pow]. lra.
  - rewrite MS.
    assert (P1 : 0 <= lam * mu m) by (apply Rmult_le_pos; lra).
    assert (P2 : 0 <= (1 - lam) / INR L) by (apply Rmult_le_pos; [lra|apply Rlt_le, Rinv_0_lt_compat; lra]).
    assert (P3 : 0 <= (1 - lam) / INR L * bigsum L (T (S m))) by (apply Rmult_le_pos; auto).
    replace ((1 - lam) * (bigsum L (T (S m)) / INR L)) with ((1 - lam) / INR L * bigsum L (T (S m))) by (field; lra).
    split; [lra|].
    assert (A1 : (1 - u) ^ (S (2 * m + L + 4)) * (lam * mu m) <= @rnd E (lam * @myu_of E lam L T m) <= (1 + u) ^ (S (2 * m + L + 4)) * (lam * mu m)).
    { apply bounds_step; auto. pose proof (prod lam (mu m) lam (@myu_of E lam L T m) 0%nat (2 * m + L + 4)%nat ltac:(lra) IHp) as K.
      cbn [pow Nat.add] in K. rewrite !Rmult_1_l in K. apply K; [lra|exact IH]. }
    assert (A2 : (1 - u) ^ 2 * ((1 - lam) / INR L) <= @rnd E (@rnd E (1 - lam) / INR L) <= (1 + u) ^ 2 * ((1 - lam) / INR L)).
    { apply (bounds_step (@rnd E) u _ _ 1); auto. pose proof (relative_bounds (@rnd E) u (1 - lam) Ha Hu ltac:(lra)) as K.
      cbn [pow]. rewrite !Rmult_1_r. unfold Rdiv. rewrite <- !Rmult_assoc.
      assert (0 <= / INR L) by (apply Rlt_le, Rinv_0_lt_compat; lra). split; apply Rmult_le_compat_r; lra. }
    assert (A3 : (1 - u) ^ L * bigsum L (T (S m)) <= @lin_run E (T (S m)) (sum_left L) <= (1 + u) ^ L * bigsum L (T (S m))).
    { pose proof (sum_left_program L) as Pr.
      pose proof (additive_bounds E u (T (S m)) (T (S m)) (sum_left L) 0 Ha Hu
        (dot_additive _ _ _ (fun _ => Rle_0_1) Pr) (HT (S m)) ltac:(intros; cbn [pow]; lra)) as K.
      rewrite (dot_exact _ _ _ _ Pr) in K. rewrite Nat.add_0_r in K.
      assert (EqS : bigsum L (fun k => 1 * T (S m) k) = bigsum L (T (S m))) by (apply bigsum_ext; intros; ring).
      rewrite EqS in K.
      apply (bounds_widen u _ _ (lin_depth (sum_left L))); [lra|apply Sn|apply (dot_depth _ _ _ Pr)|exact K]. }
    assert (A4 : (1 - u) ^ (S (2 + L)) * ((1 - lam) / INR L * bigsum L (T (S m)))
        <= @rnd E (@rnd E (@rnd E (1 - lam) / INR L) * @lin_run E (T (S m)) (sum_left L))
        <= (1 + u) ^ (S (2 + L)) * ((1 - lam) / INR L * bigsum L (T (S m)))).
    { apply bounds_step; auto. }
    apply (bounds_widen u _ _ (S (S (2 * m + L + 4)))); try lra; [lia|].
    apply bounds_step; [exact Ha|exact Hu|lra|].
    apply (bounds_widen u _ _ _ (S (2 * m + L + 4))) in A4; [|lra|lra|lia].
    rewrite !Rmult_plus_distr_l. lra.
Qed.
Lemma normalised_bounds : forall (E : Env) u lam L k T mu m l, accurate u 0 (@rnd E) -> u < 1 -> 0 < lam <= 1 -> (1 <= L)%nat -> 0 <= k ->
  (forall i l, 0 <= T i l) -> mu 0%nat = 0.0001 ->
  (forall i, mu (S i) = lam * mu i + (1 - lam) * (bigsum L (T (S i)) / INR L)) ->
  (1 - u) ^ 2 / (1 + u) ^ (2 * m + L + 4) * (k * T m l / mu m) <= @normalised_of E lam L k T m l
  <= (1 + u) ^ 2 / (1 - u) ^ (2 * m + L + 4) * (k * T m l / mu m).
Proof.
  intros E u lam L k T mu m l Ha Hu Hl HL Hk HT M0 MS. pose proof Ha as (Hu0 & _ & _).
  assert (Mp : forall i, 0 < mu i).
  { intros i. induction i as [|i IH]; [lra|]. rewrite MS.
    assert (0 < lam * mu i) by (apply Rmult_lt_0_compat; lra).
    assert (0 <= (1 - lam) * (bigsum L (T (S i)) / INR L)).
    { apply Rmult_le_pos; [lra|]. apply Rmult_le_pos; [apply bigsum_nonneg; auto|]. apply Rlt_le, Rinv_0_lt_compat, lt_0_INR. lia. }
    lra. }
  destruct (myu_bounds E u lam L T mu m Ha ltac:(lra) ltac:(lra) HL HT M0 MS) as [_ [Hlo Hhi]].
  set (d := (2 * m + L + 4)%nat) in *. pose proof (Mp m) as Hm.
  assert (0 < (1 - u) ^ d) by (apply pow_lt; lra). assert (0 < (1 + u) ^ d) by (apply pow_lt; lra).
  assert (Lp : 0 < (1 - u) ^ d * mu m) by (apply Rmult_lt_0_compat; lra).
  assert (Kp : 0 <= k * T m l) by (apply Rmult_le_pos; auto).
  pose proof (relative_bounds (@rnd E) u (k * T m l) Ha ltac:(lra) Kp) as [A1 A2].
  unfold normalised_of.
  set (v := @rnd E (k * T m l) / @myu_of E lam L T m).
  assert (Np : 0 <= @rnd E (k * T m l)) by (eapply Rle_trans; [|exact A1]; apply Rmult_le_pos; lra).
  assert (Hv : (1 - u) * (k * T m l) / ((1 + u) ^ d * mu m) <= v <= (1 + u) * (k * T m l) / ((1 - u) ^ d * mu m)).
  { unfold v, Rdiv. split; apply Rmult_le_compat; auto.
    - apply Rmult_le_pos; lra.
    - apply Rlt_le, Rinv_0_lt_compat, Rmult_lt_0_compat; lra.
    - apply Rinv_le_contravar; lra.
    - apply Rlt_le, Rinv_0_lt_compat. lra.
    - apply Rinv_le_contravar; lra. }
  assert (Vp : 0 <= v).
  { unfold v. apply Rmult_le_pos; auto. apply Rlt_le, Rinv_0_lt_compat. lra. }
  pose proof (relative_bounds (@rnd E) u v Ha ltac:(lra) Vp) as [B1 B2].
  split.
  - eapply Rle_trans; [|exact B1]. eapply Rle_trans; [|apply Rmult_le_compat_l; [lra|exact (proj1 Hv)]]. apply Req_le. field. lra.
  - eapply Rle_trans; [exact B2|]. eapply Rle_trans; [apply Rmult_le_compat_l; [lra|exact (proj2 Hv)]|]. apply Req_le. field. lra.
Qed.
