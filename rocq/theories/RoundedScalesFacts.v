(** * Facts: rounding in the Bark and ERB conversions *)
From Coq Require Import Reals ZArith List String Bool Lia Lra Psatz.
From Flocq Require Import Core.
From Verif Require Import Base SpecBase SpecFilters SpecBanks Binary64 Binary64Facts Converters ConvertersFacts Rounded SpecRounded RoundedFacts RoundedBanks RoundedBanksFacts RoundedBanksError RoundedMel RoundedScales SpecRoundedScales.
Local Open Scope R_scope.

(** ** sinh of a slightly wrong argument *)
Lemma exp_up : forall x y, x <= y -> exp x <= exp y.
Proof. intros x y [H|H]; [left; apply exp_increasing, H|rewrite H; lra]. Qed.
Lemma sinh_pos : forall x, 0 <= x -> 0 <= sinh x.
Proof. intros x [H|H]; [rewrite <- sinh_0; left; apply sinh_lt, H|rewrite <- H, sinh_0; lra]. Qed.
Lemma sinh_up : forall x y, x <= y -> sinh x <= sinh y.
Proof. intros x y [H|H]; [left; apply sinh_lt, H|rewrite H; lra]. Qed.
Lemma arcsinh_pos : forall x, 0 <= x -> 0 <= arcsinh x.
Proof. intros x H. rewrite <- arcsinh_0. apply arcsinh_le, H. Qed.
Lemma sinh_more : forall A r, 0 <= A -> 1 <= r -> sinh (r * A) <= r * exp ((r - 1) * A) * sinh A.
Proof.
  intros A r HA Hr. unfold sinh. set (h := (r - 1) * A). assert (H0 : 0 <= h) by (apply Rmult_le_pos; lra).
  replace (r * A) with (A + h) by (unfold h; ring). replace (- (A + h)) with (- A + - h) by ring. rewrite !exp_plus.
  pose proof (exp_pos A) as EA. pose proof (exp_pos h) as Eh. pose proof (exp_pos (- A)) as EN. pose proof (exp_pos (- h)) as EM.
  assert (P1 : exp h * exp (- h) = 1) by (rewrite <- exp_plus, Rplus_opp_r; apply exp_0).
  assert (Q1 : 1 - exp (- h) * exp (- h) <= 2 * h). { rewrite <- exp_plus. pose proof (exp_ineq1_le (- h + - h)). lra. }
  assert (Q2 : exp (- A) * (2 * A) <= exp A - exp (- A)).
  { replace (exp A) with (exp (- A) * exp (2 * A)) by (rewrite <- exp_plus; f_equal; ring). pose proof (exp_ineq1_le (2 * A)).
    assert (exp (- A) * (1 + 2 * A) <= exp (- A) * exp (2 * A)) by (apply Rmult_le_compat_l; lra). lra. }
  assert (K : exp A - exp (- A) * (exp (- h) * exp (- h)) <= r * (exp A - exp (- A))).
  { assert (K1 : exp (- A) * (1 - exp (- h) * exp (- h)) <= exp (- A) * (2 * h)) by (apply Rmult_le_compat_l; lra).
    assert (K2 : (r - 1) * (exp (- A) * (2 * A)) <= (r - 1) * (exp A - exp (- A))) by (apply Rmult_le_compat_l; lra).
    unfold h in K1 at 3. lra. }
  apply Rle_trans with (exp h * (exp A - exp (- A) * (exp (- h) * exp (- h))) / 2).
  - right. replace (exp h * (exp A - exp (- A) * (exp (- h) * exp (- h)))) with (exp A * exp h - exp (- A) * exp (- h) * (exp h * exp (- h))) by ring. rewrite P1. field.
  - apply Rle_trans with (exp h * (r * (exp A - exp (- A))) / 2); [|right; field]. unfold Rdiv. apply Rmult_le_compat_r; [lra|]. apply Rmult_le_compat_l; lra.
Qed.
Lemma sinh_less : forall A r, 0 <= A -> 0 < r <= 1 -> r * exp (- ((1 - r) * A)) * sinh A <= sinh (r * A).
Proof.
  intros A r HA Hr. assert (I1 : 1 <= / r) by (rewrite <- Rinv_1; apply Rinv_le_contravar; lra).
  pose proof (sinh_more (r * A) (/ r) ltac:(apply Rmult_le_pos; lra) I1) as K. replace (/ r * (r * A)) with A in K by (field; lra). replace ((/ r - 1) * (r * A)) with ((1 - r) * A) in K by (field; lra).
  rewrite exp_Ropp. pose proof (exp_pos ((1 - r) * A)) as E. apply Rmult_le_reg_l with (/ r * exp ((1 - r) * A)); [apply Rmult_lt_0_compat; [lra|exact E]|].
  replace (/ r * exp ((1 - r) * A) * (r * / exp ((1 - r) * A) * sinh A)) with (sinh A) by (field; lra). exact K.
Qed.
(** both sides at once *)
Lemma sinh_wrong : forall A r t, 0 <= A -> 0 <= t < 1 -> 1 - t <= r <= 1 + t ->
  (1 - t) * exp (- (t * A)) * sinh A <= sinh (r * A) <= (1 + t) * exp (t * A) * sinh A.
Proof.
  intros A r t HA Ht Hr. pose proof (sinh_pos A HA) as SA. pose proof (exp_pos (t * A)) as ET. pose proof (exp_pos (- (t * A))) as EN.
  assert (T0 : 0 <= t * A) by (apply Rmult_le_pos; lra). split.
  - apply Rle_trans with ((1 - t) * exp (- ((1 - (1 - t)) * A)) * sinh A); [right; do 3 f_equal; ring|].
    eapply Rle_trans; [apply sinh_less; lra|]. apply sinh_up, Rmult_le_compat_r; lra.
  - apply Rle_trans with (sinh ((1 + t) * A)); [apply sinh_up, Rmult_le_compat_r; lra|]. eapply Rle_trans; [apply sinh_more; lra|]. right. do 3 f_equal. ring.
Qed.
Lemma both_sides : forall p q y f r, 0 <= f -> 1 <= p -> 0 <= q -> 2 - p <= q -> q * f <= r <= p * f -> y = (p - 1) * f -> Rabs (r - f) <= y.
Proof. intros p q y f r Hf Hp Hq H Hr ->. apply Rabs_le. assert ((2 - p) * f <= q * f) by (apply Rmult_le_compat_r; lra). lra. Qed.
Lemma two_minus : forall a b p q, 0 <= p <= 1 -> 0 <= q <= 1 -> 1 <= a -> 1 <= b -> 2 - a <= p -> 2 - b <= q -> 2 - a * b <= p * q.
Proof. intros a b p q Hp Hq Ha Hb H1 H2. nra. Qed.

Section Bark.
Context {E : Env}.
Variables (u v : R) (af sf : R -> R).
Hypothesis Ha : accurate u 0 rnd.
Hypothesis Hu : u < 1.
Hypothesis HA : arcsinh_within v af.
Hypothesis HS : sinh_within v sf.
Let t := (1 + v) * (1 + u) ^ 2 - 1.
Hypothesis Ht : t < 1.

Lemma u_pos : 0 <= u. Proof. exact (proj1 Ha). Qed.
Lemma v_pos : 0 <= v. Proof. exact (proj1 HA). Qed.
Lemma v_lt : v < 1. Proof. pose proof u_pos. pose proof v_pos. unfold t in Ht. nra. Qed.
Lemma t_pos : 0 <= t. Proof. pose proof u_pos. pose proof v_pos. unfold t. nra. Qed.
Lemma rel_u : forall x, 0 <= x -> (1 - u) * x <= rnd x <= (1 + u) * x.
Proof. intros x Hx. apply relative_bounds; auto. lra. Qed.
(** from the argument of arcsinh to the value before the last operations *)
Lemma there_and_back : forall a b x1, 0 < a -> 0 < b -> 0 <= x1 -> let A := arcsinh x1 in
  (1 - u) * ((1 - v) * ((1 - t) * exp (- (t * A)))) * (b * x1) <= rnd (b * sf (rnd (rnd (a * af x1) / a))) <= (1 + u) * ((1 + v) * ((1 + t) * exp (t * A))) * (b * x1).
Proof.
  intros a b x1 H0 Hb Hx A. pose proof u_pos as U0. pose proof v_pos as V0. pose proof v_lt as V1. pose proof t_pos as T0. pose proof (arcsinh_pos x1 Hx) as A0. fold A in A0.
  pose proof (proj2 HA x1 Hx) as K1. fold A in K1. assert (K2 : (1 - v) * A <= af x1 <= (1 + v) * A) by (revert K1; unfold Rabs; destruct (Rcase_abs _); lra).
  assert (P1 : 0 <= af x1) by (eapply Rle_trans; [|apply K2]; apply Rmult_le_pos; lra).
  assert (P2 : 0 <= a * af x1) by (apply Rmult_le_pos; lra). pose proof (rel_u _ P2) as K3.
  set (z := rnd (a * af x1)) in *. assert (P3 : 0 <= z). { eapply Rle_trans; [|apply K3]. apply Rmult_le_pos; lra. }
  assert (P4 : 0 <= z / a) by (apply Rmult_le_pos; [exact P3|left; apply Rinv_0_lt_compat, H0]). pose proof (rel_u _ P4) as K4. set (w := rnd (z / a)) in *.
  assert (Z1 : (1 - u) * af x1 <= z / a <= (1 + u) * af x1).
  { split; (apply Rmult_le_reg_r with a; [exact H0|]; replace (z / a * a) with z by (field; lra); lra). }
  assert (W : (1 - t) * A <= w <= (1 + t) * A).
  { destruct K2 as [K2a K2b]. destruct Z1 as [Z1a Z1b]. destruct K4 as [K4a K4b]. split.
    - assert (B1 : (1 - u) * ((1 - v) * A) <= z / a) by (eapply Rle_trans; [apply Rmult_le_compat_l; [lra|exact K2a]|exact Z1a]).
      assert (B2 : (1 - u) * ((1 - u) * ((1 - v) * A)) <= w) by (eapply Rle_trans; [apply Rmult_le_compat_l; [lra|exact B1]|exact K4a]).
      eapply Rle_trans; [|exact B2]. replace ((1 - u) * ((1 - u) * ((1 - v) * A))) with ((1 - u) * (1 - u) * (1 - v) * A) by ring. apply Rmult_le_compat_r; [exact A0|].
      assert (X1 : 2 - (1 + u) * (1 + u) <= (1 - u) * (1 - u)) by (apply two_minus; lra). assert (X2 : 2 - (1 + u) * (1 + u) * (1 + v) <= (1 - u) * (1 - u) * (1 - v)).
      { apply two_minus; try lra; try nra. }
      unfold t. replace (1 - ((1 + v) * (1 + u) ^ 2 - 1)) with (2 - (1 + u) * (1 + u) * (1 + v)) by ring. exact X2.
    - assert (B1 : z / a <= (1 + u) * ((1 + v) * A)) by (eapply Rle_trans; [exact Z1b|apply Rmult_le_compat_l; [lra|exact K2b]]).
      assert (B2 : w <= (1 + u) * ((1 + u) * ((1 + v) * A))) by (eapply Rle_trans; [exact K4b|apply Rmult_le_compat_l; [lra|exact B1]]).
      eapply Rle_trans; [exact B2|]. right. unfold t. ring. }
  assert (SW : (1 - t) * exp (- (t * A)) * x1 <= sinh w <= (1 + t) * exp (t * A) * x1).
  { rewrite <- (sinh_arcsinh x1). fold A. destruct (Req_dec A 0) as [A1|A1].
    - replace w with 0 by (rewrite A1 in W; lra). rewrite A1, Rmult_0_r, Ropp_0, sinh_0, exp_0, Rmult_0_r. lra.
    - assert (A2 : 0 < A) by lra. destruct (sinh_wrong A (w / A) t A0 ltac:(lra)) as [S1 S2].
      + split; (apply Rmult_le_reg_r with A; [exact A2|]; replace (w / A * A) with w by (field; lra); apply W).
      + replace (w / A * A) with w in S1, S2 by (field; lra). split; [exact S1|exact S2]. }
  assert (W0 : 0 <= w) by (eapply Rle_trans; [|apply W]; apply Rmult_le_pos; lra).
  pose proof (proj2 HS w W0) as K5. pose proof (sinh_pos w W0) as SP. assert (K6 : (1 - v) * sinh w <= sf w <= (1 + v) * sinh w) by (revert K5; unfold Rabs; destruct (Rcase_abs _); lra).
  assert (P5 : 0 <= sf w) by (eapply Rle_trans; [|apply K6]; apply Rmult_le_pos; lra). assert (P6 : 0 <= b * sf w) by (apply Rmult_le_pos; lra). pose proof (rel_u _ P6) as K7.
  destruct SW as [S1 S2]. destruct K6 as [K6a K6b]. destruct K7 as [K7a K7b]. split.
  - eapply Rle_trans; [|exact K7a]. replace ((1 - u) * ((1 - v) * ((1 - t) * exp (- (t * A)))) * (b * x1)) with ((1 - u) * (b * ((1 - v) * ((1 - t) * exp (- (t * A)) * x1)))) by ring.
    apply Rmult_le_compat_l; [lra|]. apply Rmult_le_compat_l; [lra|]. eapply Rle_trans; [|exact K6a]. apply Rmult_le_compat_l; lra.
  - eapply Rle_trans; [exact K7b|]. replace ((1 + u) * ((1 + v) * ((1 + t) * exp (t * A))) * (b * x1)) with ((1 + u) * (b * ((1 + v) * ((1 + t) * exp (t * A) * x1)))) by ring.
    apply Rmult_le_compat_l; [lra|]. apply Rmult_le_compat_l; [lra|]. eapply Rle_trans; [exact K6b|]. apply Rmult_le_compat_l; lra.
Qed.
Lemma unit_exp : forall x, 0 <= x -> 0 <= exp (- x) <= 1 /\ 1 <= exp x /\ 2 - exp x <= exp (- x).
Proof.
  intros x Hx. pose proof (exp_pos (- x)). assert (E1 : exp (- x) <= 1) by (rewrite <- exp_0; apply exp_up; lra). assert (E2 : 1 <= exp x) by (rewrite <- exp_0; apply exp_up; lra).
  assert (P : exp x * exp (- x) = 1) by (rewrite <- exp_plus, Rplus_opp_r; apply exp_0). repeat split; try lra. nra.
Qed.
Lemma factor_sides : forall A, 0 <= A -> let p := (1 + u) * ((1 + v) * ((1 + t) * exp (t * A))) in let q := (1 - u) * ((1 - v) * ((1 - t) * exp (- (t * A)))) in
  1 <= p /\ 0 <= q <= 1 /\ 2 - p <= q.
Proof.
  intros A A0 p q. pose proof u_pos as U0. pose proof v_pos as V0. pose proof v_lt as V1. pose proof t_pos as T0.
  destruct (unit_exp (t * A) ltac:(apply Rmult_le_pos; lra)) as (E1 & E2 & E3).
  assert (one : forall x y, 1 <= x -> 1 <= y -> 1 <= x * y) by (intros; nra). assert (part : forall x y, 0 <= x <= 1 -> 0 <= y <= 1 -> 0 <= x * y <= 1) by (intros; nra).
  assert (B1 : 2 - (1 + t) * exp (t * A) <= (1 - t) * exp (- (t * A))) by (apply two_minus; lra).
  assert (C1 : 1 <= (1 + t) * exp (t * A)) by (apply one; lra). assert (D1 : 0 <= (1 - t) * exp (- (t * A)) <= 1) by (apply part; lra).
  assert (B2 : 2 - (1 + v) * ((1 + t) * exp (t * A)) <= (1 - v) * ((1 - t) * exp (- (t * A)))) by (apply two_minus; lra).
  assert (C2 : 1 <= (1 + v) * ((1 + t) * exp (t * A))) by (apply one; lra). assert (D2 : 0 <= (1 - v) * ((1 - t) * exp (- (t * A))) <= 1) by (apply part; lra).
  assert (B3 : 2 - p <= q) by (apply two_minus; lra). split; [apply one; lra|]. split; [apply part; lra|exact B3].
Qed.
Lemma bark_roundtrip : forall a b f, 0 < a -> 0 < b -> 0 <= f ->
  Rabs (bark2hz_of sf a b (hz2bark_of af a b f) - f) <= ((1 + u) ^ 2 * (1 + v) * (1 + t) * exp (t * arcsinh ((1 + u) * (f / b))) - 1) * f.
Proof.
  intros a b f H0 Hb Hf. pose proof u_pos as U0. pose proof v_pos as V0. pose proof v_lt as V1. pose proof t_pos as T0.
  assert (Q : 0 <= f / b) by (apply Rmult_le_pos; [exact Hf|left; apply Rinv_0_lt_compat, Hb]). pose proof (rel_u _ Q) as K1. set (x1 := rnd (f / b)) in *.
  assert (X0 : 0 <= x1) by (eapply Rle_trans; [|apply K1]; apply Rmult_le_pos; lra).
  pose proof (there_and_back a b x1 H0 Hb X0) as K. cbv zeta in K. unfold bark2hz_of, hz2bark_of. fold x1.
  set (A2 := arcsinh ((1 + u) * (f / b))). assert (AA : arcsinh x1 <= A2) by (apply arcsinh_le, K1). pose proof (arcsinh_pos x1 X0) as A0.
  destruct (factor_sides (arcsinh x1) A0) as (C1 & D1 & B1). destruct (factor_sides A2 ltac:(lra)) as (C2 & D2 & B2). cbv zeta in *.
  set (p1 := (1 + u) * ((1 + v) * ((1 + t) * exp (t * arcsinh x1)))) in *. set (q1 := (1 - u) * ((1 - v) * ((1 - t) * exp (- (t * arcsinh x1))))) in *.
  assert (PP : p1 <= (1 + u) * ((1 + v) * ((1 + t) * exp (t * A2)))).
  { unfold p1. apply Rmult_le_compat_l; [lra|]. apply Rmult_le_compat_l; [lra|]. apply Rmult_le_compat_l; [lra|]. apply exp_up. apply Rmult_le_compat_l; lra. }
  set (p2 := (1 + u) * ((1 + v) * ((1 + t) * exp (t * A2)))) in *.
  assert (BX : (1 - u) * f <= b * x1 <= (1 + u) * f).
  { replace f with (b * (f / b)) by (field; lra). rewrite <- !Rmult_assoc, !(Rmult_comm _ b), !Rmult_assoc. split; (apply Rmult_le_compat_l; [lra|]); replace (b * (f / b) / b) with (f / b) in * by (field; lra); apply K1. }
  apply (both_sides (p2 * (1 + u)) (q1 * (1 - u))); [exact Hf|nra|apply Rmult_le_pos; lra| | |].
  - assert (2 - p1 * (1 + u) <= q1 * (1 - u)) by (apply two_minus; lra). assert (p1 * (1 + u) <= p2 * (1 + u)) by (apply Rmult_le_compat_r; lra). lra.
  - split.
    + eapply Rle_trans; [|apply K]. rewrite Rmult_assoc. apply Rmult_le_compat_l; [apply D1|apply BX].
    + eapply Rle_trans; [apply K|]. rewrite Rmult_assoc. apply Rmult_le_compat; [lra| |exact PP|apply BX]. apply Rmult_le_pos; lra.
  - unfold p2. ring.
Qed.
(** the bound grows with the bound on the argument *)
Lemma factor_up : forall A B, 0 <= A <= B -> (1 + u) ^ 2 * (1 + v) * (1 + t) * exp (t * A) <= (1 + u) ^ 2 * (1 + v) * (1 + t) * exp (t * B).
Proof.
  intros A B HAB. pose proof u_pos as U0. pose proof v_pos as V0. pose proof t_pos as T0. apply Rmult_le_compat_l.
  - apply Rmult_le_pos; [|lra]. apply Rmult_le_pos; [|lra]. apply pow_le. lra.
  - apply exp_up, Rmult_le_compat_l; lra.
Qed.
Lemma factor_one : forall A, 0 <= A -> 1 <= (1 + u) ^ 2 * (1 + v) * (1 + t) * exp (t * A).
Proof.
  intros A A0. pose proof u_pos as U0. destruct (factor_sides A A0) as (C1 & _ & _). cbv zeta in C1.
  replace ((1 + u) ^ 2 * (1 + v) * (1 + t) * exp (t * A)) with ((1 + u) * ((1 + u) * ((1 + v) * ((1 + t) * exp (t * A))))) by ring. nra.
Qed.
Lemma tjomov_roundtrip : forall a f, 0 < a -> 0 <= f ->
  Rabs (tjomov2hz_of sf a (hz2tjomov_of af a f) - f) <= ((1 + u) ^ 4 * (1 + v) * (1 + t) * exp (t * arcsinh ((1 + u) ^ 2 * ((f + 20) / 600))) - 1) * (f + 20).
Proof.
  intros a f H0 Hf. pose proof u_pos as U0. assert (Q : 0 <= f + 20) by lra. pose proof (rel_u _ Q) as K1. set (y := rnd (f + 20)) in *.
  assert (Y0 : 0 <= y) by (eapply Rle_trans; [|apply K1]; apply Rmult_le_pos; lra).
  pose proof (bark_roundtrip a 600 y H0 ltac:(lra) Y0) as K. unfold tjomov2hz_of, hz2tjomov_of, bark2hz_of, hz2bark_of in *. fold y.
  set (r := rnd (600 * sf (rnd (rnd (a * af (rnd (y / 600))) / a)))) in *.
  set (A1 := arcsinh ((1 + u) * (y / 600))) in *. set (A2 := arcsinh ((1 + u) ^ 2 * ((f + 20) / 600))).
  assert (AA : 0 <= A1 <= A2).
  { split; [apply arcsinh_pos; apply Rmult_le_pos; lra|]. apply arcsinh_le. replace ((1 + u) ^ 2 * ((f + 20) / 600)) with ((1 + u) * ((1 + u) * (f + 20) / 600)) by field. apply Rmult_le_compat_l; lra. }
  pose proof (factor_up A1 A2 AA) as PU. pose proof (factor_one A1 (proj1 AA)) as PO. set (P1 := (1 + u) ^ 2 * (1 + v) * (1 + t) * exp (t * A1)) in *. set (P2 := (1 + u) ^ 2 * (1 + v) * (1 + t) * exp (t * A2)) in *.
  assert (B1 : Rabs (r - y) <= (P2 - 1) * ((1 + u) * (f + 20))) by (eapply Rle_trans; [exact K|]; apply Rmult_le_compat; lra).
  assert (B2 : Rabs (y - (f + 20)) <= u * (f + 20)) by (apply Rabs_le; lra).
  assert (B3 : Rabs (r - 20 - f) <= (P2 * (1 + u) - 1) * (f + 20)).
  { replace (r - 20 - f) with (r - y + (y - (f + 20))) by ring. eapply Rle_trans; [apply Rabs_triang|]. replace ((P2 * (1 + u) - 1) * (f + 20)) with ((P2 - 1) * ((1 + u) * (f + 20)) + u * (f + 20)) by ring. lra. }
  pose proof (proj2 (proj2 Ha) (r - 20)) as K2. rewrite Rplus_0_r in K2.
  assert (B4 : Rabs (r - 20) <= f + (P2 * (1 + u) - 1) * (f + 20)).
  { replace (r - 20) with (f + (r - 20 - f)) by ring. eapply Rle_trans; [apply Rabs_triang|]. rewrite (Rabs_pos_eq f) by lra. lra. }
  replace (rnd (r - 20) - f) with ((rnd (r - 20) - (r - 20)) + (r - 20 - f)) by ring. eapply Rle_trans; [apply Rabs_triang|].
  replace (((1 + u) ^ 4 * (1 + v) * (1 + t) * exp (t * A2) - 1) * (f + 20)) with (u * (f + 20 + (P2 * (1 + u) - 1) * (f + 20)) + (P2 * (1 + u) - 1) * (f + 20)) by (unfold P2; ring).
  assert (u * Rabs (r - 20) <= u * (f + 20 + (P2 * (1 + u) - 1) * (f + 20))) by (apply Rmult_le_compat_l; lra). lra.
Qed.
End Bark.

(** ** numbers *)
Lemma arcsinh_le9 : forall x, 0 <= x <= 200 -> 0 <= arcsinh x <= 9.
Proof.
  intros x Hx. split; [apply arcsinh_pos; lra|]. rewrite <- (arcsinh_sinh 9). apply arcsinh_le. eapply Rle_trans; [apply Hx|]. unfold sinh.
  assert (E1 : 2 <= exp 1) by (pose proof (exp_ineq1_le 1); lra). assert (E9 : 512 <= exp 9).
  { replace 9 with (1 + 1 + 1 + (1 + 1 + 1) + (1 + 1 + 1)) by ring. rewrite !exp_plus. set (e := exp 1) in *. assert (4 <= e * e) by nra. assert (8 <= e * e * e) by nra. set (c := e * e * e) in *. assert (64 <= c * c) by nra. nra. }
  assert (E0 : exp (Ropp 9) <= 1) by (rewrite exp_Ropp, <- Rinv_1; apply Rinv_le_contravar; lra). lra.
Qed.
Section ScaleNumbers.
Context {E : Env}.
Variables (af sf : R -> R).
Hypothesis Ha : accurate (/ 2 ^ 53) 0 rnd.
Hypothesis HA : arcsinh_within (/ 2 ^ 50) af.
Hypothesis HS : sinh_within (/ 2 ^ 50) sf.
Lemma number_factor : forall A k, 0 <= A <= 9 -> (k = 2 \/ k = 4)%nat -> let t := (1 + / 2 ^ 50) * (1 + / 2 ^ 53) ^ 2 - 1 in
  (1 + / 2 ^ 53) ^ k * (1 + / 2 ^ 50) * (1 + t) * exp (t * A) - 1 <= / 2 ^ 46.
Proof.
  intros A k Hk H t. assert (Ht : 0 <= t <= 11 * / 2 ^ 53) by (unfold t; lra). assert (T : 0 <= t * A <= 99 * / 2 ^ 53) by nra.
  pose proof (exp_small (t * A) ltac:(lra)) as X. pose proof (exp_pos (t * A)). set (w := exp (t * A)) in *. assert (W : w <= 1 + 100 * / 2 ^ 53) by lra.
  set (c := (1 + / 2 ^ 53) ^ k * (1 + / 2 ^ 50) * (1 + t)). assert (C : 0 <= c <= 1 + 24 * / 2 ^ 53) by (unfold c, t; destruct H as [-> | ->]; lra).
  assert (c * w <= (1 + 24 * / 2 ^ 53) * (1 + 100 * / 2 ^ 53)) by (apply Rmult_le_compat; lra). lra.
Qed.
Lemma bark_numbers : forall a b f, 0 < a -> 600 <= b -> 0 <= f <= 100000 -> Rabs (bark2hz_of sf a b (hz2bark_of af a b f) - f) <= f / 2 ^ 46.
Proof.
  intros a b f H0 Hb Hf. eapply Rle_trans; [apply (bark_roundtrip (/ 2 ^ 53) (/ 2 ^ 50) af sf Ha ltac:(lra) HA HS ltac:(lra)); lra|].
  replace (f / 2 ^ 46) with (/ 2 ^ 46 * f) by (unfold Rdiv; ring). apply Rmult_le_compat_r; [lra|]. apply number_factor; [|left; reflexivity]. apply arcsinh_le9.
  assert (Q : 0 <= f / b <= 167) by (split; [apply quot_ge|apply quot_le]; lra). split; [apply Rmult_le_pos; lra|lra].
Qed.
Lemma tjomov_numbers : forall a f, 0 < a -> 0 <= f <= 100000 -> Rabs (tjomov2hz_of sf a (hz2tjomov_of af a f) - f) <= (f + 20) / 2 ^ 46.
Proof.
  intros a f H0 Hf. eapply Rle_trans; [apply (tjomov_roundtrip (/ 2 ^ 53) (/ 2 ^ 50) af sf Ha ltac:(lra) HA HS ltac:(lra)); lra|].
  replace ((f + 20) / 2 ^ 46) with (/ 2 ^ 46 * (f + 20)) by (unfold Rdiv; ring). apply Rmult_le_compat_r; [lra|]. apply number_factor; [|right; reflexivity]. apply arcsinh_le9.
  assert (Q : 0 <= (f + 20) / 600 <= 167) by lra. split; [apply Rmult_le_pos; [apply pow_le; lra|lra]|lra].
Qed.
End ScaleNumbers.

(** ** ERB: the shape of the mel conversions *)
Lemma erb_as_mel : forall (E : Env) lf pf a c, c <> 0 -> (forall f, hz2erb_of lf a c f = hz2mel_of lf a (/ c) f) /\ (forall z, erb2hz_of pf a c z = mel2hz_of pf a (/ c) z).
Proof.
  intros E lf pf a c H. split; intros x; unfold hz2erb_of, hz2mel_of, erb2hz_of, mel2hz_of, Rdiv; [rewrite Rinv_inv|rewrite (Rmult_comm (/ c))]; reflexivity.
Qed.
Lemma erb_numbers : forall (E : Env) lf pf a c f, grid (@rnd E) -> accurate (/ 2 ^ 53) 0 (@rnd E) -> log10_within (/ 2 ^ 50) lf -> pow10_within (/ 2 ^ 50) pf ->
  0 < a -> 0 < c <= / 200 -> 0 <= f <= 100000 -> Rabs (erb2hz_of pf a c (hz2erb_of lf a c f) - f) <= (/ c + f) / 2 ^ 46.
Proof.
  intros E lf pf a c f Hg Ha HL HP H0 Hc Hf. destruct (erb_as_mel E lf pf a c ltac:(lra)) as [E1 E2]. rewrite E1, E2.
  assert (Hb : 0 < / c) by (apply Rinv_0_lt_compat; lra).
  pose proof (roundtrip_error (/ 2 ^ 53) (/ 2 ^ 50) lf pf Hg Ha ltac:(lra) HL HP ltac:(lra) a (/ c) f H0 Hb ltac:(lra)) as K. cbv zeta in K. eapply Rle_trans; [exact K|].
  replace ((/ c + f) / 2 ^ 46) with (/ 2 ^ 46 * (/ c + f)) by (unfold Rdiv; ring). apply Rmult_le_compat_r; [lra|].
  set (t := (1 + / 2 ^ 50) * (1 + / 2 ^ 53) ^ 2 - 1). assert (Ht : 0 <= t <= 11 * / 2 ^ 53) by (unfold t; lra).
  assert (Q : 0 <= f / / c <= 500). { unfold Rdiv. rewrite Rinv_inv. split; [apply Rmult_le_pos; lra|]. replace 500 with (100000 * / 200) by lra. apply Rmult_le_compat; lra. }
  set (x := (1 + / 2 ^ 53) ^ 2 * (1 + f / / c)). assert (Hx : 1 <= x <= 10 * (10 * 10)) by (unfold x; split; nra).
  assert (L : 0 <= ln x <= 9).
  { split; [rewrite <- ln_1; destruct (proj1 Hx) as [Z|Z]; [apply Rlt_le, ln_increasing; lra|rewrite <- Z; lra]|].
    apply Rle_trans with (ln (10 * (10 * 10))); [destruct (proj2 Hx) as [Z|Z]; [apply Rlt_le, ln_increasing; lra|rewrite Z; lra]|].
    rewrite !ln_mult by lra. pose proof ln10_le3. lra. }
  assert (T : 0 <= t * ln x <= 99 * / 2 ^ 53) by nra.
  pose proof (exp_small (t * ln x) ltac:(lra)) as X. pose proof (exp_pos (t * ln x)). set (w := exp (t * ln x)) in *.
  assert (W : w <= 1 + 100 * / 2 ^ 53) by lra.
  set (d := (1 + / 2 ^ 53) ^ 4 * (1 + / 2 ^ 50)). assert (C : 1 <= d <= 1 + 13 * / 2 ^ 53) by (unfold d; lra).
  assert (d * w <= (1 + 13 * / 2 ^ 53) * (1 + 100 * / 2 ^ 53)) by (apply Rmult_le_compat; lra). lra.
Qed.

(** ** frequencies that fall together in binary64 *)
Lemma near_twenty : forall x, 0 <= x <= / 2 ^ 50 -> rnd64 (x + 20) = 20.
Proof.
  intros x [H0 H1]. transitivity (IZR 5629499534213120 * bpow radix2 (5 - 53)).
  - apply rnd64_eval.
    + change (bpow radix2 (5 - 1)) with 16. change (bpow radix2 5) with 32. lra.
    + lia.
    + change (bpow radix2 (53 - 5)) with (IZR 281474976710656). apply Rabs_lt. lra.
  - change (bpow radix2 (5 - 53)) with (/ IZR 281474976710656). lra.
Qed.
Lemma tjomov_same : forall af a f, 0 <= f <= / 2 ^ 50 -> @hz2tjomov_of binary64 af a f = @hz2tjomov_of binary64 af a 0.
Proof. intros af a f Hf. unfold hz2tjomov_of. cbn [rnd binary64]. rewrite !near_twenty by lra. reflexivity. Qed.
Lemma erb_same : forall lf a c f, 0 <= c <= 1 -> 0 <= f <= / 2 ^ 54 -> @hz2erb_of binary64 lf a c f = @hz2erb_of binary64 lf a c 0.
Proof.
  intros lf a c f Hc Hf. unfold hz2erb_of. cbn [rnd binary64]. assert (Z : rnd64 0 = 0) by exact (@g_0 binary64 rnd64_grid).
  assert (E54 : / 2 ^ 54 = bpow radix2 (-54)) by (change (bpow radix2 (-54)) with (/ IZR 18014398509481984); lra).
  rewrite !near_one; [reflexivity| |].
  - rewrite Rmult_0_l, Z. lra.
  - split; [apply (@g_pos binary64 rnd64_grid), Rmult_le_pos; lra|]. rewrite E54, <- (rnd64_bpow (-54)), <- E54 by lia. apply rnd64_monotone.
    replace (/ 2 ^ 54) with (/ 2 ^ 54 * 1) by ring. apply Rmult_le_compat; lra.
Qed.
(** two inputs with one result: no way back is accurate for both *)
Lemma no_way_back : forall (h g : R -> R), h (/ 2 ^ 60) = h 0 -> h (/ 2 ^ 61) = h 0 -> exists f, (f = / 2 ^ 60 \/ f = / 2 ^ 61) /\ f / 4 < Rabs (g (h f) - f).
Proof.
  intros h g H1 H2. destruct (Rle_or_lt (Rabs (g (h 0) - / 2 ^ 60)) (/ 2 ^ 60 / 4)) as [K|K].
  - exists (/ 2 ^ 61). split; [right; reflexivity|]. rewrite H2. revert K. unfold Rabs. do 2 destruct (Rcase_abs _); lra.
  - exists (/ 2 ^ 60). split; [left; reflexivity|]. rewrite H1. exact K.
Qed.
Lemma stored_small : forall f, f = / 2 ^ 60 \/ f = / 2 ^ 61 -> rnd64 f = f /\ 0 < f.
Proof.
  intros f [-> | ->]; (split; [|lra]).
  - replace (/ 2 ^ 60) with (bpow radix2 (-60)) by (change (bpow radix2 (-60)) with (/ IZR 1152921504606846976); lra). apply rnd64_bpow. lia.
  - replace (/ 2 ^ 61) with (bpow radix2 (-61)) by (change (bpow radix2 (-61)) with (/ IZR 2305843009213693952); lra). apply rnd64_bpow. lia.
Qed.

(** ** order *)
Section Order.
Context {E : Env}.
Hypothesis Hm : monotone rnd.
Lemma bark_up : forall af a b f g, (forall x y, x <= y -> af x <= af y) -> 0 < a -> 0 < b -> f <= g -> hz2bark_of af a b f <= hz2bark_of af a b g.
Proof.
  intros af a b f g Hf H0 Hb H. unfold hz2bark_of. apply Hm, Rmult_le_compat_l; [lra|]. apply Hf, Hm. apply Rmult_le_compat_r; [left; apply Rinv_0_lt_compat, Hb|exact H].
Qed.
Lemma hz_up : forall sf a b y z, (forall x y, x <= y -> sf x <= sf y) -> 0 < a -> 0 < b -> y <= z -> bark2hz_of sf a b y <= bark2hz_of sf a b z.
Proof.
  intros sf a b y z Hf H0 Hb H. unfold bark2hz_of. apply Hm, Rmult_le_compat_l; [lra|]. apply Hf, Hm. apply Rmult_le_compat_r; [left; apply Rinv_0_lt_compat, H0|exact H].
Qed.
Lemma tjomov_up : forall af a f g, (forall x y, x <= y -> af x <= af y) -> 0 < a -> f <= g -> hz2tjomov_of af a f <= hz2tjomov_of af a g.
Proof.
  intros af a f g Hf H0 H. unfold hz2tjomov_of. apply Hm, Rmult_le_compat_l; [lra|]. apply Hf, Hm. apply Rmult_le_compat_r; [lra|]. apply Hm. lra.
Qed.
Lemma erb_up : forall lf a c f g, (forall x y, 1 <= x -> x <= y -> lf x <= lf y) -> grid rnd -> 0 < a -> 0 < c -> 0 <= f -> f <= g -> hz2erb_of lf a c f <= hz2erb_of lf a c g.
Proof.
  intros lf a c f g Hf Hg H0 Hc F0 H. unfold hz2erb_of. apply Hm, Rmult_le_compat_l; [lra|].
  assert (P : rnd (f * c) <= rnd (g * c)) by (apply Hm, Rmult_le_compat_r; lra). assert (P0 : 0 <= rnd (f * c)) by (apply (g_pos Hg), Rmult_le_pos; lra).
  apply Hf; [|apply Hm; lra]. destruct Hg as (_ & _ & G1 & _). rewrite <- G1 at 1. apply Hm. lra.
Qed.
End Order.

(** ** the exact conversions of the model *)
Lemma constants_named : forall approach a b, arcsinh_constants approach = Some (a, b) -> 0 < a /\ 600 <= b.
Proof. intros approach a b. unfold arcsinh_constants. repeat (match goal with |- context [String.eqb ?x ?y] => destruct (String.eqb x y) end); try discriminate; intros [= <- <-]; lra. Qed.
Lemma bark_exact : forall approach a b, arcsinh_constants approach = Some (a, b) ->
  (forall f, hz2bark (Fin f) approach = Fin (@hz2bark_of exact_env arcsinh a b f)) /\ (forall z, bark2hz (Fin z) approach = Fin (@bark2hz_of exact_env sinh a b z)).
Proof.
  intros approach a b. unfold arcsinh_constants, hz2bark, bark2hz, hz2bark_of, bark2hz_of.
  repeat (match goal with |- context [String.eqb ?x ?y] => destruct (String.eqb x y) end); try discriminate; intros [= <- <-]; split; intros x; cbn; destruct (Req_EM_T _ 0); try lra; reflexivity.
Qed.
Lemma tjomov_exact : (forall f, hz2bark (Fin f) "Tjomov" = Fin (@hz2tjomov_of exact_env arcsinh 6.7 f)) /\ (forall z, bark2hz (Fin z) "Tjomov" = Fin (@tjomov2hz_of exact_env sinh 6.7 z)).
Proof. unfold hz2tjomov_of, tjomov2hz_of. split; intros x; cbn; destruct (Req_EM_T _ 0); try lra; reflexivity. Qed.
Lemma erb_exact : (forall f, 0 <= f -> hz2erb (Fin f) "Glasberg" = Some (Fin (@hz2erb_of exact_env (fun x => ln x / ln 10) erb_A 0.00437 f))) /\
  (forall z, erb2hz (Fin z) "Glasberg" = Some (Fin (@erb2hz_of exact_env (Rpower 10) erb_A 0.00437 z))).
Proof.
  pose proof erb_A_pos as A0. pose proof ln10_pos as L0. unfold hz2erb_of, erb2hz_of. split; intros x; [intros Hx|].
  - cbn [hz2erb String.eqb Ascii.eqb Bool.eqb]. unfold fmul at 2, f1, fadd, flog10, flog. cbn [rnd exact_env].
    destruct (Rlt_dec _ _) as [K|K]; [|lra]. cbn. destruct (Req_EM_T _ 0); [lra|reflexivity].
  - unfold erb2hz. cbn. destruct (Req_EM_T _ 0); [lra|]. cbn. destruct (Req_EM_T _ 0); [lra|reflexivity].
Qed.

(** ** correctly rounded library functions *)
Lemma arcsinh_53 : arcsinh_within (/ 2 ^ 50) (fun x => rnd53 (arcsinh x)).
Proof.
  split; [lra|]. intros x Hx. pose proof (proj2 (proj2 rnd53_accurate) (arcsinh x)) as K. pose proof (arcsinh_pos x Hx).
  rewrite Rplus_0_r, (Rabs_pos_eq (arcsinh x)) in K by assumption. eapply Rle_trans; [exact K|]. apply Rmult_le_compat_r; [assumption|lra].
Qed.
Lemma sinh_53 : sinh_within (/ 2 ^ 50) (fun x => rnd53 (sinh x)).
Proof.
  split; [lra|]. intros x Hx. pose proof (proj2 (proj2 rnd53_accurate) (sinh x)) as K. pose proof (sinh_pos x Hx).
  rewrite Rplus_0_r, (Rabs_pos_eq (sinh x)) in K by assumption. eapply Rle_trans; [exact K|]. apply Rmult_le_compat_r; [assumption|lra].
Qed.
