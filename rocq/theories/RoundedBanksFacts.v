(** * Facts about the triangular filter banks in floating point *)
From Coq Require Import Reals ZArith List String Bool Lia Lra Psatz.
From Flocq Require Import Core Plus_error.
From Verif Require Import Base SpecBase SpecFilters SpecBanks MelBanksFacts Binary64 Rounded SpecRounded RoundedFacts RoundedBanks.
Import ListNotations.
Local Open Scope R_scope.

(** ** the rules of floating-point arithmetic used below *)
Lemma rnd64_grid : grid rnd64.
Proof.
  split; [exact rnd64_monotone|]. split; [exact rnd64_odd|]. split.
  { unfold rnd64. apply round_generic; [apply valid_rnd_N|]. change 1 with (bpow radix2 0).
    apply generic_format_bpow. unfold FLT_exp. lia. }
  split.
  { intros x. unfold rnd64. apply round_generic; [apply valid_rnd_N|]. apply generic_format_round; [apply FLT_exp_valid; reflexivity|apply valid_rnd_N]. }
  intros x y Hx Hy Hz. destruct (Req_dec (x - y) 0) as [H|H]; [lra|exfalso].
  assert (Fx : generic_format radix2 (FLT_exp (-1074) 53) x).
  { rewrite <- Hx. apply generic_format_round; [apply FLT_exp_valid; reflexivity|apply valid_rnd_N]. }
  assert (Fy : generic_format radix2 (FLT_exp (-1074) 53) y).
  { rewrite <- Hy. apply generic_format_round; [apply FLT_exp_valid; reflexivity|apply valid_rnd_N]. }
  assert (Hp53 : Prec_gt_0 53) by reflexivity.
  exact (round_plus_neq_0 radix2 (FLT_exp (-1074) 53) ZnearestE x (- y) Fx (generic_format_opp _ _ _ Fy) H Hz).
Qed.
Lemma rnd53_grid : grid rnd53.
Proof.
  split; [exact rnd53_monotone|]. split; [exact rnd53_odd|]. split.
  { unfold rnd53. apply round_generic; [apply valid_rnd_N|]. change 1 with (bpow radix2 0).
    apply generic_format_bpow. unfold FLX_exp. lia. }
  split.
  { intros x. unfold rnd53. apply round_generic; [apply valid_rnd_N|]. apply generic_format_round; [apply FLX_exp_valid; reflexivity|apply valid_rnd_N]. }
  intros x y Hx Hy Hz. destruct (Req_dec (x - y) 0) as [H|H]; [lra|exfalso].
  assert (Fx : generic_format radix2 (FLX_exp 53) x).
  { rewrite <- Hx. apply generic_format_round; [apply FLX_exp_valid; reflexivity|apply valid_rnd_N]. }
  assert (Fy : generic_format radix2 (FLX_exp 53) y).
  { rewrite <- Hy. apply generic_format_round; [apply FLX_exp_valid; reflexivity|apply valid_rnd_N]. }
  assert (Hp53 : Prec_gt_0 53) by reflexivity.
  exact (round_plus_neq_0 radix2 (FLX_exp 53) ZnearestE x (- y) Fx (generic_format_opp _ _ _ Fy) H Hz).
Qed.
Lemma exact_grid : grid (@rnd exact_env).
Proof. repeat split; cbn; try (intros x y; intros; lra); intros; lra. Qed.

Section Grid.
Context {E : Env}.
Hypothesis Hg : grid rnd.
Lemma g_mono : forall x y, x <= y -> rnd x <= rnd y.
Proof. exact (proj1 Hg). Qed.
Lemma g_0 : rnd 0 = 0.
Proof. apply odd_zero. exact (proj1 (proj2 Hg)). Qed.
Lemma g_1 : rnd 1 = 1.
Proof. exact (proj1 (proj2 (proj2 Hg))). Qed.
Lemma g_idem : forall x, rnd (rnd x) = rnd x.
Proof. exact (proj1 (proj2 (proj2 (proj2 Hg)))). Qed.
Lemma g_sep : forall x y, rnd x = x -> rnd y = y -> rnd (x - y) = 0 -> x = y.
Proof. exact (proj2 (proj2 (proj2 (proj2 Hg)))). Qed.
Lemma g_pos : forall x, 0 <= x -> 0 <= rnd x.
Proof. intros x H. rewrite <- g_0. apply g_mono, H. Qed.
Lemma g_sub_pos : forall x y, rnd x = x -> rnd y = y -> x < y -> 0 < rnd (y - x).
Proof.
  intros x y Hx Hy H. destruct (g_pos (y - x) ltac:(lra)) as [H1|H1]; [exact H1|].
  symmetry in H1. apply g_sep in H1; auto. lra.
Qed.
Lemma g_le1 : forall x, 0 <= x <= 1 -> 0 <= rnd x <= 1.
Proof. intros x [H1 H2]. split; [apply g_pos, H1|]. rewrite <- g_1. apply g_mono, H2. Qed.

Lemma quot_range : forall a b, 0 <= a <= b -> 0 < b -> exists v, quot_of a b = Fin v /\ v = rnd (a / b) /\ 0 <= v <= 1.
Proof.
  intros a b Hab Hb. unfold quot_of, fdiv. destruct (Req_EM_T b 0) as [H|_]; [lra|]. eexists. split; [reflexivity|]. split; [reflexivity|].
  apply g_le1. split.
  - apply Rmult_le_pos; [lra|]. apply Rlt_le, Rinv_0_lt_compat, Hb.
  - apply Rmult_le_reg_r with b; [exact Hb|]. unfold Rdiv. rewrite Rmult_assoc, Rinv_l; lra.
Qed.

(** the value of an entry for nodes in order *)
Lemma slope_value : forall l c u f, rnd l = l -> rnd c = c -> rnd u = u -> rnd f = f -> l <= c <= u ->
  (f = c /\ c = u -> slope_of l c u f = NaN) /\
  (~ (f = c /\ c = u) -> exists v, slope_of l c u f = Fin v /\ 0 <= v <= 1 /\
     (f <= l -> f <> c -> v = 0) /\ (u <= f -> v = 0) /\ (f = c -> v = 1) /\
     (l <= f < c -> v = rnd (rnd (f - l) / rnd (c - l))) /\ (c <= f <= u -> v = rnd (rnd (u - f) / rnd (u - c)))).
Proof.
  intros l c u f Hl Hc Hu Hf [H1 H2]. unfold slope_of, Rleb. split.
  - intros [-> ->]. destruct (Rle_dec u u) as [_|H]; [|lra]. cbn [Bool.eqb].
    unfold quot_of, fdiv. replace (u - u) with 0 by ring. rewrite g_0. destruct (Req_EM_T 0 0) as [_|H]; [|lra].
    unfold finfmul. destruct (Rlt_dec 0 0); [lra|]. destruct (Req_EM_T 0 0); [reflexivity|lra].
  - intros Hn.
    destruct (Rle_dec c f) as [Hcf|Hcf]; destruct (Rle_dec f u) as [Hfu|Hfu]; cbn [Bool.eqb].
    + assert (Hcu : c < u).
      { destruct (Rlt_dec c u) as [H|H]; [exact H|]. exfalso. apply Hn. split; lra. }
      pose proof (g_sub_pos c u Hc Hu Hcu) as Hp.
      destruct (quot_range (rnd (u - f)) (rnd (u - c))) as (v & Ev & Eq & Hv); [split; [apply g_pos; lra|apply g_mono; lra]|exact Hp|].
      exists v. do 2 (split; [assumption|]). split; [intros; lra|]. split; [intros H; replace f with u in Eq by lra|split; [intros ->|split; [intros; lra|intros _; exact Eq]]].
      * rewrite Rminus_diag_eq, g_0 in Eq by reflexivity. unfold Rdiv in Eq. rewrite Rmult_0_l, g_0 in Eq. exact Eq.
      * rewrite Eq. unfold Rdiv. rewrite Rinv_r by lra. exact g_1.
    + destruct (Rle_dec l f) as [Hlf|Hlf]; [|lra]. destruct (Rle_dec f c) as [Hfc|Hfc]; [lra|]. cbn [Bool.eqb].
      exists 0. split; [reflexivity|]. split; [lra|]. split; [intros; lra|]. split; [reflexivity|]. split; [intros; lra|]. split; intros; lra.
    + destruct (Rle_dec l f) as [Hlf|Hlf]; destruct (Rle_dec f c) as [Hfc|Hfc]; cbn [Bool.eqb]; try lra.
      * assert (Hlc : l < c) by lra. pose proof (g_sub_pos l c Hl Hc Hlc) as Hp.
        destruct (quot_range (rnd (f - l)) (rnd (c - l))) as (v & Ev & Eq & Hv); [split; [apply g_pos; lra|apply g_mono; lra]|exact Hp|].
        exists v. do 2 (split; [assumption|]). split; [intros H _; replace f with l in Eq by lra|split; [intros; lra|split; [intros; lra|split; [intros _; exact Eq|intros; lra]]]].
        rewrite Rminus_diag_eq, g_0 in Eq by reflexivity. unfold Rdiv in Eq. rewrite Rmult_0_l, g_0 in Eq. exact Eq.
      * exists 0. split; [reflexivity|]. split; [lra|]. split; [reflexivity|]. split; [intros; lra|]. split; [intros; lra|]. split; intros; lra.
    + lra.
Qed.

(** the points and the columns are in order *)
Lemma point_mono : forall lo hi n i j, (i <= j)%nat -> scale_point_of lo hi n i <= scale_point_of lo hi n j.
Proof.
  intros lo hi n i j Hij. unfold scale_point_of. apply g_mono, Rplus_le_compat_l, g_mono, Rmult_le_compat_l; [|apply le_INR, Hij].
  apply g_pos. apply Rmult_le_pos; [apply Rabs_pos|]. apply Rlt_le, Rinv_0_lt_compat, lt_0_INR. lia.
Qed.
Lemma mel_point_mono : forall L P a b low high n i j, 0 < a -> 0 < b -> (forall x y, x <= y -> P x <= P y) -> (i <= j)%nat ->
  mel_point_of L P a b low high n i <= mel_point_of L P a b low high n j.
Proof.
  intros L P a b low high n i j Ha Hb HP Hij. unfold mel_point_of, mel2hz_of.
  apply g_mono, Rmult_le_compat_l; [lra|]. apply g_mono, Rplus_le_compat_r, HP, g_mono.
  apply Rmult_le_compat_r; [apply Rlt_le, Rinv_0_lt_compat, Ha|]. apply point_mono, Hij.
Qed.
Lemma linspace_grid : forall low high h k, rnd high = high -> rnd (linspace_of low high h k) = linspace_of low high h k.
Proof.
  intros low high h k Hh. unfold linspace_of. destruct h as [|h]; [apply g_idem|].
  destruct (Nat.eqb k (S h)); [exact Hh|]. destruct (Req_EM_T _ 0); apply g_idem.
Qed.

Lemma factor_range : forall scale n j, (j < n)%nat -> 0 <= factor_of scale n j <= 1.
Proof.
  intros scale n j Hj. unfold factor_of. assert (0 < INR n) by (apply lt_0_INR; lia).
  assert (K : forall i, (i <= n)%nat -> 0 <= INR i / INR n <= 1).
  { intros i Hi. split; [apply Rmult_le_pos; [apply pos_INR|apply Rlt_le, Rinv_0_lt_compat; assumption]|].
    apply Rmult_le_reg_r with (INR n); [assumption|]. unfold Rdiv. rewrite Rmult_assoc, Rinv_l by lra. rewrite Rmult_1_l, Rmult_1_r. apply le_INR, Hi. }
  destruct (String.eqb scale "ascendant"); [apply g_le1, K; lia|].
  destruct (String.eqb scale "descendant"); [apply g_le1, K; lia|lra].
Qed.

Lemma bank_entry_value : forall pt low high n h scale j k, (j < n)%nat -> rnd high = high ->
  (forall i, rnd (pt i) = pt i) -> (forall i j, (i <= j)%nat -> pt i <= pt j) ->
  let f := linspace_of low high h k in
  let l := pt j in let c := pt (j + 1)%nat in let u := pt (j + 2)%nat in
  l <= c <= u /\
  (f = c /\ c = u -> bank_entry_of pt low high n h scale j k = NaN) /\
  (~ (f = c /\ c = u) -> exists v, bank_entry_of pt low high n h scale j k = Fin v /\ 0 <= v <= 1 /\
     (f <= l -> f <> c -> v = 0) /\ (u <= f -> v = 0) /\ (f = c -> v = rnd (factor_of scale n j)) /\
     (forall w, slope_of l c u f = Fin w -> v = rnd (w * factor_of scale n j))).
Proof.
  intros pt low high n h scale j k Hj Hh Hr Hm f l c u.
  assert (Ho : l <= c <= u) by (split; apply Hm; lia). split; [exact Ho|].
  destruct (slope_value l c u f (Hr _) (Hr _) (Hr _) (linspace_grid _ _ _ _ Hh) Ho) as [H1 H2].
  pose proof (factor_range scale n j Hj) as Hs.
  unfold bank_entry_of. fold f l c u. split.
  - intros H. rewrite (H1 H). reflexivity.
  - intros H. destruct (H2 H) as (v & -> & Hv & Hl & Hu & Hc & _). cbn [prod_of]. eexists. split; [reflexivity|].
    split; [apply g_le1; nra|]. split; [intros A B; rewrite (Hl A B), Rmult_0_l; apply g_0|].
    split; [intros A; rewrite (Hu A), Rmult_0_l; apply g_0|]. split; [intros A; rewrite (Hc A), Rmult_1_l; reflexivity|].
    intros w Hw. injection Hw as ->. reflexivity.
Qed.
End Grid.
