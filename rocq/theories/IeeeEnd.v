(** * IEEE binary64 cepstra compared with exact arithmetic: rounding, underflow, no overflow *)
From Coq Require Import Reals ZArith List Bool Lia Lra Psatz.
From Flocq Require Import Core IEEE754.BinarySingleNaN.
From Coquelicot Require Rcomplements.
From Verif Require Import Base SpecBase BigSum Binary64 Binary64Facts Rounded RoundedCeps SpecRounded RoundedFacts RoundedWindows RoundedBanksError SpecRoundedCeps
  SpecRoundedDominant RoundedLaws RoundedDominantLaws RoundedCepsLaws RoundedCepsEnd Ieee SpecIeee SpecIeeeEnd IeeeFacts IeeeLaws.
Local Open Scope R_scope.

Lemma tiny_pos : 0 < tiny. Proof. apply bpow_gt_0. Qed.
Lemma normal_stored : forall c, normal c -> Rabs (rnd64 c - c) <= u64 * Rabs c.
Proof.
  intros c [->|H].
  - rewrite rnd64_0, Rminus_0_r, Rabs_R0. lra.
  - destruct (rnd64_rel c H) as (d & Hd & E). rewrite E. replace (c * (1 + d) - c) with (d * c) by ring. rewrite Rabs_mult.
    apply Rmult_le_compat_r; [apply Rabs_pos|]. eapply Rle_trans; [exact Hd|]. right. unfold u64. change (bpow radix2 (-53)) with (/ IZR (2 ^ 53)). lra.
Qed.

(** ** programs with stored constants *)
Lemma stored_error : forall x p, unit_normal p ->
  Rabs (@lin_run binary64 x (@lin_stored binary64 p) - lin_exact x p)
  <= ((1 + u64) ^ lin_depth2 p - 1) * lin_size x p + (1 + u64) ^ lin_depth2 p * lin_amp p * tiny.
Proof.
  intros x p. pose proof u64_pos as Hu0. assert (Hu : 0 <= u64) by lra. pose proof tiny_pos as Ht.
  assert (Ha : accurate u64 tiny (@rnd binary64)) by exact rnd64_accurate.
  assert (con : forall c v e s a d, normal c -> 0 <= s -> 0 <= a -> Rabs e <= s -> Rabs (v - e) <= ((1 + u64) ^ d - 1) * s + (1 + u64) ^ d * a * tiny ->
    Rabs (rnd64 c * v - c * e) <= ((1 + u64) ^ S d - 1) * (Rabs c * s) + (1 + u64) ^ S d * (Rabs c * a) * tiny).
  { intros c v e s a d Hc Hs Ha0 Hes Hv. pose proof (normal_stored c Hc) as Hr.
    pose proof (pow_u_ge1 u64 d Hu) as H1. cbn [pow]. set (P := (1 + u64) ^ d) in *.
    replace (rnd64 c * v - c * e) with (rnd64 c * (v - e) + (rnd64 c - c) * e) by ring.
    eapply Rle_trans; [apply Rabs_triang|]. rewrite !Rabs_mult.
    assert (Hc' : Rabs (rnd64 c) <= (1 + u64) * Rabs c).
    { replace (rnd64 c) with ((rnd64 c - c) + c) by ring. eapply Rle_trans; [apply Rabs_triang|]. lra. }
    assert (K1 : Rabs (rnd64 c) * Rabs (v - e) <= (1 + u64) * Rabs c * ((P - 1) * s + P * a * tiny))
      by (apply Rmult_le_compat; auto using Rabs_pos).
    assert (K2 : Rabs (rnd64 c - c) * Rabs e <= u64 * Rabs c * s) by (apply Rmult_le_compat; auto using Rabs_pos).
    replace (((1 + u64) * P - 1) * (Rabs c * s) + (1 + u64) * P * (Rabs c * a) * tiny)
      with ((1 + u64) * Rabs c * ((P - 1) * s + P * a * tiny) + u64 * Rabs c * s) by ring. lra. }
  assert (wid : forall s a d d', 0 <= s -> 0 <= a -> (d <= d')%nat ->
    ((1 + u64) ^ d - 1) * s + (1 + u64) ^ d * a * tiny <= ((1 + u64) ^ d' - 1) * s + (1 + u64) ^ d' * a * tiny)
    by (intros; apply widen; auto; lra).
  induction p as [i| |p IHp q IHq|p IHp q IHq|c p IHp|c p IHp q IHq];
    cbn [lin_run lin_stored lin_exact lin_size lin_depth2 lin_amp unit_normal rnd binary64]; intros Hp.
  - rewrite Rminus_diag_eq by reflexivity. rewrite Rabs_R0. cbn [pow]. lra.
  - rewrite Rminus_diag_eq by reflexivity. rewrite Rabs_R0. cbn [pow]. lra.
  - destruct Hp as [Hp Hq]. specialize (IHp Hp). specialize (IHq Hq).
    pose proof (lin_size_nonneg x p). pose proof (lin_size_nonneg x q). pose proof (lin_amp_nonneg p). pose proof (lin_amp_nonneg q).
    apply (round_step rnd64); [exact Ha|lra|lra| |].
    + eapply Rle_trans; [apply Rabs_triang|]. pose proof (lin_exact_size x p). pose proof (lin_exact_size x q). lra.
    + replace (_ + _ - (_ + _)) with ((@lin_run binary64 x (@lin_stored binary64 p) - lin_exact x p) + (@lin_run binary64 x (@lin_stored binary64 q) - lin_exact x q)) by ring.
      eapply Rle_trans; [apply Rabs_triang|].
      pose proof (wid (lin_size x p) (lin_amp p) _ (Nat.max (lin_depth2 p) (lin_depth2 q)) ltac:(assumption) ltac:(assumption) (Nat.le_max_l _ _)).
      pose proof (wid (lin_size x q) (lin_amp q) _ (Nat.max (lin_depth2 p) (lin_depth2 q)) ltac:(assumption) ltac:(assumption) (Nat.le_max_r _ _)). lra.
  - destruct Hp as [Hp Hq]. specialize (IHp Hp). specialize (IHq Hq).
    pose proof (lin_size_nonneg x p). pose proof (lin_size_nonneg x q). pose proof (lin_amp_nonneg p). pose proof (lin_amp_nonneg q).
    apply (round_step rnd64); [exact Ha|lra|lra| |].
    + unfold Rminus. eapply Rle_trans; [apply Rabs_triang|]. rewrite Rabs_Ropp. pose proof (lin_exact_size x p). pose proof (lin_exact_size x q). lra.
    + replace (_ - _ - (_ - _)) with ((@lin_run binary64 x (@lin_stored binary64 p) - lin_exact x p) + - (@lin_run binary64 x (@lin_stored binary64 q) - lin_exact x q)) by ring.
      eapply Rle_trans; [apply Rabs_triang|]. rewrite Rabs_Ropp.
      pose proof (wid (lin_size x p) (lin_amp p) _ (Nat.max (lin_depth2 p) (lin_depth2 q)) ltac:(assumption) ltac:(assumption) (Nat.le_max_l _ _)).
      pose proof (wid (lin_size x q) (lin_amp q) _ (Nat.max (lin_depth2 p) (lin_depth2 q)) ltac:(assumption) ltac:(assumption) (Nat.le_max_r _ _)). lra.
  - destruct Hp as [[Hc _] Hp]. specialize (IHp Hp).
    pose proof (lin_size_nonneg x p). pose proof (lin_amp_nonneg p). pose proof (Rabs_pos c).
    apply (round_step rnd64); [exact Ha|apply Rmult_le_pos; assumption|apply Rmult_le_pos; assumption| |].
    + rewrite Rabs_mult. apply Rmult_le_compat_l; [assumption|apply lin_exact_size].
    + apply con; auto using lin_exact_size.
  - destruct Hp as ([Hc _] & Hp & Hq). specialize (IHp Hp). specialize (IHq Hq).
    pose proof (lin_size_nonneg x p). pose proof (lin_size_nonneg x q). pose proof (lin_amp_nonneg p). pose proof (lin_amp_nonneg q). pose proof (Rabs_pos c).
    assert (0 <= Rabs c * lin_size x p) by (apply Rmult_le_pos; assumption).
    assert (0 <= Rabs c * lin_amp p) by (apply Rmult_le_pos; assumption).
    apply (round_step rnd64); [exact Ha|lra|lra| |].
    + eapply Rle_trans; [apply Rabs_triang|]. rewrite Rabs_mult.
      pose proof (Rmult_le_compat_l _ _ _ (Rabs_pos c) (lin_exact_size x p)). pose proof (lin_exact_size x q). lra.
    + pose proof (con c _ _ _ _ _ Hc H H1 (lin_exact_size x p) IHp) as K.
      replace (_ + _ - (_ + _)) with ((rnd64 c * @lin_run binary64 x (@lin_stored binary64 p) - c * lin_exact x p) + (@lin_run binary64 x (@lin_stored binary64 q) - lin_exact x q)) by ring.
      eapply Rle_trans; [apply Rabs_triang|].
      pose proof (wid (Rabs c * lin_size x p) (Rabs c * lin_amp p) _ (Nat.max (S (lin_depth2 p)) (lin_depth2 q)) ltac:(assumption) ltac:(assumption) (Nat.le_max_l _ _)).
      pose proof (wid (lin_size x q) (lin_amp q) _ (Nat.max (S (lin_depth2 p)) (lin_depth2 q)) ltac:(assumption) ltac:(assumption) (Nat.le_max_r _ _)). lra.
Qed.

(** sizes of an exact program, from the number of operations of its float program *)
Lemma float_sizes : forall fp p, reals fp = @lin_stored binary64 p -> unit_normal p ->
  lin_amp p <= INR (nodes fp) /\ gain p <= INR (nodes fp) /\ (lin_depth2 p <= 2 * nodes fp)%nat.
Proof.
  unfold gain. assert (M : forall c s t, Rabs c <= 1 -> 0 <= s <= t -> Rabs c * s <= t).
  { intros c s t Hc Hs. pose proof (Rmult_le_compat_r s _ _ (proj1 Hs) Hc). lra. }
  induction fp as [i| |f IHf g IHg|f IHf g IHg|c f IHf|c f IHf g IHg]; intros [j| |p q|p q|d p|d p q] E Hp; cbn [reals lin_stored] in E; try discriminate E;
    cbn [lin_amp lin_size lin_depth2 nodes unit_normal] in *.
  - rewrite Rabs_R1. cbn [INR]. repeat split; try lra; lia.
  - cbn [INR]. repeat split; try lra; lia.
  - injection E as E1 E2. destruct Hp as [H1 H2]. destruct (IHf p E1 H1) as (A1 & A2 & A3). destruct (IHg q E2 H2) as (B1 & B2 & B3).
    rewrite S_INR, plus_INR. repeat split; try lra; lia.
  - injection E as E1 E2. destruct Hp as [H1 H2]. destruct (IHf p E1 H1) as (A1 & A2 & A3). destruct (IHg q E2 H2) as (B1 & B2 & B3).
    rewrite S_INR, plus_INR. repeat split; try lra; lia.
  - injection E as _ E1. destruct Hp as [[_ Hd] H1]. destruct (IHf p E1 H1) as (A1 & A2 & A3).
    rewrite S_INR. pose proof (M d _ _ Hd (conj (lin_amp_nonneg p) A1)). pose proof (M d _ _ Hd (conj (lin_size_nonneg (fun _ => 1) p) A2)).
    repeat split; try lra; lia.
  - injection E as _ E1 E2. destruct Hp as ([_ Hd] & H1 & H2). destruct (IHf p E1 H1) as (A1 & A2 & A3). destruct (IHg q E2 H2) as (B1 & B2 & B3).
    rewrite S_INR, plus_INR. pose proof (M d _ _ Hd (conj (lin_amp_nonneg p) A1)). pose proof (M d _ _ Hd (conj (lin_size_nonneg (fun _ => 1) p) A2)).
    repeat split; try lra; lia.
Qed.
Lemma float_powers : forall n p fp, float_program n p fp -> 1 <= (1 + u64) ^ lin_depth2 p <= 4 /\ 0 <= lin_amp p <= 2 ^ 40 /\ 0 <= gain p <= 2 ^ 40.
Proof.
  intros n p fp ((_ & _ & H3) & E & Hp). destruct (float_sizes fp p E Hp) as (A & B & C). pose proof u64_pos as Hu.
  split; [split; [apply pow_R1_Rle; lra|]|split; split; try lra; [apply lin_amp_nonneg|apply lin_size_nonneg]].
  eapply Rle_trans; [apply (pow_u_le u64 _ (nodes fp + nodes fp)); [lra|lia]|]. rewrite pow_add. pose proof (pow_nodes _ H3). pose proof (pow_u_ge1 u64 (nodes fp) ltac:(lra)).
  replace 4 with (2 * 2) by ring. apply Rmult_le_compat; lra.
Qed.
Lemma stored_reads : forall n p, reads n (@lin_stored binary64 p) -> reads n p.
Proof. intros n p. induction p; cbn [lin_stored reads]; tauto. Qed.
Lemma float_reads : forall n p fp, float_program n p fp -> reads n p.
Proof. intros n p fp ((_ & H & _) & E & _). rewrite E in H. apply stored_reads, H. Qed.

Lemma bpow_tiny : forall k : Z, bpow radix2 k * tiny = bpow radix2 (k - 1075).
Proof. intros k. unfold tiny. rewrite <- bpow_plus. reflexivity. Qed.
Lemma b40 : 2 ^ 40 = bpow radix2 40.
Proof. cbn. lra. Qed.
Lemma small_tail : forall P a, 1 <= P <= 4 -> 0 <= a <= 2 ^ 40 -> 0 <= P * a * tiny <= bpow radix2 (-1033).
Proof.
  intros P a HP Ha. pose proof tiny_pos. split; [repeat apply Rmult_le_pos; lra|].
  apply Rle_trans with (bpow radix2 2 * bpow radix2 40 * tiny).
  - apply Rmult_le_compat_r; [lra|]. rewrite <- b40. change (bpow radix2 2) with 4. apply Rmult_le_compat; lra.
  - rewrite <- bpow_plus, bpow_tiny. right. reflexivity.
Qed.
Lemma float_error : forall n p fp x, float_program n p fp ->
  Rabs (@lin_run binary64 x (reals fp) - lin_exact x p) <= ((1 + u64) ^ lin_depth2 p - 1) * lin_size x p + bpow radix2 (-1033).
Proof.
  intros n p fp x Hf. destruct (float_powers n p fp Hf) as (P & A & _). destruct Hf as (_ & E & Hp). rewrite E.
  eapply Rle_trans; [apply stored_error; exact Hp|]. pose proof (small_tail _ _ P A). lra.
Qed.
Lemma float_on_inputs : forall n p fp y y' Y h, float_program n p fp -> 0 <= h -> 0 <= Y ->
  (forall j, (j < n)%nat -> Rabs (y j) <= Y /\ Rabs (y' j - y j) <= h) ->
  Rabs (@lin_run binary64 y' (reals fp) - lin_exact y p) <= gain p * ((1 + u64) ^ lin_depth2 p * (Y + h) - Y) + bpow radix2 (-1033).
Proof.
  intros n p fp y y' Y h Hf Hh HY Hy. pose proof u64_pos as Hu. pose proof (float_reads n p fp Hf) as Hp.
  pose proof (float_error n p fp y' Hf) as S1.
  assert (S2 : lin_size y' p <= gain p * (Y + h)).
  { apply (lin_size_bound n); auto; [|lra]. intros j Hj. destruct (Hy j Hj).
    replace (y' j) with (y j + (y' j - y j)) by ring. eapply Rle_trans; [apply Rabs_triang|]. lra. }
  assert (S3 : Rabs (lin_exact y' p - lin_exact y p) <= gain p * h).
  { rewrite lin_exact_minus. eapply Rle_trans; [apply lin_exact_size|]. apply (lin_size_bound n); auto. intros j Hj. apply Hy, Hj. }
  pose proof (pow_u_ge1 u64 (lin_depth2 p) ltac:(lra)) as H1.
  replace (@lin_run binary64 y' (reals fp) - lin_exact y p)
    with ((@lin_run binary64 y' (reals fp) - lin_exact y' p) + (lin_exact y' p - lin_exact y p)) by ring.
  eapply Rle_trans; [apply Rabs_triang|].
  pose proof (Rmult_le_compat_l ((1 + u64) ^ lin_depth2 p - 1) _ _ ltac:(lra) S2). lra.
Qed.

(** ** hypot: an underflow is a small change of the arguments *)
Definition hyp_q (v m q : R) : R :=
  if Rle_dec m ((1 + v) * q) then if Rle_dec ((1 - v) * q) m then q else m / (1 - v) else m / (1 + v).
Definition hyp_a (q q0 a : R) : R := if Req_EM_T q0 0 then q else a * (q / q0).
Definition hyp_b (q q0 b : R) : R := if Req_EM_T q0 0 then 0 else b * (q / q0).
Lemma hyp_move : forall a b q d, 0 <= q -> let q0 := sqrt (a ^ 2 + b ^ 2) in Rabs (q - q0) <= d ->
  sqrt (hyp_a q q0 a ^ 2 + hyp_b q q0 b ^ 2) = q /\ Rabs (hyp_a q q0 a - a) <= d /\ Rabs (hyp_b q q0 b - b) <= d.
Proof.
  intros a b q d Hq q0 Hd. pose proof (pow2_ge_0 a) as Pa. pose proof (pow2_ge_0 b) as Pb.
  assert (Q2 : q0 ^ 2 = a ^ 2 + b ^ 2) by (apply pow2_sqrt; lra). assert (Q0 : 0 <= q0) by apply sqrt_pos.
  unfold hyp_a, hyp_b. destruct (Req_EM_T q0 0) as [Z|Z].
  - rewrite Z in *. assert (a = 0) by nra. assert (b = 0) by nra. subst a b.
    replace (q ^ 2 + 0 ^ 2) with (q ^ 2) by ring. rewrite sqrt_pow2 by exact Hq. replace (0 - 0) with 0 by ring. rewrite Rabs_R0.
    pose proof (Rabs_pos (q - 0)). repeat split; lra.
  - assert (Qp : 0 < q0) by lra. assert (Qi : 0 < / q0) by (apply Rinv_0_lt_compat; exact Qp).
    assert (C : forall t, Rabs t <= q0 -> Rabs (t * (q / q0) - t) <= d).
    { intros t Ht. replace (t * (q / q0) - t) with (t * / q0 * (q - q0)) by (field; exact Z). rewrite Rabs_mult. eapply Rle_trans; [|exact Hd].
      rewrite <- (Rmult_1_l (Rabs (q - q0))) at 2. apply Rmult_le_compat_r; [apply Rabs_pos|]. rewrite Rabs_mult, (Rabs_pos_eq (/ q0)) by lra.
      apply (Rmult_le_reg_r q0); [exact Qp|]. rewrite Rmult_assoc, Rinv_l by exact Z. lra. }
    assert (L : forall t s, t ^ 2 + s ^ 2 = q0 ^ 2 -> Rabs t <= q0).
    { intros t s H. rewrite <- (Rabs_pos_eq q0) by lra. apply Rsqr_le_abs_0. unfold Rsqr. pose proof (pow2_ge_0 s). nra. }
    split; [|split].
    + replace ((a * (q / q0)) ^ 2 + (b * (q / q0)) ^ 2) with (q ^ 2); [apply sqrt_pow2; exact Hq|].
      replace ((a * (q / q0)) ^ 2 + (b * (q / q0)) ^ 2) with ((a ^ 2 + b ^ 2) * (q / q0) ^ 2) by ring. rewrite <- Q2. field. exact Z.
    + apply C. apply (L a b). lra.
    + apply C. apply (L b a). lra.
Qed.
Lemma hyp_q_ok : forall v m q, 0 <= v <= / 2 -> 0 <= m -> 0 <= q -> Rabs (m - q) <= v * q + tiny ->
  let q' := hyp_q v m q in 0 <= q' /\ Rabs (q' - q) <= 2 * tiny /\ (1 - v) * q' <= m <= (1 + v) * q'.
Proof.
  intros v m q Hv Hm Hq H q'. pose proof tiny_pos as Ht. apply Rcomplements.Rabs_le_between in H. unfold q', hyp_q.
  destruct (Rle_dec m ((1 + v) * q)) as [A|A]; [destruct (Rle_dec ((1 - v) * q) m) as [B|B]|].
  - rewrite Rminus_diag_eq, Rabs_R0 by reflexivity. lra.
  - apply Rnot_le_lt in B. set (z := m / (1 - v)). assert (E : (1 - v) * z = m) by (unfold z; field; lra).
    assert (z < q) by (apply (Rmult_lt_reg_l (1 - v)); lra).
    assert (0 <= z) by (apply (Rmult_le_reg_l (1 - v)); lra).
    assert (q - z <= 2 * tiny) by (apply (Rmult_le_reg_l (1 - v)); [lra|]; nra).
    split; [lra|]. split; [rewrite Rabs_left1; lra|]. split; [lra|]. pose proof (Rmult_le_pos v z ltac:(lra) ltac:(lra)). lra.
  - apply Rnot_le_lt in A. set (z := m / (1 + v)). assert (E : (1 + v) * z = m) by (unfold z; field; lra).
    assert (q < z) by (apply (Rmult_lt_reg_l (1 + v)); lra).
    assert (z - q <= 2 * tiny) by (apply (Rmult_le_reg_l (1 + v)); [lra|]; nra).
    split; [lra|]. split; [rewrite Rabs_pos_eq; lra|]. split; [|lra]. pose proof (Rmult_le_pos v z ltac:(lra) ltac:(lra)). lra.
Qed.

(** ** sums of nonnegative numbers with underflow *)
Lemma gain_nonneg : forall p, 0 <= gain p. Proof. intros. apply lin_size_nonneg. Qed.
Lemma additive_floor : forall x y p d0 phi, additive p -> 0 <= phi ->
  (forall i, 0 <= x i /\ 0 <= y i /\ (1 - u64) ^ d0 * x i - phi <= y i <= (1 + u64) ^ d0 * x i + phi) ->
  let G := gain p * phi + lin_amp p * tiny in
  0 <= @lin_run binary64 y p /\
  (1 - u64) ^ (lin_depth p + d0) * lin_exact x p - G <= @lin_run binary64 y p <= (1 + u64) ^ (lin_depth p + d0) * lin_exact x p + (1 + u64) ^ lin_depth p * G.
Proof.
  intros x y p d0 phi Hp Hphi Hxy. cbv zeta. pose proof u64_pos as Hu. assert (Hu1 : u64 < 1) by (unfold u64; lra). pose proof tiny_pos as Ht.
  assert (Hx : forall i, 0 <= x i) by apply Hxy.
  assert (step : forall v e d g, 0 <= v -> (1 - u64) ^ (d + d0) * e - g <= v <= (1 + u64) ^ (d + d0) * e + (1 + u64) ^ d * g ->
    0 <= rnd64 v /\ (1 - u64) ^ (S d + d0) * e - (g + tiny) <= rnd64 v <= (1 + u64) ^ (S d + d0) * e + (1 + u64) ^ S d * (g + tiny) \/ g < 0).
  { intros v e d g Hv [A B]. destruct (Rlt_or_le g 0) as [Hg|Hg]; [right; exact Hg|left]. split; [rewrite <- rnd64_0; apply rnd64_monotone; exact Hv|].
    destruct rnd64_accurate as (_ & _ & R). specialize (R v). fold u64 in R. fold tiny in R. rewrite (Rabs_pos_eq v Hv) in R. apply Rcomplements.Rabs_le_between in R.
    cbn [Nat.add pow]. pose proof (pow_u_ge1 u64 d ltac:(lra)) as P1. set (P := (1 + u64) ^ d) in *. set (Q := (1 - u64) ^ (d + d0)) in *. set (Q' := (1 + u64) ^ (d + d0)) in *.
    pose proof (Rmult_le_compat_l (1 - u64) _ _ ltac:(lra) A) as A'. pose proof (Rmult_le_compat_l (1 + u64) _ _ ltac:(lra) B) as B'.
    assert (tiny <= (1 + u64) * P * tiny) by (rewrite <- (Rmult_1_l tiny) at 1; apply Rmult_le_compat_r; [lra|]; nra).
    assert (0 <= u64 * g) by (apply Rmult_le_pos; lra). split; lra. }
  assert (wid : forall e g v d d', 0 <= e -> 0 <= g -> (d <= d')%nat -> (1 - u64) ^ (d + d0) * e - g <= v <= (1 + u64) ^ (d + d0) * e + (1 + u64) ^ d * g ->
    (1 - u64) ^ (d' + d0) * e - g <= v <= (1 + u64) ^ (d' + d0) * e + (1 + u64) ^ d' * g).
  { intros e g v d d' He Hg Hd [A B]. destruct (bounds_widen u64 e ((1 - u64) ^ (d + d0) * e) (d + d0) (d' + d0) ltac:(lra) He ltac:(lia)) as [W _].
    { split; [lra|]. apply Rmult_le_compat_r; [exact He|]. apply pow_incr. lra. }
    pose proof (Rmult_le_compat_r e _ _ He (pow_u_le u64 (d + d0) (d' + d0) ltac:(lra) ltac:(lia))).
    pose proof (Rmult_le_compat_r g _ _ Hg (pow_u_le u64 d d' ltac:(lra) Hd)). split; lra. }
  assert (Gp : forall p, 0 <= gain p * phi + lin_amp p * tiny).
  { intros. pose proof (Rmult_le_pos _ _ (gain_nonneg p0) Hphi). pose proof (Rmult_le_pos _ _ (lin_amp_nonneg p0) (Rlt_le _ _ Ht)). lra. }
  induction p as [i| |p IHp q IHq|p IHp q IHq|c p IHp|c p IHp q IHq]; cbn [additive lin_run lin_exact lin_depth lin_amp rnd binary64] in *.
  - destruct (Hxy i) as (H1 & H2 & H3). unfold gain. cbn [lin_size]. rewrite Rabs_R1. cbn [Nat.add pow]. lra.
  - unfold gain. cbn [lin_size]. lra.
  - destruct Hp as [Hp Hq]. destruct (IHp Hp) as [N1 B1]. destruct (IHq Hq) as [N2 B2].
    pose proof (additive_exact_nonneg x p Hp Hx) as E1. pose proof (additive_exact_nonneg x q Hq Hx) as E2.
    apply (wid _ _ _ _ (Nat.max (lin_depth p) (lin_depth q)) E1 (Gp p) (Nat.le_max_l _ _)) in B1.
    apply (wid _ _ _ _ (Nat.max (lin_depth p) (lin_depth q)) E2 (Gp q) (Nat.le_max_r _ _)) in B2.
    destruct (step (@lin_run binary64 y p + @lin_run binary64 y q) (lin_exact x p + lin_exact x q) (Nat.max (lin_depth p) (lin_depth q))
      (gain p * phi + lin_amp p * tiny + (gain q * phi + lin_amp q * tiny))) as [K|K].
    + lra.
    + lra.
    + replace (gain (Add p q) * phi + (lin_amp p + lin_amp q + 1) * tiny) with (gain p * phi + lin_amp p * tiny + (gain q * phi + lin_amp q * tiny) + tiny)
        by (unfold gain; cbn [lin_size]; ring). exact K.
    + pose proof (Gp p). pose proof (Gp q). lra.
  - contradiction.
  - destruct Hp as [Hc Hp]. destruct (IHp Hp) as [N1 B1]. pose proof (additive_exact_nonneg x p Hp Hx) as E1.
    destruct (step (c * @lin_run binary64 y p) (c * lin_exact x p) (lin_depth p) (c * (gain p * phi + lin_amp p * tiny))) as [K|K].
    + apply Rmult_le_pos; assumption.
    + destruct B1 as [B1 B2]. pose proof (Rmult_le_compat_l c _ _ Hc B1). pose proof (Rmult_le_compat_l c _ _ Hc B2). lra.
    + replace (gain (Scale c p) * phi + (Rabs c * lin_amp p + 1) * tiny) with (c * (gain p * phi + lin_amp p * tiny) + tiny)
        by (unfold gain; cbn [lin_size]; rewrite (Rabs_pos_eq c Hc); ring). exact K.
    + pose proof (Rmult_le_pos _ _ Hc (Gp p)). lra.
  - destruct Hp as (Hc & Hp & Hq). destruct (IHp Hp) as [N1 B1]. destruct (IHq Hq) as [N2 B2].
    pose proof (additive_exact_nonneg x p Hp Hx) as E1. pose proof (additive_exact_nonneg x q Hq Hx) as E2.
    apply (wid _ _ _ _ (Nat.max (lin_depth p) (lin_depth q)) E1 (Gp p) (Nat.le_max_l _ _)) in B1.
    apply (wid _ _ _ _ (Nat.max (lin_depth p) (lin_depth q)) E2 (Gp q) (Nat.le_max_r _ _)) in B2.
    destruct (step (c * @lin_run binary64 y p + @lin_run binary64 y q) (c * lin_exact x p + lin_exact x q) (Nat.max (lin_depth p) (lin_depth q))
      (c * (gain p * phi + lin_amp p * tiny) + (gain q * phi + lin_amp q * tiny))) as [K|K].
    + pose proof (Rmult_le_pos _ _ Hc N1). lra.
    + destruct B1 as [B11 B12]. pose proof (Rmult_le_compat_l c _ _ Hc B11). pose proof (Rmult_le_compat_l c _ _ Hc B12). lra.
    + replace (gain (ScaleAdd c p q) * phi + (Rabs c * lin_amp p + lin_amp q + 1) * tiny) with (c * (gain p * phi + lin_amp p * tiny) + (gain q * phi + lin_amp q * tiny) + tiny)
        by (unfold gain; cbn [lin_size]; rewrite (Rabs_pos_eq c Hc); ring). exact K.
    + pose proof (Rmult_le_pos _ _ Hc (Gp p)). pose proof (Gp q). lra.
Qed.

(** ** powers and band energies *)
Lemma inverse_stored : forall nfft, (1 <= nfft)%nat -> (Z.of_nat nfft <= 2 ^ 40)%Z ->
  let c := rnd64 (1 / INR nfft) in 0 <= c <= 1 /\ (1 - u64) * (1 / INR nfft) <= c <= (1 + u64) * (1 / INR nfft).
Proof.
  intros nfft H1 H2 c. destruct (inverse_ok nfft H1 ltac:(lia)) as (_ & V & B). rewrite V in B. split; [exact B|].
  assert (N : 1 <= INR nfft) by (change 1 with (INR 1); apply le_INR; exact H1).
  assert (N2 : INR nfft <= bpow radix2 40) by (rewrite INR_IZR_INZ; change (bpow radix2 40) with (IZR (2 ^ 40)); apply IZR_le; exact H2).
  assert (P : 0 < 1 / INR nfft) by (apply Rdiv_lt_0_compat; lra).
  assert (Hn : normal (1 / INR nfft)).
  { right. rewrite Rabs_pos_eq by lra. apply Rle_trans with (bpow radix2 (-40)); [apply bpow_le; lia|]. change (-40)%Z with (- (40))%Z. rewrite bpow_opp.
    unfold Rdiv. rewrite Rmult_1_l. apply Rinv_le_contravar; lra. }
  pose proof (normal_stored _ Hn) as K. fold c in K. rewrite (Rabs_pos_eq (1 / INR nfft)) in K by lra. apply Rcomplements.Rabs_le_between in K. lra.
Qed.
Lemma power_floor : forall nfft m k, (1 <= nfft)%nat -> (Z.of_nat nfft <= 2 ^ 40)%Z ->
  let x := m k * m k / INR nfft in let P := @bin_power binary64 nfft m k in
  0 <= x /\ 0 <= P /\ (1 - u64) ^ 3 * x - 3 * tiny <= P <= (1 + u64) ^ 3 * x + 3 * tiny.
Proof.
  intros nfft m k H1 H2 x P. pose proof u64_pos as Hu. assert (Hu1 : u64 < 1) by (unfold u64; lra). pose proof tiny_pos as Ht.
  destruct (inverse_stored nfft H1 H2) as [C1 C2]. unfold P, bin_power. cbn [rnd binary64]. set (c := rnd64 (1 / INR nfft)) in *.
  assert (M : 0 <= m k * m k) by apply Rle_0_sqr. set (mm := m k * m k) in *. pose proof (inv_nfft nfft) as Hi.
  assert (X : x = mm * (1 / INR nfft)) by (unfold x; unfold Rdiv; ring). rewrite X. set (w := 1 / INR nfft) in *. clearbody c mm w. clear x P X H1 H2.
  assert (Z0 : forall v, 0 <= v -> 0 <= rnd64 v /\ (1 - u64) * v - tiny <= rnd64 v <= (1 + u64) * v + tiny).
  { intros v Hv. split; [rewrite <- rnd64_0; apply rnd64_monotone; exact Hv|]. destruct rnd64_accurate as (_ & _ & R). specialize (R v). fold u64 in R. fold tiny in R.
    rewrite (Rabs_pos_eq v Hv) in R. apply Rcomplements.Rabs_le_between in R. lra. }
  destruct (Z0 mm M) as [S0 [S1 S2]]. set (s := rnd64 mm) in *. clearbody s.
  assert (CS : 0 <= c * s) by (apply Rmult_le_pos; lra). destruct (Z0 (c * s) CS) as [P0 [P1 P2]].
  split; [apply Rmult_le_pos; assumption|]. split; [exact P0|].
  assert (U : c * s <= (1 + u64) ^ 2 * (mm * w) + tiny).
  { apply Rle_trans with (c * ((1 + u64) * mm) + c * tiny).
    - rewrite <- Rmult_plus_distr_l. apply Rmult_le_compat_l; lra.
    - pose proof (Rmult_le_compat_r ((1 + u64) * mm) _ _ ltac:(apply Rmult_le_pos; lra) (proj2 C2)).
      pose proof (Rmult_le_compat_r tiny _ _ ltac:(lra) (proj2 C1)). lra. }
  assert (L : (1 - u64) ^ 2 * (mm * w) - tiny <= c * s).
  { apply Rle_trans with (c * ((1 - u64) * mm) - c * tiny).
    - pose proof (Rmult_le_compat_r ((1 - u64) * mm) _ _ ltac:(apply Rmult_le_pos; lra) (proj1 C2)).
      pose proof (Rmult_le_compat_r tiny _ _ ltac:(lra) (proj2 C1)). lra.
    - rewrite <- Rmult_minus_distr_l. apply Rmult_le_compat_l; lra. }
  pose proof (Rmult_le_compat_l (1 - u64) _ _ ltac:(lra) L). pose proof (Rmult_le_compat_l (1 + u64) _ _ ltac:(lra) U).
  assert (u64 * tiny <= tiny) by (rewrite <- (Rmult_1_l tiny) at 2; apply Rmult_le_compat_r; lra).
  assert (0 <= u64 * tiny) by (apply Rmult_le_pos; lra). cbn [pow] in *. split; lra.
Qed.

Lemma bernoulli : forall u n, 0 <= u <= 1 -> 1 - INR n * u <= (1 - u) ^ n.
Proof.
  intros u n Hu. induction n as [|n IH]; [cbn; lra|]. rewrite S_INR. cbn [pow].
  pose proof (Rmult_le_compat_l (1 - u) _ _ ltac:(lra) IH). pose proof (Rmult_le_pos _ _ (pos_INR n) (proj1 Hu)). nra.
Qed.

Section Band.
Context (v r s : R) (D nfft bins : nat) (hyp : R -> R -> R) (re im : nat -> lin) (fre fim : nat -> flin) (N : nat) (x : nat -> R)
  (w : nat -> R) (bank : nat -> lin) (j : nat) (e : R).
Hypothesis Hh : hypot_close v hyp.
Hypothesis Hr : 0 < r <= / 2.
Hypothesis Hs : 0 <= s <= / 2.
Hypothesis Hn1 : (1 <= nfft)%nat.
Hypothesis Hn2 : (Z.of_nat nfft <= 2 ^ 40)%Z.
Hypothesis Hbins : INR bins <= 2 ^ 40.
Hypothesis Hre : forall k, (k < bins)%nat -> float_program N (re k) (fre k) /\ float_program N (im k) (fim k).
Hypothesis HD : forall k, (k < bins)%nat -> (lin_depth2 (re k) <= D)%nat /\ (lin_depth2 (im k) <= D)%nat.
Hypothesis Hw : forall k, 0 <= w k <= 1.
Hypothesis Hb : dot_program w bins (bank j).
Let ew : R := bigsum bins (fun k => w k * (lin_exact x (re k) ^ 2 + lin_exact x (im k) ^ 2) / INR nfft).
Hypothesis Hew : Rabs (ew - e) <= s * e.
Hypothesis He : bpow radix2 (-900) <= e.
Hypothesis Hnoise : float_noise D nfft bins x re im w <= r ^ 2 * ew.
Let m : nat -> R := @bin_magnitude binary64 hyp (fun k => reals (fre k)) (fun k => reals (fim k)) x.
Let e' : R := @band_energy binary64 nfft m bank j.

Let a' (k : nat) : R := @lin_run binary64 x (reals (fre k)).
Let b' (k : nat) : R := @lin_run binary64 x (reals (fim k)).
Let q0 (k : nat) : R := sqrt (a' k ^ 2 + b' k ^ 2).
Let q (k : nat) : R := hyp_q v (m k) (q0 k).
Let a2 (k : nat) : R := hyp_a (q k) (q0 k) (a' k).
Let b2 (k : nat) : R := hyp_b (q k) (q0 k) (b' k).

Lemma bin_facts : forall k, 0 <= q k /\ q k ^ 2 = a2 k ^ 2 + b2 k ^ 2 /\ Rabs (a2 k - a' k) <= 2 * tiny /\ Rabs (b2 k - b' k) <= 2 * tiny /\
  (1 - v) * q k <= m k <= (1 + v) * q k.
Proof.
  intros k. destruct Hh as [Hv Hg]. destruct (Hg (a' k) (b' k)) as [M0 M1]. change (hyp (a' k) (b' k)) with (m k) in *. change (sqrt (a' k ^ 2 + b' k ^ 2)) with (q0 k) in M1.
  destruct (hyp_q_ok v (m k) (q0 k) Hv M0 (sqrt_pos _) M1) as (Q0 & Q1 & Q2). fold (q k) in Q0, Q1, Q2.
  destruct (hyp_move (a' k) (b' k) (q k) (2 * tiny) Q0 Q1) as (R0 & R1 & R2). fold (q0 k) in R0, R1, R2. fold (a2 k) in R0, R1. fold (b2 k) in R0, R2.
  split; [exact Q0|]. split; [|auto]. rewrite <- R0. apply pow2_sqrt. pose proof (pow2_ge_0 (a2 k)). pose proof (pow2_ge_0 (b2 k)). lra.
Qed.
Lemma part_error : forall p fp k z, float_program N p fp -> (lin_depth2 p <= D)%nat -> Rabs (z - @lin_run binary64 x (reals fp)) <= 2 * tiny -> (k < bins)%nat ->
  Rabs (z - lin_exact x p) <= ((1 + / 2 ^ 53) ^ D - 1) * lin_size x p + bpow radix2 (-1030).
Proof.
  intros p fp k z Hp Hd Hz _. pose proof (float_error N p fp x Hp) as F.
  replace (z - lin_exact x p) with ((z - @lin_run binary64 x (reals fp)) + (@lin_run binary64 x (reals fp) - lin_exact x p)) by ring.
  eapply Rle_trans; [apply Rabs_triang|]. fold u64. pose proof u64_pos.
  pose proof (depth_up u64 _ _ (lin_size x p) ltac:(lra) Hd (lin_size_nonneg x p)).
  assert (T : 2 * tiny + bpow radix2 (-1033) <= bpow radix2 (-1030)).
  { assert (tiny <= bpow radix2 (-1033)) by (apply bpow_le; lia). change (-1030)%Z with (3 + -1033)%Z. rewrite bpow_plus. change (bpow radix2 3) with 8. pose proof (bpow_gt_0 radix2 (-1033)). lra. }
  lra.
Qed.
Lemma exact_bands : let E := bigsum bins (fun k => w k * (q k ^ 2 / INR nfft)) in (1 - r) ^ 2 * ew <= E <= (1 + r) ^ 2 * ew.
Proof.
  intros E. pose proof (inv_nfft nfft) as Hinv. unfold Rdiv in Hinv. rewrite Rmult_1_l in Hinv.
  assert (Hw' : forall k, 0 <= w k / INR nfft) by (intros k; apply Rmult_le_pos; [apply Hw|exact Hinv]).
  set (d := fun p => ((1 + / 2 ^ 53) ^ D - 1) * lin_size x p + bpow radix2 (-1030)).
  pose proof (perturbed_energy bins (fun k => w k / INR nfft) (fun k => lin_exact x (re k)) (fun k => lin_exact x (im k)) a2 b2
    (fun k => d (re k)) (fun k => d (im k)) r ltac:(lra) Hw') as P. cbv zeta beta in P.
  rewrite (bigsum_ext bins (fun k => w k / INR nfft * (lin_exact x (re k) ^ 2 + lin_exact x (im k) ^ 2))
    (fun k => w k * (lin_exact x (re k) ^ 2 + lin_exact x (im k) ^ 2) / INR nfft)) in P by (intros; unfold Rdiv; ring).
  fold ew in P. unfold E. rewrite (bigsum_ext bins _ (fun k => w k / INR nfft * (a2 k ^ 2 + b2 k ^ 2))).
  2:{ intros k _. destruct (bin_facts k) as (_ & -> & _). unfold Rdiv. ring. }
  apply P.
  - intros k Hk. destruct (bin_facts k) as (_ & _ & A & B & _). destruct (Hre k Hk) as [F1 F2]. destruct (HD k Hk) as [D1 D2].
    split; [apply (part_error (re k) (fre k) k)|apply (part_error (im k) (fim k) k)]; assumption.
  - eapply Rle_trans; [|exact Hnoise]. right. unfold float_noise. cbv zeta. apply bigsum_ext. intros k _. fold (d (re k)) (d (im k)). unfold Rdiv. ring.
Qed.
Lemma band_float : 0 < e' /\ bpow radix2 (-910) <= e' /\ Rabs (ln e' - ln e) <= float_log_bound v r s bins.
Proof.
  pose proof exact_bands as X. cbv zeta in X. set (E := bigsum bins (fun k => w k * (q k ^ 2 / INR nfft))) in *.
  pose proof u64_pos as Hu. assert (Hu1 : u64 < 1) by (unfold u64; lra). pose proof tiny_pos as Ht. destruct Hh as [Hv _].
  pose proof (bpow_gt_0 radix2 (-900)) as P9. assert (He0 : 0 < e) by lra.
  pose proof (inv_nfft nfft) as Hinv. unfold Rdiv in Hinv. rewrite Rmult_1_l in Hinv.
  assert (Hew' : (1 - s) * e <= ew <= (1 + s) * e) by (apply Rcomplements.Rabs_le_between in Hew; lra).
  (* squares of the computed magnitudes *)
  set (Em := bigsum bins (fun k => w k * (m k * m k / INR nfft))).
  assert (M : (1 - v) ^ 2 * E <= Em <= (1 + v) ^ 2 * E).
  { unfold Em, E. rewrite <- !bigsum_scal. split; apply bigsum_le; intros k _; destruct (bin_facts k) as (Q & _ & _ & _ & M1 & M2).
    - replace ((1 - v) ^ 2 * (w k * (q k ^ 2 / INR nfft))) with (w k * (((1 - v) * q k) * ((1 - v) * q k) * / INR nfft)) by (unfold Rdiv; ring).
      apply Rmult_le_compat_l; [apply Hw|]. apply Rmult_le_compat_r; [exact Hinv|]. assert (0 <= (1 - v) * q k) by (apply Rmult_le_pos; lra). apply Rmult_le_compat; lra.
    - replace ((1 + v) ^ 2 * (w k * (q k ^ 2 / INR nfft))) with (w k * (((1 + v) * q k) * ((1 + v) * q k) * / INR nfft)) by (unfold Rdiv; ring).
      apply Rmult_le_compat_l; [apply Hw|]. apply Rmult_le_compat_r; [exact Hinv|]. assert (0 <= (1 - v) * q k) by (apply Rmult_le_pos; lra). apply Rmult_le_compat; lra. }
  (* roundings of the powers and of the sum *)
  assert (Hadd : additive (bank j)) by (apply (dot_additive w bins); [apply Hw|exact Hb]).
  assert (F : forall i, 0 <= m i * m i / INR nfft /\ 0 <= @bin_power binary64 nfft m i /\
    (1 - u64) ^ 3 * (m i * m i / INR nfft) - 3 * tiny <= @bin_power binary64 nfft m i <= (1 + u64) ^ 3 * (m i * m i / INR nfft) + 3 * tiny)
    by (intros i; exact (power_floor nfft m i Hn1 Hn2)).
  pose proof (additive_floor _ _ (bank j) 3 (3 * tiny) Hadd ltac:(lra) F) as K. cbv zeta in K. change (@lin_run binary64 (@bin_power binary64 nfft m) (bank j)) with e' in K.
  rewrite (dot_exact w bins (bank j) _ Hb) in K. fold Em in K. set (G := gain (bank j) * (3 * tiny) + lin_amp (bank j) * tiny) in *.
  assert (Em0 : 0 <= Em) by (apply bigsum_nonneg; intros k _; apply Rmult_le_pos; [apply Hw|apply F]).
  assert (G0 : 0 <= G <= 5 * 2 ^ 40 * tiny).
  { assert (gain (bank j) <= INR bins).
    { unfold gain. rewrite (dot_size w bins (bank j) _ Hb). apply Rle_trans with (bigsum bins (fun _ => 1)).
      - apply bigsum_le. intros k _. rewrite Rmult_1_r, Rabs_pos_eq by apply Hw. apply Hw.
      - rewrite bigsum_const. lra. }
    pose proof (dot_amp w bins (bank j) Hb). pose proof (gain_nonneg (bank j)). pose proof (lin_amp_nonneg (bank j)). unfold G.
    replace (gain (bank j) * (3 * tiny) + lin_amp (bank j) * tiny) with ((gain (bank j) * 3 + lin_amp (bank j)) * tiny) by ring.
    split; [apply Rmult_le_pos; lra|]. apply Rmult_le_compat_r; lra. }
  assert (dep : (lin_depth (bank j) <= bins)%nat) by (apply (dot_depth w); exact Hb).
  set (A1 := (1 - u64) ^ (bins + 3)). set (B1 := (1 + u64) ^ (bins + 3)).
  assert (T31 : 2 * (5 * 2 ^ 40 * tiny) <= bpow radix2 (-1031)).
  { replace (2 * (5 * 2 ^ 40 * tiny)) with (10 * (bpow radix2 40 * tiny)) by (rewrite b40; ring). rewrite bpow_tiny.
    change (-1031)%Z with (4 + (40 - 1075))%Z. rewrite bpow_plus. change (bpow radix2 4) with 16. pose proof (bpow_gt_0 radix2 (40 - 1075)). lra. }
  assert (K2 : A1 * Em - bpow radix2 (-1031) <= e' <= B1 * Em + bpow radix2 (-1031)).
  { destruct K as (_ & K1 & K2). split.
    - assert (A1 * Em <= (1 - u64) ^ (lin_depth (bank j) + 3) * Em).
      { apply Rmult_le_compat_r; [exact Em0|]. unfold A1. replace (bins + 3)%nat with ((lin_depth (bank j) + 3) + (bins - lin_depth (bank j)))%nat by lia.
        rewrite pow_add. rewrite <- (Rmult_1_r ((1 - u64) ^ (lin_depth (bank j) + 3))) at 2. apply Rmult_le_compat_l; [apply pow_le; lra|].
        apply Rle_trans with (1 ^ (bins - lin_depth (bank j))); [apply pow_incr; lra|rewrite pow1; lra]. }
      lra.
    - assert ((1 + u64) ^ (lin_depth (bank j) + 3) * Em <= B1 * Em) by (apply Rmult_le_compat_r; [exact Em0|]; apply pow_u_le; [lra|lia]).
      assert ((1 + u64) ^ lin_depth (bank j) * G <= 2 * (5 * 2 ^ 40 * tiny)).
      { apply Rmult_le_compat; [apply pow_le; lra|lra| |lra]. eapply Rle_trans; [apply (pow_u_le u64 _ bins); [lra|exact dep]|]. apply pow_nodes. exact Hbins. }
      lra. }
  assert (A1h : / 2 <= A1).
  { unfold A1. eapply Rle_trans; [|apply bernoulli; lra]. rewrite plus_INR. replace (INR 3) with 3 by (cbn; lra).
    assert ((INR bins + 3) * u64 <= (2 ^ 40 + 3) * u64) by (apply Rmult_le_compat_r; lra). unfold u64 in *. lra. }
  assert (B1p : 0 < B1) by (apply pow_lt; lra).
  set (A2 := (1 - v) ^ 2 * ((1 - r) ^ 2 * (1 - s))). set (B2 := (1 + v) ^ 2 * ((1 + r) ^ 2 * (1 + s))).
  assert (V2 : / 4 <= (1 - v) ^ 2) by nra. assert (R2 : / 4 <= (1 - r) ^ 2) by nra.
  assert (A2h : / 32 <= A2).
  { unfold A2. replace (/ 32) with (/ 4 * (/ 4 * / 2)) by lra. apply Rmult_le_compat; try lra. apply Rmult_le_compat; lra. }
  assert (B2p : 0 < B2) by (unfold B2; repeat apply Rmult_lt_0_compat; try lra; apply pow_lt; lra).
  assert (ME : A2 * e <= Em <= B2 * e).
  { unfold A2, B2. destruct M as [M1 M2]. destruct X as [X1 X2]. destruct Hew' as [W1 W2]. split.
    - eapply Rle_trans; [|exact M1]. rewrite Rmult_assoc. apply Rmult_le_compat_l; [lra|]. eapply Rle_trans; [|exact X1]. rewrite Rmult_assoc. apply Rmult_le_compat_l; lra.
    - eapply Rle_trans; [exact M2|]. rewrite Rmult_assoc. apply Rmult_le_compat_l; [apply pow_le; lra|]. eapply Rle_trans; [exact X2|]. rewrite Rmult_assoc. apply Rmult_le_compat_l; [apply pow_le; lra|lra]. }
  set (A := A1 * A2). set (B := B1 * B2).
  assert (Ah : / 64 <= A) by (unfold A; replace (/ 64) with (/ 2 * / 32) by lra; apply Rmult_le_compat; lra).
  assert (Bp : 0 < B) by (apply Rmult_lt_0_compat; assumption).
  assert (T100 : bpow radix2 (-1031) <= / 2 ^ 100 * (A * e)).
  { apply Rle_trans with (bpow radix2 (-100) * (bpow radix2 (-6) * bpow radix2 (-900))).
    - rewrite <- !bpow_plus. apply bpow_le. lia.
    - replace (/ 2 ^ 100) with (bpow radix2 (-100)).
      + apply Rmult_le_compat_l; [apply bpow_ge_0|]. change (bpow radix2 (-6)) with (/ 64). apply Rmult_le_compat; lra.
      + change (-100)%Z with (- (100))%Z. rewrite bpow_opp. f_equal. rewrite bpow_powerRZ. change (IZR radix2) with 2. rewrite (pow_powerRZ 2 100). reflexivity. }
  set (t := / 2 ^ 100) in *. assert (Ht1 : 0 < t <= / 2) by (unfold t; lra).
  assert (LB : float_log_bound v r s bins = - ln (A * (1 - t))).
  { unfold float_log_bound, band_log_bound. fold u64 t. unfold A, A1, A2. assert (0 < (1 - u64) ^ (bins + 3)) by (apply pow_lt; lra).
    assert (0 < (1 - v) ^ 2) by lra. assert (0 < (1 - r) ^ 2) by lra. assert (0 < (1 - r) ^ 2 * (1 - s)) by (apply Rmult_lt_0_compat; lra).
    assert (0 < (1 - v) ^ 2 * ((1 - r) ^ 2 * (1 - s))) by (apply Rmult_lt_0_compat; lra).
    rewrite !ln_mult by (try apply Rmult_lt_0_compat; lra). rewrite !ln_pow by lra. simpl (INR 2). ring. }
  clearbody t.
  assert (AB : A * e <= B * e).
  { apply Rmult_le_compat_r; [lra|]. unfold A, B, A1, B1, A2, B2. apply Rmult_le_compat.
    - apply pow_le; lra.
    - fold A2; lra.
    - apply pow_incr; lra.
    - apply Rmult_le_compat; [lra|apply Rmult_le_pos; lra|apply pow_incr; lra|]. apply Rmult_le_compat; [lra|lra|apply pow_incr; lra|lra]. }
  assert (FIN : A * (1 - t) * e <= e' <= B * (1 + t) * e).
  { destruct K2 as [K1 K2]. destruct ME as [E1 E2]. assert (A * e <= A1 * Em) by (unfold A; rewrite Rmult_assoc; apply Rmult_le_compat_l; lra).
    assert (B1 * Em <= B * e) by (unfold B; rewrite Rmult_assoc; apply Rmult_le_compat_l; lra).
    pose proof (Rmult_le_compat_l t _ _ ltac:(lra) AB). split; lra. }
  assert (Ap : 0 < A * (1 - t)) by (apply Rmult_lt_0_compat; lra).
  assert (Bt : 0 < B * (1 + t)) by (apply Rmult_lt_0_compat; lra).
  rewrite LB. destruct (ln_factor e' e (A * (1 - t)) (B * (1 + t)) He0 Ap Bt) as [L1 L2]; [|exact FIN|].
  - assert (U : forall z, 0 <= z <= / 2 -> 0 < 1 - z /\ 0 <= 1 + z /\ 1 + z <= / (1 - z)) by (intros z Hz; repeat split; try lra; apply one_plus_inv; lra).
    destruct (U v Hv) as (v1 & v2 & v3). destruct (U r ltac:(lra)) as (r1 & r2 & r3). destruct (U s Hs) as (s1 & s2 & s3). destruct (U t ltac:(lra)) as (t1 & t2 & t3).
    apply prod_inv; try lra. unfold A, B. apply prod_inv; try lra.
    + unfold A1, B1. apply pow_inv_le; try lra. apply one_plus_inv. lra.
    + unfold A2, B2. apply prod_inv; try (apply pow_le; lra); try lra.
      * apply Rmult_lt_0_compat; lra.
      * apply Rmult_le_pos; [apply pow_le|]; lra.
      * apply pow_inv_le; lra.
      * apply prod_inv; try (apply pow_le; lra); try lra. apply pow_inv_le; lra.
  - split; [exact L1|]. split; [|exact L2]. destruct FIN as [F1 _]. eapply Rle_trans; [|exact F1].
    apply Rle_trans with (bpow radix2 (-10) * bpow radix2 (-900)); [rewrite <- bpow_plus; apply bpow_le; lia|].
    change (bpow radix2 (-10)) with (/ 1024). assert (/ 128 <= A * (1 - t)) by (replace (/ 128) with (/ 64 * / 2) by lra; apply Rmult_le_compat; lra).
    apply Rmult_le_compat; lra.
Qed.
End Band.
