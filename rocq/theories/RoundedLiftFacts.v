(** * Facts: liftering and deltas in floating point *)
From Coq Require Import Reals ZArith List String Bool Lia Lra Psatz.
From Flocq Require Import Core.
From Coquelicot Require Rcomplements.
From Verif Require Import Base BaseFacts SpecBase BigSum SpecMat MatFacts SpecFilters Cepstral CepstralFacts StabilityFacts Features Extractors
  Rounded SpecRounded RoundedFacts RoundedLaws RoundedWindows SpecOptions OptionFacts RoundedNormal SpecRoundedNormal RoundedNormalFacts
  RoundedLift SpecRoundedLift.
Import ListNotations.
Local Open Scope R_scope.

Lemma rnd_rel : forall (E : Env) u z, accurate u 0 (@rnd E) -> Rabs (@rnd E z - z) <= u * Rabs z.
Proof. intros E u z (_ & _ & H). specialize (H z). lra. Qed.
Lemma rnd_off : forall (E : Env) u z z' d, accurate u 0 (@rnd E) -> Rabs (z' - z) <= d -> Rabs (@rnd E z' - z) <= (1 + u) * d + u * Rabs z.
Proof.
  intros E u z z' d Ha H. pose proof Ha as (Hu & _ & _). pose proof (rnd_rel E u z' Ha) as K.
  assert (Rabs z' <= Rabs z + d). { replace z' with (z + (z' - z)) by ring. eapply Rle_trans; [apply Rabs_triang|]. lra. }
  replace (@rnd E z' - z) with ((@rnd E z' - z') + (z' - z)) by ring. eapply Rle_trans; [apply Rabs_triang|].
  pose proof (Rmult_le_compat_l u _ _ Hu H0). lra.
Qed.

(** ** the exponential lifter *)
Lemma spec_lift_pos : forall l j, 0 < spec_lift l j.
Proof. intros. change (spec_lift l j) with (liftR l j). apply liftR_pos. Qed.
Lemma diagonal_sum : forall c j w (x : nat -> R), (j < c)%nat -> bigsum c (fun k => (if Nat.eqb k j then w else 0) * x k) = w * x j.
Proof.
  intros c j w x Hj. rewrite (bigsum_ext c _ (fun k => if Nat.eqb k j then w * x k else 0)).
  - rewrite (bigsum_delta c j (fun k => w * x k)) by exact Hj. reflexivity.
  - intros k _. destruct (Nat.eqb k j); ring.
Qed.
Lemma lift_entry : forall (E : Env) u v l c w p (x z : nat -> R) d M j, accurate u 0 (@rnd E) -> weights_within v l c w ->
  dot_program (fun k => if Nat.eqb k j then w j else 0) c (p j) -> (j < c)%nat -> Rabs (z j - x j) <= d -> Rabs (z j) <= M ->
  Rabs (@lin_run E z (p j) - x j * spec_lift l j) <= spec_lift l j * lift_error u v c M d.
Proof.
  intros E u v l c w p x z d M j Ha (Hv & Hw) Hp Hj Hd HM. pose proof Ha as (Hu & _ & _).
  pose proof (dot_error E u 0 _ c (p j) z Ha Hp) as K. rewrite Rmult_0_r, Rplus_0_r in K.
  rewrite (diagonal_sum c j (w j) z Hj) in K.
  rewrite (bigsum_ext c (fun k => Rabs ((if Nat.eqb k j then w j else 0) * z k)) (fun k => (if Nat.eqb k j then Rabs (w j) else 0) * Rabs (z k))) in K.
  2:{ intros k _. rewrite Rabs_mult. destruct (Nat.eqb k j); [reflexivity|]. rewrite Rabs_R0. reflexivity. }
  rewrite (diagonal_sum c j (Rabs (w j)) (fun k => Rabs (z k)) Hj) in K.
  specialize (Hw j Hj). pose proof (spec_lift_pos l j) as P. set (s := spec_lift l j) in *.
  assert (W : Rabs (w j) <= (1 + v) * s).
  { replace (w j) with (s + (w j - s)) by ring. eapply Rle_trans; [apply Rabs_triang|]. rewrite (Rabs_pos_eq s) by lra. lra. }
  pose proof (pow_u_ge1 u c Hu) as U.
  assert (WZ : Rabs (w j) * Rabs (z j) <= (1 + v) * s * M) by (apply Rmult_le_compat; auto using Rabs_pos).
  replace (@lin_run E z (p j) - x j * s) with ((@lin_run E z (p j) - w j * z j) + ((w j - s) * z j + s * (z j - x j))) by ring.
  eapply Rle_trans; [apply Rabs_triang|].
  assert (Rabs ((w j - s) * z j + s * (z j - x j)) <= v * s * M + s * d).
  { eapply Rle_trans; [apply Rabs_triang|]. rewrite !Rabs_mult, (Rabs_pos_eq s) by lra.
    apply Rplus_le_compat; [apply Rmult_le_compat; auto using Rabs_pos|apply Rmult_le_compat_l; lra]. }
  pose proof (Rmult_le_compat_l ((1 + u) ^ c - 1) _ _ ltac:(lra) WZ). unfold lift_error. lra.
Qed.
Theorem lift_float_error : forall (E : Env) u, accurate u 0 (@rnd E) -> forall r c x z d M, (0 < r)%nat -> (0 < c)%nat ->
  close r c d x z -> bounded r c M z -> forall l v w p, 0 < l <= 10 -> weights_within v l c w -> diagonal_programs w c p ->
  exists y, lifter_ceps (fmat r c x) l = Ok (fmat r c y) /\
  forall i j, (i < r)%nat -> (j < c)%nat -> Rabs (@lift_float E p z i j - y i j) <= spec_lift l j * lift_error u v c M d.
Proof.
  intros E u Ha r c x z d M Hr Hc Hd HM l v w p Hl Hw Hp. eexists. split; [apply lifter_pos; assumption|].
  intros i j Hi Hj. cbv beta. apply (lift_entry E u v l c w p (x i) (z i) d M j); auto.
Qed.
Lemma lift_float_exact : forall r c x, (0 < r)%nat -> (0 < c)%nat -> forall l p, 0 < l <= 10 -> diagonal_programs (spec_lift l) c p ->
  lifter_ceps (fmat r c x) l = Ok (fmat r c (@lift_float exact_env p x)).
Proof.
  intros r c x Hr Hc l p Hl Hp. rewrite lifter_pos by assumption. f_equal. apply fmat_ext. intros i j Hi Hj.
  assert (A : accurate 0 0 (@rnd exact_env)).
  { split; [lra|]. split; [lra|]. intros z. cbn [rnd exact_env]. rewrite Rminus_diag_eq, Rabs_R0 by reflexivity. lra. }
  pose proof (dot_error exact_env 0 0 _ c (p j) (x i) A (Hp j Hj)) as K. cbv beta in K.
  rewrite (diagonal_sum c j (spec_lift l j) (x i) Hj) in K. rewrite Rplus_0_r, pow1 in K.
  unfold lift_float. change (liftR l j) with (spec_lift l j). set (g := @lin_run exact_env (x i) (p j)) in *.
  assert (Rabs (g - spec_lift l j * x i j) <= 0) by lra. pose proof (Rabs_pos (g - spec_lift l j * x i j)).
  assert (Z : g - spec_lift l j * x i j = 0) by (destruct (Req_dec (g - spec_lift l j * x i j) 0) as [|N]; [assumption|apply Rabs_pos_lt in N; lra]). lra.
Qed.

(** ** the sine lifter *)
Lemma sin_lipschitz : forall a b, Rabs (sin a - sin b) <= Rabs (a - b).
Proof.
  intros a b. rewrite form4, Rabs_mult, Rabs_mult.
  pose proof (COS_bound ((a + b) / 2)) as B. assert (C : Rabs (cos ((a + b) / 2)) <= 1) by (apply Rabs_le; lra).
  pose proof (sin_abs_le ((a - b) / 2)) as S. rewrite (Rabs_pos_eq 2) by lra.
  assert (D : Rabs ((a - b) / 2) = Rabs (a - b) / 2) by (unfold Rdiv; rewrite Rabs_mult, (Rabs_pos_eq (/ 2)) by lra; reflexivity).
  rewrite D in S. pose proof (Rabs_pos (sin ((a - b) / 2))) as P.
  pose proof (Rmult_le_compat_r _ _ _ P C). lra.
Qed.
Lemma sine_weight_error : forall (E : Env) u v sinf L j, accurate u 0 (@rnd E) -> sin_within v sinf -> 0 < L ->
  Rabs (@sine_weight E sinf L j - spec_sine_lift L j) <= sine_error u v L j.
Proof.
  intros E u v sinf L j Ha (Hv & Hs) HL. pose proof Ha as (Hu & _ & _). unfold sine_weight, spec_sine_lift.
  set (t := PI * INR (j + 1) / L). pose proof PI_RGT_0 as HPI.
  assert (Hj : 0 <= INR (j + 1)) by apply pos_INR.
  assert (Hi : 0 < / L) by (apply Rinv_0_lt_compat, HL).
  assert (Ht : 0 <= t). { unfold t, Rdiv. apply Rmult_le_pos; [apply Rmult_le_pos; lra|lra]. }
  (* the argument *)
  set (a1 := @rnd E PI). set (a2 := @rnd E (a1 * INR (j + 1))). set (a3 := @rnd E (a2 / L)).
  assert (A1 : Rabs (a1 - PI) <= u * PI) by (pose proof (rnd_rel E u PI Ha) as K; rewrite (Rabs_pos_eq PI) in K by lra; exact K).
  assert (A2 : Rabs (a2 - PI * INR (j + 1)) <= ((1 + u) ^ 2 - 1) * (PI * INR (j + 1))).
  { eapply Rle_trans; [apply (rnd_off E u _ _ (u * PI * INR (j + 1)) Ha)|].
    - replace (a1 * INR (j + 1) - PI * INR (j + 1)) with ((a1 - PI) * INR (j + 1)) by ring.
      rewrite Rabs_mult, (Rabs_pos_eq (INR (j + 1))) by exact Hj. apply Rmult_le_compat_r; assumption.
    - rewrite Rabs_pos_eq by (apply Rmult_le_pos; lra). right. ring. }
  assert (A3 : Rabs (a3 - t) <= ((1 + u) ^ 3 - 1) * t).
  { eapply Rle_trans; [apply (rnd_off E u _ _ (((1 + u) ^ 2 - 1) * t) Ha)|].
    - unfold t. replace (a2 / L - PI * INR (j + 1) / L) with ((a2 - PI * INR (j + 1)) * / L) by (unfold Rdiv; ring).
      rewrite Rabs_mult, (Rabs_pos_eq (/ L)) by lra. unfold Rdiv.
      eapply Rle_trans; [apply Rmult_le_compat_r; [lra|exact A2]|]. right. ring.
    - rewrite (Rabs_pos_eq t) by exact Ht. right. ring. }
  (* the sine *)
  set (e := v + ((1 + u) ^ 3 - 1) * t).
  assert (S1 : Rabs (sinf a3 - sin t) <= e).
  { replace (sinf a3 - sin t) with ((sinf a3 - sin a3) + (sin a3 - sin t)) by ring. eapply Rle_trans; [apply Rabs_triang|].
    pose proof (Hs a3). pose proof (sin_lipschitz a3 t). unfold e. lra. }
  assert (E0 : 0 <= e) by (eapply Rle_trans; [apply Rabs_pos|exact S1]).
  assert (S0 : Rabs (sin t) <= 1) by (pose proof (SIN_bound t); apply Rabs_le; lra).
  set (h := L / 2). assert (Hh : 0 < h) by (unfold h; lra). set (b := @rnd E h).
  assert (B1 : Rabs (b - h) <= u * h) by (pose proof (rnd_rel E u h Ha) as K; rewrite (Rabs_pos_eq h) in K by lra; exact K).
  set (q := @rnd E (b * sinf a3)).
  assert (Q : Rabs (q - h * sin t) <= h * ((1 + u) ^ 2 * (1 + e) - 1)).
  { eapply Rle_trans; [apply (rnd_off E u _ _ (h * ((1 + u) * (1 + e) - 1)) Ha)|].
    - replace (b * sinf a3 - h * sin t) with ((b - h) * sinf a3 + h * (sinf a3 - sin t)) by ring.
      eapply Rle_trans; [apply Rabs_triang|]. rewrite !Rabs_mult, (Rabs_pos_eq h) by lra.
      assert (Rabs (sinf a3) <= 1 + e). { replace (sinf a3) with (sin t + (sinf a3 - sin t)) by ring. eapply Rle_trans; [apply Rabs_triang|]. lra. }
      assert (Rabs (b - h) * Rabs (sinf a3) <= u * h * (1 + e)) by (apply Rmult_le_compat; auto using Rabs_pos).
      assert (h * Rabs (sinf a3 - sin t) <= h * e) by (apply Rmult_le_compat_l; lra). lra.
    - assert (Rabs (h * sin t) <= h). { rewrite Rabs_mult, (Rabs_pos_eq h) by lra. pose proof (Rmult_le_compat_l h _ _ ltac:(lra) S0). lra. }
      pose proof (Rmult_le_compat_l u _ _ Hu H). apply Rle_trans with ((1 + u) * (h * ((1 + u) * (1 + e) - 1)) + u * h); [lra|]. right. ring. }
  eapply Rle_trans; [apply (rnd_off E u _ _ (h * ((1 + u) ^ 2 * (1 + e) - 1)) Ha)|].
  - replace (1 + q - (1 + h * sin t)) with (q - h * sin t) by ring. exact Q.
  - unfold sine_error. fold t. fold e. fold h. apply Rplus_le_compat_l. apply Rmult_le_compat_l; [exact Hu|].
    eapply Rle_trans; [apply Rabs_triang|]. rewrite Rabs_R1, Rabs_mult, (Rabs_pos_eq h) by lra.
    pose proof (Rmult_le_compat_l h _ _ ltac:(lra) S0). lra.
Qed.
Theorem sine_float_error : forall (E : Env) u, accurate u 0 (@rnd E) -> forall r c x z d M, (0 < r)%nat ->
  close r c d x z -> bounded r c M z -> forall l v sinf, l <= -1 -> sin_within v sinf ->
  let L := IZR (Ztrunc (- l)) in
  exists y, lifter_ceps (fmat r c x) l = Ok (fmat r c y) /\
  forall i j, (i < r)%nat -> (j < c)%nat ->
    Rabs (@sine_float E sinf L z i j - y i j)
    <= ((1 + u) * sine_error u v L j + u * (1 + L / 2)) * M + d * (1 + L / 2).
Proof.
  intros E u Ha r c x z d M Hr Hd HM l v sinf Hl Hs L. pose proof Ha as (Hu & _ & _).
  eexists. split; [apply lifter_neg; assumption|]. intros i j Hi Hj. cbv beta. fold L.
  assert (HL : 1 <= L). { unfold L. apply IZR_le. rewrite <- (Ztrunc_IZR 1). apply Ztrunc_le. lra. }
  change (sinR L j) with (spec_sine_lift L j).
  pose proof (sine_weight_error E u v sinf L j Ha Hs ltac:(lra)) as W. set (w := @sine_weight E sinf L j) in *. set (s := spec_sine_lift L j) in *.
  set (e := sine_error u v L j) in *. specialize (Hd i j Hi Hj). specialize (HM i j Hi Hj).
  assert (S : Rabs s <= 1 + L / 2).
  { unfold s, spec_sine_lift. eapply Rle_trans; [apply Rabs_triang|]. rewrite Rabs_R1, Rabs_mult, (Rabs_pos_eq (L / 2)) by lra.
    pose proof (SIN_bound (PI * INR (j + 1) / L)) as B. assert (C : Rabs (sin (PI * INR (j + 1) / L)) <= 1) by (apply Rabs_le; lra).
    pose proof (Rmult_le_compat_l (L / 2) _ _ ltac:(lra) C). lra. }
  assert (E0 : 0 <= e) by (eapply Rle_trans; [apply Rabs_pos|exact W]).
  assert (W1 : Rabs w <= 1 + L / 2 + e). { replace w with (s + (w - s)) by ring. eapply Rle_trans; [apply Rabs_triang|]. lra. }
  unfold sine_float. fold w. pose proof (rnd_rel E u (z i j * w) Ha) as K. rewrite Rabs_mult in K.
  assert (ZW : Rabs (z i j) * Rabs w <= M * (1 + L / 2 + e)) by (apply Rmult_le_compat; auto using Rabs_pos).
  replace (@rnd E (z i j * w) - x i j * s) with ((@rnd E (z i j * w) - z i j * w) + (z i j * (w - s) + (z i j - x i j) * s)) by ring.
  eapply Rle_trans; [apply Rabs_triang|].
  assert (Rabs (z i j * (w - s) + (z i j - x i j) * s) <= M * e + d * (1 + L / 2)).
  { eapply Rle_trans; [apply Rabs_triang|]. rewrite !Rabs_mult.
    apply Rplus_le_compat; apply Rmult_le_compat; auto using Rabs_pos. }
  pose proof (Rmult_le_compat_l u _ _ Hu ZW). lra.
Qed.
Lemma sine_float_exact : forall r c x, (0 < r)%nat -> forall l, l <= -1 ->
  lifter_ceps (fmat r c x) l = Ok (fmat r c (@sine_float exact_env sin (IZR (Ztrunc (- l))) x)).
Proof. intros r c x Hr l Hl. rewrite lifter_neg by assumption. reflexivity. Qed.

(** ** deltas *)
Lemma fmat_max : forall r c (x : nat -> nat -> R), exists M, bounded r c M x.
Proof.
  intros r c x.
  assert (V : forall n (f : nat -> R), exists M, forall k, (k < n)%nat -> Rabs (f k) <= M).
  { induction n as [|n IH]; intros f; [exists 0; intros; lia|]. destruct (IH f) as (M & H). exists (Rmax M (Rabs (f n))).
    intros k Hk. destruct (Nat.eq_dec k n) as [->|]; [apply Rmax_r|]. eapply Rle_trans; [apply H; lia|apply Rmax_l]. }
  assert (W : forall n, exists M, forall i j, (i < n)%nat -> (j < c)%nat -> Rabs (x i j) <= M).
  { induction n as [|n (M & H)]; [exists 0; intros; lia|]. destruct (V c (x n)) as (M' & H'). exists (Rmax M M').
    intros i j Hi Hj. destruct (Nat.eq_dec i n) as [->|]; [eapply Rle_trans; [apply H', Hj|apply Rmax_r]|].
    eapply Rle_trans; [apply H; [lia|exact Hj]|apply Rmax_l]. }
  apply W.
Qed.
Theorem delta_float_error : forall (E : Env) u, accurate u 0 (@rnd E) -> forall r c x z d M, (0 < r)%nat -> (0 < c)%nat ->
  close r c d x z -> bounded r c M z -> forall h w p, (w / 2 = Z.of_nat h)%Z -> window_program h p ->
  exists y, deltas (fmat r c x) w = Ok (fmat r c y) /\
  forall i t, (i < r)%nat -> (t < c)%nat ->
    Rabs (@delta_float E p c h z i t - y i t) <= INR h * (INR h + 1) * (((1 + u) ^ (2 * h + 1) - 1) * M + d).
Proof.
  intros E u Ha r c x z d M Hr Hc Hd HM h w p Hw Hp. pose proof Ha as (Hu & _ & _).
  eexists. split; [apply (deltas_fmat r c x h w); assumption|]. intros i t Hi Ht. cbv beta. unfold delta_float.
  set (g := fun m => Nat.min (c - 1) (t + m - h)). assert (Hg : forall m, (g m < c)%nat) by (intros m; unfold g; lia).
  pose proof (dot_error E u 0 _ (2 * h + 1) p (fun m => z i (g m)) Ha Hp) as K. rewrite Rmult_0_r, Rplus_0_r in K. cbv beta in K.
  change (fun m => z i (g m)) with (fun m => z i (Nat.min (c - 1) (t + m - h))) in K.
  set (run := @lin_run E _ p) in *. rewrite <- abs_weights.
  set (n := (2 * h + 1)%nat) in *. pose proof (pow_u_ge1 u n Hu) as U.
  assert (B1 : bigsum n (fun k => Rabs ((INR k - INR h) * z i (g k))) <= bigsum n (fun m => Rabs (INR m - INR h)) * M).
  { rewrite Rmult_comm, <- bigsum_scal. apply bigsum_le. intros k _. rewrite Rabs_mult, Rmult_comm. apply Rmult_le_compat_r; [apply Rabs_pos|]. apply HM; auto. }
  assert (B2 : Rabs (bigsum n (fun k => (INR k - INR h) * z i (g k)) - bigsum n (fun k => (INR k - INR h) * x i (g k))) <= bigsum n (fun m => Rabs (INR m - INR h)) * d).
  { rewrite <- bigsum_minus. eapply Rle_trans; [apply bigsum_Rabs|]. rewrite Rmult_comm, <- bigsum_scal. apply bigsum_le. intros k _.
    rewrite <- Rmult_minus_distr_l, Rabs_mult, Rmult_comm. apply Rmult_le_compat_r; [apply Rabs_pos|]. apply Hd; auto. }
  unfold clampidx. set (S := bigsum n (fun m => Rabs (INR m - INR h))) in *.
  assert (B3 : ((1 + u) ^ n - 1) * bigsum n (fun k => Rabs ((INR k - INR h) * z i (g k))) <= ((1 + u) ^ n - 1) * (S * M)) by (apply Rmult_le_compat_l; [lra|exact B1]).
  set (a := bigsum n (fun k => (INR k - INR h) * z i (g k))) in *. set (b := bigsum n (fun k => (INR k - INR h) * x i (g k))) in *.
  change (Rabs (run - b) <= S * (((1 + u) ^ n - 1) * M + d)). change (Rabs (run - a) <= ((1 + u) ^ n - 1) * bigsum n (fun k => Rabs ((INR k - INR h) * z i (g k)))) in K.
  replace (run - b) with ((run - a) + (a - b)) by ring. eapply Rle_trans; [apply Rabs_triang|]. lra.
Qed.
Lemma delta_float_exact : forall r c x, (0 < r)%nat -> (0 < c)%nat -> forall h w p, (w / 2 = Z.of_nat h)%Z -> window_program h p ->
  deltas (fmat r c x) w = Ok (fmat r c (@delta_float exact_env p c h x)).
Proof.
  intros r c x Hr Hc h w p Hw Hp.
  assert (A : accurate 0 0 (@rnd exact_env)).
  { split; [lra|]. split; [lra|]. intros z. cbn [rnd exact_env]. rewrite Rminus_diag_eq, Rabs_R0 by reflexivity. lra. }
  destruct (fmat_max r c x) as (M & HM).
  destruct (delta_float_error exact_env 0 A r c x x 0 M Hr Hc) with (h := h) (w := w) (p := p) as (y & -> & H); auto.
  - intros i j _ _. rewrite Rminus_diag_eq, Rabs_R0 by reflexivity. lra.
  - f_equal. apply fmat_ext. intros i t Hi Ht. specialize (H i t Hi Ht). replace (1 + 0) with 1 in H by ring. rewrite pow1 in H.
    set (g := @delta_float exact_env p c h x i t) in *. pose proof (Rabs_pos (g - y i t)).
    assert (Z : g - y i t = 0) by (destruct (Req_dec (g - y i t) 0) as [|N]; [assumption|apply Rabs_pos_lt in N; lra]). lra.
Qed.

(** ** lifter and normalisation together *)
Lemma spec_lift_mono : forall l j k, 0 < l -> (j <= k)%nat -> spec_lift l j <= spec_lift l k.
Proof.
  intros l j k Hl Hjk. unfold spec_lift.
  assert (One : forall n, (0 < n)%nat -> 1 <= Rpower (INR n) l).
  { intros n Hn. rewrite <- (Rpower_O (INR n)) by (apply lt_0_INR, Hn).
    unfold Rpower. destruct (Req_dec (ln (INR n)) 0) as [->|N]; [rewrite !Rmult_0_r; lra|]. left. apply exp_increasing.
    apply Rmult_lt_compat_r; [|exact Hl]. assert (0 <= ln (INR n)); [|lra].
    rewrite <- ln_1. apply Rcomplements.ln_le; [lra|]. apply (le_INR 1), Hn. }
  destruct (Nat.eqb_spec j 0) as [->|Hj]; destruct (Nat.eqb_spec k 0) as [->|Hk]; try lia; try lra.
  - apply One. lia.
  - apply Rle_Rpower_l; [lra|]. split; [apply lt_0_INR; lia|apply le_INR, Hjk].
Qed.
Lemma lift_float_size : forall (E : Env) u v l c w p (z : nat -> R) M j, accurate u 0 (@rnd E) -> weights_within v l c w ->
  dot_program (fun k => if Nat.eqb k j then w j else 0) c (p j) -> (j < c)%nat -> Rabs (z j) <= M ->
  Rabs (@lin_run E z (p j)) <= spec_lift l j * ((1 + u) ^ c * (1 + v) * M).
Proof.
  intros E u v l c w p z M j Ha Hw Hp Hj HM. pose proof Ha as (Hu & _ & _). pose proof Hw as (Hv & _).
  pose proof (lift_entry E u v l c w p (fun _ => 0) z (Rabs (z j)) (Rabs (z j)) j Ha Hw Hp Hj) as K. cbv beta in K.
  rewrite Rmult_0_l, !Rminus_0_r in K. specialize (K (Rle_refl _) (Rle_refl _)). unfold lift_error in K.
  eapply Rle_trans; [exact K|]. apply Rmult_le_compat_l; [left; apply spec_lift_pos|].
  replace (((1 + u) ^ c * (1 + v) - 1) * Rabs (z j) + Rabs (z j)) with ((1 + u) ^ c * (1 + v) * Rabs (z j)) by ring.
  apply Rmult_le_compat_l; [|exact HM]. apply Rmult_le_pos; [apply pow_le; lra|lra].
Qed.
Section Chain.
Context (E : Env) (u v l d M : R) (r k : nat) (x z : nat -> nat -> R) (w : nat -> R) (p : nat -> lin).
Hypothesis Ha : accurate u 0 (@rnd E).
Hypothesis Hr : (0 < r)%nat.
Hypothesis Hk : (0 < k)%nat.
Hypothesis Hl : 0 < l <= 10.
Hypothesis Hd : close r k d x z.
Hypothesis HM : bounded r k M z.
Hypothesis Hw : weights_within v l k w.
Hypothesis Hp : diagonal_programs w k p.
Let y (i j : nat) : R := x i j * spec_lift l j.
Let t : R := spec_lift l (k - 1).

Lemma lifted_close : close r k (t * lift_error u v k M d) y (@lift_float E p z).
Proof.
  intros i j Hi Hj. unfold y, lift_float. pose proof Ha as (Hu & _ & _). pose proof Hw as (Hv & _).
  eapply Rle_trans; [apply (lift_entry E u v l k w p (x i) (z i) d M j); auto|].
  apply Rmult_le_compat_r; [|apply spec_lift_mono; [lra|lia]].
  unfold lift_error. pose proof (Hd i j Hi Hj). pose proof (HM i j Hi Hj). pose proof (Rabs_pos (z i j - x i j)). pose proof (Rabs_pos (z i j)).
  pose proof (pow_u_ge1 u k Hu). assert (1 <= (1 + u) ^ k * (1 + v)) by nra.
  pose proof (Rmult_le_pos ((1 + u) ^ k * (1 + v) - 1) M ltac:(lra) ltac:(lra)). lra.
Qed.
Lemma lifted_bounded : bounded r k (t * ((1 + u) ^ k * (1 + v) * M)) (@lift_float E p z).
Proof.
  intros i j Hi Hj. unfold lift_float. pose proof Ha as (Hu & _ & _). pose proof Hw as (Hv & _).
  eapply Rle_trans; [apply (lift_float_size E u v l k w p (z i) M j); auto|].
  apply Rmult_le_compat_r; [|apply spec_lift_mono; [lra|lia]].
  pose proof (HM i j Hi Hj). pose proof (Rabs_pos (z i j)).
  apply Rmult_le_pos; [|lra]. apply Rmult_le_pos; [apply pow_le; lra|lra].
Qed.
Lemma lifted_run : forall e sig a c t', c_lifter c = Some l -> c_normalize c = Some t' -> t' <> ""%string ->
  @run exact_env e sig a (plain_options c) = Ok (fmat r k x) -> @run exact_env e sig a c = normalize_ceps (fmat r k y) t'.
Proof.
  intros e sig a c t' H1 H2 Ht Hx. rewrite run_options, Hx. cbn [rbind]. unfold after. rewrite H1, H2.
  rewrite Reqb_false by lra. rewrite lifter_pos by assumption. cbn [rbind].
  destruct (String.eqb_spec t' ""); [contradiction|reflexivity].
Qed.
End Chain.
Theorem run_lift_ms : forall (E : Env) u, accurate u 0 (@rnd E) -> forall e sig a c r k x z d M l v w p sc,
  c_lifter c = Some l -> 0 < l <= 10 -> c_normalize c = Some "ms"%string ->
  @run exact_env e sig a (plain_options c) = Ok (fmat r k x) -> (0 < r)%nat -> (0 < k)%nat ->
  close r k d x z -> bounded r k M z -> weights_within v l k w -> diagonal_programs w k p -> sums r sc ->
  let t := spec_lift l (k - 1) in
  exists y, @run exact_env e sig a c = Ok (fmat r k y) /\
  forall i j, (i < r)%nat -> (j < k)%nat ->
    Rabs (@ms_float E sc r (@lift_float E p z) i j - y i j)
    <= 2 * (t * lift_error u v k M d) + dev_error u r (t * ((1 + u) ^ k * (1 + v) * M)).
Proof.
  intros E u Ha e sig a c r k x z d M l v w p sc H1 Hl H2 Hx Hr Hk Hd HM Hw Hp Hs t.
  rewrite (lifted_run l r k x Hr Hk Hl e sig a c "ms" H1 H2 ltac:(discriminate) Hx).
  apply (ms_float_error E u Ha r k _ _ _ _ Hr Hk); [|apply (lifted_bounded E u v l M r k z w p); assumption|exact Hs].
  apply (lifted_close E u v l d M r k x z w p); assumption.
Qed.
Theorem run_lift_mvn : forall (E : Env) u, accurate u 0 (@rnd E) -> u <= 1 -> forall e sig a c r k x z d M l v w p sc sa,
  c_lifter c = Some l -> 0 < l <= 10 -> c_normalize c = Some "mvn"%string ->
  @run exact_env e sig a (plain_options c) = Ok (fmat r k x) -> (0 < r)%nat -> (0 < k)%nat ->
  close r k d x z -> bounded r k M z -> weights_within v l k w -> diagonal_programs w k p -> sums r sc -> sums (r * k) sa ->
  let t := spec_lift l (k - 1) in let d' := t * lift_error u v k M d in let M' := t * ((1 + u) ^ k * (1 + v) * M) in
  let s := spec_std r k (fun i j => x i j * spec_lift l j) in let q := std_error u (r * k) M' d' s in q < s ->
  exists y, @run exact_env e sig a c = Ok (fmat r k y) /\
  forall i j, (i < r)%nat -> (j < k)%nat ->
    Rabs (@mvn_float E sc sa r k (@lift_float E p z) i j - y i j) <= quotient_error u (2 * d' + dev_error u r M') q s (y i j).
Proof.
  intros E u Ha Hu1 e sig a c r k x z d M l v w p sc sa H1 Hl H2 Hx Hr Hk Hd HM Hw Hp Hs Hsa t d' M' s q Hq.
  rewrite (lifted_run l r k x Hr Hk Hl e sig a c "mvn" H1 H2 ltac:(discriminate) Hx).
  apply (mvn_float_error E u Ha Hu1 r k _ _ d' M' Hr Hk); auto.
  - apply (lifted_close E u v l d M r k x z w p); assumption.
  - apply (lifted_bounded E u v l M r k z w p); assumption.
Qed.
