(** * Property theorems: cepstral post-processing and RASTA (C32-C38, C72) *)
From Coq Require Import Reals ZArith List String Bool Lia Lra.
From Flocq Require Import Core.Raux.
From Verif Require Import Base BaseFacts SpecBase SpecMat SpecFilters BigSum MatFacts
  Filters FiltersFacts Cepstral CepstralFacts.
Import ListNotations.
Local Open Scope R_scope.

(** C32. Mean subtraction: every column sums to zero and differences inside a column
    are unchanged (which together determine the result). *)
Theorem C32_ms_centres : forall r c x, (0 < r)%nat -> (0 < c)%nat ->
  exists y, normalize_ceps (fmat r c x) "ms" = Ok (fmat r c y) /\
    (forall j, (j < c)%nat -> bigsum r (fun i => y i j) = 0) /\
    (forall i i' j, y i j - y i' j = x i j - x i' j).
Proof. exact ms_spec. Qed.
Print Assumptions C32_ms_centres.

(** C32. Mean-variance normalisation centres every column too. *)
Theorem C32_mvn_centres : forall r c x, (0 < r)%nat -> (0 < c)%nat -> non_constant r c x ->
  exists y, normalize_ceps (fmat r c x) "mvn" = Ok (fmat r c y) /\
    (forall j, (j < c)%nat -> bigsum r (fun i => y i j) = 0) /\
    (forall i i' j, y i j - y i' j = (x i j - x i' j) / spec_std r c x).
Proof. exact mvn_spec. Qed.
Print Assumptions C32_mvn_centres.

(** C32. A channel offset (the same row added to every row) disappears. *)
Theorem C32_ms_channel_invariant : forall r c x b, (0 < r)%nat -> (0 < c)%nat ->
  normalize_ceps (fmat r c (fun i j => x i j + b j)) "ms" = normalize_ceps (fmat r c x) "ms".
Proof. exact ms_shift. Qed.
Print Assumptions C32_ms_channel_invariant.

Theorem C32_ms_idempotent : forall r c x, (0 < r)%nat -> (0 < c)%nat ->
  (do y <- normalize_ceps (fmat r c x) "ms" ; normalize_ceps y "ms") = normalize_ceps (fmat r c x) "ms".
Proof. exact ms_idem. Qed.
Print Assumptions C32_ms_idempotent.
Example C32_more_example : forall x b, non_constant 4 13 x -> exists y z,
  normalize_ceps (fmat 4 13 x) "ms" = Ok (fmat 4 13 y) /\ bigsum 4 (fun i => y i 7%nat) = 0 /\
  normalize_ceps (fmat 4 13 (fun i j => x i j + b j)) "ms" = Ok (fmat 4 13 y) /\
  normalize_ceps (fmat 4 13 y) "ms" = Ok (fmat 4 13 y) /\
  normalize_ceps (fmat 4 13 x) "mvn" = Ok (fmat 4 13 z) /\ bigsum 4 (fun i => z i 7%nat) = 0.
Proof.
  intros x b Hx. destruct (C32_ms_centres 4 13 x) as (y & E & S1 & _); [lia|lia|].
  destruct (C32_mvn_centres 4 13 x) as (z & E2 & S2 & _); [lia|lia|exact Hx|]. exists y, z.
  split; [exact E|]. split; [apply S1; lia|]. split; [rewrite C32_ms_channel_invariant by lia; exact E|].
  split; [|split; [exact E2|apply S2; lia]]. pose proof (C32_ms_idempotent 4 13 x) as K. rewrite E in K. apply K; lia.
Qed.

Example C32_example :
  normalize_ceps (fmat 2 2 (fun i j => INR (2 * i + j))) "ms" = Ok (fmat 2 2 (fun i j => 2 * INR i - 1)).
Proof.
  rewrite norm_ms by lia. f_equal. apply fmat_ext; intros i j Hi Hj. unfold cmean.
  destruct i as [|[|i]], j as [|[|j]]; try lia; simpl; lra.
Qed.

(** C33. vn divides by one global standard deviation, so the overall deviation becomes 1. *)
Theorem C33_vn_global_unit_std : forall r c x, (0 < r)%nat -> (0 < c)%nat -> non_constant r c x ->
  exists y, normalize_ceps (fmat r c x) "vn" = Ok (fmat r c y) /\
    spec_std r c y = 1 /\ forall i j, y i j * spec_std r c x = x i j.
Proof.
  intros r c x Hr Hc Hn. pose proof (spec_std_pos r c x Hr Hc Hn).
  eexists. split; [apply norm_vn; auto|]. split.
  - apply std_normalised; auto.
  - intros. simpl. field. lra.
Qed.
Print Assumptions C33_vn_global_unit_std.
Example C33_vn_example : exists y, normalize_ceps (fmat 2 3 (fun i j => INR (i + j))) "vn" = Ok (fmat 2 3 y) /\ spec_std 2 3 y = 1.
Proof.
  destruct (C33_vn_global_unit_std 2 3 (fun i j => INR (i + j))) as (y & E & S1 & _); [lia|lia| |eauto].
  exists 0%nat, 0%nat, 1%nat, 0%nat. cbn. repeat split; try lia. lra.
Qed.

(** C33. mvn does not give each column unit variance: for every a > 0 the second
    column of the matrix (1, a; -1, -a) keeps a times the deviation of the first. *)
Theorem C33_mvn_per_column_refuted : forall a, 0 < a ->
  exists y, normalize_ceps (fmat 2 2 (fun i j => (1 - 2 * INR i) * (if Nat.eqb j 0 then 1 else a))) "mvn"
            = Ok (fmat 2 2 y) /\ y 0%nat 1%nat = a * y 0%nat 0%nat /\ y 1%nat 1%nat = a * y 1%nat 0%nat
            /\ y 0%nat 0%nat <> 0.
Proof.
  intros a Ha.
  assert (Hn : non_constant 2 2 (fun i j => (1 - 2 * INR i) * (if Nat.eqb j 0 then 1 else a))).
  { exists 0%nat, 0%nat, 1%nat, 0%nat. repeat split; auto. simpl. lra. }
  pose proof (spec_std_pos 2 2 _ ltac:(lia) ltac:(lia) Hn) as Hs.
  eexists. split; [apply norm_mvn; auto; lia|]. cbv beta.
  unfold cmean. simpl. repeat split; try (field; lra).
  intro E. apply Rmult_integral in E as [E|E]; [lra|]. apply Rinv_neq_0_compat in E; auto. lra.
Qed.
Print Assumptions C33_mvn_per_column_refuted.

Example C33_example : non_constant 2 3 (fun i j => INR (i + j)).
Proof. exists 0%nat, 0%nat, 1%nat, 2%nat. repeat split; auto. simpl. lra. Qed.

(** C34. mn: overall mean 0, range exactly 1, entries in [-1,1]. *)
Theorem C34_mn_range_one : forall r c x, (0 < r)%nat -> (0 < c)%nat -> non_constant r c x ->
  exists y, normalize_ceps (fmat r c x) "mn" = Ok (fmat r c y) /\
    spec_mean r c y = 0 /\
    (forall i j, (i < r)%nat -> (j < c)%nat -> -1 <= y i j <= 1) /\
    (forall i j i' j', (i < r)%nat -> (j < c)%nat -> (i' < r)%nat -> (j' < c)%nat -> y i j - y i' j' <= 1) /\
    (exists i j i' j', (i < r)%nat /\ (j < c)%nat /\ (i' < r)%nat /\ (j' < c)%nat /\ y i j - y i' j' = 1) /\
    (exists d, 0 < d /\ forall i j i' j', y i j - y i' j' = (x i j - x i' j') / d).
Proof. exact mn_spec. Qed.
Print Assumptions C34_mn_range_one.

Example C34_example : exists y, normalize_ceps (fmat 1 2 (fun _ j => 3 * INR j)) "mn" = Ok (fmat 1 2 y) /\
  spec_mean 1 2 y = 0.
Proof.
  destruct (C34_mn_range_one 1 2 (fun _ j => 3 * INR j)) as [y [H [H' _]]]; try lia; eauto.
  exists 0%nat, 0%nat, 0%nat, 1%nat. repeat split; auto. simpl. lra.
Qed.

(** C35. Invariances. *)
Theorem C35_mvn_affine_invariant : forall r c x a b, (0 < r)%nat -> (0 < c)%nat -> 0 < a ->
  non_constant r c x ->
  normalize_ceps (fmat r c (fun i j => a * x i j + b)) "mvn" = normalize_ceps (fmat r c x) "mvn".
Proof. exact mvn_affine. Qed.
Print Assumptions C35_mvn_affine_invariant.

Theorem C35_mn_affine_invariant : forall r c x a b, (0 < r)%nat -> (0 < c)%nat -> 0 < a ->
  non_constant r c x ->
  normalize_ceps (fmat r c (fun i j => a * x i j + b)) "mn" = normalize_ceps (fmat r c x) "mn".
Proof. exact mn_affine. Qed.
Print Assumptions C35_mn_affine_invariant.

Theorem C35_vn_gain_invariant : forall r c x a, (0 < r)%nat -> (0 < c)%nat -> 0 < a ->
  non_constant r c x ->
  normalize_ceps (fmat r c (fun i j => a * x i j)) "vn" = normalize_ceps (fmat r c x) "vn".
Proof. exact vn_scale. Qed.
Print Assumptions C35_vn_gain_invariant.

(** C35. A constant matrix becomes NaN everywhere. *)
Theorem C35_constant_matrix : forall r c v, (0 < r)%nat -> (0 < c)%nat ->
  normalize_ceps (fmat r c (fun _ _ => v)) "mvn" = Ok (repeat (repeat NaN c) r) /\
  normalize_ceps (fmat r c (fun _ _ => v)) "mn" = Ok (repeat (repeat NaN c) r).
Proof. exact norm_constant. Qed.
Print Assumptions C35_constant_matrix.

(** C35. Unknown names raise KeyError, an empty matrix ValueError whatever the name. *)
Theorem C35_unknown_normalisation : forall m t, List.concat m <> [] ->
  ~ In t ["mvn"; "ms"; "vn"; "mn"]%string -> normalize_ceps m t = Raise KeyError.
Proof. exact norm_unknown. Qed.
Print Assumptions C35_unknown_normalisation.

Theorem C35_empty_matrix : forall m t, List.concat m = [] -> normalize_ceps m t = Raise ValueError.
Proof. exact norm_empty. Qed.
Print Assumptions C35_empty_matrix.
Example C35_more_example : 
  normalize_ceps (fmat 2 1 (fun i _ => 5 * INR i + 7)) "mvn" = normalize_ceps (fmat 2 1 (fun i _ => INR i)) "mvn" /\
  normalize_ceps (fmat 2 1 (fun i _ => 5 * INR i)) "vn" = normalize_ceps (fmat 2 1 (fun i _ => INR i)) "vn" /\
  normalize_ceps (fmat 2 1 (fun _ _ => 7)) "mvn" = Ok [[NaN]; [NaN]] /\
  normalize_ceps [[]; []] "mvn" = Raise ValueError.
Proof.
  assert (Hc : non_constant 2 1 (fun i _ => INR i)) by (exists 0%nat, 0%nat, 1%nat, 0%nat; cbn; repeat split; try lia; lra).
  split; [apply C35_mvn_affine_invariant; try lia; try lra; exact Hc|].
  split; [apply C35_vn_gain_invariant; try lia; try lra; exact Hc|].
  split; [apply (C35_constant_matrix 2 1 7); lia|apply C35_empty_matrix; reflexivity].
Qed.

Example C35_example :
  normalize_ceps (fmat 2 1 (fun i _ => 5 * INR i + 7)) "mn" = normalize_ceps (fmat 2 1 (fun i _ => INR i)) "mn"
  /\ normalize_ceps [[f1]] "cmvn" = Raise KeyError.
Proof.
  split; [|apply C35_unknown_normalisation; simpl; intuition discriminate].
  apply (C35_mn_affine_invariant 2 1 (fun i _ => INR i) 5 7); try lia; try lra.
  exists 0%nat, 0%nat, 1%nat, 0%nat. repeat split; auto. simpl. lra.
Qed.

(** C36. Exponential liftering multiplies column j by j^lift (column 0 by 1). *)
Theorem C36_exponential_lifter : forall r c x lift, (0 < r)%nat -> (0 < c)%nat -> 0 < lift <= 10 ->
  lifter_ceps (fmat r c x) lift = Ok (fmat r c (fun i j => x i j * spec_lift lift j)).
Proof. exact lifter_pos. Qed.
Print Assumptions C36_exponential_lifter.

(** C36. For an integer lift this is the integer power. *)
Theorem C36_integer_lifter : forall r c x (k : nat), (0 < r)%nat -> (0 < c)%nat -> (1 <= k <= 10)%nat ->
  lifter_ceps (fmat r c x) (INR k)
  = Ok (fmat r c (fun i j => x i j * (if Nat.eqb j 0 then 1 else INR j ^ k))).
Proof.
  intros r c x k Hr Hc Hk. rewrite lifter_pos; auto.
  - f_equal. apply fmat_ext; intros. rewrite liftR_nat; auto.
  - split. apply lt_0_INR; lia. replace 10 with (INR 10) by (simpl; lra). apply le_INR; lia.
Qed.
Print Assumptions C36_integer_lifter.

Theorem C36_lifters_compose : forall r c x a b, (0 < r)%nat -> (0 < c)%nat -> 0 < a -> 0 < b -> a + b <= 10 ->
  (do y <- lifter_ceps (fmat r c x) a ; lifter_ceps y b) = lifter_ceps (fmat r c x) (a + b).
Proof. exact lifter_compose. Qed.
Print Assumptions C36_lifters_compose.

Theorem C36_lifter_lossless : forall r c x y a, (0 < r)%nat -> (0 < c)%nat -> 0 < a <= 10 ->
  lifter_ceps (fmat r c x) a = lifter_ceps (fmat r c y) a -> fmat r c x = fmat r c y.
Proof. exact lifter_injective. Qed.
Print Assumptions C36_lifter_lossless.

(** C36. lift = 0 and lift > 10 do nothing, for every matrix. *)
Theorem C36_lifter_identity : forall ceps lift, lift = 0 \/ 10 < lift -> lifter_ceps ceps lift = Ok ceps.
Proof. exact lifter_id. Qed.
Print Assumptions C36_lifter_identity.
Example C36_more_example : forall x,
  (exists y, lifter_ceps (fmat 4 13 x) 0.5 = Ok (fmat 4 13 y) /\ lifter_ceps (fmat 4 13 y) 3 = lifter_ceps (fmat 4 13 x) 3.5) /\
  lifter_ceps (fmat 4 13 x) 22 = Ok (fmat 4 13 x) /\
  forall z, lifter_ceps (fmat 4 13 x) 3 = lifter_ceps (fmat 4 13 z) 3 -> fmat 4 13 x = fmat 4 13 z.
Proof.
  intros x. split; [|split].
  - eexists. split; [apply C36_exponential_lifter; try lia; lra|].
    pose proof (C36_lifters_compose 4 13 x 0.5 3) as K. rewrite C36_exponential_lifter in K by (try lia; lra).
    replace 3.5 with (0.5 + 3) by lra. apply K; try lia; lra.
  - apply C36_lifter_identity. right. lra.
  - intros z. apply C36_lifter_lossless; try lia; lra.
Qed.

Example C36_example :
  lifter_ceps (fmat 1 4 (fun _ j => INR (j + 1))) (INR 2)
  = Ok (fmat 1 4 (fun _ j => nth j [1; 2; 12; 36] 0)).
Proof.
  rewrite C36_integer_lifter by lia. f_equal. apply fmat_ext. intros i j Hi Hj.
  destruct j as [|[|[|[|]]]]; try lia; simpl; lra.
Qed.

(** C37. Sine liftering with L = int(-lift). *)
Theorem C37_sine_lifter : forall r c x lift, (0 < r)%nat -> lift <= -1 ->
  lifter_ceps (fmat r c x) lift
  = Ok (fmat r c (fun i j => x i j * spec_sine_lift (IZR (Ztrunc (- lift))) j)).
Proof. exact lifter_neg. Qed.
Print Assumptions C37_sine_lifter.

(** C37. The first L columns are never attenuated; the factors repeat with period 2L. *)
Theorem C37_first_columns_amplified : forall (L j : nat), (1 <= L)%nat -> (j < L)%nat ->
  1 <= spec_sine_lift (INR L) j /\ forall k, spec_sine_lift (INR L) (k + 2 * L) = spec_sine_lift (INR L) k.
Proof. intros. split. apply sinR_ge1; auto. intros; apply sinR_period; auto. Qed.
Print Assumptions C37_first_columns_amplified.

(** C37. Information can be lost: lift = -2 sends column 2 to zero. *)
Theorem C37_lossless_refuted : forall r x y, (0 < r)%nat ->
  (forall i j, (i < r)%nat -> (j < 2)%nat -> x i j = y i j) ->
  lifter_ceps (fmat r 3 x) (-2) = lifter_ceps (fmat r 3 y) (-2).
Proof.
  intros r x y Hr H. rewrite !lifter_neg by (auto; lra). f_equal. apply fmat_ext; intros i j Hi Hj.
  destruct j as [|[|[|]]]; [rewrite H by lia; auto | rewrite H by lia; auto | | lia].
  replace (- -2) with (IZR 2) by lra. rewrite Ztrunc_IZR. unfold sinR.
  replace (PI * INR (2 + 1) / 2) with (3 * (PI / 2)) by (simpl; lra).
  rewrite sin_3PI2. lra.
Qed.
Print Assumptions C37_lossless_refuted.

(** C37. A fractional lift between -1 and 0 destroys every entry. *)
Theorem C37_fractional_lift_nan : forall m lift, -1 < lift < 0 ->
  (forall row, In row m -> List.length row = ncols m) ->
  lifter_ceps m lift = Ok (map (map (fun _ => NaN)) m).
Proof. exact lifter_small. Qed.
Print Assumptions C37_fractional_lift_nan.
Example C37_more_example : 1 <= spec_sine_lift (INR 22) 5 /\
  lifter_ceps [[Fin 1; Fin 2]; [Fin 3; Fin 4]] (-0.5) = Ok [[NaN; NaN]; [NaN; NaN]].
Proof.
  split; [apply (C37_first_columns_amplified 22 5); lia|]. apply C37_fractional_lift_nan; [lra|].
  intros row [<-|[<-|[]]]; reflexivity.
Qed.

Example C37_example : lifter_ceps (fmat 1 1 (fun _ _ => 3)) (-2) = Ok (fmat 1 1 (fun _ _ => 6)).
Proof.
  rewrite C37_sine_lifter by (try lia; lra). f_equal. apply fmat_ext; intros i j Hi Hj.
  assert (j = 0%nat) by lia. subst.
  replace (- -2) with (IZR 2) by lra. rewrite Ztrunc_IZR. unfold spec_sine_lift. simpl.
  replace (PI * 1 / 2) with (PI / 2) by lra. rewrite sin_PI2. lra.
Qed.

(** C38. deltas is the clamped regression sum, with h = floor(w/2). *)
Theorem C38_deltas_formula : forall r c x (h : nat) w, (0 < r)%nat -> (0 < c)%nat ->
  (w / 2 = Z.of_nat h)%Z ->
  deltas (fmat r c x) w = Ok (fmat r c (fun i => spec_delta c h (x i))).
Proof. exact deltas_fmat. Qed.
Print Assumptions C38_deltas_formula.

(** C38. Adding a constant to a row changes nothing (so constant rows give zeros). *)
Theorem C38_deltas_offset_invariant : forall r c x b w, (0 < r)%nat -> (0 < c)%nat -> (0 <= w)%Z ->
  deltas (fmat r c (fun i j => x i j + b i)) w = deltas (fmat r c x) w.
Proof. exact deltas_const_shift. Qed.
Print Assumptions C38_deltas_offset_invariant.

Theorem C38_deltas_constant_rows : forall r c b w, (0 < r)%nat -> (0 < c)%nat -> (0 <= w)%Z ->
  deltas (fmat r c (fun i _ => b i)) w = Ok (fmat r c (fun _ _ => 0)).
Proof.
  intros r c b w Hr Hc Hw.
  rewrite (fmat_ext r c _ (fun i j => 0 + b i)) by (intros; lra).
  rewrite (deltas_const_shift r c (fun _ _ => 0)) by auto.
  rewrite (deltas_fmat r c _ (Z.to_nat (w / 2))); auto.
  - f_equal. apply fmat_ext; intros. apply bigsum_zero; intros; ring.
  - rewrite Z2Nat.id; auto. apply Z.div_pos; lia.
Qed.
Print Assumptions C38_deltas_constant_rows.

(** C38. A linear row of slope s yields s*h(h+1)(2h+1)/3 away from the ends, not s. *)
Theorem C38_deltas_linear_rows : forall r c a s (h : nat) w, (0 < r)%nat -> (0 < c)%nat ->
  (w / 2 = Z.of_nat h)%Z ->
  exists y, deltas (fmat r c (fun i t => a i + s i * INR t)) w = Ok (fmat r c y) /\
    forall i t, (i < r)%nat -> (h <= t)%nat -> (t + h < c)%nat ->
      y i t = s i * (INR h * (INR h + 1) * (2 * INR h + 1) / 3).
Proof. exact deltas_linear. Qed.
Print Assumptions C38_deltas_linear_rows.

(** C38. w and w+1 are the same window for even w. *)
Theorem C38_even_odd_window : forall x w, Z.even w = true -> deltas x (w + 1) = deltas x w.
Proof. exact deltas_even_odd. Qed.
Print Assumptions C38_even_odd_window.
Example C38_more_example : forall x,
  deltas (fmat 13 40 (fun i j => x i j + INR i)) 9 = deltas (fmat 13 40 x) 9 /\
  deltas (fmat 13 40 (fun i _ => INR i)) 9 = Ok (fmat 13 40 (fun _ _ => 0)) /\
  (exists y, deltas (fmat 13 40 (fun i t => 1 + INR i * INR t)) 9 = Ok (fmat 13 40 y) /\
     y 2%nat 20%nat = INR 2 * (INR 4 * (INR 4 + 1) * (2 * INR 4 + 1) / 3)) /\
  deltas (fmat 13 40 x) 9 = deltas (fmat 13 40 x) 8.
Proof.
  intros x. split; [apply C38_deltas_offset_invariant; lia|]. split; [apply C38_deltas_constant_rows; lia|].
  split; [|apply (C38_even_odd_window _ 8); reflexivity].
  destruct (C38_deltas_linear_rows 13 40 (fun _ => 1) INR 4 9) as (y & E & V); [lia|lia|reflexivity|].
  exists y. split; [exact E|apply V; lia].
Qed.

Example C38_example :
  deltas (fmat 1 3 (fun _ t => INR t * INR t)) 3 = Ok (fmat 1 3 (fun _ t => nth t [1; 4; 3] 0)).
Proof.
  rewrite (C38_deltas_formula 1 3 _ 1) by (auto; lia). f_equal. apply fmat_ext. intros i t Hi Ht.
  destruct t as [|[|[|]]]; try lia; unfold spec_delta, spec_clamp; simpl; lra.
Qed.

(** C72. On finite rows of at least four entries RASTA filters every row on its own,
    along the row, at rest after four zeros: rows never influence each other. *)
Theorem C72_rasta_rows : forall r c x, (4 <= c)%nat ->
  rasta_filter (fmat r c x) = Ok (fmat r c (fun i => spec_rasta (x i))).
Proof. exact rasta_filter_eq. Qed.
Print Assumptions C72_rasta_rows.

(** C72. The first four columns are zero and a constant row is removed completely. *)
Theorem C72_rasta_zero_start_and_dc : forall r c x, (4 <= c)%nat ->
  exists y, rasta_filter (fmat r c x) = Ok (fmat r c y) /\
    (forall i t, (i < r)%nat -> (t < 4)%nat -> y i t = 0) /\
    (forall i v, (i < r)%nat -> (forall t, x i t = v) -> forall t, y i t = 0).
Proof.
  intros r c x Hc. eexists; split; [apply rasta_filter_eq; auto|]. split; intros.
  - apply spec_rasta_early; auto.
  - rewrite <- (spec_rasta_const v t).
    induction t as [|t IH]; auto. cbn [spec_rasta]. destruct (Nat.ltb t 3); auto.
    rewrite IH, !H0. auto.
Qed.
Print Assumptions C72_rasta_zero_start_and_dc.
Example C72_dc_example : exists y, rasta_filter (fmat 2 9 (fun i t => if Nat.eqb i 0 then 5 else INR t)) = Ok (fmat 2 9 y) /\
  y 1%nat 3%nat = 0 /\ y 0%nat 8%nat = 0.
Proof.
  destruct (C72_rasta_zero_start_and_dc 2 9 (fun i t => if Nat.eqb i 0 then 5 else INR t)) as (y & E & Z & D); [lia|].
  exists y. split; [exact E|]. split; [apply Z; lia|]. apply (D 0%nat 5); [lia|reflexivity].
Qed.

(** C72. Independence fails for non-finite data: a NaN in the first four entries of
    row 0 makes the first entry of row 1 NaN although row 1 may be finite. *)
Theorem C72_rasta_nan_leaks_refuted : forall row0 row1 rest out, (4 <= List.length row0)%nat ->
  In NaN (firstn 4 row0) -> rasta_filter (row0 :: row1 :: rest) = Ok out ->
  nth 0 (nth 1 out []) f0 = NaN.
Proof. exact rasta_contaminates. Qed.
Print Assumptions C72_rasta_nan_leaks_refuted.

Example C72_example :
  rasta_filter (fmat 1 6 (fun _ t => if Nat.eqb t 5 then 10 else 0))
  = Ok (fmat 1 6 (fun _ t => if Nat.eqb t 5 then 2 else 0)).
Proof.
  rewrite C72_rasta_rows by lia. f_equal. apply fmat_ext. intros i t Hi Ht.
  destruct t as [|[|[|[|[|[|]]]]]]; try lia; simpl; lra.
Qed.
