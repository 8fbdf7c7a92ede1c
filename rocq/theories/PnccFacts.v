(** * Lemmas about the steps of pncc *)
From Coq Require Import Reals ZArith List String Bool Lia Lra Psatz.
From Verif Require Import Base BaseFacts Cplx SpecBase SpecMat SpecFeatures SpecPncc BigSum MatFacts
  Preprocessing PreprocessingFacts Cepstral Fourier DctFacts Features Extractors FeaturesFacts FeaturesLaws CqtFacts Pncc.
Import ListNotations.
Local Open Scope R_scope.

Lemma loop_inv : forall S (f : S -> Z -> result S) (Inv : nat -> S -> Prop) j a s0,
  (forall s m, (a <= m < a + j)%nat -> Inv m s -> exists s', f s (Z.of_nat m) = Ok s' /\ Inv (Datatypes.S m) s') ->
  Inv a s0 -> exists s', foldM f (map Z.of_nat (seq a j)) s0 = Ok s' /\ Inv (a + j)%nat s'.
Proof.
  induction j as [|j IH]; intros a s0 Hstep H0.
  - exists s0. rewrite Nat.add_0_r. auto.
  - cbn [seq map foldM]. destruct (Hstep s0 a) as (s1 & E1 & H1); [lia|auto|]. rewrite E1. cbn [rbind].
    destruct (IH (Datatypes.S a) s1) as (s2 & E2 & H2); auto. { intros. apply Hstep; auto; lia. }
    exists s2. split; auto. replace (a + Datatypes.S j)%nat with (Datatypes.S a + j)%nat by lia. auto.
Qed.
Lemma zrange_nat : forall a b, zrange (Z.of_nat a) (Z.of_nat b) = map Z.of_nat (seq a (b - a)).
Proof.
  intros. unfold zrange. replace (Z.to_nat (Z.of_nat b - Z.of_nat a)) with (b - a)%nat by lia.
  generalize (b - a)%nat. intros n. revert a. induction n as [|n IH]; intros a; auto.
  cbn [seq map]. f_equal; [lia|]. rewrite <- IH, <- !seq_shift, !map_map. apply map_ext. intros. lia.
Qed.
Lemma py_nth_ok : forall A (l : list A) m d, (m < List.length l)%nat -> py_nth l (Z.of_nat m) = Ok (nth m l d).
Proof.
  intros A l m d Hm. unfold py_nth, zlen. destruct (Z.ltb_spec (Z.of_nat m) 0); [lia|].
  destruct (Z.leb_spec 0 (Z.of_nat m)); [|lia]. destruct (Z.ltb_spec (Z.of_nat m) (Z.of_nat (List.length l))); [|lia].
  cbn [andb]. rewrite Nat2Z.id. rewrite (nth_error_nth' _ d) by auto. auto.
Qed.
Lemma py_nth_beyond : forall A (l : list A) m, (List.length l <= m)%nat -> py_nth l (Z.of_nat m) = Raise IndexError.
Proof.
  intros A l m Hm. unfold py_nth, zlen. destruct (Z.ltb_spec (Z.of_nat m) 0); [lia|].
  destruct (Z.ltb_spec (Z.of_nat m) (Z.of_nat (List.length l))); [lia|]. rewrite andb_false_r. auto.
Qed.
Lemma py_nth_last : forall A (l : list A) d, (0 < List.length l)%nat -> py_nth l (-1) = Ok (nth (List.length l - 1) l d).
Proof.
  intros A l d Hl. unfold py_nth, zlen. destruct (Z.ltb_spec (-1) 0); [|lia].
  destruct (Z.leb_spec 0 (Z.of_nat (List.length l) + -1)); [|lia].
  destruct (Z.ltb_spec (Z.of_nat (List.length l) + -1) (Z.of_nat (List.length l))); [|lia].
  cbn [andb]. replace (Z.to_nat (Z.of_nat (List.length l) + -1)) with (List.length l - 1)%nat by lia.
  rewrite (nth_error_nth' _ d) by lia. auto.
Qed.
Lemma py_set_ok : forall A (l : list A) m x, (m < List.length l)%nat -> py_set l (Z.of_nat m) x = Ok (upd l m x).
Proof.
  intros A l m x Hm. unfold py_set, zlen. destruct (Z.ltb_spec (Z.of_nat m) 0); [lia|].
  destruct (Z.leb_spec 0 (Z.of_nat m)); [|lia]. destruct (Z.ltb_spec (Z.of_nat m) (Z.of_nat (List.length l))); [|lia].
  cbn [andb]. rewrite Nat2Z.id. auto.
Qed.

Lemma seq_add : forall lo k, seq lo k = map (fun i => (lo + i)%nat) (seq 0 k).
Proof.
  intros lo k. revert lo. induction k as [|k IH]; intros lo; auto. cbn [seq map]. f_equal; [lia|].
  rewrite (IH (Datatypes.S lo)), <- seq_shift, map_map. apply map_ext. intros. lia.
Qed.
Lemma upd_fmat : forall n c o m v, (m < n)%nat ->
  upd (fmat n c o) m (fvec c v) = fmat n c (fun i j => if Nat.eqb i m then v j else o i j).
Proof.
  intros n c o m v Hm. apply (list_eq_nth _ []). { rewrite upd_length, !fmat_length; auto. }
  intros i Hi. rewrite upd_length, fmat_length in Hi. rewrite (fmat_nth n c (fun i j => if Nat.eqb i m then v j else o i j)) by auto.
  destruct (Nat.eqb_spec i m) as [->|Hne].
  - rewrite upd_nth_same by (rewrite fmat_length; auto). auto.
  - rewrite upd_nth_other by auto. rewrite fmat_nth by auto. auto.
Qed.

(** ** medium-time power *)
Lemma rmat_column_sum : forall n c x l lo k, (l < c)%nat -> (lo + k <= n)%nat ->
  fsum (map (fun row => nth l row NaN) (firstn k (skipn lo (fmat n c x)))) = Fin (bigsum k (fun i => x (lo + i)%nat l)).
Proof.
  intros n c x l lo k Hl Hk. rewrite <- fsum_fvec. f_equal. unfold fmat. rewrite skipn_map, firstn_map, map_map.
  rewrite skipn_seq by lia. cbn [Nat.add].
  assert (E : firstn k (seq lo (n - lo)) = seq lo k).
  { replace (n - lo)%nat with (k + (n - lo - k))%nat by lia. rewrite seq_app, firstn_app, seq_length, Nat.sub_diag. cbn [firstn].
    rewrite app_nil_r. rewrite <- (seq_length k lo) at 1. apply firstn_all. }
  rewrite E. unfold fvec at 2. rewrite (seq_add lo k), map_map. apply map_ext. intros i. apply fvec_nth; auto.
Qed.
Lemma medium_fmat : forall n c x M, (0 < n)%nat ->
  medium_time_power_calculation (fmat n c x) M = fmat n c (fun m l => spec_medium n M (fun i => x i l) m).
Proof.
  intros n c x M Hn. unfold medium_time_power_calculation. rewrite fmat_length, ncols_fmat by auto.
  cbv zeta. unfold fmat at 2. apply map_ext_in. intros m Hm. apply in_seq in Hm. unfold fvec. apply map_ext_in. intros l Hl. apply in_seq in Hl.
  set (lo := (m - M)%nat). set (hi := Nat.min n (m + M + 1)).
  rewrite rmat_column_sum by (unfold lo, hi; lia). cbn [fmul]. f_equal. unfold spec_medium.
  replace (1 / IZR (2 * Z.of_nat M + 1)) with (/ INR (2 * M + 1)).
  2:{ rewrite INR_IZR. unfold Rdiv. rewrite Rmult_1_l. do 2 f_equal. lia. }
  unfold Rdiv. rewrite Rmult_comm. f_equal.
  replace n with (lo + ((hi - lo) + (n - hi)))%nat at 1 by (unfold lo, hi; lia).
  rewrite !bigsum_split.
  rewrite (bigsum_zero lo), (bigsum_zero (n - hi)), Rplus_0_l, Rplus_0_r.
  - apply bigsum_ext. intros i Hi. destruct (Nat.leb_spec m (lo + i + M)); [|unfold lo in *; lia].
    destruct (Nat.leb_spec (lo + i) (m + M)); [auto|unfold lo, hi in *; lia].
  - intros i Hi. destruct (Nat.leb_spec (lo + (hi - lo + i)) (m + M)); [unfold lo, hi in *; lia|]. rewrite andb_false_r. auto.
  - intros i Hi. destruct (Nat.leb_spec m (i + M)); [unfold lo in *; lia|]. auto.
Qed.
Lemma medium_nonneg : forall n M x m, (forall i, (i < n)%nat -> 0 <= x i) -> 0 <= spec_medium n M x m.
Proof.
  intros. unfold spec_medium. apply Rmult_le_pos.
  - apply bigsum_nonneg. intros. destruct (_ && _)%bool; [auto|lra].
  - left. apply Rinv_0_lt_compat, lt_0_INR. lia.
Qed.
Lemma window_count : forall n M m, bigsum n (fun i => if (Nat.leb m (i + M) && Nat.leb i (m + M))%bool then 1 else 0) <= INR (2 * M + 1).
Proof.
  intros n M m.
  assert (G : forall n, bigsum n (fun i => if (Nat.leb m (i + M) && Nat.leb i (m + M))%bool then 1 else 0) <= INR (Nat.min (2 * M + 1) (n - (m - M)))).
  { induction n0 as [|k IH]. { cbn. apply pos_INR. }
    rewrite bigsum_S. destruct (Nat.leb_spec m (k + M)); cbn [andb].
    - destruct (Nat.leb_spec k (m + M)).
      + replace (Nat.min (2 * M + 1) (Datatypes.S k - (m - M))) with (Datatypes.S (k - (m - M))) by lia. rewrite S_INR.
        assert (INR (Nat.min (2 * M + 1) (k - (m - M))) <= INR (k - (m - M))) by (apply le_INR; lia). lra.
      + assert (INR (Nat.min (2 * M + 1) (k - (m - M))) <= INR (Nat.min (2 * M + 1) (Datatypes.S k - (m - M)))) by (apply le_INR; lia). lra.
    - assert (INR (Nat.min (2 * M + 1) (k - (m - M))) <= INR (Nat.min (2 * M + 1) (Datatypes.S k - (m - M)))) by (apply le_INR; lia). lra. }
  apply Rle_trans with (1 := G n). apply le_INR. lia.
Qed.
Lemma medium_bound : forall n M x m b, 0 <= b -> (forall i, (i < n)%nat -> x i <= b) -> spec_medium n M x m <= b.
Proof.
  intros n M x m b Hb Hx. unfold spec_medium. assert (HM : 0 < INR (2 * M + 1)) by (apply lt_0_INR; lia).
  apply Rmult_le_reg_r with (INR (2 * M + 1)); auto. unfold Rdiv. rewrite Rmult_assoc, Rinv_l, Rmult_1_r by lra.
  apply Rle_trans with (bigsum n (fun i => b * (if (Nat.leb m (i + M) && Nat.leb i (m + M))%bool then 1 else 0))).
  - apply bigsum_le. intros i Hi. destruct (_ && _)%bool; [rewrite Rmult_1_r; auto|lra].
  - rewrite bigsum_scal. apply Rmult_le_compat_l; auto. apply window_count.
Qed.
Lemma medium_pos : forall n M x m i, (forall i, (i < n)%nat -> 0 <= x i) -> (i < n)%nat -> (m <= i + M)%nat -> (i <= m + M)%nat -> 0 < x i ->
  0 < spec_medium n M x m.
Proof.
  intros n M x m i Hx Hi H1 H2 Hp. unfold spec_medium. apply Rdiv_lt_0_compat; [|apply lt_0_INR; lia].
  apply Rlt_le_trans with (x i); auto.
  pose proof (bigsum_ge_term n (fun i => if (Nat.leb m (i + M) && Nat.leb i (m + M))%bool then x i else 0) i) as G. cbv beta in G.
  rewrite (proj2 (Nat.leb_le _ _) H1), (proj2 (Nat.leb_le _ _) H2) in G. cbn [andb] in G. apply G; auto.
  intros. destruct (_ && _)%bool; [auto|lra].
Qed.
Lemma medium_scale : forall n M x m g, spec_medium n M (fun i => g * x i) m = g * spec_medium n M x m.
Proof.
  intros. unfold spec_medium, Rdiv. rewrite <- Rmult_assoc, <- bigsum_scal. f_equal. apply bigsum_ext. intros. destruct (_ && _)%bool; ring.
Qed.

(** ** the asymmetric filter *)
Fixpoint asymR (a b init : R) (x : nat -> R) (m : nat) : R :=
  match m with O => asym_step a b init (x O) | Datatypes.S k => asym_step a b (asymR a b init x k) (x m) end.
Lemma asym_step_F : forall a b o x,
  (if fgeb (Fin x) (Fin o) then fadd (fmul (Fin a) (Fin o)) (fmul (Fin (1 - a)) (Fin x))
   else fadd (fmul (Fin b) (Fin o)) (fmul (Fin (1 - b)) (Fin x))) = Fin (asym_step a b o x).
Proof. intros. unfold fgeb, fleb, asym_step, Rleb. destruct (Rle_dec o x); reflexivity. Qed.
Lemma asym_row_fvec : forall a b c o x, asym_row a b (fvec c o) (fvec c x) = fvec c (fun l => asym_step a b (o l) (x l)).
Proof. intros. unfold asym_row. apply fvec_map2. intros. apply asym_step_F. Qed.
Definition asym_init (n : nat) (x0 : R) : R := if Nat.eqb n 1 then 0.9 * x0 else 0.
Lemma asym_fmat : forall n c x a b, (0 < n)%nat ->
  asymmetric_lowpass_filtering (fmat n c x) a b
  = Ok (fmat n c (fun m l => asymR a b (asym_init n (x O l)) (fun i => x i l) m)).
Proof.
  intros n c x a b Hn. unfold asymmetric_lowpass_filtering.
  assert (E0 : map (map (fun _ : F => f0)) (fmat n c x) = fmat n c (fun _ _ => 0)) by (apply (fmat_map n c x (fun _ => f0) (fun _ => 0)); auto).
  cbv zeta. rewrite E0.
  change 0%Z with (Z.of_nat 0).
  rewrite (py_nth_ok _ _ 0 []) by (rewrite fmat_length; auto). rewrite fmat_nth by auto. cbn [rbind].
  rewrite py_set_ok by (rewrite fmat_length; auto). cbn [rbind].
  rewrite (fvec_map c (x 0%nat) (fmul (Fin 0.9)) (fun v => 0.9 * v)) by auto.
  rewrite upd_fmat by auto. unfold zlen. rewrite fmat_length. rewrite zrange_nat, Nat.sub_0_r.
  set (A := fun m l => asymR a b (asym_init n (x O l)) (fun i => x i l) m).
  destruct (loop_inv _ (fun out m => do prev <- py_nth out (m - 1); do q <- py_nth (fmat n c x) m; py_set out m (asym_row a b prev q))
     (fun k out => out = fmat n c (fun i l => if Nat.ltb i k then A i l else if Nat.eqb i 0 then 0.9 * x i l else 0)) n 0
     (fmat n c (fun i j => if Nat.eqb i 0 then 0.9 * x 0%nat j else 0))) as (out & E & Ho).
  - intros out m Hm ->. rewrite (py_nth_ok _ (fmat n c x) m []) by (rewrite fmat_length; lia). rewrite fmat_nth by lia.
    assert (Ep : exists pv, py_nth (fmat n c (fun i l => if Nat.ltb i m then A i l else if Nat.eqb i 0 then 0.9 * x i l else 0)) (Z.of_nat m - 1)
        = Ok (fvec c pv) /\ forall l, asym_step a b (pv l) (x m l) = A m l).
    { destruct m as [|m].
      - change (Z.of_nat 0 - 1)%Z with (-1)%Z. rewrite (py_nth_last _ _ []) by (rewrite fmat_length; auto). rewrite fmat_length, fmat_nth by lia.
        eexists. split; [reflexivity|]. intros l. cbv beta. destruct (Nat.ltb_spec (n - 1) 0); [lia|].
        unfold A, asym_init. cbn [asymR]. destruct (Nat.eqb_spec n 1) as [->|].
        + reflexivity.
        + destruct (Nat.eqb_spec (n - 1) 0); [lia|reflexivity].
      - replace (Z.of_nat (Datatypes.S m) - 1)%Z with (Z.of_nat m) by lia.
        rewrite (py_nth_ok _ _ m []) by (rewrite fmat_length; lia). rewrite fmat_nth by lia. eexists. split; [reflexivity|].
        intros l. cbv beta. destruct (Nat.ltb_spec m (Datatypes.S m)); [reflexivity|lia]. }
    destruct Ep as (pv & -> & HA). cbn [rbind]. rewrite asym_row_fvec, py_set_ok by (rewrite fmat_length; lia).
    eexists. split; [reflexivity|]. rewrite upd_fmat by lia. apply fmat_ext. intros i l Hi Hl.
    destruct (Nat.eqb_spec i m) as [->|Hne].
    + destruct (Nat.ltb_spec m (Datatypes.S m)); [auto|lia].
    + destruct (Nat.ltb_spec i m), (Nat.ltb_spec i (Datatypes.S m)); try lia; auto.
  - apply fmat_ext. intros i l Hi Hl. cbn [Nat.ltb Nat.leb]. destruct (Nat.eqb_spec i 0); [subst; auto|auto].
  - change (Z.of_nat 0) with 0%Z in *. rewrite E, Ho. f_equal. apply fmat_ext. intros i l Hi Hl. cbn [Nat.add].
    destruct (Nat.ltb_spec i n); [reflexivity|lia].
Qed.

Lemma asymR_bounds : forall a b init x m hi, 0 <= a <= 1 -> 0 <= b <= 1 ->
  (forall i, (i <= m)%nat -> 0 <= x i <= hi) -> 0 <= init <= hi -> 0 <= asymR a b init x m <= hi.
Proof.
  intros a b init x m hi Ha Hb Hx Hi.
  assert (St : forall o v, 0 <= o <= hi -> 0 <= v <= hi -> 0 <= asym_step a b o v <= hi).
  { intros o v Ho Hv. unfold asym_step.
    assert (G : forall t, 0 <= t <= 1 -> 0 <= t * o + (1 - t) * v <= hi).
    { intros t Ht. split; [apply Rplus_le_le_0_compat; apply Rmult_le_pos; lra|].
      apply Rle_trans with (t * hi + (1 - t) * hi); [|lra].
      apply Rplus_le_compat; apply Rmult_le_compat_l; lra. }
    destruct (Rle_dec o v); auto. }
  induction m as [|m IH]; cbn [asymR]; apply St; auto.
Qed.
Lemma asymR_scale : forall a b init x m g, 0 < g -> asymR a b (g * init) (fun i => g * x i) m = g * asymR a b init x m.
Proof.
  intros a b init x m g Hg.
  assert (St : forall o v, asym_step a b (g * o) (g * v) = g * asym_step a b o v).
  { intros o v. unfold asym_step. destruct (Rle_dec (g * o) (g * v)) as [H|H], (Rle_dec o v) as [K|K]; try ring.
    - exfalso. apply K. apply Rmult_le_reg_l with g; auto.
    - exfalso. apply H. apply Rmult_le_compat_l; lra. }
  induction m as [|m IH]; cbn [asymR]; [apply St|]. rewrite IH. apply St.
Qed.
Lemma asymR_ext : forall a b i1 i2 x y m, i1 = i2 -> (forall i, (i <= m)%nat -> x i = y i) -> asymR a b i1 x m = asymR a b i2 y m.
Proof.
  intros a b i1 i2 x y m -> H. induction m as [|m IH]; cbn [asymR].
  - rewrite H by lia. auto.
  - rewrite IH by (intros; apply H; lia). rewrite H by lia. auto.
Qed.

(** ** temporal masking *)
Fixpoint peakR (lam : R) (x : nat -> R) (m : nat) : R :=
  match m with O => x O | Datatypes.S k => Rmax (lam * peakR lam x k) (x m) end.
Definition maskR (lam mu : R) (x : nat -> R) (m : nat) : R :=
  match m with
  | O => x O
  | Datatypes.S k => if Rle_dec (lam * peakR lam x k) (x m) then x m else mu * peakR lam x k
  end.
Lemma fmax2_Fin : forall a b, fmax2 (Fin a) (Fin b) = Fin (Rmax a b).
Proof. intros. unfold fmax2, fleb, Rleb, Rmax. destruct (Rle_dec a b); auto. Qed.
Lemma mask_fmat : forall n c x lam mu, (0 < n)%nat ->
  temporal_masking (fmat n c x) lam mu = Ok (fmat n c (fun m l => maskR lam mu (fun i => x i l) m)).
Proof.
  intros n c x lam mu Hn. unfold temporal_masking.
  assert (E0 : map (map (fun _ : F => f0)) (fmat n c x) = fmat n c (fun _ _ => 0)) by (apply (fmat_map n c x (fun _ => f0) (fun _ => 0)); auto).
  cbv zeta. rewrite E0. change 0%Z with (Z.of_nat 0).
  rewrite (py_nth_ok _ _ 0 []) by (rewrite fmat_length; auto). rewrite fmat_nth by auto. cbn [rbind].
  rewrite py_set_ok by (rewrite fmat_length; auto). cbn [rbind]. rewrite upd_fmat by auto.
  unfold zlen. rewrite fmat_length. change 1%Z with (Z.of_nat 1). rewrite zrange_nat.
  match goal with |- context[foldM ?f _ ?st0] => destruct (loop_inv _ f
     (fun k s => s = (fmat n c (fun i l => if Nat.ltb i k then maskR lam mu (fun i => x i l) i else 0),
                      fmat n c (fun i l => if Nat.ltb i k then peakR lam (fun i => x i l) i else 0))) (n - 1) 1 st0) as (s' & Es & Hs) end.
  - intros s m Hm ->. rewrite (py_nth_ok _ (fmat n c x) m []) by (rewrite fmat_length; lia). rewrite fmat_nth by lia.
    destruct m as [|m]; [lia|]. replace (Z.of_nat (Datatypes.S m) - Z.of_nat 1)%Z with (Z.of_nat m) by lia.
    rewrite (py_nth_ok _ _ m []) by (rewrite fmat_length; lia). rewrite fmat_nth by lia. cbn [rbind].
    rewrite (fvec_map2 c _ _ (fun p x0 => fmax2 (fmul (Fin lam) p) x0) (fun p v => Rmax (lam * p) v)) by (intros; apply fmax2_Fin).
    rewrite (fvec_map2 c _ _ (fun p x0 => if fgeb x0 (fmul (Fin lam) p) then x0 else fmul (Fin mu) p)
       (fun p v => if Rle_dec (lam * p) v then v else mu * p)).
    2:{ intros. unfold fgeb, fleb, Rleb. cbn [fmul]. destruct (Rle_dec _ _); auto. }
    rewrite !py_set_ok by (rewrite fmat_length; lia). cbn [rbind]. rewrite !upd_fmat by lia.
    eexists. split; [reflexivity|]. f_equal; apply fmat_ext; intros i l Hi Hl.
    + destruct (Nat.eqb_spec i (Datatypes.S m)) as [->|Hne].
      * destruct (Nat.ltb_spec (Datatypes.S m) (Datatypes.S (Datatypes.S m))); [|lia].
        destruct (Nat.ltb_spec m (Datatypes.S m)); [|lia]. reflexivity.
      * destruct (Nat.ltb_spec i (Datatypes.S m)), (Nat.ltb_spec i (Datatypes.S (Datatypes.S m))); try lia; auto.
    + destruct (Nat.eqb_spec i (Datatypes.S m)) as [->|Hne].
      * destruct (Nat.ltb_spec (Datatypes.S m) (Datatypes.S (Datatypes.S m))); [|lia].
        destruct (Nat.ltb_spec m (Datatypes.S m)); [|lia]. reflexivity.
      * destruct (Nat.ltb_spec i (Datatypes.S m)), (Nat.ltb_spec i (Datatypes.S (Datatypes.S m))); try lia; auto.
  - f_equal; apply fmat_ext; intros i l Hi Hl; destruct (Nat.eqb_spec i 0) as [->|]; auto;
      destruct (Nat.ltb_spec i 1); try lia; auto.
  - rewrite Es. cbn [rbind]. rewrite Hs. cbn [fst]. f_equal. apply fmat_ext. intros i l Hi Hl.
    replace (1 + (n - 1))%nat with n by lia. destruct (Nat.ltb_spec i n); [auto|lia].
Qed.
Lemma peak_is : forall lam x m, 0 <= lam -> is_decayed_peak lam x m (peakR lam x m).
Proof.
  intros lam x m Hl. induction m as [|m [(i & Hi & Ei) IH]]; cbn [peakR].
  - split; [exists 0%nat; split; auto; simpl; ring|]. intros i Hi. assert (i = 0%nat) by lia. subst. simpl. lra.
  - split.
    + unfold Rmax. destruct (Rle_dec _ _).
      * exists (Datatypes.S m). split; auto. rewrite Nat.sub_diag. simpl. ring.
      * exists i. split; [lia|]. rewrite Nat.sub_succ_l by lia. cbn [pow]. rewrite Rmult_assoc, <- Ei. auto.
    + intros j Hj. destruct (Nat.eq_dec j (Datatypes.S m)) as [->|].
      * rewrite Nat.sub_diag. simpl pow. rewrite Rmult_1_l. apply Rmax_r.
      * rewrite Nat.sub_succ_l by lia. cbn [pow]. apply Rle_trans with (2 := Rmax_l _ _). rewrite Rmult_assoc.
        apply Rmult_le_compat_l; auto. apply IH. lia.
Qed.
Lemma peakR_nonneg : forall lam x m, (forall i, (i <= m)%nat -> 0 <= x i) -> 0 <= peakR lam x m.
Proof.
  intros lam x m Hx. destruct m; cbn [peakR]; [apply Hx; lia|]. apply Rle_trans with (2 := Rmax_r _ _). apply Hx. lia.
Qed.
Lemma peakR_bound : forall lam x m hi, 0 <= lam <= 1 -> (forall i, (i <= m)%nat -> 0 <= x i <= hi) -> peakR lam x m <= hi.
Proof.
  intros lam x m hi Hl Hx. induction m as [|m IH]; cbn [peakR]; [apply Hx; lia|].
  assert (0 <= peakR lam x m) by (apply peakR_nonneg; intros; apply Hx; lia).
  apply Rmax_lub; [|apply Hx; lia]. apply Rle_trans with (1 * peakR lam x m); [apply Rmult_le_compat_r; lra|].
  rewrite Rmult_1_l. apply IH. intros. apply Hx. lia.
Qed.
Lemma maskR_nonneg : forall lam mu x m, 0 <= mu -> (forall i, (i <= m)%nat -> 0 <= x i) -> 0 <= maskR lam mu x m.
Proof.
  intros lam mu x m Hm Hx. destruct m; cbn [maskR]; [apply Hx; lia|]. destruct (Rle_dec _ _); [apply Hx; lia|].
  apply Rmult_le_pos; auto. apply peakR_nonneg. intros. apply Hx. lia.
Qed.
Lemma peakR_scale : forall lam x m g, 0 < g -> peakR lam (fun i => g * x i) m = g * peakR lam x m.
Proof.
  intros lam x m g Hg. induction m as [|m IH]; cbn [peakR]; auto. rewrite IH, <- RmaxRmult by lra. f_equal. ring.
Qed.
Lemma maskR_scale : forall lam mu x m g, 0 < g -> maskR lam mu (fun i => g * x i) m = g * maskR lam mu x m.
Proof.
  intros lam mu x m g Hg. destruct m; cbn [maskR]; auto. rewrite peakR_scale by auto.
  destruct (Rle_dec (lam * (g * peakR lam x m)) _) as [H|H], (Rle_dec (lam * peakR lam x m) _) as [K|K]; try ring.
  - exfalso. apply K. apply Rmult_le_reg_l with g; auto. lra.
  - exfalso. apply H. replace (lam * (g * peakR lam x m)) with (g * (lam * peakR lam x m)) by ring. apply Rmult_le_compat_l; lra.
Qed.
Lemma peakR_ext : forall lam x y m, (forall i, (i <= m)%nat -> x i = y i) -> peakR lam x m = peakR lam y m.
Proof.
  intros lam x y m H. induction m as [|m IH]; cbn [peakR]; [apply H; lia|]. rewrite H by lia. rewrite IH; auto.
Qed.
Lemma maskR_ext : forall lam mu x y m, (forall i, (i <= m)%nat -> x i = y i) -> maskR lam mu x m = maskR lam mu y m.
Proof. intros lam mu x y m H. destruct m; cbn [maskR]; rewrite ?(peakR_ext lam x y), ?H; auto; intros; apply H; lia. Qed.

(** ** noise suppression *)
Section NoiseR.
  Variables (n : nat) (th : R) (x : nat -> R).
  Definition leR (m : nat) : R := asymR 0.999 0.5 (asym_init n (x 0%nat)) x m.
  Definition q0R (m : nat) : R := if Rlt_dec (x m - leR m) th then 0 else x m - leR m.
  Definition qfR (m : nat) : R := asymR 0.999 0.5 (asym_init n (q0R 0)) q0R m.
  Definition noiseR (m : nat) : R := if Rle_dec (2 * leR m) (x m) then maskR 0.85 0.2 q0R m else qfR m.
End NoiseR.
Lemma noise_fmat : forall n c x th, (0 < n)%nat ->
  noise_suppression (fmat n c x) th = Ok (fmat n c (fun m l => noiseR n th (fun i => x i l) m)).
Proof.
  intros n c x th Hn. unfold noise_suppression. rewrite asym_fmat by auto. cbn [rbind]. cbv zeta.
  set (le := fun m l => asymR 0.999 0.5 (asym_init n (x 0%nat l)) (fun i => x i l) m).
  assert (M2 : forall (C : Type) (f : F -> F -> C) (g : R -> R -> C) u v, (forall a b, f (Fin a) (Fin b) = g a b) ->
     map2 (map2 f) (fmat n c u) (fmat n c v) = map (fun i => map (fun j => g (u i j) (v i j)) (seq 0 c)) (seq 0 n)).
  { intros C f g u v Hf. unfold fmat. rewrite map2_map_same. apply map_ext. intros i. unfold fvec. rewrite map2_map_same.
    apply map_ext. intros j. apply Hf. }
  rewrite (M2 F fsub (fun a b => Fin (a - b))) by (intros; reflexivity).
  change (map (fun i => map (fun j => Fin (x i j - le i j)) (seq 0 c)) (seq 0 n)) with (fmat n c (fun i j => x i j - le i j)).
  rewrite (fmat_map n c _ (fun v => if fltb v (Fin th) then f0 else v) (fun v => if Rlt_dec v th then 0 else v)).
  2:{ intros v. unfold fltb, Rltb. destruct (Rlt_dec v th); auto. }
  set (q0 := fun m l => if Rlt_dec (x m l - le m l) th then 0 else x m l - le m l).
  change (fmat n c (fun i j => if Rlt_dec (x i j - le i j) th then 0 else x i j - le i j)) with (fmat n c q0).
  rewrite asym_fmat by auto. cbn [rbind]. rewrite mask_fmat by auto. cbn [rbind]. f_equal.
  rewrite (M2 bool (fun q e => fgeb q (fmul (Fin 2) e)) (fun q e => Rleb (2 * e) q)) by (intros; reflexivity).
  rewrite (M2 (F * F)%type pair (fun a b => (Fin a, Fin b))) by (intros; reflexivity).
  rewrite map2_map_same. unfold fmat. apply map_ext. intros i. rewrite map2_map_same. unfold fvec. apply map_ext. intros j.
  cbn [fst snd]. unfold noiseR, Rleb, leR. fold (le i j). destruct (Rle_dec (2 * le i j) (x i j)); reflexivity.
Qed.
Lemma leR_bounds : forall n x m hi, 0 <= hi -> (forall i, (i <= m)%nat -> 0 <= x i <= hi) -> 0 <= leR n x m <= hi.
Proof.
  intros n x m hi Hh Hx. unfold leR. apply asymR_bounds; auto; try lra. unfold asym_init. specialize (Hx 0%nat ltac:(lia)).
  destruct (Nat.eqb n 1); lra.
Qed.
Lemma q0R_nonneg : forall n x m, 0 <= q0R n 0 x m.
Proof. intros. unfold q0R. destruct (Rlt_dec _ _); lra. Qed.
Lemma noiseR_nonneg : forall n x m, 0 <= noiseR n 0 x m.
Proof.
  intros n x m. unfold noiseR. destruct (Rle_dec _ _).
  - apply maskR_nonneg; [lra|]. intros. apply q0R_nonneg.
  - assert (Ex : exists hi, forall i, (i <= m)%nat -> q0R n 0 x i <= hi).
    { clear. induction m as [|m [h IH]].
      - exists (q0R n 0 x 0). intros i Hi. assert (i = 0%nat) by lia. subst. lra.
      - exists (Rmax h (q0R n 0 x (Datatypes.S m))). intros i Hi. destruct (Nat.eq_dec i (Datatypes.S m)) as [->|]; [apply Rmax_r|].
        apply Rle_trans with (2 := Rmax_l _ _). apply IH. lia. }
    destruct Ex as [hi Hhi]. unfold qfR. apply (asymR_bounds 0.999 0.5 (asym_init n (q0R n 0 x 0)) (q0R n 0 x) m hi); try lra.
    + intros i Hi. split; [apply q0R_nonneg|auto].
    + pose proof (q0R_nonneg n x 0). specialize (Hhi 0%nat ltac:(lia)). unfold asym_init. destruct (Nat.eqb n 1); lra.
Qed.
Lemma asym_init_scale : forall n g v, asym_init n (g * v) = g * asym_init n v.
Proof. intros. unfold asym_init. destruct (Nat.eqb n 1); ring. Qed.
Lemma noiseR_scale : forall n x m g, 0 < g -> noiseR n 0 (fun i => g * x i) m = g * noiseR n 0 x m.
Proof.
  intros n x m g Hg.
  assert (L : forall m, leR n (fun i => g * x i) m = g * leR n x m).
  { intros. unfold leR. rewrite asym_init_scale. apply asymR_scale; auto. }
  assert (Q : forall m, q0R n 0 (fun i => g * x i) m = g * q0R n 0 x m).
  { intros k. unfold q0R. rewrite L. replace (g * x k - g * leR n x k) with (g * (x k - leR n x k)) by ring.
    destruct (Rlt_dec (g * _) 0) as [H|H], (Rlt_dec (x k - leR n x k) 0) as [K|K]; try ring.
    - exfalso. apply K. apply Rmult_lt_reg_l with g; lra.
    - exfalso. apply H. rewrite <- (Rmult_0_r g). apply Rmult_lt_compat_l; auto. }
  assert (M : maskR 0.85 0.2 (q0R n 0 (fun i => g * x i)) m = g * maskR 0.85 0.2 (q0R n 0 x) m).
  { rewrite <- maskR_scale by auto. apply maskR_ext. intros. apply Q. }
  assert (Fq : qfR n 0 (fun i => g * x i) m = g * qfR n 0 x m).
  { unfold qfR. rewrite <- asymR_scale by auto. apply asymR_ext; [|intros; apply Q]. rewrite Q. apply asym_init_scale. }
  unfold noiseR. rewrite M, Fq, L.
  destruct (Rle_dec (2 * (g * leR n x m)) _) as [H|H], (Rle_dec (2 * leR n x m) _) as [K|K]; auto.
  - exfalso. apply K. apply Rmult_le_reg_l with g; auto. lra.
  - exfalso. apply H. replace (2 * (g * leR n x m)) with (g * (2 * leR n x m)) by ring. apply Rmult_le_compat_l; lra.
Qed.
Lemma noiseR_ext : forall n1 n2 x y m, (n1 = n2 \/ (2 <= n1 /\ 2 <= n2))%nat -> (forall i, (i <= m)%nat -> x i = y i) ->
  noiseR n1 0 x m = noiseR n2 0 y m.
Proof.
  intros n1 n2 x y m Hn H.
  assert (I : forall v, asym_init n1 v = asym_init n2 v).
  { intros. unfold asym_init. destruct Hn as [->|Hn]; auto. destruct (Nat.eqb_spec n1 1), (Nat.eqb_spec n2 1); auto; lia. }
  assert (L : forall k, (k <= m)%nat -> leR n1 x k = leR n2 y k).
  { intros k Hk. unfold leR. apply asymR_ext; [rewrite I, H by lia; auto|]. intros. apply H. lia. }
  assert (Q : forall k, (k <= m)%nat -> q0R n1 0 x k = q0R n2 0 y k).
  { intros k Hk. unfold q0R. rewrite L, H by lia. auto. }
  unfold noiseR, qfR. rewrite (maskR_ext _ _ _ (q0R n2 0 y)) by auto. rewrite L, H by lia.
  rewrite (asymR_ext 0.999 0.5 (asym_init n1 (q0R n1 0 x 0)) (asym_init n2 (q0R n2 0 y 0)) (q0R n1 0 x) (q0R n2 0 y)); auto.
  rewrite I, Q by lia. auto.
Qed.

(** ** weight smoothing, on matrices of any floats *)
Definition gmat (n c : nat) (f : nat -> nat -> F) : list (list F) := map (fun m => map (f m) (seq 0 c)) (seq 0 n).
Lemma gmat_length : forall n c f, List.length (gmat n c f) = n.
Proof. intros. unfold gmat. rewrite map_length, seq_length. auto. Qed.
Lemma gmat_nth : forall n c f m, (m < n)%nat -> nth m (gmat n c f) [] = map (f m) (seq 0 c).
Proof. intros. unfold gmat. apply nth_map_seq; auto. Qed.
Lemma gmat_ncols : forall n c f, (0 < n)%nat -> ncols (gmat n c f) = c.
Proof. intros n c f Hn. destruct n; [lia|]. unfold gmat. cbn. rewrite map_length, seq_length. auto. Qed.
Lemma gmat_py : forall n c f m, (m < n)%nat -> py_nth (gmat n c f) (Z.of_nat m) = Ok (map (f m) (seq 0 c)).
Proof. intros. rewrite (py_nth_ok _ _ m []) by (rewrite gmat_length; auto). rewrite gmat_nth by auto. auto. Qed.
Lemma fmat_gmat : forall n c x, fmat n c x = gmat n c (fun i j => Fin (x i j)).
Proof. reflexivity. Qed.
Lemma gmat_ext : forall n c f g, (forall i j, (i < n)%nat -> (j < c)%nat -> f i j = g i j) -> gmat n c f = gmat n c g.
Proof.
  intros n c f g H. unfold gmat. apply map_ext_in. intros i Hi. apply in_seq in Hi. apply map_ext_in. intros j Hj. apply in_seq in Hj.
  apply H; lia.
Qed.
Lemma row_py : forall c (f : nat -> F) l, (l < c)%nat -> py_nth (map f (seq 0 c)) (Z.of_nat l) = Ok (f l).
Proof.
  intros. rewrite (py_nth_ok _ _ l NaN) by (rewrite map_length, seq_length; auto). rewrite nth_map_seq by auto. auto.
Qed.
Lemma row_py_beyond : forall c (f : nat -> F) l, (c <= l)%nat -> py_nth (map f (seq 0 c)) (Z.of_nat l) = Raise IndexError.
Proof. intros. apply py_nth_beyond. rewrite map_length, seq_length; auto. Qed.

Definition sm_lo (N l : nat) : nat := Nat.max (l - N) 1.
Definition sm_hi (N L l : nat) : nat := Nat.min (l + N) L.
Definition smoothF (N L : nat) (r q : nat -> F) (l : nat) : F :=
  fmul (Fin (1 / INR (sm_hi N L l - sm_lo N l + 1)))
       (fsum (map (fun i => fdiv (r i) (q i)) (seq (sm_lo N l) (sm_hi N L l - sm_lo N l)))).
Lemma mapM_nat : forall A B (f : A -> result B) (g : nat -> B) (h : nat -> A) l, (forall i, In i l -> f (h i) = Ok (g i)) ->
  mapM f (map h l) = Ok (map g l).
Proof.
  induction l as [|x l IH]; intros H; auto. cbn [map mapM]. rewrite H by (left; auto). cbn [rbind]. rewrite IH by (intros; apply H; right; auto).
  auto.
Qed.
Lemma sm_lo_Z : forall N l, Z.max (Z.of_nat l - Z.of_nat N) 1 = Z.of_nat (sm_lo N l).
Proof. intros. unfold sm_lo. lia. Qed.
Lemma sm_hi_Z : forall N L l, Z.min (Z.of_nat l + Z.of_nat N) (Z.of_nat L) = Z.of_nat (sm_hi N L l).
Proof. intros. unfold sm_hi. lia. Qed.
Lemma smooth_entry_ok : forall c r q L N l, (1 <= N)%nat -> (1 <= L <= c)%nat -> (l <= L + N)%nat ->
  smoothing_entry (map r (seq 0 c)) (map q (seq 0 c)) (Z.of_nat L) (Z.of_nat N) (Z.of_nat l) = Ok (smoothF N L r q l).
Proof.
  intros c r q L N l HN HL Hl. unfold smoothing_entry. cbv zeta. rewrite sm_lo_Z, sm_hi_Z.
  assert (sm_lo N l <= sm_hi N L l)%nat by (unfold sm_lo, sm_hi; lia).
  destruct (Z.eqb_spec (Z.of_nat (sm_hi N L l) - Z.of_nat (sm_lo N l) + 1) 0); [lia|]. cbn [rbind].
  rewrite zrange_nat. rewrite (mapM_nat _ _ _ (fun i => fdiv (r i) (q i))).
  - cbn [rbind]. unfold smoothF. do 4 f_equal. rewrite INR_IZR. f_equal. lia.
  - intros i Hi. apply in_seq in Hi. assert (i < c)%nat by (unfold sm_lo, sm_hi in *; lia). rewrite !row_py by auto. auto.
Qed.
Lemma smooth_gmat : forall n c r q L N, (0 < n)%nat -> (1 <= N)%nat -> (1 <= L <= c)%nat -> (c <= L + N + 1)%nat ->
  weight_smoothing (gmat n c r) (gmat n c q) (Z.of_nat L) (Z.of_nat N) = Ok (gmat n c (fun m => smoothF N L (r m) (q m))).
Proof.
  intros n c r q L N Hn HN HL Hc. unfold weight_smoothing, zlen. rewrite gmat_length, gmat_ncols by auto.
  change 0%Z with (Z.of_nat 0). rewrite !zrange_nat, !Nat.sub_0_r. unfold gmat at 3. apply mapM_nat.
  intros m Hm. apply in_seq in Hm. rewrite !gmat_py by lia. cbn [rbind]. apply mapM_nat.
  intros l Hl. apply in_seq in Hl. apply smooth_entry_ok; auto; lia.
Qed.
Lemma mapM_raises : forall A B (f : A -> result B) e l x, In x l -> f x = Raise e ->
  (forall y, In y l -> (exists v, f y = Ok v) \/ f y = Raise e) -> mapM f l = Raise e.
Proof.
  induction l as [|y l IH]; intros x Hin Hx Hall; [destruct Hin|]. cbn [mapM].
  destruct (Hall y (or_introl eq_refl)) as [[v Hv]|Hv]; rewrite Hv; cbn [rbind]; auto.
  destruct Hin as [->|Hin]; [congruence|]. rewrite (IH x); auto. intros z Hz. apply Hall. right. auto.
Qed.
(** more filters announced than channels present *)
Lemma smooth_index : forall n c r q L N, (0 < n)%nat -> (2 <= N)%nat -> (1 <= c < L)%nat ->
  weight_smoothing (gmat n c r) (gmat n c q) (Z.of_nat L) (Z.of_nat N) = Raise IndexError.
Proof.
  intros n c r q L N Hn HN HL. unfold weight_smoothing, zlen. rewrite gmat_length, gmat_ncols by auto.
  change 0%Z with (Z.of_nat 0). rewrite !zrange_nat, !Nat.sub_0_r.
  assert (Row : forall m, (m < n)%nat -> (do r0 <- py_nth (gmat n c r) (Z.of_nat m); do q0 <- py_nth (gmat n c q) (Z.of_nat m);
     mapM (smoothing_entry r0 q0 (Z.of_nat L) (Z.of_nat N)) (map Z.of_nat (seq 0 c))) = Raise IndexError).
  { intros m Hm. rewrite !gmat_py by auto. cbn [rbind].
    assert (Ent : forall l, (l < c)%nat -> let v := smoothing_entry (map (r m) (seq 0 c)) (map (q m) (seq 0 c)) (Z.of_nat L) (Z.of_nat N) (Z.of_nat l) in
       ((exists u, v = Ok u) \/ v = Raise IndexError) /\ (l = c - 1 -> v = Raise IndexError)%nat).
    { intros l Hl. unfold smoothing_entry. cbv zeta. rewrite sm_lo_Z, sm_hi_Z.
      assert (sm_lo N l <= sm_hi N L l)%nat by (unfold sm_lo, sm_hi; lia).
      destruct (Z.eqb_spec (Z.of_nat (sm_hi N L l) - Z.of_nat (sm_lo N l) + 1) 0); [lia|]. cbn [rbind].
      rewrite zrange_nat. destruct (le_lt_dec (sm_hi N L l) c) as [Hh|Hh].
      - rewrite (mapM_nat _ _ _ (fun i => fdiv (r m i) (q m i))).
        + cbn [rbind]. split; [left; eauto|]. unfold sm_hi in Hh. lia.
        + intros i Hi. apply in_seq in Hi. rewrite !row_py by lia. auto.
      - rewrite (mapM_raises _ _ _ IndexError _ (Z.of_nat c)); auto.
        + apply in_map. apply in_seq. unfold sm_lo in *. lia.
        + rewrite row_py_beyond by lia. auto.
        + intros z Hz. apply in_map_iff in Hz as (i & <- & Hi). destruct (le_lt_dec c i).
          * right. rewrite row_py_beyond by lia. auto.
          * left. rewrite !row_py by lia. eexists. reflexivity. }
    apply (mapM_raises _ _ _ _ _ (Z.of_nat (c - 1))).
    - apply in_map, in_seq. lia.
    - apply Ent; lia.
    - intros z Hz. apply in_map_iff in Hz as (i & <- & Hi). apply in_seq in Hi. apply Ent. lia. }
  apply (mapM_raises _ _ _ _ _ (Z.of_nat 0)).
  - apply in_map, in_seq. lia.
  - apply Row. lia.
  - intros z Hz. apply in_map_iff in Hz as (i & <- & Hi). apply in_seq in Hi. right. apply Row. lia.
Qed.
(** many more channels than filters announced *)
Lemma smooth_zerodiv : forall n c r q L N, (0 < n)%nat -> (1 <= N)%nat -> (1 <= L)%nat -> (L + N + 2 <= c)%nat ->
  weight_smoothing (gmat n c r) (gmat n c q) (Z.of_nat L) (Z.of_nat N) = Raise ZeroDivisionError.
Proof.
  intros n c r q L N Hn HN HL Hc. unfold weight_smoothing, zlen. rewrite gmat_length, gmat_ncols by auto.
  change 0%Z with (Z.of_nat 0). rewrite !zrange_nat, !Nat.sub_0_r.
  assert (Row : forall m, (m < n)%nat -> (do r0 <- py_nth (gmat n c r) (Z.of_nat m); do q0 <- py_nth (gmat n c q) (Z.of_nat m);
     mapM (smoothing_entry r0 q0 (Z.of_nat L) (Z.of_nat N)) (map Z.of_nat (seq 0 c))) = Raise ZeroDivisionError).
  { intros m Hm. rewrite !gmat_py by auto. cbn [rbind].
    apply (mapM_raises _ _ _ _ _ (Z.of_nat (L + N + 1))).
    - apply in_map, in_seq. lia.
    - unfold smoothing_entry. cbv zeta. rewrite sm_lo_Z, sm_hi_Z.
      destruct (Z.eqb_spec (Z.of_nat (sm_hi N L (L + N + 1)) - Z.of_nat (sm_lo N (L + N + 1)) + 1) 0); auto. unfold sm_hi, sm_lo in *. lia.
    - intros z Hz. apply in_map_iff in Hz as (l & <- & Hl). apply in_seq in Hl.
      unfold smoothing_entry. cbv zeta. rewrite sm_lo_Z, sm_hi_Z.
      destruct (Z.eqb_spec (Z.of_nat (sm_hi N L l) - Z.of_nat (sm_lo N l) + 1) 0); [right; auto|left]. cbn [rbind].
      rewrite zrange_nat. rewrite (mapM_nat _ _ _ (fun i => fdiv (r m i) (q m i))); [cbn [rbind]; eauto|].
      intros i Hi. apply in_seq in Hi. assert (i < c)%nat by (unfold sm_hi in *; lia). rewrite !row_py by auto. auto. }
  apply (mapM_raises _ _ _ _ _ (Z.of_nat 0)).
  - apply in_map, in_seq. lia.
  - apply Row. lia.
  - intros z Hz. apply in_map_iff in Hz as (i & <- & Hi). apply in_seq in Hi. right. apply Row. lia.
Qed.

(** ** mean power normalisation, on matrices of any floats *)
Fixpoint myuF (lam : R) (L : nat) (T : nat -> nat -> F) (m : nat) : F :=
  match m with
  | O => Fin 0.0001
  | Datatypes.S k => fadd (fmul (Fin lam) (myuF lam L T k)) (fmul (Fin ((1 - lam) / INR L)) (fsum (map (T m) (seq 0 L))))
  end.
Lemma upd_map_seq : forall n (f : nat -> F) m v, (m < n)%nat ->
  upd (map f (seq 0 n)) m v = map (fun i => if Nat.eqb i m then v else f i) (seq 0 n).
Proof.
  intros n f m v Hm. apply (list_eq_nth _ NaN). { rewrite upd_length, !map_length; auto. }
  intros i Hi. rewrite upd_length, map_length, seq_length in Hi. rewrite (nth_map_seq _ (fun i => if Nat.eqb i m then v else f i)) by auto.
  destruct (Nat.eqb_spec i m) as [->|Hne].
  - rewrite upd_nth_same by (rewrite map_length, seq_length; auto). auto.
  - rewrite upd_nth_other by auto. rewrite nth_map_seq by auto. auto.
Qed.
Lemma map_seq_ext : forall n (f g : nat -> F), (forall i, (i < n)%nat -> f i = g i) -> map f (seq 0 n) = map g (seq 0 n).
Proof. intros. apply map_ext_in. intros i Hi. apply in_seq in Hi. apply H. lia. Qed.
Lemma mean_power_gmat : forall n c T lam L k, (0 < n)%nat -> (1 <= L <= c)%nat ->
  mean_power_normalization (gmat n c T) lam (Z.of_nat L) k
  = Ok (gmat n c (fun m l => fdiv (fmul (Fin k) (T m l)) (myuF lam L T m))).
Proof.
  intros n c T lam L k Hn HL. unfold mean_power_normalization. cbv zeta.
  assert (E0 : map (fun _ : list F => f0) (gmat n c T) = map (fun _ => f0) (seq 0 n)) by (unfold gmat; rewrite map_map; auto).
  rewrite E0. change 0%Z with (Z.of_nat 0) at 1. rewrite py_set_ok by (rewrite map_length, seq_length; auto). cbn [rbind].
  rewrite upd_map_seq by auto. unfold zlen. rewrite gmat_length. change 1%Z with (Z.of_nat 1). rewrite zrange_nat.
  match goal with |- context[foldM ?f _ ?st0] => destruct (loop_inv _ f
     (fun j s => s = map (fun i => if Nat.ltb i j then myuF lam L T i else f0) (seq 0 n)) (n - 1) 1 st0) as (s' & Es & Hs) end.
  - intros s m Hm ->. destruct m as [|m]; [lia|]. replace (Z.of_nat (Datatypes.S m) - Z.of_nat 1)%Z with (Z.of_nat m) by lia.
    rewrite row_py by lia. cbn [rbind]. destruct (Nat.ltb_spec m (Datatypes.S m)); [|lia].
    destruct (Z.eqb_spec (Z.of_nat L) 0); [lia|]. cbn [rbind]. rewrite gmat_py by lia. cbn [rbind].
    change 0%Z with (Z.of_nat 0). rewrite zrange_nat, Nat.sub_0_r.
    rewrite (mapM_nat _ _ _ (T (Datatypes.S m))) by (intros i Hi; apply in_seq in Hi; apply row_py; lia). cbn [rbind].
    rewrite py_set_ok by (rewrite map_length, seq_length; lia). rewrite upd_map_seq by lia.
    eexists. split; [reflexivity|]. apply map_seq_ext. intros i Hi.
    destruct (Nat.eqb_spec i (Datatypes.S m)) as [->|Hne].
    + destruct (Nat.ltb_spec (Datatypes.S m) (Datatypes.S (Datatypes.S m))); [|lia]. cbn [myuF]. rewrite INR_IZR. reflexivity.
    + destruct (Nat.ltb_spec i (Datatypes.S m)), (Nat.ltb_spec i (Datatypes.S (Datatypes.S m))); try lia; auto.
  - apply map_seq_ext. intros i Hi. destruct (Nat.eqb_spec i 0) as [->|]; auto. destruct (Nat.ltb_spec i 1); [lia|auto].
  - rewrite Es. cbn [rbind]. rewrite Hs. f_equal. unfold gmat. rewrite map2_map_same. apply map_ext_in. intros i Hi. apply in_seq in Hi.
    replace (1 + (n - 1))%nat with n by lia. destruct (Nat.ltb_spec i n); [|lia]. rewrite map_map. auto.
Qed.

(** ** from the band powers to the argument of the DCT *)
Definition mediumR (n : nat) (P : nat -> nat -> R) (m l : nat) : R := spec_medium n 2 (fun i => P i l) m.
Definition suppR (n : nat) (P : nat -> nat -> R) (m l : nat) : R := noiseR n 0 (fun i => mediumR n P i l) m.
Definition TF (n L : nat) (P : nat -> nat -> R) (m l : nat) : F :=
  fmul (Fin (P m l)) (smoothF 4 L (fun i => Fin (suppR n P m i)) (fun i => Fin (mediumR n P m i)) l).
Definition VF (n L : nat) (P : nat -> nat -> R) (m l : nat) : F :=
  fpow (fdiv (fmul (Fin 1) (TF n L P m l)) (myuF 0.999 L (TF n L P) m)) (1 / 15).
Lemma core_gmat : forall n c P L, (0 < n)%nat -> (1 <= L <= c)%nat -> (c <= L + 5)%nat ->
  pncc_core (fmat n c P) (Z.of_nat L) = Ok (gmat n c (VF n L P)).
Proof.
  intros n c P L Hn HL Hc. unfold pncc_core. cbv zeta. rewrite medium_fmat by auto. rewrite noise_fmat by auto. cbn [rbind].
  rewrite !fmat_gmat. change 4%Z with (Z.of_nat 4). rewrite smooth_gmat by lia. cbn [rbind].
  assert (E : map2 (map2 fmul) (gmat n c (fun i j => Fin (P i j)))
     (gmat n c (fun m => smoothF 4 L (fun j => Fin (noiseR n 0 (fun i => spec_medium n 2 (fun i0 => P i0 j) i) m))
                                     (fun j => Fin (spec_medium n 2 (fun i => P i j) m)))) = gmat n c (TF n L P)).
  { unfold gmat. rewrite map2_map_same. apply map_ext. intros m. rewrite map2_map_same. reflexivity. }
  rewrite E, mean_power_gmat by auto. cbn [rbind]. f_equal. unfold gmat. rewrite map_map. apply map_ext. intros m. rewrite map_map. reflexivity.
Qed.
Lemma core_index : forall n c P L, (0 < n)%nat -> (1 <= c < L)%nat -> pncc_core (fmat n c P) (Z.of_nat L) = Raise IndexError.
Proof.
  intros n c P L Hn HL. unfold pncc_core. cbv zeta. rewrite medium_fmat by auto. rewrite noise_fmat by auto. cbn [rbind].
  rewrite !fmat_gmat. change 4%Z with (Z.of_nat 4). rewrite smooth_index by lia. auto.
Qed.
Lemma core_zerodiv : forall n c P L, (0 < n)%nat -> (1 <= L)%nat -> (L + 6 <= c)%nat -> pncc_core (fmat n c P) (Z.of_nat L) = Raise ZeroDivisionError.
Proof.
  intros n c P L Hn HL Hc. unfold pncc_core. cbv zeta. rewrite medium_fmat by auto. rewrite noise_fmat by auto. cbn [rbind].
  rewrite !fmat_gmat. change 4%Z with (Z.of_nat 4). rewrite smooth_zerodiv by lia. auto.
Qed.
