(** * Cooley-Tukey programs: what they compute and how rounding acts on them *)
From Coq Require Import Reals ZArith List Bool Lia Lra Psatz Permutation.
From Coquelicot Require Import Complex.
From Coquelicot Require Rcomplements.
From Verif Require Import Base SpecBase BigSum SpecFeatures DctFacts CqtFacts Rounded SpecRounded RoundedFacts RoundedLaws SpecRoundedCeps RoundedCepsLaws RoundedCepsEnd SpecFft.
Import ListNotations.
Local Open Scope R_scope.

(** ** energies of complex vectors *)
Definition sq (z : C) : R := fst z ^ 2 + snd z ^ 2.
Definition en (n : nat) (f : nat -> C) : R := bigsum n (fun k => sq (f k)).
Lemma sq_nonneg : forall z, 0 <= sq z.
Proof. intros z. unfold sq. pose proof (pow2_ge_0 (fst z)). pose proof (pow2_ge_0 (snd z)). lra. Qed.
Lemma en_nonneg : forall n f, 0 <= en n f.
Proof. intros. apply bigsum_nonneg. intros. apply sq_nonneg. Qed.
Lemma en_ext : forall n f g, (forall k, (k < n)%nat -> f k = g k) -> en n f = en n g.
Proof. intros. apply bigsum_ext. intros k Hk. rewrite H by exact Hk. reflexivity. Qed.
Lemma sq_cis : forall z a, sq (Cmult z (cis a)) = sq z.
Proof.
  intros [x y] a. unfold sq, cis, Cmult. cbn [fst snd]. pose proof (sin2_cos2 a) as H. unfold Rsqr in H.
  replace ((x * cos a - y * sin a) ^ 2 + (x * sin a + y * cos a) ^ 2) with ((x ^ 2 + y ^ 2) * (sin a * sin a + cos a * cos a)) by ring.
  rewrite H. ring.
Qed.
Lemma en_zero : forall n f, en n f <= 0 -> forall k, (k < n)%nat -> sq (f k) = 0.
Proof.
  intros n f H k Hk. pose proof (bigsum_ge_term n (fun k => sq (f k)) k (fun _ _ => sq_nonneg _) Hk) as K. cbv beta in K.
  pose proof (sq_nonneg (f k)). unfold en in H. lra.
Qed.
Lemma sq_zero : forall z, sq z = 0 -> z = RtoC 0.
Proof.
  intros [a b] H. unfold sq in H. cbn [fst snd] in H. pose proof (pow2_ge_0 a). pose proof (pow2_ge_0 b).
  assert (a = 0) by (apply Rsqr_0_uniq; unfold Rsqr; lra). assert (b = 0) by (apply Rsqr_0_uniq; unfold Rsqr; lra). subst. reflexivity.
Qed.
(** Minkowski's inequality *)
Lemma en_plus : forall n f g A B, 0 <= A -> 0 <= B -> en n f <= A ^ 2 -> en n g <= B ^ 2 -> en n (fun k => Cplus (f k) (g k)) <= (A + B) ^ 2.
Proof.
  intros n f g A B HA HB Hf Hg.
  destruct HA as [HA|<-].
  - destruct HB as [HB|<-].
    + apply Rle_trans with ((1 + B / A) * en n f + (1 + A / B) * en n g).
      * unfold en. rewrite <- !bigsum_scal, <- bigsum_plus. apply bigsum_le. intros k _. unfold sq, Cplus. cbn [fst snd].
        assert (K : forall a b, (a + b) ^ 2 <= (1 + B / A) * a ^ 2 + (1 + A / B) * b ^ 2).
        { intros a b. assert (0 <= / (A * B) * (B * a - A * b) ^ 2) by (apply Rmult_le_pos; [left; apply Rinv_0_lt_compat, Rmult_lt_0_compat; assumption|apply pow2_ge_0]).
          replace (/ (A * B) * (B * a - A * b) ^ 2) with (B / A * a ^ 2 + A / B * b ^ 2 - 2 * a * b) in H by (field; lra). lra. }
        pose proof (K (fst (f k)) (fst (g k))). pose proof (K (snd (f k)) (snd (g k))). lra.
      * assert (0 <= 1 + B / A) by (pose proof (Rmult_lt_0_compat _ _ HB (Rinv_0_lt_compat _ HA)); unfold Rdiv; lra).
        assert (0 <= 1 + A / B) by (pose proof (Rmult_lt_0_compat _ _ HA (Rinv_0_lt_compat _ HB)); unfold Rdiv; lra).
        pose proof (Rmult_le_compat_l _ _ _ H Hf). pose proof (Rmult_le_compat_l _ _ _ H0 Hg).
        replace ((A + B) ^ 2) with ((1 + B / A) * A ^ 2 + (1 + A / B) * B ^ 2) by (field; lra). lra.
    + rewrite Rplus_0_r. eapply Rle_trans; [|exact Hf]. right. apply en_ext. intros k Hk.
      rewrite (sq_zero (g k)); [apply Cplus_0_r|]. apply (en_zero n g); [lra|exact Hk].
  - rewrite Rplus_0_l. eapply Rle_trans; [|exact Hg]. right. apply en_ext. intros k Hk.
    rewrite (sq_zero (f k)); [apply Cplus_0_l|]. apply (en_zero n f); [lra|exact Hk].
Qed.
Lemma en_dft : forall n x, (0 < n)%nat -> en n (dftC n x) = INR n * en n x.
Proof.
  intros n x Hn. pose proof (f_equal fst (parseval_inner n x x Hn)) as H. unfold Cbig, Cmult, Cconj, RtoC in H. cbn [fst snd] in H.
  unfold en, sq. rewrite (bigsum_ext n _ (fun k => fst (dftC n x k) * fst (dftC n x k) - snd (dftC n x k) * - snd (dftC n x k))) by (intros; ring).
  rewrite H. rewrite Rmult_0_l, Rminus_0_r. f_equal. apply bigsum_ext. intros. ring.
Qed.

(** ** one level: r transforms of size q *)
Definition join (n r q : nat) (F : nat -> nat -> C) (k : nat) : C :=
  Cbig r (fun t => Cmult (F t (k mod q)%nat) (cis (- (2 * PI * INR (t * k) / INR n)))).
Lemma cis_period : forall a z, cis (a + 2 * PI * IZR z) = cis a.
Proof.
  intros a z. unfold cis. replace (a + 2 * PI * IZR z) with (a + IZR (2 * z) * PI) by (rewrite mult_IZR; ring).
  rewrite cos_plus, sin_plus, sin_IZR_PI, cos_even_PI. f_equal; ring.
Qed.
Lemma join_dft : forall r q F j c, (0 < r)%nat -> (c < q)%nat ->
  join (r * q) r q F (j * q + c) = dftC r (fun t => Cmult (F t c) (cis (- (2 * PI * INR (t * c) / INR (r * q))))) j.
Proof.
  intros r q F j c Hr Hc. unfold join, dftC. apply Cbig_ext. intros t _.
  rewrite Nat.add_comm, Nat.mod_add by lia. rewrite Nat.mod_small by exact Hc. rewrite <- Cmult_assoc, cis_add. do 2 f_equal.
  assert (0 < INR r) by (apply lt_0_INR; lia). assert (0 < INR q) by (apply lt_0_INR; lia).
  rewrite !mult_INR, plus_INR, mult_INR. field. lra.
Qed.
Lemma flat_sum : forall r q f, (0 < q)%nat -> bigsum (r * q) f = bigsum r (fun j => bigsum q (fun c => f (j * q + c)%nat)).
Proof.
  intros r q f Hq. rewrite <- (bigsum_flat r q (fun j c => f (j * q + c)%nat) Hq). apply bigsum_ext. intros k _. f_equal.
  rewrite Nat.mul_comm. apply Nat.div_mod. lia.
Qed.
(** a level multiplies energies by r *)
Lemma en_join : forall r q F, (0 < r)%nat -> (0 < q)%nat -> en (r * q) (join (r * q) r q F) = INR r * bigsum r (fun t => en q (F t)).
Proof.
  intros r q F Hr Hq. unfold en at 1. rewrite flat_sum by exact Hq. rewrite bigsum_swap.
  rewrite (bigsum_ext q _ (fun c => INR r * bigsum r (fun t => sq (F t c)))).
  - rewrite bigsum_scal. f_equal. unfold en. apply bigsum_swap.
  - intros c Hc. transitivity (en r (dftC r (fun t => Cmult (F t c) (cis (- (2 * PI * INR (t * c) / INR (r * q))))))).
    + apply bigsum_ext. intros j _. f_equal. apply join_dft; assumption.
    + rewrite en_dft by exact Hr. f_equal. apply bigsum_ext. intros t _. apply sq_cis.
Qed.
Lemma join_plus : forall n r q F G k, join n r q (fun t c => Cplus (F t c) (G t c)) k = Cplus (join n r q F k) (join n r q G k).
Proof. intros. unfold join. rewrite <- Cbig_plus. apply Cbig_ext. intros. ring. Qed.
(** decimation in time *)
Lemma join_exact : forall r q y k, (0 < r)%nat -> (0 < q)%nat ->
  join (r * q) r q (fun t => dftC q (fun s => y (t + r * s)%nat)) k = dftC (r * q) y k.
Proof.
  intros r q y k Hr Hq. assert (HR : 0 < INR r) by (apply lt_0_INR; lia). assert (HQ : 0 < INR q) by (apply lt_0_INR; lia).
  transitivity (Cbig r (fun t => Cbig q (fun s => Cmult (y (t + r * s)%nat) (cis (- (2 * PI * INR ((t + r * s) * k) / INR (r * q))))))).
  - unfold join. apply Cbig_ext. intros t _. unfold dftC. rewrite Cmult_comm, <- Cbig_scal. apply Cbig_ext. intros s _.
    rewrite (Cmult_comm (cis _)), <- Cmult_assoc, cis_add. f_equal.
    rewrite <- (cis_period (- (2 * PI * INR ((t + r * s) * k) / INR (r * q))) (Z.of_nat s * Z.of_nat (k / q))). f_equal.
    assert (E : INR k = INR q * INR (k / q) + INR (k mod q)) by (rewrite <- mult_INR, <- plus_INR; f_equal; apply Nat.div_mod; lia).
    rewrite mult_IZR, <- !INR_IZR_INZ, !mult_INR, plus_INR, mult_INR, E. field. lra.
  - rewrite Cbig_swap. unfold dftC, Cbig. cbn [fst snd]. rewrite Nat.mul_comm. rewrite !flat_sum by exact Hr.
    f_equal; apply bigsum_ext; intros s _; apply bigsum_ext; intros t _; replace (s * r + t)%nat with (t + r * s)%nat by lia; reflexivity.
Qed.

(** the other order: sums over remainders, rotated, then transforms of size q *)
Definition part (n r q : nat) (z : nat -> C) (c a : nat) : C :=
  Cmult (dftC r (fun b => z (b * q + a)%nat) c) (cis (- (2 * PI * INR (a * c) / INR n))).
Lemma part_exact : forall r q z c m, (0 < r)%nat -> (0 < q)%nat ->
  dftC q (part (r * q) r q z c) m = dftC (r * q) z (c + r * m).
Proof.
  intros r q z c m Hr Hq. assert (HR : 0 < INR r) by (apply lt_0_INR; lia). assert (HQ : 0 < INR q) by (apply lt_0_INR; lia).
  transitivity (Cbig q (fun a => Cbig r (fun b => Cmult (z (b * q + a)%nat) (cis (- (2 * PI * INR ((b * q + a) * (c + r * m)) / INR (r * q))))))).
  - unfold dftC at 1. apply Cbig_ext. intros a _. unfold part. rewrite <- Cmult_assoc, cis_add. unfold dftC. rewrite Cmult_comm, <- Cbig_scal.
    apply Cbig_ext. intros b _. rewrite (Cmult_comm (cis _)), <- Cmult_assoc, cis_add. f_equal.
    rewrite <- (cis_period (- (2 * PI * INR ((b * q + a) * (c + r * m)) / INR (r * q))) (Z.of_nat b * Z.of_nat m)). f_equal.
    rewrite mult_IZR, <- !INR_IZR_INZ, !mult_INR, !plus_INR, !mult_INR. field. lra.
  - rewrite Cbig_swap. unfold dftC, Cbig. cbn [fst snd]. rewrite !flat_sum by exact Hq. reflexivity.
Qed.
Lemma sum_columns : forall r q f, (0 < r)%nat -> bigsum (r * q) f = bigsum r (fun c => bigsum q (fun m => f (c + r * m)%nat)).
Proof.
  intros r q f Hr. rewrite Nat.mul_comm, flat_sum by exact Hr. rewrite bigsum_swap. apply bigsum_ext. intros c _. apply bigsum_ext. intros m _.
  f_equal. lia.
Qed.
Definition spread (r : nat) (f : nat -> nat -> C) (k : nat) : C := f (k mod r)%nat (k / r)%nat.
Lemma spread_at : forall r f c m, (c < r)%nat -> spread r f (c + r * m) = f c m.
Proof.
  intros r f c m Hc. unfold spread. rewrite (Nat.mul_comm r m), Nat.mod_add, Nat.div_add by lia. rewrite Nat.mod_small, Nat.div_small by exact Hc. reflexivity.
Qed.
Lemma en_spread : forall r q f, (0 < r)%nat -> en (r * q) (spread r f) = bigsum r (fun c => en q (f c)).
Proof.
  intros r q f Hr. unfold en at 1. rewrite sum_columns by exact Hr. apply bigsum_ext. intros c Hc. apply bigsum_ext. intros m _.
  rewrite spread_at by exact Hc. reflexivity.
Qed.
Lemma en_part : forall r q z, (0 < r)%nat -> (0 < q)%nat -> bigsum r (fun c => en q (part (r * q) r q z c)) = INR r * en (r * q) z.
Proof.
  intros r q z Hr Hq. unfold en at 1. rewrite bigsum_swap.
  rewrite (bigsum_ext q _ (fun a => INR r * bigsum r (fun b => sq (z (b * q + a)%nat)))).
  - rewrite bigsum_scal. f_equal. unfold en. rewrite flat_sum by exact Hq. apply bigsum_swap.
  - intros a _. transitivity (en r (dftC r (fun b => z (b * q + a)%nat))); [|exact (en_dft r (fun b => z (b * q + a)%nat) Hr)]. apply bigsum_ext. intros c _. unfold part. apply sq_cis.
Qed.

(** ** programs *)
Lemma subst_exact : forall x s p, lin_exact x (subst s p) = lin_exact (fun i => lin_exact x (s i)) p.
Proof. intros x s p. induction p; cbn [subst lin_exact]; congruence. Qed.
Lemma subst_run : forall (E : Env) x s p,
  @lin_run E x (@lin_stored E (subst s p)) = @lin_run E (fun i => @lin_run E x (@lin_stored E (s i))) (@lin_stored E p).
Proof. intros E x s p. induction p; cbn [subst lin_run lin_stored]; congruence. Qed.
Lemma subst_size : forall x s p, lin_size x (subst s p) = lin_size (fun i => lin_size x (s i)) p.
Proof.
  intros x s p. induction p; cbn [subst lin_size]; try congruence. symmetry. apply Rabs_pos_eq, lin_size_nonneg.
Qed.
Lemma subst_depth2 : forall s d p, (forall i, (lin_depth2 (s i) <= d)%nat) -> (lin_depth2 (subst s p) <= lin_depth2 p + d)%nat.
Proof.
  intros s d p H. induction p; cbn [subst lin_depth2]; try lia. match goal with |- (lin_depth2 (s ?i) <= _)%nat => specialize (H i); lia end.
Qed.
(** only the inputs below n matter for a butterfly of n inputs *)
Fixpoint loads (p : lin) : list nat :=
  match p with Load i => [i] | Zero => [] | Add p q | Sub p q | ScaleAdd _ p q => loads p ++ loads q | Scale _ p => loads p end.
Lemma subst_depth2_loads : forall s d p, (forall i, In i (loads p) -> (lin_depth2 (s i) <= d)%nat) -> (lin_depth2 (subst s p) <= lin_depth2 p + d)%nat.
Proof.
  intros s d p. induction p as [i| |p IHp q IHq|p IHp q IHq|c p IHp|c p IHp q IHq]; intros H; cbn [subst lin_depth2 loads] in *; try lia.
  - apply H. now left.
  - specialize (IHp ltac:(intros; apply H, in_or_app; now left)). specialize (IHq ltac:(intros; apply H, in_or_app; now right)). lia.
  - specialize (IHp ltac:(intros; apply H, in_or_app; now left)). specialize (IHq ltac:(intros; apply H, in_or_app; now right)). lia.
  - specialize (IHp H). lia.
  - specialize (IHp ltac:(intros; apply H, in_or_app; now left)). specialize (IHq ltac:(intros; apply H, in_or_app; now right)). lia.
Qed.
Lemma dots_loads : forall w l p, dots w l p -> forall i, In i (loads p) -> In i l.
Proof.
  intros w l p H. induction H; intros j Hj; cbn [loads] in Hj; repeat (apply in_app_or in Hj; destruct Hj as [Hj|Hj]); cbn [In] in *; try apply in_or_app; intuition.
Qed.
Lemma sdots_loads : forall w l p, sdots w l p -> forall i, In i (loads p) -> In i l.
Proof.
  intros w l p H. induction H as [w l p H|w l l' p q H IH H' IH'|w l l' p q H IH H' IH'|w v c l p Hc H IH|w v c l l' p q Hc H IH H' IH']; intros j Hj; cbn [loads] in Hj.
  - eapply dots_loads; eauto.
  - apply in_or_app. apply in_app_or in Hj. intuition.
  - apply in_or_app. apply in_app_or in Hj. intuition.
  - auto.
  - apply in_or_app. apply in_app_or in Hj. intuition.
Qed.
Lemma butterfly_subst_depth : forall w n s d p, butterfly w n p -> (forall i, (i < n)%nat -> (lin_depth2 (s i) <= d)%nat) -> (lin_depth2 (subst s p) <= lin_depth2 p + d)%nat.
Proof.
  intros w n s d p (l & Hl & H & _) Hs. apply subst_depth2_loads. intros i Hi. apply Hs. apply (sdots_loads _ _ _ H) in Hi.
  apply (Permutation_in _ Hl), in_seq in Hi. lia.
Qed.
Lemma split_sum : forall r f, bigsum (2 * r) f = bigsum r (fun t => f t + f (r + t)%nat).
Proof. intros r f. replace (2 * r)%nat with (r + r)%nat by lia. rewrite bigsum_split, bigsum_plus. reflexivity. Qed.
Lemma lsum_opp : forall w x l, lsum (fun k => - w k * x k) l = - lsum (fun k : nat => w k * x k) l.
Proof. intros w x l. induction l as [|i l IH]; [cbn; ring|]. unfold lsum in *. cbn [map fold_right] in *. lra. Qed.
Lemma lsum_opp_abs : forall w x l, lsum (fun k => Rabs (- w k * x k)) l = lsum (fun k : nat => Rabs (w k * x k)) l.
Proof. intros w x l. induction l as [|i l IH]; [reflexivity|]. unfold lsum in *. cbn [map fold_right] in *. rewrite IH, Ropp_mult_distr_l_reverse, Rabs_Ropp. reflexivity. Qed.
Lemma lsum_common : forall w v c x l, (forall i, In i l -> w i = c * v i) -> lsum (fun k : nat => w k * x k) l = c * lsum (fun k => v k * x k) l.
Proof.
  intros w v c x l H. induction l as [|i l IH]; [cbn; ring|]. unfold lsum in *. cbn [map fold_right] in *. rewrite IH by (intros; apply H; now right).
  rewrite (H i) by now left. ring.
Qed.
Lemma lsum_common_abs : forall w v c x l, (forall i, In i l -> w i = c * v i) -> lsum (fun k : nat => Rabs (w k * x k)) l = Rabs c * lsum (fun k => Rabs (v k * x k)) l.
Proof.
  intros w v c x l H. induction l as [|i l IH]; [cbn; ring|]. unfold lsum in *. cbn [map fold_right] in *. rewrite IH by (intros; apply H; now right).
  rewrite (H i) by now left. rewrite Rmult_assoc, Rabs_mult. ring.
Qed.
Lemma sdots_exact : forall w l p, sdots w l p -> forall x, lin_exact x p = lsum (fun k => w k * x k) l.
Proof.
  intros w l p H. induction H as [w l p H|w l l' p q H IH H' IH'|w l l' p q H IH H' IH'|w v c l p Hc H IH|w v c l l' p q Hc H IH H' IH']; intros x; cbn [lin_exact].
  - apply dots_exact, H.
  - rewrite lsum_app, IH, IH'. reflexivity.
  - rewrite lsum_app, IH, IH', lsum_opp. ring.
  - rewrite IH, (lsum_common w v c x l Hc). reflexivity.
  - rewrite lsum_app, IH, IH', (lsum_common w v c x l Hc). reflexivity.
Qed.
Lemma sdots_size : forall w l p, sdots w l p -> forall x, lin_size x p = lsum (fun k => Rabs (w k * x k)) l.
Proof.
  intros w l p H. induction H as [w l p H|w l l' p q H IH H' IH'|w l l' p q H IH H' IH'|w v c l p Hc H IH|w v c l l' p q Hc H IH H' IH']; intros x; cbn [lin_size].
  - apply dots_size, H.
  - rewrite lsum_app, IH, IH'. reflexivity.
  - rewrite lsum_app, IH, IH', lsum_opp_abs. reflexivity.
  - rewrite IH, (lsum_common_abs w v c x l Hc). reflexivity.
  - rewrite lsum_app, IH, IH', (lsum_common_abs w v c x l Hc). reflexivity.
Qed.
Lemma butterfly_exact : forall w n p x, butterfly w n p -> lin_exact x p = bigsum n (fun k => w k * x k).
Proof. intros w n p x (l & Hl & H & _). rewrite (sdots_exact _ _ _ H), (lsum_perm _ _ _ Hl). apply lsum_seq. Qed.
Lemma butterfly_size : forall w n p x, butterfly w n p -> lin_size x p = bigsum n (fun k => Rabs (w k * x k)).
Proof. intros w n p x (l & Hl & H & _). rewrite (sdots_size _ _ _ H), (lsum_perm _ _ _ Hl). apply lsum_seq. Qed.
Lemma butterfly_depth2 : forall w n p, butterfly w n p -> (lin_depth2 p <= S n)%nat.
Proof. intros w n p (l & _ & _ & H). exact H. Qed.
Lemma dot_butterfly : forall w n p, dot_program w n p -> butterfly w n p.
Proof.
  intros w n p (l & Hl & H). exists l. split; [exact Hl|]. split; [apply sdots_dots, H|].
  pose proof (dots_depth2 _ _ _ H). apply Permutation_length in Hl. rewrite seq_length in Hl. lia.
Qed.
Lemma fft_size_pos : forall rs sr si re im, fft rs sr si re im -> (0 < fft_size rs)%nat.
Proof.
  intros rs sr si re im H. induction H as [|r rs sr si tre tim re im Hr H IH Hk|r rs sr si mre mim re im Hr Hm H IH]; [cbn; lia| |];
    specialize (IH 0%nat Hr); change (fft_size (r :: rs)) with (r * fft_size rs)%nat; nia.
Qed.
(** the weights of an output, applied to complex numbers *)
Lemma twiddle_sum : forall n r k (G : nat -> C),
  let inp j := if (j <? r)%nat then fst (G j) else snd (G (j - r)%nat) in
  (bigsum (2 * r) (fun j => twiddle_re n r k j * inp j), bigsum (2 * r) (fun j => twiddle_im n r k j * inp j))
  = Cbig r (fun t => Cmult (G t) (cis (- (2 * PI * INR (t * k) / INR n)))).
Proof.
  intros n r k G inp. rewrite !split_sum. unfold Cbig, Cmult, cis. cbn [fst snd].
  f_equal; apply bigsum_ext; intros t Ht; unfold inp, twiddle_re, twiddle_im; (destruct (Nat.ltb_spec t r); [|lia]); (destruct (Nat.ltb_spec (r + t) r); [lia|]);
    replace (r + t - r)%nat with t by lia; rewrite cos_neg, sin_neg; ring.
Qed.

Lemma dft_minus : forall n y z k, dftC n (fun t => Cminus (y t) (z t)) k = Cminus (dftC n y k) (dftC n z k).
Proof.
  intros n y z k. unfold dftC, Cminus, Cbig, Cplus, Copp, Cmult. cbn [fst snd].
  f_equal; (match goal with |- _ = ?a + - ?b => change (a + - b) with (a - b) end); rewrite <- bigsum_minus; apply bigsum_ext; intros t _; ring.
Qed.
(** |cos t * a| + |sin t * b| is at most |a + ib| *)
Lemma polar_le : forall t a b, Rabs (cos t * a) + Rabs (sin t * b) <= sqrt (a ^ 2 + b ^ 2).
Proof.
  intros t a b. rewrite !Rabs_mult. rewrite <- (pow2_abs a), <- (pow2_abs b). set (c := Rabs (cos t)). set (s := Rabs (sin t)). set (a' := Rabs a). set (b' := Rabs b).
  assert (C2 : c ^ 2 + s ^ 2 = 1).
  { unfold c, s. rewrite !pow2_abs. pose proof (sin2_cos2 t) as K. unfold Rsqr in K. lra. }
  assert (0 <= c * a' + s * b') by (unfold c, s, a', b'; apply Rplus_le_le_0_compat; apply Rmult_le_pos; apply Rabs_pos).
  rewrite <- (sqrt_pow2 (c * a' + s * b')) by assumption. apply sqrt_le_1_alt.
  replace (a' ^ 2 + b' ^ 2) with ((c ^ 2 + s ^ 2) * (a' ^ 2 + b' ^ 2)) by (rewrite C2; ring).
  pose proof (pow2_ge_0 (c * b' - s * a')). lra.
Qed.
(** sizes of the two sums of a butterfly *)
Lemma twiddle_size : forall n r k (G : nat -> C) inp m,
  (forall j, inp j = if (j <? r)%nat then fst (G j) else snd (G (j - r)%nat)) ->
  m = bigsum r (fun t => sqrt (sq (G t))) ->
  bigsum (2 * r) (fun j => Rabs (twiddle_re n r k j * inp j)) <= m /\ bigsum (2 * r) (fun j => Rabs (twiddle_im n r k j * inp j)) <= m /\
  0 <= m /\ m ^ 2 <= INR r * bigsum r (fun t => sq (G t)).
Proof.
  intros n r k G inp m HI ->. split; [|split; [|split]].
  - rewrite split_sum. apply bigsum_le. intros t Ht. rewrite !HI. unfold twiddle_re. destruct (Nat.ltb_spec t r); [|lia]. destruct (Nat.ltb_spec (r + t) r); [lia|].
    replace (r + t - r)%nat with t by lia. apply polar_le.
  - rewrite split_sum. apply bigsum_le. intros t Ht. rewrite !HI. unfold twiddle_im. destruct (Nat.ltb_spec t r); [|lia]. destruct (Nat.ltb_spec (r + t) r); [lia|].
    replace (r + t - r)%nat with t by lia. rewrite Ropp_mult_distr_l_reverse, Rabs_Ropp, Rplus_comm. unfold sq. rewrite Rplus_comm with (r1 := fst _ ^ 2). apply polar_le.
  - apply bigsum_nonneg. intros. apply sqrt_pos.
  - eapply Rle_trans; [apply sum_sq_cauchy|]. right. f_equal. apply bigsum_ext. intros t _. apply pow2_sqrt, sq_nonneg.
Qed.
(** one dot product *)
Lemma stored_square : forall (E : Env) u inp p d s, accurate u 0 (@rnd E) -> (lin_depth2 p <= d)%nat -> lin_size inp p ^ 2 <= s ->
  (@lin_run E inp (@lin_stored E p) + - lin_exact inp p) ^ 2 <= ((1 + u) ^ d - 1) ^ 2 * s.
Proof.
  intros E u inp p d s Ha Hd Hs. pose proof Ha as (Hu & _).
  apply Rle_trans with (((1 + u) ^ d - 1) ^ 2 * lin_size inp p ^ 2); [|apply Rmult_le_compat_l; [apply pow2_ge_0|exact Hs]].
  rewrite <- Rpow_mult_distr. rewrite <- (pow2_abs (_ + _)). apply pow_incr. split; [apply Rabs_pos|].
  eapply Rle_trans; [apply (lin_stored_error E u inp p Ha)|]. apply depth_up; auto using lin_size_nonneg.
Qed.

(** the combination of r outputs *)
Lemma combines_facts : forall r m k p q, (0 < r)%nat -> (0 < m)%nat -> combines (r * m) r m k p q ->
  forall (G : nat -> C) inp s, (forall j, inp j = if (j <? r)%nat then fst (G j) else snd (G (j - r)%nat)) -> s = bigsum r (fun t => sqrt (sq (G t))) ->
  (lin_exact inp p, lin_exact inp q) = Cbig r (fun t => Cmult (G t) (cis (- (2 * PI * INR (t * k) / INR (r * m))))) /\
  (lin_depth2 p <= 2 * r + 4)%nat /\ (lin_depth2 q <= 2 * r + 4)%nat /\ lin_size inp p ^ 2 <= 2 * s ^ 2 /\ lin_size inp q ^ 2 <= 2 * s ^ 2.
Proof.
  intros r m k p q Hr Hm [(Hp & Hq)|(rre & rim & p' & q' & Hrot & Hp & Hq & Ep & Eq)] G inp s HI Hs.
  - destruct (twiddle_size (r * m) r k G inp s HI Hs) as (L1 & L2 & Hs0 & _). split; [|split; [|split; [|split]]].
    + rewrite (butterfly_exact _ _ _ inp Hp), (butterfly_exact _ _ _ inp Hq), <- (twiddle_sum (r * m) r k G). f_equal; apply bigsum_ext; intros j _; rewrite HI; reflexivity.
    + pose proof (butterfly_depth2 _ _ _ Hp). lia.
    + pose proof (butterfly_depth2 _ _ _ Hq). lia.
    + rewrite <- (butterfly_size _ _ _ inp Hp) in L1. pose proof (pow_incr _ _ 2 (conj (lin_size_nonneg inp p) L1)). pose proof (pow2_ge_0 s). lra.
    + rewrite <- (butterfly_size _ _ _ inp Hq) in L2. pose proof (pow_incr _ _ 2 (conj (lin_size_nonneg inp q) L2)). pose proof (pow2_ge_0 s). lra.
  - set (rot := fun j => if (j <? r)%nat then subst (both r j) (rre j) else subst (both r (j - r)) (rim (j - r)%nat)) in *.
    set (th := fun j => 2 * PI * INR (j * (k mod m)) / INR (r * m)).
    assert (Hin : forall j, (j < r)%nat -> inp j = fst (G j) /\ inp (r + j)%nat = snd (G j)).
    { intros j Hj. rewrite !HI. destruct (Nat.ltb_spec j r); [|lia]. destruct (Nat.ltb_spec (r + j) r); [lia|]. replace (r + j - r)%nat with j by lia. auto. }
    assert (Xr : forall j, (j < r)%nat -> lin_exact inp (rot j) = cos (th j) * fst (G j) + sin (th j) * snd (G j) /\
                                       lin_exact inp (rot (r + j)%nat) = - sin (th j) * fst (G j) + cos (th j) * snd (G j)).
    { intros j Hj. destruct (Hrot j Hj) as [Hre Him]. destruct (Hin j Hj) as [I1 I2]. unfold rot.
      destruct (Nat.ltb_spec j r); [|lia]. destruct (Nat.ltb_spec (r + j) r); [lia|]. replace (r + j - r)%nat with j by lia.
      rewrite !subst_exact, (butterfly_exact _ _ _ _ Hre), (butterfly_exact _ _ _ _ Him). cbn [bigsum]. unfold both, rotate_re, rotate_im.
      cbn [lin_exact Nat.eqb]. rewrite I1, I2. unfold th. split; ring. }
    assert (Xs : forall j, (j < r)%nat -> lin_size inp (rot j) = Rabs (cos (th j)) * Rabs (fst (G j)) + Rabs (sin (th j)) * Rabs (snd (G j)) /\
                                       lin_size inp (rot (r + j)%nat) = Rabs (sin (th j)) * Rabs (fst (G j)) + Rabs (cos (th j)) * Rabs (snd (G j))).
    { intros j Hj. destruct (Hrot j Hj) as [Hre Him]. destruct (Hin j Hj) as [I1 I2]. unfold rot.
      destruct (Nat.ltb_spec j r); [|lia]. destruct (Nat.ltb_spec (r + j) r); [lia|]. replace (r + j - r)%nat with j by lia.
      rewrite !subst_size, (butterfly_size _ _ _ _ Hre), (butterfly_size _ _ _ _ Him). cbn [bigsum]. unfold both, rotate_re, rotate_im.
      cbn [lin_size Nat.eqb]. rewrite I1, I2, !Rabs_mult, !Rabs_Rabsolu, Rabs_Ropp. unfold th. split; ring. }
    assert (Dr : forall d w, butterfly w (2 * r) d -> (lin_depth2 (subst rot d) <= 2 * r + 4)%nat).
    { intros d w Hd. assert (H1 : forall j, (j < 2 * r)%nat -> (lin_depth2 (rot j) <= 3)%nat).
      { intros j Hj. unfold rot. destruct (Nat.ltb_spec j r) as [L|L].
        - pose proof (subst_depth2 (both r j) 0 (rre j) (fun i => le_n 0)). pose proof (butterfly_depth2 _ _ _ (proj1 (Hrot j L))). lia.
        - pose proof (subst_depth2 (both r (j - r)) 0 (rim (j - r)%nat) (fun i => le_n 0)).
          pose proof (butterfly_depth2 _ _ _ (proj2 (Hrot (j - r)%nat ltac:(lia)))). lia. }
      pose proof (butterfly_depth2 _ _ _ Hd) as D. pose proof (butterfly_subst_depth w (2 * r) rot 3 d Hd H1). lia. }
    assert (Sz : forall t j, (j < r)%nat -> Rabs (cos t) * lin_size inp (rot j) + Rabs (sin t) * lin_size inp (rot (r + j)%nat) <= sqrt 2 * sqrt (sq (G j)) /\
                                       Rabs (sin t) * lin_size inp (rot j) + Rabs (cos t) * lin_size inp (rot (r + j)%nat) <= sqrt 2 * sqrt (sq (G j))).
    { intros t j Hj. destruct (Xs j Hj) as [-> ->]. set (g := sq (G j)).
      set (A := Rabs (cos (th j)) * Rabs (fst (G j)) + Rabs (sin (th j)) * Rabs (snd (G j))). set (B := Rabs (sin (th j)) * Rabs (fst (G j)) + Rabs (cos (th j)) * Rabs (snd (G j))).
      assert (HA : 0 <= A) by (unfold A; apply Rplus_le_le_0_compat; apply Rmult_le_pos; apply Rabs_pos).
      assert (HB : 0 <= B) by (unfold B; apply Rplus_le_le_0_compat; apply Rmult_le_pos; apply Rabs_pos).
      assert (AB : A ^ 2 + B ^ 2 <= 2 * g).
      { unfold A, B, g, sq. rewrite <- (pow2_abs (fst (G j))), <- (pow2_abs (snd (G j))). set (c := Rabs (cos (th j))). set (d := Rabs (sin (th j))). set (a := Rabs (fst (G j))). set (b := Rabs (snd (G j))).
        assert (C2 : c ^ 2 + d ^ 2 = 1) by (unfold c, d; rewrite !pow2_abs; pose proof (sin2_cos2 (th j)) as K; unfold Rsqr in K; lra).
        assert (Hc : 0 <= c) by apply Rabs_pos. assert (Hd : 0 <= d) by apply Rabs_pos. assert (0 <= a) by apply Rabs_pos. assert (0 <= b) by apply Rabs_pos.
        assert (K1 : 0 <= 2 * c * d <= 1) by (pose proof (pow2_ge_0 (c - d)); pose proof (Rmult_le_pos c d Hc Hd); lra).
        assert (K2 : 0 <= 2 * a * b <= a ^ 2 + b ^ 2) by (pose proof (pow2_ge_0 (a - b)); pose proof (Rmult_le_pos a b); lra).
        assert (K3 : 2 * c * d * (2 * a * b) <= 1 * (a ^ 2 + b ^ 2)) by (apply Rmult_le_compat; lra).
        replace ((c * a + d * b) ^ 2 + (d * a + c * b) ^ 2) with ((c ^ 2 + d ^ 2) * (a ^ 2 + b ^ 2) + 2 * c * d * (2 * a * b)) by ring. rewrite C2. lra. }
      rewrite <- sqrt_mult_alt by lra.
      split; (eapply Rle_trans; [|apply sqrt_le_1_alt; exact AB]).
      - pose proof (polar_le t A B) as K. rewrite !Rabs_mult, (Rabs_pos_eq A), (Rabs_pos_eq B) in K by assumption. exact K.
      - pose proof (polar_le t B A) as K. rewrite !Rabs_mult, (Rabs_pos_eq A), (Rabs_pos_eq B) in K by assumption. rewrite (Rplus_comm (A ^ 2)). lra. }
    assert (Sq : forall z, 0 <= z <= sqrt 2 * s -> z ^ 2 <= 2 * s ^ 2).
    { intros z Hz. eapply Rle_trans; [apply pow_incr, Hz|]. rewrite Rpow_mult_distr, pow2_sqrt by lra. lra. }
    split; [|split; [|split; [|split]]].
    + rewrite Ep, Eq, !subst_exact, (butterfly_exact _ _ _ _ Hp), (butterfly_exact _ _ _ _ Hq).
      pose proof (twiddle_sum r r (k / m) (fun t => Cmult (G t) (cis (- th t)))) as T. cbv zeta in T.
      transitivity (Cbig r (fun t => Cmult (Cmult (G t) (cis (- th t))) (cis (- (2 * PI * INR (t * (k / m)) / INR r))))).
      * rewrite <- T. f_equal; apply bigsum_ext; intros j Hj; f_equal; (destruct (Nat.ltb_spec j r) as [L|L];
          [rewrite (proj1 (Xr j L))|replace j with (r + (j - r))%nat at 1 by lia; rewrite (proj2 (Xr (j - r)%nat ltac:(lia)))];
          unfold Cmult, cis; cbn [fst snd]; rewrite cos_neg, sin_neg; ring).
      * apply Cbig_ext. intros t _. rewrite <- Cmult_assoc, cis_add. f_equal. f_equal. unfold th.
        assert (Ek : INR k = INR m * INR (k / m) + INR (k mod m)) by (rewrite <- mult_INR, <- plus_INR; f_equal; apply Nat.div_mod; lia).
        assert (0 < INR r) by (apply lt_0_INR; lia). assert (0 < INR m) by (apply lt_0_INR; lia).
        rewrite !mult_INR, Ek. field. lra.
    + rewrite Ep. eapply Dr, Hp.
    + rewrite Eq. eapply Dr, Hq.
    + apply Sq. split; [apply lin_size_nonneg|]. rewrite Ep, subst_size, (butterfly_size _ _ _ _ Hp), split_sum, Hs, <- bigsum_scal. apply bigsum_le. intros j Hj.
      unfold twiddle_re. destruct (Nat.ltb_spec j r); [|lia]. destruct (Nat.ltb_spec (r + j) r); [lia|]. replace (r + j - r)%nat with j by lia.
      rewrite !Rabs_mult, !(Rabs_pos_eq (lin_size inp _)) by apply lin_size_nonneg. apply Sz, Hj.
    + apply Sq. split; [apply lin_size_nonneg|]. rewrite Eq, subst_size, (butterfly_size _ _ _ _ Hq), split_sum, Hs, <- bigsum_scal. apply bigsum_le. intros j Hj.
      unfold twiddle_im. destruct (Nat.ltb_spec j r); [|lia]. destruct (Nat.ltb_spec (r + j) r); [lia|]. replace (r + j - r)%nat with j by lia.
      rewrite !Rabs_mult, !(Rabs_pos_eq (lin_size inp _)), Rabs_Ropp by apply lin_size_nonneg. apply Sz, Hj.
Qed.

Section Transform.
Context (E : Env) (u : R) (x : nat -> R).
Hypothesis Ha : accurate u 0 (@rnd E).
Definition computed (re im : nat -> lin) (k : nat) : C := (@lin_run E x (@lin_stored E (re k)), @lin_run E x (@lin_stored E (im k))).
Definition exactly (re im : nat -> lin) (k : nat) : C := (lin_exact x (re k), lin_exact x (im k)).

Lemma dft_ext : forall n y z k, (forall t, (t < n)%nat -> y t = z t) -> dftC n y k = dftC n z k.
Proof. intros n y z k H. unfold dftC. apply Cbig_ext. intros t Ht. rewrite H by exact Ht. reflexivity. Qed.

(** the values of rotated sums *)
Lemma rotated : forall inp p q p' q' r c angle (G : nat -> C), butterfly (twiddle_re r r c) (2 * r) p -> butterfly (twiddle_im r r c) (2 * r) q ->
  butterfly (rotate_re angle) 2 p' -> butterfly (rotate_im angle) 2 q' ->
  (forall j, inp j = if (j <? r)%nat then fst (G j) else snd (G (j - r)%nat)) ->
  (lin_exact inp (subst (either p q) p'), lin_exact inp (subst (either p q) q')) = Cmult (dftC r G c) (cis (- angle)).
Proof.
  intros inp p q p' q' r c angle G Hp Hq Hp' Hq' HG. rewrite !subst_exact, (butterfly_exact _ _ _ _ Hp'), (butterfly_exact _ _ _ _ Hq').
  cbn [bigsum]. cbn [either Nat.eqb rotate_re rotate_im]. unfold either, rotate_re, rotate_im. cbn [Nat.eqb].
  rewrite (butterfly_exact _ _ _ _ Hp), (butterfly_exact _ _ _ _ Hq).
  pose proof (twiddle_sum r r c G) as T. cbv zeta in T. fold (dftC r G c) in T. rewrite <- T.
  rewrite (bigsum_ext _ (fun k => twiddle_re r r c k * inp k) _ (fun j _ => f_equal (Rmult _) (HG j))).
  rewrite (bigsum_ext _ (fun k => twiddle_im r r c k * inp k) _ (fun j _ => f_equal (Rmult _) (HG j))).
  unfold Cmult, cis. cbn [fst snd]. rewrite cos_neg, sin_neg. f_equal; ring.
Qed.

Lemma fft_exact : forall rs sr si re im, fft rs sr si re im -> forall k, (k < fft_size rs)%nat -> exactly re im k = dftC (fft_size rs) (exactly sr si) k.
Proof.
  intros rs sr si re im H. induction H as [sr si re im H1 H2|r rs sr si tre tim re im Hr H IH Hk|r rs sr si mre mim re im Hr Hm H IH]; intros k Hn.
  - cbn in Hn. assert (k = 0%nat) as -> by lia. unfold exactly. rewrite H1, H2. unfold dftC, Cbig, Cmult, cis. cbn [fft_size fold_right bigsum fst snd Nat.mul].
    replace (- (2 * PI * INR 0 / INR 1)) with 0 by (cbn [INR]; field). rewrite cos_0, sin_0. f_equal; ring.
  - destruct (Hk k Hn) as (p & q & Hpq & Ep & Eq). unfold exactly. rewrite Ep, Eq, !subst_exact.
    assert (Hpos : (0 < fft_size rs)%nat) by (apply (fft_size_pos _ _ _ _ _ (H 0%nat Hr))).
    change (fft_size (r :: rs)) with (r * fft_size rs)%nat in *. rewrite <- (join_exact r (fft_size rs) _ k Hr Hpos). unfold join.
    assert (Hm : (k mod fft_size rs < fft_size rs)%nat) by (apply Nat.mod_upper_bound; lia).
    set (inp := fun i => lin_exact x _).
    destruct (combines_facts r (fft_size rs) k p q Hr Hpos Hpq (fun t => exactly (tre t) (tim t) (k mod fft_size rs)%nat) inp _
                ltac:(intros j; unfold inp, exactly; destruct (j <? r)%nat; reflexivity) eq_refl) as (X & _).
    rewrite X. apply Cbig_ext. intros t Ht. f_equal. apply (IH t Ht _ Hm).
  - assert (Hpos : (0 < fft_size rs)%nat) by (apply (fft_size_pos _ _ _ _ _ (H 0%nat Hr))).
    change (fft_size (r :: rs)) with (r * fft_size rs)%nat in *.
    assert (Hc : (k mod r < r)%nat) by (apply Nat.mod_upper_bound; lia).
    assert (Hd : (k / r < fft_size rs)%nat) by (apply Nat.div_lt_upper_bound; lia).
    assert (Ek : k = (k mod r + r * (k / r))%nat) by (rewrite Nat.add_comm; apply Nat.div_mod; lia).
    pose proof (IH (k mod r)%nat Hc (k / r)%nat Hd) as K. unfold exactly at 1 in K. cbv beta in K. rewrite <- Ek in K. unfold exactly at 1. rewrite K.
    transitivity (dftC (r * fft_size rs) (exactly sr si) (k mod r + r * (k / r))); [|rewrite <- Ek; reflexivity].
    rewrite <- (part_exact r (fft_size rs) (exactly sr si) (k mod r) (k / r) Hr Hpos). apply dft_ext. intros a Hl.
    destruct (Hm (k mod r)%nat a Hc Hl) as (p & q & p' & q' & Hp & Hq & Hp' & Hq' & Ep & Eq). unfold exactly at 1. rewrite Ep, Eq, !(subst_exact x).
    rewrite (rotated _ p q p' q' r (k mod r) _ (fun b => exactly sr si (b * fft_size rs + a)%nat) Hp Hq Hp' Hq').
    + reflexivity.
    + intros j. unfold exactly. destruct (j <? r)%nat; reflexivity.
Qed.

Lemma growth_ge1 : forall rs, 1 <= fft_growth u rs.
Proof.
  destruct Ha as (Hu & _). induction rs as [|r rs IH]; cbn [fft_growth fold_right]; [lra|]. fold (fft_growth u rs).
  assert (0 <= 2 * sqrt (INR r) * ((1 + u) ^ (2 * r + 4) - 1)).
  { apply Rmult_le_pos; [pose proof (sqrt_pos (INR r)); lra|]. pose proof (pow_u_ge1 u (2 * r + 4) Hu). lra. }
  set (e := 2 * sqrt (INR r) * _) in *. clearbody e. set (g := fft_growth u rs) in *. clearbody g. nra.
Qed.

(** the error of the computed transform of the computed numbers *)
Lemma fft_error : forall rs sr si re im, fft rs sr si re im ->
  en (fft_size rs) (fun k => Cminus (computed re im k) (dftC (fft_size rs) (computed sr si) k))
  <= (fft_growth u rs - 1) ^ 2 * (INR (fft_size rs) * en (fft_size rs) (computed sr si)).
Proof.
  pose proof Ha as (Hu & _). intros rs sr si re im H.
  induction H as [sr si re im H1 H2|r rs sr si tre tim re im Hr H IH Hk|r rs sr si mre mim re im Hr Hmid H IH].
  - cbn [fft_size fold_right fft_growth]. replace (1 - 1) with 0 by ring. replace (0 ^ 2) with 0 by ring. rewrite Rmult_0_l. right. unfold en. cbn [bigsum]. rewrite Rplus_0_l.
    unfold computed. rewrite H1, H2. unfold dftC, Cbig, Cmult, cis, sq, Cminus, Cplus, Copp. cbn [bigsum fst snd Nat.mul].
    replace (- (2 * PI * INR 0 / INR 1)) with 0 by (cbn [INR]; field). rewrite cos_0, sin_0. ring.
  - assert (Hpos : (0 < fft_size rs)%nat) by (apply (fft_size_pos _ _ _ _ _ (H 0%nat Hr))). set (q := fft_size rs) in *.
    change (fft_size (r :: rs)) with (r * q)%nat in *.
    set (g := fft_growth u rs) in *. pose proof (growth_ge1 rs) as Hg. fold g in Hg.
    set (ga := (1 + u) ^ (2 * r + 4) - 1). assert (Hga : 0 <= ga) by (unfold ga; pose proof (pow_u_ge1 u (2 * r + 4) Hu); lra).
    assert (HR : 0 < INR r) by (apply lt_0_INR; lia). assert (HQ : 0 < INR q) by (apply lt_0_INR; lia).
    set (F := fun t => computed (tre t) (tim t)). set (Z := fun t => computed (fun s => sr (t + r * s)%nat) (fun s => si (t + r * s)%nat)). set (Y := fun t => dftC q (Z t)).
    set (S := en (r * q) (computed sr si)). assert (HS : 0 <= S) by apply en_nonneg.
    (* energies of the parts add up *)
    assert (ES : bigsum r (fun t => en q (Z t)) = S).
    { unfold S, en. rewrite sum_columns by exact Hr. reflexivity. }
    (* the errors of the parts, passed on exactly *)
    set (A := (g - 1) * sqrt (INR (r * q) * S)). assert (HA : 0 <= A) by (unfold A; apply Rmult_le_pos; [lra|apply sqrt_pos]).
    assert (HN : 0 <= INR (r * q) * S) by (apply Rmult_le_pos; [apply pos_INR|exact HS]).
    assert (PA : en (r * q) (join (r * q) r q (fun t c => Cminus (F t c) (Y t c))) <= A ^ 2).
    { rewrite en_join by assumption. unfold A. rewrite Rpow_mult_distr, pow2_sqrt by exact HN. rewrite mult_INR.
      apply Rle_trans with (INR r * bigsum r (fun t => (g - 1) ^ 2 * (INR q * en q (Z t)))).
      - apply Rmult_le_compat_l; [lra|]. apply bigsum_le. intros t Ht. apply (IH t Ht).
      - rewrite !bigsum_scal, ES. right. ring. }
    (* energies of the computed parts *)
    assert (PF : bigsum r (fun t => en q (F t)) <= g ^ 2 * (INR q * S)).
    { rewrite <- ES, <- !bigsum_scal. apply bigsum_le. intros t Ht. specialize (IH t Ht). fold (F t) in IH. fold (Z t) in IH. fold (Y t) in IH.
      set (s := en q (Z t)) in *. assert (0 <= s) by apply en_nonneg.
      assert (Hq0 : 0 <= INR q * s) by (apply Rmult_le_pos; lra).
      assert (EY : en q (Y t) = INR q * s) by (apply en_dft; exact Hpos).
      pose proof (en_plus q (fun c => Cminus (F t c) (Y t c)) (Y t) ((g - 1) * sqrt (INR q * s)) (sqrt (INR q * s))
        ltac:(apply Rmult_le_pos; [lra|apply sqrt_pos]) (sqrt_pos _)) as M.
      cbv beta in M. rewrite (en_ext q (fun c => Cplus (Cminus (F t c) (Y t c)) (Y t c)) (F t)) in M by (intros; unfold Cminus; ring).
      replace (((g - 1) * sqrt (INR q * s) + sqrt (INR q * s)) ^ 2) with (g ^ 2 * sqrt (INR q * s) ^ 2) in M by ring.
      rewrite Rpow_mult_distr, !pow2_sqrt in M by exact Hq0. apply M; [exact IH|lra]. }
    (* the roundings of this level *)
    set (B := 2 * sqrt (INR r) * ga * (g * sqrt (INR (r * q) * S))).
    assert (HB : 0 <= B) by (unfold B; repeat apply Rmult_le_pos; try apply sqrt_pos; lra).
    assert (PB : en (r * q) (fun k => Cminus (computed re im k) (join (r * q) r q F k)) <= B ^ 2).
    { apply Rle_trans with (bigsum (r * q) (fun k => 4 * ga ^ 2 * (INR r * bigsum r (fun t => sq (F t (k mod q)%nat))))).
      - apply bigsum_le. intros k Hn. destruct (Hk k Hn) as (p & p' & Hpq & Ep & Eq).
        set (inp := fun j => if (j <? r)%nat then fst (F j (k mod q)%nat) else snd (F (j - r)%nat (k mod q)%nat)).
        assert (EI : forall j, @lin_run E x (@lin_stored E (if (j <? r)%nat then tre j (k mod q)%nat else tim (j - r)%nat (k mod q)%nat)) = inp j).
        { intros j. unfold inp, F, computed. destruct (j <? r)%nat; reflexivity. }
        assert (ER : computed re im k = (@lin_run E inp (@lin_stored E p), @lin_run E inp (@lin_stored E p'))).
        { unfold computed. rewrite Ep, Eq, !subst_run. f_equal; apply lin_run_ext; exact EI. }
        destruct (twiddle_size (r * q) r k (fun t => F t (k mod q)%nat) inp _ (fun _ => eq_refl) eq_refl) as (_ & _ & _ & Hm).
        destruct (combines_facts r q k p p' Hr Hpos Hpq (fun t => F t (k mod q)%nat) inp _ (fun _ => eq_refl) eq_refl) as (X & D1 & D2 & Q1 & Q2).
        cbv beta in *. set (m := bigsum r (fun t => sqrt (sq (F t (k mod q)%nat)))) in *.
        rewrite ER. unfold join. rewrite <- X. unfold sq at 1, Cminus, Cplus, Copp. cbn [fst snd].
        pose proof (stored_square E u inp p (2 * r + 4) _ Ha D1 Q1) as R1.
        pose proof (stored_square E u inp p' (2 * r + 4) _ Ha D2 Q2) as R2. fold ga in R1, R2.
        pose proof (pow2_ge_0 ga) as G0. pose proof (Rmult_le_compat_l (4 * ga ^ 2) _ _ ltac:(lra) Hm) as L3. lra.
      - rewrite bigsum_scal, flat_sum by exact Hpos.
        rewrite (bigsum_ext r _ (fun _ => bigsum q (fun c => INR r * bigsum r (fun t => sq (F t c))))).
        2:{ intros j _. apply bigsum_ext. intros c Hc. replace ((j * q + c) mod q)%nat with c; [reflexivity|]. rewrite Nat.add_comm, Nat.mod_add by lia. symmetry. apply Nat.mod_small, Hc. }
        rewrite bigsum_const, bigsum_scal, bigsum_swap. change (fun j => bigsum q (fun i => sq (F j i))) with (fun t => en q (F t)).
        unfold B. rewrite !Rpow_mult_distr, !pow2_sqrt by (try exact HN; lra). rewrite mult_INR.
        pose proof (Rmult_le_compat_l (4 * ga ^ 2 * (INR r * INR r)) _ _ ltac:(repeat apply Rmult_le_pos; try lra; apply pow2_ge_0) PF). lra. }
    pose proof (en_plus (r * q) _ _ B A HB HA PB PA) as M.
    assert (EG : fft_growth u (r :: rs) = g * (1 + 2 * sqrt (INR r) * ga)) by reflexivity. rewrite EG.
    replace ((g * (1 + 2 * sqrt (INR r) * ga) - 1) ^ 2 * (INR (r * q) * S)) with ((B + A) ^ 2).
    2:{ unfold A, B. transitivity ((g * (1 + 2 * sqrt (INR r) * ga) - 1) ^ 2 * sqrt (INR (r * q) * S) ^ 2); [ring|]. rewrite pow2_sqrt by exact HN. reflexivity. }
    eapply Rle_trans; [|exact M]. right. apply en_ext. intros k _.
    rewrite <- (join_exact r q (computed sr si) k Hr Hpos). change (fun t => dftC q (fun s => computed sr si (t + r * s))) with Y.
    assert (EJ : join (r * q) r q F k = Cplus (join (r * q) r q (fun t c => Cminus (F t c) (Y t c)) k) (join (r * q) r q Y k)).
    { rewrite <- join_plus. unfold join. apply Cbig_ext. intros t _. f_equal. unfold Cminus. ring. }
    rewrite EJ. unfold Cminus. ring.
  - assert (Hpos : (0 < fft_size rs)%nat) by (apply (fft_size_pos _ _ _ _ _ (H 0%nat Hr))). set (q := fft_size rs) in *.
    change (fft_size (r :: rs)) with (r * q)%nat in *.
    set (g := fft_growth u rs) in *. pose proof (growth_ge1 rs) as Hg. fold g in Hg.
    set (ga := (1 + u) ^ (2 * r + 4) - 1). assert (Hga : 0 <= ga) by (unfold ga; pose proof (pow_u_ge1 u (2 * r + 4) Hu); lra).
    assert (HR : 0 < INR r) by (apply lt_0_INR; lia). assert (HQ : 0 < INR q) by (apply lt_0_INR; lia).
    set (Z := computed sr si). set (M := fun c => computed (mre c) (mim c)). set (P := part (r * q) r q Z).
    set (S := en (r * q) Z). assert (HS : 0 <= S) by apply en_nonneg.
    assert (HN : 0 <= INR (r * q) * S) by (apply Rmult_le_pos; [apply pos_INR|exact HS]).
    assert (HrS : 0 <= INR r * S) by (apply Rmult_le_pos; lra).
    set (be := 2 * sqrt (INR r) * ga). assert (Hbe : 0 <= be) by (unfold be; repeat apply Rmult_le_pos; try apply sqrt_pos; lra).
    assert (Ebe : be ^ 2 = 4 * INR r * ga ^ 2) by (unfold be; rewrite !Rpow_mult_distr, pow2_sqrt by lra; ring).
    (* the roundings of this level *)
    assert (PD : bigsum r (fun c => en q (fun a => Cminus (M c a) (P c a))) <= be ^ 2 * (INR r * S)).
    { apply Rle_trans with (bigsum r (fun c => bigsum q (fun a => 4 * ga ^ 2 * (INR r * bigsum r (fun b => sq (Z (b * q + a)%nat)))))).
      - apply bigsum_le. intros c Hc. apply bigsum_le. intros a Hl.
        destruct (Hmid c a Hc Hl) as (p & p2 & p' & q' & Hp & Hq & Hp' & Hq' & Ep & Eq). cbv zeta in *.
        set (angle := 2 * PI * INR (a * c) / INR (r * q)) in *. set (G := fun b => Z (b * q + a)%nat).
        set (inp := fun j => if (j <? r)%nat then fst (G j) else snd (G (j - r)%nat)).
        assert (EI : forall j, @lin_run E x (@lin_stored E (if (j <? r)%nat then sr (j * q + a)%nat else si ((j - r) * q + a)%nat)) = inp j).
        { intros j. unfold inp, G, Z, computed. destruct (j <? r)%nat; reflexivity. }
        set (w1 := subst (either p p2) p') in *. set (w2 := subst (either p p2) q') in *.
        assert (ER : M c a = (@lin_run E inp (@lin_stored E w1), @lin_run E inp (@lin_stored E w2))).
        { unfold M, computed. rewrite Ep, Eq, !(subst_run E x). f_equal; apply lin_run_ext; exact EI. }
        assert (EP : P c a = (lin_exact inp w1, lin_exact inp w2)).
        { unfold w1, w2. rewrite (rotated inp p p2 p' q' r c angle G Hp Hq Hp' Hq' (fun _ => eq_refl)). reflexivity. }
        destruct (twiddle_size r r c G inp _ (fun _ => eq_refl) eq_refl) as (L1 & L2 & Hm0 & Hm).
        rewrite <- (butterfly_size _ _ _ inp Hp) in L1. rewrite <- (butterfly_size _ _ _ inp Hq) in L2.
        set (m := bigsum r (fun t => sqrt (sq (G t)))) in *.
        assert (De : forall j, (lin_depth2 (either p p2 j) <= 2 * r + 1)%nat).
        { intros j. pose proof (butterfly_depth2 _ _ _ Hp). pose proof (butterfly_depth2 _ _ _ Hq). unfold either. destruct (j =? 0)%nat; lia. }
        assert (D1 : (lin_depth2 w1 <= 2 * r + 4)%nat) by (pose proof (subst_depth2 _ _ p' De); pose proof (butterfly_depth2 _ _ _ Hp'); unfold w1; lia).
        assert (D2 : (lin_depth2 w2 <= 2 * r + 4)%nat) by (pose proof (subst_depth2 _ _ q' De); pose proof (butterfly_depth2 _ _ _ Hq'); unfold w2; lia).
        pose proof (lin_size_nonneg inp p) as N1. pose proof (lin_size_nonneg inp p2) as N2.
        assert (CS : (Rabs (cos angle) + Rabs (sin angle)) ^ 2 <= 2).
        { pose proof (sin2_cos2 angle) as K. unfold Rsqr in K. pose proof (pow2_ge_0 (Rabs (cos angle) - Rabs (sin angle))) as K2.
          assert (K3 : Rabs (cos angle) ^ 2 + Rabs (sin angle) ^ 2 = 1) by (rewrite !pow2_abs; lra). lra. }
        pose proof (Rabs_pos (cos angle)) as C0. pose proof (Rabs_pos (sin angle)) as S0.
        assert (Q : forall w, lin_size inp w <= (Rabs (cos angle) + Rabs (sin angle)) * m -> lin_size inp w ^ 2 <= 2 * m ^ 2).
        { intros w Hw. eapply Rle_trans; [apply (pow_incr _ _ 2 (conj (lin_size_nonneg inp w) Hw))|]. rewrite Rpow_mult_distr.
          apply Rmult_le_compat_r; [apply pow2_ge_0|exact CS]. }
        assert (Q1 : lin_size inp w1 ^ 2 <= 2 * m ^ 2).
        { apply Q. unfold w1. rewrite subst_size, (butterfly_size _ _ _ _ Hp'). cbn [bigsum]. unfold either, rotate_re. cbn [Nat.eqb].
          rewrite !Rabs_mult, (Rabs_pos_eq (lin_size inp p)), (Rabs_pos_eq (lin_size inp p2)) by assumption.
          pose proof (Rmult_le_compat_l _ _ _ C0 L1). pose proof (Rmult_le_compat_l _ _ _ S0 L2). lra. }
        assert (Q2 : lin_size inp w2 ^ 2 <= 2 * m ^ 2).
        { apply Q. unfold w2. rewrite subst_size, (butterfly_size _ _ _ _ Hq'). cbn [bigsum]. unfold either, rotate_im. cbn [Nat.eqb].
          rewrite !Rabs_mult, (Rabs_pos_eq (lin_size inp p)), (Rabs_pos_eq (lin_size inp p2)), Rabs_Ropp by assumption.
          pose proof (Rmult_le_compat_l _ _ _ S0 L1). pose proof (Rmult_le_compat_l _ _ _ C0 L2). lra. }
        pose proof (stored_square E u inp w1 (2 * r + 4) _ Ha D1 Q1) as R1. pose proof (stored_square E u inp w2 (2 * r + 4) _ Ha D2 Q2) as R2.
        fold ga in R1, R2. rewrite ER, EP. unfold sq at 1, Cminus, Cplus, Copp. cbn [fst snd].
        pose proof (Rmult_le_compat_l (4 * ga ^ 2) _ _ ltac:(pose proof (pow2_ge_0 ga); lra) Hm) as L3.
        change (bigsum r (fun b => sq (Z (b * q + a)%nat))) with (bigsum r (fun t => sq (G t))). lra.
      - rewrite bigsum_const, !bigsum_scal. rewrite Ebe.
        replace (bigsum q (fun i => bigsum r (fun b => sq (Z (b * q + i)%nat)))) with S; [right; ring|].
        unfold S, en. rewrite flat_sum by exact Hpos. apply bigsum_swap. }
    (* energy of the computed parts *)
    assert (PM : bigsum r (fun c => en q (M c)) <= (1 + be) ^ 2 * (INR r * S)).
    { rewrite <- (en_spread r q M Hr). set (s := sqrt (INR r * S)).
      assert (Hs : 0 <= s) by apply sqrt_pos. assert (Es : s ^ 2 = INR r * S) by (apply pow2_sqrt; exact HrS).
      pose proof (en_plus (r * q) (spread r (fun c a => Cminus (M c a) (P c a))) (spread r P) (be * s) s ltac:(apply Rmult_le_pos; lra) Hs) as K.
      rewrite (en_spread r q _ Hr), (en_spread r q P Hr) in K. unfold P in K at 2. rewrite (en_part r q Z Hr Hpos) in K. fold S in K.
      rewrite Rpow_mult_distr, Es in K. specialize (K PD (Rle_refl _)).
      replace ((be * s + s) ^ 2) with ((1 + be) ^ 2 * s ^ 2) in K by ring. rewrite Es in K. eapply Rle_trans; [|exact K]. right. apply en_ext.
      intros k _. unfold spread, Cminus. ring. }
    (* the transforms of the parts *)
    set (A := (g - 1) * (1 + be) * sqrt (INR (r * q) * S)). set (B := be * sqrt (INR (r * q) * S)).
    assert (HA : 0 <= A) by (unfold A; repeat apply Rmult_le_pos; try apply sqrt_pos; lra).
    assert (HB : 0 <= B) by (unfold B; repeat apply Rmult_le_pos; try apply sqrt_pos; lra).
    set (X := fun c => computed (fun m => re (c + r * m)%nat) (fun m => im (c + r * m)%nat)).
    assert (PA : en (r * q) (spread r (fun c m => Cminus (X c m) (dftC q (M c) m))) <= A ^ 2).
    { rewrite en_spread by exact Hr. unfold A. rewrite !Rpow_mult_distr, pow2_sqrt by exact HN. rewrite mult_INR.
      apply Rle_trans with (bigsum r (fun c => (g - 1) ^ 2 * (INR q * en q (M c)))).
      - apply bigsum_le. intros c Hc. apply (IH c Hc).
      - rewrite !bigsum_scal. pose proof (Rmult_le_compat_l ((g - 1) ^ 2 * INR q) _ _ ltac:(apply Rmult_le_pos; [apply pow2_ge_0|lra]) PM). lra. }
    assert (PB : en (r * q) (spread r (fun c => dftC q (fun a => Cminus (M c a) (P c a)))) <= B ^ 2).
    { rewrite en_spread by exact Hr. unfold B. rewrite Rpow_mult_distr, pow2_sqrt by exact HN. rewrite mult_INR.
      rewrite (bigsum_ext r _ (fun c => INR q * en q (fun a => Cminus (M c a) (P c a)))) by (intros; apply en_dft, Hpos).
      rewrite bigsum_scal. pose proof (Rmult_le_compat_l (INR q) _ _ (Rlt_le _ _ HQ) PD). lra. }
    pose proof (en_plus (r * q) _ _ A B HA HB PA PB) as K.
    assert (EG : fft_growth u (r :: rs) = g * (1 + be)) by reflexivity. rewrite EG.
    replace ((g * (1 + be) - 1) ^ 2 * (INR (r * q) * S)) with ((A + B) ^ 2).
    2:{ unfold A, B. transitivity ((g * (1 + be) - 1) ^ 2 * sqrt (INR (r * q) * S) ^ 2); [ring|]. rewrite pow2_sqrt by exact HN. reflexivity. }
    eapply Rle_trans; [|exact K]. right. apply en_ext. intros k Hn.
    assert (Ek : k = (k mod r + r * (k / r))%nat) by (rewrite Nat.add_comm; apply Nat.div_mod; lia).
    unfold spread. rewrite dft_minus.
    transitivity (Cminus (computed re im (k mod r + r * (k / r))) (dftC (r * q) Z (k mod r + r * (k / r)))); [rewrite <- Ek; reflexivity|]. rewrite <- (part_exact r q Z (k mod r) (k / r) Hr Hpos). fold P.
    change (computed re im (k mod r + r * (k / r))) with (X (k mod r)%nat (k / r)%nat). unfold Cminus. ring.
Qed.
End Transform.
