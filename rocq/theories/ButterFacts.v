(** * Proofs about the Butterworth design: complex recursions, stability, response *)
From Coq Require Import Reals ZArith String List Bool Lia Lra Permutation.
From Coquelicot Require Import Complex.
From Verif Require Import Base BaseFacts SpecBase BigSum SpecSpectral Dominant DominantFacts Butter.
Import ListNotations.
Local Open Scope R_scope.

Local Open Scope C_scope.

(** ** filters given by their coefficients *)
Definition delay (f : nat -> C) (n : nat) : C := match n with O => 0 | S m => f m end.
Fixpoint fir (a : list C) (y : nat -> C) (n : nat) : C :=
  match a with [] => 0 | c :: t => c * y n + delay (fir t y) n end.
Fixpoint peval (a : list C) (w : C) : C := match a with [] => 0 | c :: t => c + w * peval t w end.

Fixpoint pstep (r prev : C) (a : list C) : list C :=
  match a with [] => [- (r * prev)] | c :: t => (c - r * prev) :: pstep r c t end.
Lemma poly_step_pstep : forall r a, poly_step a r = pstep r 0 a.
Proof.
  intros r a. unfold poly_step. generalize (RtoC 0) at 2 3. induction a as [|c t IH]; intros p.
  - cbn. f_equal. ring.
  - cbn [app combine map fst snd pstep]. f_equal. apply IH.
Qed.
Lemma delay_ext : forall f g n, (forall m, (m < n)%nat -> f m = g m) -> delay f n = delay g n.
Proof. intros f g [|n] H; cbn; auto. Qed.
Lemma fir_pstep : forall r a p y n, fir (pstep r p a) y n = fir a y n - r * p * y n - r * delay (fir a y) n.
Proof.
  intros r. induction a as [|c t IH]; intros p y n.
  - cbn [pstep fir]. destruct n; cbn [delay]; ring.
  - cbn [pstep fir]. destruct n; cbn [delay]; [ring|]. rewrite IH. cbn [fir]. ring.
Qed.
Lemma fir_step : forall r a y n, fir (poly_step a r) y n = fir a y n - r * delay (fir a y) n.
Proof. intros. rewrite poly_step_pstep, fir_pstep. ring. Qed.
Lemma peval_pstep : forall r a p w, peval (pstep r p a) w = peval a w - r * p - r * w * peval a w.
Proof. intros r. induction a as [|c t IH]; intros p w; cbn [pstep peval]; [ring|]. rewrite IH. ring. Qed.
Lemma peval_step : forall r a w, peval (poly_step a r) w = (1 - r * w) * peval a w.
Proof. intros. rewrite poly_step_pstep, peval_pstep. ring. Qed.
Lemma poly_snoc : forall l r, np_poly (l ++ [r]) = poly_step (np_poly l) r.
Proof. intros. unfold np_poly. rewrite fold_left_app. reflexivity. Qed.
Lemma pstep_length : forall r a p, length (pstep r p a) = S (length a).
Proof. intros r. induction a; intros; cbn [pstep length]; auto. Qed.
Lemma poly_length : forall l, length (np_poly l) = S (length l).
Proof.
  intros l. induction l as [|r l IH] using rev_ind; [reflexivity|].
  rewrite poly_snoc, poly_step_pstep, pstep_length, IH, app_length. cbn. lia.
Qed.
Lemma poly_head : forall l, exists t, np_poly l = RtoC 1 :: t.
Proof.
  intros l. induction l as [|r l (t & E)] using rev_ind; [exists []; reflexivity|].
  rewrite poly_snoc, E, poly_step_pstep. cbn [pstep]. eexists. f_equal. ring.
Qed.
Fixpoint cprodr (l : list C) : C := match l with [] => 1 | c :: t => c * cprodr t end.
Lemma cprodr_app : forall l m, cprodr (l ++ m) = cprodr l * cprodr m.
Proof. induction l; intros; cbn; [ring|]. rewrite IHl. ring. Qed.
Lemma cprod_eq : forall l, cprod l = cprodr l.
Proof.
  intros l. unfold cprod. assert (forall a, fold_left Cmult l a = a * cprodr l) as H.
  { induction l; intros; cbn; [ring|]. rewrite IHl. ring. }
  rewrite H. ring.
Qed.
Lemma cprodr_perm : forall l m, Permutation l m -> cprodr l = cprodr m.
Proof. intros l m P. induction P; cbn; try congruence. ring. Qed.
Lemma peval_poly : forall l w, peval (np_poly l) w = cprodr (map (fun r => 1 - r * w) l).
Proof.
  intros l w. induction l as [|r l IH] using rev_ind; [cbn; ring|].
  rewrite poly_snoc, peval_step, IH, map_app, cprodr_app. cbn. ring.
Qed.

(** ** permutations and conjugates of the roots *)
Lemma pstep_comm : forall r s a p v, pstep r (p - s * v) (pstep s p a) = pstep s (p - r * v) (pstep r p a).
Proof.
  intros r s. induction a as [|c t IH]; intros p v; cbn [pstep].
  - f_equal; [ring|]. f_equal. ring.
  - f_equal; [ring|]. apply IH.
Qed.
Lemma poly_step_comm : forall a r s, poly_step (poly_step a r) s = poly_step (poly_step a s) r.
Proof.
  intros. rewrite !poly_step_pstep. pose proof (pstep_comm s r a 0 0) as H.
  replace (0 - r * 0) with (RtoC 0) in H by ring. replace (0 - s * 0) with (RtoC 0) in H by ring. exact H.
Qed.
Lemma poly_perm : forall l m, Permutation l m -> np_poly l = np_poly m.
Proof.
  intros l m P. unfold np_poly. generalize [RtoC 1]. induction P; intros a; cbn [fold_left]; auto.
  - rewrite poly_step_comm. auto.
  - rewrite IHP1. auto.
Qed.
Lemma conj_plus : forall x y, Cconj (x + y) = Cconj x + Cconj y.
Proof. intros [a b] [c d]. unfold Cconj, Cplus. cbn. f_equal. ring. Qed.
Lemma conj_minus : forall x y, Cconj (x - y) = Cconj x - Cconj y.
Proof. intros [a b] [c d]. unfold Cconj, Cminus, Cplus, Copp. cbn. f_equal. ring. Qed.
Lemma conj_mult : forall x y, Cconj (x * y) = Cconj x * Cconj y.
Proof. intros [a b] [c d]. unfold Cconj, Cmult. cbn. f_equal; ring. Qed.
Lemma conj_real : forall x : R, Cconj (RtoC x) = RtoC x.
Proof. intros. unfold Cconj, RtoC. cbn. f_equal. ring. Qed.
Lemma conj_conj : forall x, Cconj (Cconj x) = x.
Proof. intros [a b]. unfold Cconj. cbn. f_equal. ring. Qed.
Lemma conj_opp : forall x, Cconj (- x) = - Cconj x.
Proof. intros [a b]. reflexivity. Qed.
Lemma conj_inv : forall x, Cconj (/ x) = / Cconj x.
Proof. intros [a b]. unfold Cconj, Cinv. cbn [fst snd]. replace ((- b) ^ 2)%R with (b ^ 2)%R by ring. f_equal. unfold Rdiv. ring. Qed.
Lemma conj_fixed : forall x, Cconj x = x -> x = RtoC (fst x).
Proof. intros [a b] H. unfold Cconj in H. cbn in H. injection H as H. unfold RtoC. cbn. f_equal. lra. Qed.
Lemma poly_conj : forall l, map Cconj (np_poly l) = np_poly (map Cconj l).
Proof.
  assert (S : forall r a p, map Cconj (pstep r p a) = pstep (Cconj r) (Cconj p) (map Cconj a)).
  { intros r. induction a as [|c t IH]; intros p; cbn [pstep map].
    - rewrite conj_opp, conj_mult. reflexivity.
    - rewrite conj_minus, conj_mult. f_equal. apply IH. }
  intros l. induction l as [|r l IH] using rev_ind.
  - cbn. rewrite conj_real. reflexivity.
  - rewrite map_app. cbn [map]. rewrite !poly_snoc, !poly_step_pstep, S, IH, conj_real. reflexivity.
Qed.
Lemma poly_real : forall l, Permutation (map Cconj l) l -> forall c, In c (np_poly l) -> c = RtoC (fst c).
Proof.
  intros l P c Hc. pose proof (poly_conj l) as H. rewrite (poly_perm _ _ P) in H.
  apply conj_fixed. revert Hc. generalize (np_poly l) H. induction l0 as [|d t IH]; cbn; [tauto|].
  intros E [<-|Hc]; injection E as E1 E2; auto.
Qed.

(** ** one pole inside the unit circle *)
Lemma pole_bounded : forall r v w (V : R), (Cmod r < 1)%R -> (forall n, w n - r * delay w n = v n) -> (forall n, Cmod (v n) <= V)%R ->
  forall n, (Cmod (w n) <= V / (1 - Cmod r))%R.
Proof.
  intros r v w V Hr E Hv. pose proof (Cmod_ge_0 r) as R0.
  assert (V0 : (0 <= V)%R) by (eapply Rle_trans; [apply Cmod_ge_0|apply (Hv O)]).
  assert (K : (V + Cmod r * (V / (1 - Cmod r)) = V / (1 - Cmod r))%R) by (field; lra).
  assert (P : (0 <= V / (1 - Cmod r))%R) by (apply Rmult_le_pos; [lra|left; apply Rinv_0_lt_compat; lra]).
  induction n.
  - pose proof (E O) as H. cbn [delay] in H. replace (w O) with (v O) by (rewrite <- H; ring).
    rewrite <- K. pose proof (Hv O). pose proof (Rmult_le_pos _ _ R0 P). lra.
  - pose proof (E (S n)) as H. cbn [delay] in H. replace (w (S n)) with (v (S n) + r * w n) by (rewrite <- H; ring).
    eapply Rle_trans; [apply Cmod_triangle|]. rewrite Cmod_mult, <- K. apply Rplus_le_compat; [apply Hv|].
    apply Rmult_le_compat_l; auto.
Qed.
Definition vanishing (v : nat -> C) : Prop := forall eps : R, (0 < eps)%R -> exists T, forall n, (T <= n)%nat -> (Cmod (v n) <= eps)%R.
Lemma pole_vanishing : forall r v w, (Cmod r < 1)%R -> (forall n, w n - r * delay w n = v n) -> vanishing v -> vanishing w.
Proof.
  intros r v w Hr E Hv eps He. pose proof (Cmod_ge_0 r) as R0. set (q := Cmod r) in *.
  destruct (Hv (eps / 2 * (1 - q))%R) as (T & HT); [apply Rmult_lt_0_compat; lra|].
  assert (K : forall k, (Cmod (w (T + k)%nat) <= q ^ k * Cmod (w T) + eps / 2)%R).
  { induction k.
    - rewrite Nat.add_0_r. cbn. lra.
    - replace (T + S k)%nat with (S (T + k)) by lia. pose proof (E (S (T + k))) as H. cbn [delay] in H.
      replace (w (S (T + k))) with (v (S (T + k)) + r * w (T + k)%nat) by (rewrite <- H; ring).
      eapply Rle_trans; [apply Cmod_triangle|]. rewrite Cmod_mult. fold q. pose proof (HT (S (T + k)) ltac:(lia)).
      pose proof (Rmult_le_compat_l q _ _ R0 IHk). cbn [pow]. lra. }
  assert (P : exists M, forall k, (M <= k)%nat -> (q ^ k * Cmod (w T) <= eps / 2)%R).
  { assert (A : (Rabs q < 1)%R) by (rewrite Rabs_pos_eq; lra).
    destruct (pow_lt_1_zero q A (eps / 2 / (Cmod (w T) + 1))%R) as (M & HM).
    - apply Rdiv_lt_0_compat; [lra|]. pose proof (Cmod_ge_0 (w T)). lra.
    - exists M. intros k Hk. specialize (HM k Hk). rewrite Rabs_pos_eq in HM by (apply pow_le; auto).
      pose proof (Cmod_ge_0 (w T)) as W0.
      assert (D : (eps / 2 / (Cmod (w T) + 1) * (Cmod (w T) + 1) = eps / 2)%R) by (field; lra).
      assert (0 < eps / 2 / (Cmod (w T) + 1))%R by (apply Rdiv_lt_0_compat; lra).
      apply Rmult_lt_compat_r with (r := (Cmod (w T) + 1)%R) in HM; [|lra].
      assert (0 <= q ^ k)%R by (apply pow_le; auto). lra. }
  destruct P as (M & HM). exists (T + M)%nat. intros n Hn. replace n with (T + (n - T))%nat by lia.
  pose proof (K (n - T)%nat). pose proof (HM (n - T)%nat ltac:(lia)). lra.
Qed.
Definition inside (l : list C) : Prop := forall r, In r l -> (Cmod r < 1)%R.
Lemma poly_bounded : forall l, inside l -> exists G, (0 <= G)%R /\ forall y (V : R),
  (forall n, Cmod (fir (np_poly l) y n) <= V)%R -> forall n, (Cmod (y n) <= G * V)%R.
Proof.
  intros l. induction l as [|r l IH] using rev_ind; intros HI.
  - exists 1%R. split; [lra|]. intros y V H n. specialize (H n). cbn [np_poly fold_left fir] in H.
    replace (RtoC 1 * y n + delay (fun _ : nat => 0) n) with (y n) in H; [lra|]. destruct n; cbn; ring.
  - destruct IH as (G & G0 & HG); [intros s Hs; apply HI; apply in_or_app; auto|].
    assert (Hr : (Cmod r < 1)%R) by (apply HI; apply in_or_app; right; left; auto).
    exists (G / (1 - Cmod r))%R. split; [apply Rmult_le_pos; [lra|left; apply Rinv_0_lt_compat; lra]|].
    intros y V H n. eapply Rle_trans; [apply (HG y (V / (1 - Cmod r))%R)|right; field; lra].
    intros m. apply (pole_bounded r (fir (np_poly (l ++ [r])) y)); auto. intros k. rewrite poly_snoc, fir_step. reflexivity.
Qed.
Lemma poly_vanishing : forall l, inside l -> forall y, vanishing (fir (np_poly l) y) -> vanishing y.
Proof.
  intros l. induction l as [|r l IH] using rev_ind; intros HI y H.
  - intros eps He. destruct (H eps He) as (T & HT). exists T. intros n Hn. specialize (HT n Hn). cbn [np_poly fold_left fir] in HT.
    replace (RtoC 1 * y n + delay (fun _ : nat => 0) n) with (y n) in HT; [lra|]. destruct n; cbn; ring.
  - apply IH; [intros s Hs; apply HI; apply in_or_app; auto|].
    apply (pole_vanishing r (fir (np_poly (l ++ [r])) y)); auto.
    + apply HI; apply in_or_app; right; left; auto.
    + intros k. rewrite poly_snoc, fir_step. reflexivity.
Qed.
Lemma fir_bound : forall a : list C, exists G, (0 <= G)%R /\ forall x (B : R), (forall n, Cmod (x n) <= B)%R ->
  forall n, (Cmod (fir a x n) <= G * B)%R.
Proof.
  induction a as [|c t (G & G0 & HG)].
  - exists 0%R. split; [lra|]. intros. cbn [fir]. rewrite Cmod_0. lra.
  - exists (Cmod c + G)%R. pose proof (Cmod_ge_0 c). split; [lra|]. intros x B Hx n. cbn [fir].
    assert (0 <= B)%R by (eapply Rle_trans; [apply Cmod_ge_0|apply (Hx O)]).
    eapply Rle_trans; [apply Cmod_triangle|]. rewrite Cmod_mult, Rmult_plus_distr_r. apply Rplus_le_compat.
    + apply Rmult_le_compat_l; auto.
    + destruct n; cbn [delay]; [rewrite Cmod_0; apply Rmult_le_pos; auto|]. apply HG; auto.
Qed.
Lemma fir_vanishing : forall a x, vanishing x -> vanishing (fir a x).
Proof.
  induction a as [|c t IH]; intros x Hx eps He.
  - exists O. intros. cbn [fir]. rewrite Cmod_0. lra.
  - pose proof (Cmod_ge_0 c) as C0.
    destruct (Hx (eps / 2 / (Cmod c + 1))%R) as (T1 & H1); [apply Rdiv_lt_0_compat; lra|].
    destruct (IH x Hx (eps / 2)%R ltac:(lra)) as (T2 & H2).
    exists (S (Nat.max T1 T2)). intros [|n] Hn; [lia|]. cbn [fir delay].
    eapply Rle_trans; [apply Cmod_triangle|]. rewrite Cmod_mult.
    assert (Cmod (x (S n)) <= eps / 2 / (Cmod c + 1))%R by (apply H1; lia).
    assert (Cmod (fir t x n) <= eps / 2)%R by (apply H2; lia).
    assert (Cmod c * Cmod (x (S n)) <= eps / 2)%R; [|lra].
    assert (D : ((Cmod c + 1) * (eps / 2 / (Cmod c + 1)) = eps / 2)%R) by (field; lra).
    assert ((Cmod c + 1) * Cmod (x (S n)) <= (Cmod c + 1) * (eps / 2 / (Cmod c + 1)))%R by (apply Rmult_le_compat_l; lra).
    pose proof (Cmod_ge_0 (x (S n))). lra.
Qed.

(** ** the poles of the design *)
Lemma csqrt_sq : forall z, csqrt z * csqrt z = z.
Proof.
  intros [x y]. unfold csqrt. set (m := Cmod (x, y)). cbn [fst snd].
  assert (M2 : (m * m = x * x + y * y)%R).
  { unfold m, Cmod. cbn [fst snd]. rewrite sqrt_sqrt; [ring|]. nra. }
  assert (M0 : (0 <= m)%R) by apply Cmod_ge_0.
  assert (B : (- m <= x <= m)%R) by (split; nra).
  assert (P : (0 <= (m + x) / 2)%R) by lra. assert (Q : (0 <= (m - x) / 2)%R) by lra.
  pose proof (sqrt_sqrt _ P) as S1. pose proof (sqrt_sqrt _ Q) as S2.
  assert (S3 : (sqrt ((m + x) / 2) * sqrt ((m - x) / 2) = Rabs y / 2)%R).
  { rewrite <- sqrt_mult by auto. replace ((m + x) / 2 * ((m - x) / 2))%R with ((y / 2) * (y / 2))%R by (field_simplify; nra).
    rewrite sqrt_Rsqr_abs with (x := (y / 2)%R) || (fold (Rsqr (y / 2)%R); rewrite sqrt_Rsqr_abs).
    unfold Rdiv. rewrite Rabs_mult. f_equal. apply Rabs_pos_eq. lra. }
  unfold Cmult. cbn [fst snd]. destruct (Rlt_le_dec y 0).
  - rewrite Rltb_true by auto. rewrite Rabs_left in S3 by auto. f_equal; nra.
  - rewrite Rltb_false by auto. rewrite Rabs_pos_eq in S3 by lra. f_equal; nra.
Qed.
Lemma square_roots : forall s t : C, s * s = t * t -> s = t \/ s = - t.
Proof.
  intros s t H. destruct (Ceq_dec s t) as [|N]; [auto|]. right.
  assert (P : (s - t) * (s + t) = 0) by (transitivity (s * s - t * t); [ring|rewrite H; ring]).
  destruct (Ceq_dec (s + t) 0) as [Z|Z].
  - transitivity ((s + t) - t); [ring|]. rewrite Z. ring.
  - exfalso. apply (Cmult_neq_0 (s - t) (s + t)); auto. intros Q. apply N. transitivity ((s - t) + t); [ring|]. rewrite Q. ring.
Qed.

Definition bp_pair (wo bw : R) (p : C) : C * C :=
  let z := p * RtoC (bw / 2) in let r := csqrt (z * z - RtoC (wo * wo)) in (z + r, z - r).
Lemma lp2bp_pairs : forall wo bw p,
  lp2bp_poles wo bw p = (map (fun z => fst (bp_pair wo bw z)) p ++ map (fun z => snd (bp_pair wo bw z)) p)%list.
Proof. intros. unfold lp2bp_poles. rewrite !map_map. reflexivity. Qed.
Lemma pair_sum : forall wo bw p, fst (bp_pair wo bw p) + snd (bp_pair wo bw p) = p * RtoC bw.
Proof.
  intros. unfold bp_pair. cbn [fst snd]. transitivity (p * (RtoC (bw / 2) + RtoC (bw / 2))); [ring|].
  rewrite <- RtoC_plus. do 2 f_equal. field.
Qed.
Lemma pair_prod : forall wo bw p, fst (bp_pair wo bw p) * snd (bp_pair wo bw p) = RtoC (wo * wo).
Proof.
  intros. unfold bp_pair. cbn [fst snd]. set (z := p * RtoC (bw / 2)). pose proof (csqrt_sq (z * z - RtoC (wo * wo))) as H.
  set (r := csqrt _) in *. transitivity (z * z - r * r); [ring|]. rewrite H. ring.
Qed.
Lemma pair_conj : forall wo bw p, let c := bp_pair wo bw (Cconj p) in
  (Cconj (fst (bp_pair wo bw p)) = fst c /\ Cconj (snd (bp_pair wo bw p)) = snd c) \/
  (Cconj (fst (bp_pair wo bw p)) = snd c /\ Cconj (snd (bp_pair wo bw p)) = fst c).
Proof.
  intros wo bw p. unfold bp_pair. cbn [fst snd]. rewrite conj_plus, conj_minus, !conj_mult, !conj_real.
  set (z := Cconj p * RtoC (bw / 2)). set (r := csqrt (p * _ * _ - _)).
  destruct (square_roots (Cconj r) (csqrt (z * z - RtoC (wo * wo)))) as [->|E].
  - rewrite csqrt_sq, <- conj_mult. unfold r. rewrite csqrt_sq, conj_minus, !conj_mult, !conj_real. reflexivity.
  - left. auto.
  - right. rewrite E. split; ring.
Qed.
Lemma flat_pairs : forall (f g : C -> C) l, Permutation (map f l ++ map g l)%list (flat_map (fun p => [f p; g p]) l).
Proof.
  intros f g l. induction l as [|a l IH]; [reflexivity|]. cbn [map flat_map app]. constructor.
  rewrite <- IH. symmetry. apply Permutation_middle.
Qed.
Lemma flat_map_perm : forall (A B : Type) (f : A -> list B) l m, Permutation l m -> Permutation (flat_map f l) (flat_map f m).
Proof. intros A B f l m P. apply Permutation_flat_map. exact P. Qed.
Lemma lp2bp_conj : forall wo bw p, Permutation (map Cconj p) p -> Permutation (map Cconj (lp2bp_poles wo bw p)) (lp2bp_poles wo bw p).
Proof.
  intros wo bw p H. rewrite lp2bp_pairs.
  etransitivity; [apply Permutation_map, flat_pairs|].
  etransitivity; [|symmetry; apply flat_pairs].
  etransitivity; [|apply flat_map_perm, H]. clear H.
  induction p as [|a p IH]; [reflexivity|]. cbn [flat_map map app].
  destruct (pair_conj wo bw a) as [(E1 & E2)|(E1 & E2)]; rewrite E1, E2.
  - do 2 constructor. exact IH.
  - etransitivity; [apply perm_swap|]. do 2 constructor. exact IH.
Qed.
Lemma cis_opp : forall t, Cconj (cis t) = cis (- t).
Proof. intros. unfold cis, Cconj. cbn [fst snd]. rewrite cos_neg, sin_neg. reflexivity. Qed.
Lemma buttap_conj : forall N, Permutation (map Cconj (buttap N)) (buttap N).
Proof.
  intros N. replace (map Cconj (buttap N)) with (rev (buttap N)); [symmetry; apply Permutation_rev|].
  unfold buttap. rewrite map_map, <- map_rev. apply nth_ext with (d := RtoC 0) (d' := RtoC 0).
  - rewrite !map_length, rev_length. reflexivity.
  - intros i Hi. rewrite map_length, rev_length, seq_length in Hi.
    set (f := fun i : nat => - cis (PI * (2 * INR i - INR N + 1) / (2 * INR N))).
    rewrite (nth_indep _ _ (f O)) by (rewrite map_length, rev_length, seq_length; auto). rewrite map_nth.
    rewrite (nth_indep _ _ (Cconj (f O))) by (rewrite map_length, seq_length; auto).
    rewrite (map_nth (fun x => Cconj (f x))). rewrite rev_nth by (rewrite seq_length; auto).
    rewrite !seq_nth by (rewrite ?seq_length; lia). rewrite seq_length. cbn [Nat.add].
    unfold f. rewrite conj_opp, cis_opp. do 2 f_equal. rewrite minus_INR, S_INR by lia.
    assert (INR N <> 0)%R by (apply not_0_INR; lia). field. auto.
Qed.
Lemma buttap_left : forall N p, In p (buttap N) -> (fst p < 0)%R.
Proof.
  intros N p H. unfold buttap in H. apply in_map_iff in H as (i & <- & Hi). apply in_seq in Hi.
  cbn [fst Copp cis]. unfold cis, Copp. cbn [fst].
  assert (N0 : (0 < INR N)%R) by (apply lt_0_INR; lia).
  assert (I1 : (INR i <= INR N - 1)%R) by (assert (INR (S i) <= INR N)%R by (apply le_INR; lia); rewrite S_INR in *; lra).
  pose proof (pos_INR i) as I0. pose proof PI_RGT_0 as P0.
  assert (E : (PI * (2 * INR i - INR N + 1) / (2 * INR N) = PI / 2 * ((2 * INR i - INR N + 1) / INR N))%R) by (field; lra).
  rewrite E. set (q := ((2 * INR i - INR N + 1) / INR N)%R).
  assert (Q : (-1 < q < 1)%R).
  { assert (Q : (q * INR N = 2 * INR i - INR N + 1)%R) by (unfold q; field; lra). split.
    - apply Rmult_lt_reg_r with (INR N); lra.
    - apply Rmult_lt_reg_r with (INR N); lra. }
  assert (0 < cos (PI / 2 * q))%R; [|lra]. apply cos_gt_0; nra.
Qed.
Lemma left_root : forall s q t : C, forall wo : R, s + t = q -> s * t = RtoC (wo * wo) -> (0 < wo)%R -> (fst q < 0)%R -> (fst s < 0)%R.
Proof.
  intros [a b] [u v] [c d] wo H P W Q. unfold Cplus, Cmult, RtoC in *. cbn [fst snd] in *.
  injection H as H1 H2. injection P as P1 P2.
  destruct (Rlt_le_dec a 0) as [|A]; [auto|exfalso].
  assert (K : (c * (a * a + b * b) = wo * wo * a)%R).
  { transitivity ((a * c - b * d) * a + (a * d + b * c) * b)%R; [ring|]. rewrite P1, P2. ring. }
  assert (0 < wo * wo)%R by nra.
  assert (N0 : (0 < a * a + b * b)%R).
  { destruct (Req_dec a 0) as [->|]; [|nra]. destruct (Req_dec b 0) as [->|]; [|nra]. exfalso. lra. }
  assert (0 <= c)%R; [|lra]. apply Rmult_le_reg_r with (a * a + b * b)%R; auto. rewrite K, Rmult_0_l. nra.
Qed.
Lemma lp2bp_left : forall wo bw (p : list C), (0 < wo)%R -> (0 < bw)%R -> (forall q : C, In q p -> fst q < 0)%R ->
  forall s, In s (lp2bp_poles wo bw p) -> (fst s < 0)%R.
Proof.
  intros wo bw p W B H s Hs. rewrite lp2bp_pairs in Hs. apply in_app_or in Hs.
  assert (L : forall q : C, In q p -> (fst (Cmult q (RtoC bw)) < 0)%R).
  { intros q Hq. specialize (H q Hq). unfold Cmult, RtoC. cbn [fst snd]. nra. }
  destruct Hs as [Hs|Hs]; apply in_map_iff in Hs as (q & <- & Hq).
  - eapply left_root; [apply pair_sum|apply pair_prod|auto|auto].
  - eapply left_root; [rewrite Cplus_comm; apply pair_sum|rewrite Cmult_comm; apply pair_prod|auto|auto].
Qed.
Lemma four_minus : forall s, (fst s < 0)%R -> RtoC 4 - s <> 0.
Proof. intros [a b] H E. unfold Cminus, Cplus, Copp, RtoC in E. cbn [fst snd] in *. injection E as E1 E2. lra. Qed.
Lemma bilinear_inside : forall s, (fst s < 0)%R -> (Cmod (bilinear s) < 1)%R.
Proof.
  intros s H. pose proof (four_minus s H) as N. unfold bilinear. rewrite Cmod_div by auto.
  assert (0 < Cmod (Cminus (RtoC 4) s))%R by (apply Cmod_gt_0; auto).
  apply Rmult_lt_reg_r with (Cmod (Cminus (RtoC 4) s)); auto. unfold Rdiv. rewrite Rmult_assoc, Rinv_l, Rmult_1_r, Rmult_1_l by lra.
  destruct s as [a b]. unfold Cmod, Cminus, Cplus, Copp, RtoC. cbn [fst snd] in *.
  pose proof (pow2_ge_0 (4 + a)). pose proof (pow2_ge_0 (0 + b)). pose proof (pow2_ge_0 (4 + - a)). pose proof (pow2_ge_0 (0 + - b)).
  apply sqrt_lt_1; nra.
Qed.
Lemma conj_bilinear : forall s, Cconj (bilinear s) = bilinear (Cconj s).
Proof. intros. unfold bilinear, Cdiv. rewrite conj_mult, conj_inv, conj_plus, conj_minus, !conj_real. reflexivity. Qed.
