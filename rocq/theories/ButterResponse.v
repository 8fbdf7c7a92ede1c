(** * Proofs about the Butterworth design: real coefficients, bounded responses, tones *)
From Coq Require Import Reals ZArith String List Bool Lia Lra Permutation.
From Coquelicot Require Import Complex.
From Verif Require Import Base BaseFacts SpecBase SpecMat BigSum MatFacts SpecSpectral Dominant DominantFacts Butter ButterFacts.
Import ListNotations.
Local Open Scope R_scope.
Local Open Scope C_scope.

(** ** real coefficients *)
Definition real_list (c : list C) : Prop := forall v, In v c -> v = RtoC (fst v).
Definition coeff (c : list C) (j : nat) : R := fst (nth j c (RtoC 0)).
Lemma past_S : forall y n j, past y (S n) (S j) = past y n j.
Proof. reflexivity. Qed.
Lemma fir_real : forall c y n, real_list c ->
  fir c (fun t => RtoC (y t)) n = RtoC (bigsum (length c) (fun j => (coeff c j * past y n j)%R)).
Proof.
  induction c as [|v t IH]; intros y n H; [reflexivity|]. cbn [fir length]. rewrite bigsum_S_l.
  assert (Ht : real_list t) by (intros u Hu; apply H; right; auto).
  rewrite (H v (or_introl eq_refl)) at 1. rewrite RtoC_plus. f_equal.
  - unfold coeff, past. cbn [nth Nat.leb]. rewrite Nat.sub_0_r, RtoC_mult. reflexivity.
  - destruct n; cbn [delay].
    + f_equal. symmetry. apply bigsum_zero. intros m Hm. unfold past. cbn [Nat.leb]. ring.
    + rewrite IH by auto. f_equal.
Qed.
Lemma fir_scal : forall (k : C) c y n, fir (map (Cmult k) c) y n = k * fir c y n.
Proof.
  intros k. induction c as [|v t IH]; intros y n; cbn [map fir]; [ring|].
  destruct n; cbn [delay]; [ring|]. rewrite IH. ring.
Qed.
Lemma fir_minus : forall c x y n, fir c (fun t => x t - y t) n = fir c x n - fir c y n.
Proof.
  induction c as [|v t IH]; intros x y n; cbn [fir]; [ring|]. destruct n; cbn [delay]; [ring|]. rewrite IH. ring.
Qed.
Lemma fir_re : forall c U n, real_list c -> fir c (fun t => RtoC (fst (U t))) n = RtoC (fst (fir c U n)).
Proof.
  induction c as [|v t IH]; intros U n H; [reflexivity|]. cbn [fir].
  assert (Ht : real_list t) by (intros u Hu; apply H; right; auto).
  rewrite (H v (or_introl eq_refl)). cbn [fst RtoC].
  assert (E : delay (fir t (fun t0 : nat => RtoC (fst (U t0)))) n = RtoC (fst (delay (fir t U) n))).
  { destruct n; cbn [delay]; [reflexivity|]. apply IH; auto. }
  rewrite E. unfold RtoC, Cplus, Cmult. cbn [fst snd]. f_equal; ring.
Qed.
(** a complex tone passes a FIR filter as a multiple of itself once the filter is full *)
Lemma fir_tone : forall w c U n, (forall m, U m = w * U (S m)) -> (length c <= S n)%nat -> fir c U n = peval c w * U n.
Proof.
  intros w. induction c as [|v t IH]; intros U n HU Hn; cbn [fir peval]; [ring|].
  destruct n; cbn [delay length] in *.
  - destruct t; [|cbn in Hn; lia]. cbn. ring.
  - rewrite IH by (auto; lia). rewrite (HU n). ring.
Qed.
Lemma peval_scal : forall (k : C) c w, peval (map (Cmult k) c) w = k * peval c w.
Proof. intros k. induction c; intros; cbn [map peval]; [ring|]. rewrite IHc. ring. Qed.

(** ** recursive filters whose denominator has its roots inside the unit circle *)
Section Recursive.
Context (d : nat) (num roots : list C).
Hypothesis num_len : length num = S d.
Hypothesis roots_len : length roots = d.
Hypothesis num_real : real_list num.
Hypothesis roots_conj : Permutation (map Cconj roots) roots.
Hypothesis roots_inside : inside roots.
Notation den := (np_poly roots).
Notation b := (coeff num).
Notation a := (coeff den).

Lemma den_real : real_list den.
Proof. exact (poly_real roots roots_conj). Qed.
Lemma iir_fir : forall x y, iir_response d b a x y <->
  forall n, fir den (fun t => RtoC (y t)) n = fir num (fun t => RtoC (x t)) n.
Proof.
  intros x y. destruct (poly_head roots) as (t & E).
  assert (A0 : a 0%nat = 1%R) by (unfold coeff; rewrite E; reflexivity).
  assert (Q : forall n, bigsum (length den) (fun j => (a j * past y n j)%R) = (y n + bigsum d (fun j => a (S j) * past y n (S j)))%R).
  { intros n. rewrite poly_length, roots_len, bigsum_S_l, A0. f_equal. unfold past. cbn [Nat.leb]. rewrite Nat.sub_0_r. ring. }
  split; intros H n.
  - rewrite !fir_real by (auto; apply den_real). f_equal. rewrite Q, num_len. apply H.
  - specialize (H n). rewrite !fir_real in H by (auto; apply den_real). apply RtoC_inj in H. rewrite Q, num_len in H. exact H.
Qed.
Lemma iir_bounded : exists G, (0 <= G)%R /\ forall x y B, iir_response d b a x y -> (forall t, Rabs (x t) <= B)%R ->
  forall t, (Rabs (y t) <= G * B)%R.
Proof.
  destruct (fir_bound num) as (G1 & P1 & H1). destruct (poly_bounded roots roots_inside) as (G2 & P2 & H2).
  exists (G2 * G1)%R. split; [apply Rmult_le_pos; auto|]. intros x y B Hy Hx t.
  rewrite <- Cmod_R, Rmult_assoc. apply (H2 (fun t => RtoC (y t))). intros n. rewrite (proj1 (iir_fir x y) Hy n).
  apply H1. intros m. rewrite Cmod_R. apply Hx.
Qed.
Lemma Un_cv_vanishing : forall f, Un_cv f 0%R <-> vanishing (fun t => RtoC (f t)).
Proof.
  intros f. split; intros H eps He.
  - destruct (H eps He) as (T & HT). exists T. intros n Hn. specialize (HT n Hn). unfold R_dist in HT. rewrite Rminus_0_r in HT.
    rewrite Cmod_R. lra.
  - destruct (H (eps / 2)%R ltac:(lra)) as (T & HT). exists T. intros n Hn. specialize (HT n Hn). rewrite Cmod_R in HT.
    unfold R_dist. rewrite Rminus_0_r. lra.
Qed.
Lemma iir_fades : forall x y, iir_response d b a x y -> Un_cv x 0%R -> Un_cv y 0%R.
Proof.
  intros x y Hy Hx. apply Un_cv_vanishing. apply (poly_vanishing roots roots_inside).
  apply Un_cv_vanishing in Hx. intros eps He. destruct (fir_vanishing num _ Hx eps He) as (T & HT). exists T. intros n Hn.
  rewrite (proj1 (iir_fir x y) Hy n). auto.
Qed.
Lemma inside_nonzero : forall w, Cmod w = 1%R -> peval den w <> 0.
Proof.
  intros w Hw. rewrite peval_poly. assert (forall r, In r roots -> 1 - r * w <> 0) as H.
  { intros r Hr E. pose proof (roots_inside r Hr) as L.
    assert (Cmod (r * w) = 1%R).
    { replace (r * w) with (RtoC 1); [apply Cmod_1|]. transitivity (1 - (1 - r * w)); [rewrite E; ring|ring]. }
    rewrite Cmod_mult, Hw in H. lra. }
  clear - H. induction roots as [|r l IH]; cbn [map cprodr].
  - intros E. injection E. lra.
  - apply Cmult_neq_0; [apply H; left; auto|]. apply IH. intros; apply H; right; auto.
Qed.
(** the response to a tone approaches the tone multiplied by the transfer function *)
Lemma iir_tone : forall (U : nat -> C) w H x y, (forall m, U m = w * U (S m)) -> Cmod w = 1%R ->
  H * peval den w = peval num w -> (forall t, x t = fst (U t)) -> iir_response d b a x y ->
  Un_cv (fun t => y t - fst (H * U t)%C)%R 0%R.
Proof.
  intros U w H x y HU Hw HH Hx Hy. apply Un_cv_vanishing. apply (poly_vanishing roots roots_inside).
  intros eps He. exists d. intros n Hn.
  assert (E : fir den (fun t => RtoC (y t - fst (H * U t)%C)%R) n = 0).
  { assert (E1 : fir den (fun t => RtoC (y t - fst (H * U t)%C)%R) n
      = fir den (fun t => RtoC (y t) - RtoC (fst (H * U t))) n).
    { f_equal. apply FunctionalExtensionality.functional_extensionality. intros t. apply RtoC_minus. }
    rewrite E1, fir_minus, (proj1 (iir_fir x y) Hy n).
    assert (E2 : fir num (fun t => RtoC (x t)) n = RtoC (fst (fir num U n))).
    { rewrite <- fir_re by auto. f_equal. apply FunctionalExtensionality.functional_extensionality. intros t. rewrite Hx. reflexivity. }
    rewrite E2, (fir_re _ (fun t => H * U t)) by apply den_real.
    rewrite (fir_tone w) by (auto; lia).
    rewrite (fir_tone w den (fun t => H * U t)).
    - rewrite <- HH. replace (peval den w * (H * U n)) with (H * peval den w * U n) by ring. ring.
    - intros m. rewrite (HU m) at 1. ring.
    - rewrite poly_length, roots_len. lia. }
  rewrite E, Cmod_0. lra.
Qed.
End Recursive.

(** ** the design *)
Section Design.
Context (N : nat) (w1 w2 : R).
Hypothesis W : (0 < w1 /\ w1 < w2 /\ w2 < 1)%R.
Definition t1 : R := (4 * tan (PI * w1 / 2))%R.
Definition t2 : R := (4 * tan (PI * w2 / 2))%R.
Definition bw : R := (t2 - t1)%R.
Definition wo : R := sqrt (t1 * t2).
Definition bp : list C := lp2bp_poles wo bw (buttap N).
Definition gain : R := (bw ^ N * fst (Cdiv (cprod (map (fun v => Cminus (RtoC 4) v) (repeat (RtoC 0) N))) (cprod (map (fun v => Cminus (RtoC 4) v) bp))))%R.
Definition zroots : list C := (map bilinear (repeat (RtoC 0) N) ++ repeat (RtoC (-1)) N)%list.
Definition proots : list C := map bilinear bp.
Definition num : list C := map (Cmult (RtoC gain)) (np_poly zroots).

Lemma t_pos : (0 < t1 /\ t1 < t2)%R.
Proof.
  pose proof PI_RGT_0. unfold t1, t2. split.
  - apply Rmult_lt_0_compat; [lra|]. apply tan_gt_0; nra.
  - apply Rmult_lt_compat_l; [lra|]. apply tan_increasing; nra.
Qed.
Lemma bw_pos : (0 < bw)%R.
Proof. unfold bw. pose proof t_pos. lra. Qed.
Lemma wo_pos : (0 < wo)%R.
Proof. unfold wo. pose proof t_pos. apply sqrt_lt_R0, Rmult_lt_0_compat; lra. Qed.
Lemma wo_sq : (wo * wo = t1 * t2)%R.
Proof. unfold wo. pose proof t_pos. apply sqrt_sqrt. apply Rmult_le_pos; lra. Qed.
Lemma bp_left : forall s, In s bp -> (fst s < 0)%R.
Proof. apply lp2bp_left; [apply wo_pos|apply bw_pos|]. intros q. apply buttap_left. Qed.
Lemma proots_inside : inside proots.
Proof. intros r Hr. apply in_map_iff in Hr as (s & <- & Hs). apply bilinear_inside, bp_left; auto. Qed.
Lemma bp_conj : Permutation (map Cconj bp) bp.
Proof. apply lp2bp_conj, buttap_conj. Qed.
Lemma proots_conj : Permutation (map Cconj proots) proots.
Proof.
  unfold proots. rewrite map_map. rewrite (map_ext _ (fun s => bilinear (Cconj s))) by (intros; apply conj_bilinear).
  rewrite <- (map_map Cconj bilinear). apply Permutation_map, bp_conj.
Qed.
Lemma bp_length : length bp = (2 * N)%nat.
Proof. unfold bp, lp2bp_poles. rewrite app_length, !map_length. unfold buttap. rewrite map_length, seq_length. lia. Qed.
Lemma proots_length : length proots = (2 * N)%nat.
Proof. unfold proots. rewrite map_length. apply bp_length. Qed.
Lemma bilinear_zero : bilinear (RtoC 0) = RtoC 1.
Proof. unfold bilinear. replace (RtoC 4 + RtoC 0) with (RtoC 4) by ring. replace (RtoC 4 - RtoC 0) with (RtoC 4) by ring.
  unfold Cdiv. apply Cinv_r. intros E. injection E. lra. Qed.
Lemma zroots_eq : zroots = (repeat (RtoC 1) N ++ repeat (RtoC (-1)) N)%list.
Proof. unfold zroots. f_equal. clear. induction N; cbn [repeat map]; [auto|]. rewrite IHn, bilinear_zero. reflexivity. Qed.
Lemma zroots_conj : map Cconj zroots = zroots.
Proof.
  rewrite zroots_eq, map_app. f_equal; clear; induction N; cbn [repeat map]; auto; rewrite IHn, conj_real; reflexivity.
Qed.
Lemma num_real : real_list num.
Proof.
  intros v Hv. apply in_map_iff in Hv as (c & <- & Hc). rewrite (poly_real zroots) with (c := c); auto.
  - unfold Cmult, RtoC. cbn [fst snd]. f_equal. ring.
  - rewrite zroots_conj. reflexivity.
Qed.
Lemma num_length : length num = S (2 * N).
Proof. unfold num. rewrite map_length, poly_length, zroots_eq, app_length, !repeat_length. lia. Qed.
Lemma design_eq : butter_band N w1 w2 = (fvec (S (2 * N)) (coeff num), fvec (S (2 * N)) (coeff (np_poly proots))).
Proof.
  unfold butter_band. fold t1 t2. fold bw. fold wo. fold bp. fold gain. fold zroots. fold proots.
  assert (L : forall (f : C -> R) c, length c = S (2 * N) -> map (fun v => Fin (f v)) c = fvec (S (2 * N)) (fun j => f (nth j c (RtoC 0)))).
  { intros f c Hc. unfold fvec. rewrite <- Hc. apply nth_ext with (d := NaN) (d' := NaN).
    - rewrite !map_length, seq_length. reflexivity.
    - intros i Hi. rewrite map_length in Hi. rewrite (nth_indep _ NaN (Fin (f (RtoC 0)))) by (rewrite map_length; auto).
      rewrite (map_nth (fun v => Fin (f v))).
      rewrite (nth_indep (map _ (seq _ _)) NaN (Fin (f (nth 0 c (RtoC 0))))) by (rewrite map_length, seq_length; auto).
      rewrite (map_nth (fun j => Fin (f (nth j c (RtoC 0))))), seq_nth by auto. reflexivity. }
  f_equal.
  - rewrite (L (fun c => gain * fst c)%R) by (rewrite poly_length, zroots_eq, app_length, !repeat_length; lia).
    apply fvec_ext. intros j Hj. unfold coeff, num.
    rewrite (nth_indep (map (Cmult (RtoC gain)) (np_poly zroots)) _ (RtoC gain * RtoC 0)) by (rewrite map_length, poly_length, zroots_eq, app_length, !repeat_length; lia).
    rewrite map_nth. unfold Cmult, RtoC. cbn [fst snd]. ring.
  - rewrite (L fst) by (rewrite poly_length, proots_length; auto). reflexivity.
Qed.
End Design.
