(** * Consequences of rounding for spafe's kernels *)
From Coq Require Import Reals ZArith List Lia Lra Psatz Permutation.
From Flocq Require Import Core Relative.
From Coquelicot Require Rcomplements.
From Verif Require Import Base SpecBase BigSum Binary64 Rounded SpecRounded RoundedFacts.
Import ListNotations.
Local Open Scope R_scope.

(** ** dot products *)
Definition lsum (f : nat -> R) (l : list nat) : R := fold_right (fun i a => f i + a) 0 l.
Lemma lsum_app : forall f l m, lsum f (l ++ m) = lsum f l + lsum f m.
Proof. intros f l m. unfold lsum. induction l as [|a l IH]; cbn; [ring|]. rewrite IH. ring. Qed.
Lemma lsum_perm : forall f l m, Permutation l m -> lsum f l = lsum f m.
Proof.
  intros f l m H. induction H as [|a l m H IH|a b l|l m k H1 IH1 H2 IH2]; unfold lsum in *; cbn; try lra.
Qed.
Lemma lsum_seq : forall f n, lsum f (seq 0 n) = bigsum n f.
Proof.
  intros f n. induction n as [|n IH]; [reflexivity|]. rewrite seq_S, lsum_app, IH, bigsum_S. cbn. ring.
Qed.
Lemma dots_exact : forall w l p, dots w l p -> forall x, lin_exact x p = lsum (fun k => w k * x k) l.
Proof.
  intros w l p H. induction H as [|i Hi|i|i l p H IH|i l p Hi H IH|l l' p q Hl Hl' H IH H' IH']; intros x; cbn [lin_exact].
  - reflexivity.
  - cbn. rewrite Hi. ring.
  - cbn. ring.
  - rewrite IH. reflexivity.
  - rewrite IH. unfold lsum. cbn [map fold_right]. rewrite Hi. ring.
  - rewrite lsum_app, IH, IH'. reflexivity.
Qed.
Lemma dots_size : forall w l p, dots w l p -> forall x, lin_size x p = lsum (fun k => Rabs (w k * x k)) l.
Proof.
  intros w l p H. induction H as [|i Hi|i|i l p H IH|i l p Hi H IH|l l' p q Hl Hl' H IH H' IH']; intros x; cbn [lin_size].
  - reflexivity.
  - cbn. rewrite Hi, Rmult_1_l. ring.
  - cbn. rewrite Rabs_mult. ring.
  - rewrite IH. cbn. rewrite Rabs_mult. reflexivity.
  - rewrite IH. unfold lsum. cbn [map fold_right]. rewrite Hi, Rmult_0_l, Rabs_R0. ring.
  - rewrite lsum_app, IH, IH'. reflexivity.
Qed.
Lemma dots_depth : forall w l p, dots w l p -> (lin_depth p <= length l)%nat.
Proof.
  intros w l p H. induction H as [|i Hi|i|i l p H IH|i l p Hi H IH|l l' p q Hl Hl' H IH H' IH']; cbn [lin_depth length]; try lia.
  rewrite app_length. destruct l; [congruence|]. destruct l'; [congruence|]. cbn [length] in *. lia.
Qed.
Lemma dots_amp : forall w l p, dots w l p -> lin_amp p <= 2 * INR (length l) /\ (l <> [] -> lin_amp p <= 2 * INR (length l) - 1).
Proof.
  intros w l p H. induction H as [|i Hi|i|i l p H IH|i l p Hi H IH|l l' p q Hl Hl' H IH H' IH']; cbn [lin_amp length].
  - cbn. split; [lra|congruence].
  - cbn. split; [lra|intros; lra].
  - cbn. rewrite Rmult_0_r. split; [lra|intros; lra].
  - rewrite S_INR, Rmult_0_r. destruct IH. split; [lra|intros; lra].
  - rewrite S_INR. destruct IH. split; [lra|intros; lra].
  - rewrite app_length, plus_INR. destruct IH as [_ IH]. destruct IH' as [_ IH']. specialize (IH Hl). specialize (IH' Hl').
    split; [lra|intros; lra].
Qed.
Lemma dots_additive : forall w l p, (forall i, 0 <= w i) -> dots w l p -> additive p.
Proof.
  intros w l p Hw H. induction H as [|i Hi|i|i l p H IH|i l p Hi H IH|l l' p q Hl Hl' H IH H' IH']; cbn [additive]; auto.
Qed.
Lemma dot_exact : forall w n p x, dot_program w n p -> lin_exact x p = bigsum n (fun k => w k * x k).
Proof. intros w n p x (l & Hl & H). rewrite (dots_exact _ _ _ H), (lsum_perm _ _ _ Hl). apply lsum_seq. Qed.
Lemma dot_size : forall w n p x, dot_program w n p -> lin_size x p = bigsum n (fun k => Rabs (w k * x k)).
Proof. intros w n p x (l & Hl & H). rewrite (dots_size _ _ _ H), (lsum_perm _ _ _ Hl). apply lsum_seq. Qed.
Lemma dot_depth : forall w n p, dot_program w n p -> (lin_depth p <= n)%nat.
Proof.
  intros w n p (l & Hl & H). apply dots_depth in H. apply Permutation_length in Hl. rewrite seq_length in Hl. lia.
Qed.
Lemma dot_amp : forall w n p, dot_program w n p -> lin_amp p <= 2 * INR n.
Proof.
  intros w n p (l & Hl & H). apply dots_amp in H. apply Permutation_length in Hl. rewrite seq_length in Hl.
  rewrite <- Hl. apply H.
Qed.
Lemma dot_additive : forall w n p, (forall i, 0 <= w i) -> dot_program w n p -> additive p.
Proof. intros w n p Hw (l & _ & H). eapply dots_additive; eassumption. Qed.

Lemma dot_error : forall (E : Env) u eta w n p x, accurate u eta (@rnd E) -> dot_program w n p ->
  Rabs (@lin_run E x p - bigsum n (fun k => w k * x k))
  <= ((1 + u) ^ n - 1) * bigsum n (fun k => Rabs (w k * x k)) + (1 + u) ^ n * (2 * INR n) * eta.
Proof.
  intros E u eta w n p x Ha Hp. pose proof Ha as (Hu & He & _).
  rewrite <- (dot_exact w n p x Hp), <- (dot_size w n p x Hp).
  eapply Rle_trans; [apply (lin_error E u eta x p Ha)|].
  eapply Rle_trans; [apply (widen u eta _ _ _ n); auto using lin_size_nonneg, lin_amp_nonneg; eapply dot_depth; exact Hp|].
  apply Rplus_le_compat_l. apply Rmult_le_compat_r; [exact He|]. apply Rmult_le_compat_l.
  - pose proof (pow_u_ge1 u n Hu). lra.
  - apply (dot_amp w n p Hp).
Qed.

(** left-to-right evaluation is one of the programs *)
Lemma sum_left_program : forall n, dot_program (fun _ => 1) n (sum_left n).
Proof.
  intros n. exists (seq 0 n). split; [reflexivity|].
  destruct n as [|n]; [constructor|]. induction n as [|n IH]; [cbn; constructor; reflexivity|].
  rewrite seq_S. change (sum_left (S (S n))) with (Add (sum_left (S n)) (Load (S n))).
  apply dots_add; [cbn; congruence|cbn; congruence|exact IH|]. cbn [Nat.add]. constructor. reflexivity.
Qed.
Lemma dot_left_program : forall w n, dot_program w n (dot_left w n).
Proof.
  intros w n. exists (seq 0 n). split; [reflexivity|].
  destruct n as [|n]; [constructor|]. induction n as [|n IH]; [cbn; constructor|].
  rewrite seq_S. change (dot_left w (S (S n))) with (Add (dot_left w (S n)) (Scale (w (S n)) (Load (S n)))).
  apply dots_add; [cbn; congruence|cbn; congruence|exact IH|]. cbn [Nat.add]. constructor.
Qed.

(** ** stored constants *)
Lemma lin_stored_error : forall (E : Env) u x p, accurate u 0 (@rnd E) ->
  Rabs (@lin_run E x (@lin_stored E p) - lin_exact x p) <= ((1 + u) ^ lin_depth2 p - 1) * lin_size x p.
Proof.
  intros E u x p Ha. pose proof Ha as (Hu & _ & Hr).
  assert (step : forall v e s d, 0 <= s -> Rabs e <= s -> Rabs (v - e) <= ((1 + u) ^ d - 1) * s ->
    Rabs (@rnd E v - e) <= ((1 + u) ^ S d - 1) * s).
  { intros v e s d Hs Hes Hv. pose proof (round_step (@rnd E) u 0 v e s 0 d Ha Hs (Rle_refl 0) Hes) as K.
    rewrite !Rmult_0_r, !Rplus_0_r in K. apply K. exact Hv. }
  assert (wid : forall s d d', 0 <= s -> (d <= d')%nat -> ((1 + u) ^ d - 1) * s <= ((1 + u) ^ d' - 1) * s).
  { intros s d d' Hs Hd. pose proof (pow_u_le u d d' Hu Hd). apply Rmult_le_compat_r; lra. }
  assert (con : forall c v e s d, 0 <= s -> Rabs e <= s -> Rabs (v - e) <= ((1 + u) ^ d - 1) * s ->
    Rabs (@rnd E c * v - c * e) <= ((1 + u) ^ S d - 1) * (Rabs c * s)).
  { intros c v e s d Hs Hes Hv. specialize (Hr c). rewrite Rplus_0_r in Hr.
    pose proof (pow_u_ge1 u d Hu) as H1. cbn [pow]. set (P := (1 + u) ^ d) in *.
    replace (@rnd E c * v - c * e) with (@rnd E c * (v - e) + (@rnd E c - c) * e) by ring.
    eapply Rle_trans; [apply Rabs_triang|]. rewrite !Rabs_mult.
    assert (Hc : Rabs (@rnd E c) <= (1 + u) * Rabs c).
    { replace (@rnd E c) with ((@rnd E c - c) + c) by ring. eapply Rle_trans; [apply Rabs_triang|]. lra. }
    assert (K1 : Rabs (@rnd E c) * Rabs (v - e) <= (1 + u) * Rabs c * ((P - 1) * s))
      by (apply Rmult_le_compat; auto using Rabs_pos).
    assert (K2 : Rabs (@rnd E c - c) * Rabs e <= u * Rabs c * s) by (apply Rmult_le_compat; auto using Rabs_pos).
    replace (((1 + u) * P - 1) * (Rabs c * s)) with ((1 + u) * Rabs c * ((P - 1) * s) + u * Rabs c * s) by ring. lra. }
  induction p as [i| |p IHp q IHq|p IHp q IHq|c p IHp|c p IHp q IHq];
    cbn [lin_run lin_stored lin_exact lin_size lin_depth2].
  - rewrite Rminus_diag_eq by reflexivity. rewrite Rabs_R0. cbn. lra.
  - rewrite Rminus_diag_eq by reflexivity. rewrite Rabs_R0. cbn. lra.
  - pose proof (lin_size_nonneg x p). pose proof (lin_size_nonneg x q).
    apply step; [lra| |].
    + eapply Rle_trans; [apply Rabs_triang|]. pose proof (lin_exact_size x p). pose proof (lin_exact_size x q). lra.
    + replace (_ + _ - (_ + _)) with ((@lin_run E x (@lin_stored E p) - lin_exact x p) + (@lin_run E x (@lin_stored E q) - lin_exact x q)) by ring.
      eapply Rle_trans; [apply Rabs_triang|].
      pose proof (wid (lin_size x p) _ (Nat.max (lin_depth2 p) (lin_depth2 q)) ltac:(assumption) (Nat.le_max_l _ _)).
      pose proof (wid (lin_size x q) _ (Nat.max (lin_depth2 p) (lin_depth2 q)) ltac:(assumption) (Nat.le_max_r _ _)). lra.
  - pose proof (lin_size_nonneg x p). pose proof (lin_size_nonneg x q).
    apply step; [lra| |].
    + unfold Rminus. eapply Rle_trans; [apply Rabs_triang|]. rewrite Rabs_Ropp. pose proof (lin_exact_size x p). pose proof (lin_exact_size x q). lra.
    + replace (_ - _ - (_ - _)) with ((@lin_run E x (@lin_stored E p) - lin_exact x p) + - (@lin_run E x (@lin_stored E q) - lin_exact x q)) by ring.
      eapply Rle_trans; [apply Rabs_triang|]. rewrite Rabs_Ropp.
      pose proof (wid (lin_size x p) _ (Nat.max (lin_depth2 p) (lin_depth2 q)) ltac:(assumption) (Nat.le_max_l _ _)).
      pose proof (wid (lin_size x q) _ (Nat.max (lin_depth2 p) (lin_depth2 q)) ltac:(assumption) (Nat.le_max_r _ _)). lra.
  - pose proof (lin_size_nonneg x p). pose proof (Rabs_pos c). apply step.
    + apply Rmult_le_pos; assumption.
    + rewrite Rabs_mult. apply Rmult_le_compat_l; [assumption|apply lin_exact_size].
    + apply con; [assumption|apply lin_exact_size|exact IHp].
  - pose proof (lin_size_nonneg x p). pose proof (lin_size_nonneg x q). pose proof (Rabs_pos c).
    assert (0 <= Rabs c * lin_size x p) by (apply Rmult_le_pos; assumption).
    apply step; [lra| |].
    + eapply Rle_trans; [apply Rabs_triang|]. rewrite Rabs_mult.
      pose proof (Rmult_le_compat_l _ _ _ (Rabs_pos c) (lin_exact_size x p)). pose proof (lin_exact_size x q). lra.
    + pose proof (con c _ _ _ _ H (lin_exact_size x p) IHp) as K.
      replace (_ + _ - (_ + _)) with ((@rnd E c * @lin_run E x (@lin_stored E p) - c * lin_exact x p) + (@lin_run E x (@lin_stored E q) - lin_exact x q)) by ring.
      eapply Rle_trans; [apply Rabs_triang|].
      pose proof (wid (Rabs c * lin_size x p) _ (Nat.max (S (lin_depth2 p)) (lin_depth2 q)) ltac:(assumption) (Nat.le_max_l _ _)).
      pose proof (wid (lin_size x q) _ (Nat.max (S (lin_depth2 p)) (lin_depth2 q)) ltac:(assumption) (Nat.le_max_r _ _)). lra.
Qed.

(** ** band energies *)
Lemma rnd_nonneg : forall (E : Env) v, monotone (@rnd E) -> @rnd E 0 = 0 -> 0 <= v -> 0 <= @rnd E v.
Proof. intros E v Hm H0 Hv. rewrite <- H0. apply Hm. exact Hv. Qed.
Lemma inv_nfft : forall nfft, 0 <= 1 / INR nfft.
Proof.
  intros [|n].
  - cbn. unfold Rdiv. rewrite Rinv_0. lra.
  - apply Rlt_le, Rdiv_lt_0_compat; [lra|]. apply lt_0_INR. lia.
Qed.
Lemma bin_power_nonneg : forall (E : Env) nfft m k, monotone (@rnd E) -> @rnd E 0 = 0 -> 0 <= @bin_power E nfft m k.
Proof.
  intros E nfft m k Hm H0. unfold bin_power. apply rnd_nonneg; auto. apply Rmult_le_pos; apply rnd_nonneg; auto.
  - apply inv_nfft.
  - apply Rle_0_sqr.
Qed.
Lemma band_nonneg : forall (E : Env) nfft m w n bank j, monotone (@rnd E) -> @rnd E 0 = 0 ->
  (forall k, 0 <= w k) -> dot_program w n (bank j) -> 0 <= @band_energy E nfft m bank j.
Proof.
  intros E nfft m w n bank j Hm H0 Hw Hb. unfold band_energy. apply additive_nonneg; auto.
  - eapply dot_additive; eassumption.
  - intros k. apply bin_power_nonneg; assumption.
Qed.
Lemma bin_power_bounds : forall (E : Env) u nfft m k, accurate u 0 (@rnd E) -> u <= 1 ->
  (1 - u) ^ 3 * (m k * m k / INR nfft) <= @bin_power E nfft m k <= (1 + u) ^ 3 * (m k * m k / INR nfft).
Proof.
  intros E u nfft m k Ha H1. pose proof Ha as (Hu & _ & _). unfold bin_power.
  assert (Hs : 0 <= m k * m k) by apply Rle_0_sqr. pose proof (inv_nfft nfft) as Hn.
  destruct (relative_bounds _ u _ Ha H1 Hs) as [A B]. destruct (relative_bounds _ u _ Ha H1 Hn) as [C D].
  assert (HA : 0 <= (1 - u) * (m k * m k)) by (apply Rmult_le_pos; lra).
  assert (HC : 0 <= (1 - u) * (1 / INR nfft)) by (apply Rmult_le_pos; lra).
  assert (He : 0 <= m k * m k / INR nfft).
  { unfold Rdiv in *. rewrite Rmult_1_l in Hn. apply Rmult_le_pos; assumption. }
  apply (bounds_step _ u _ _ 2 Ha H1 He). split.
  - eapply Rle_trans; [|apply (Rmult_le_compat _ _ _ _ HC HA C A)]. right. unfold Rdiv. ring.
  - eapply Rle_trans; [apply (Rmult_le_compat _ _ _ _ (Rle_trans _ _ _ HC C) (Rle_trans _ _ _ HA A) D B)|]. right. unfold Rdiv. ring.
Qed.
Lemma band_bounds : forall (E : Env) u nfft m w n bank j, accurate u 0 (@rnd E) -> u <= 1 ->
  (forall k, 0 <= w k) -> dot_program w n (bank j) ->
  let e := bigsum n (fun k => w k * (m k * m k / INR nfft)) in
  (1 - u) ^ (n + 3) * e <= @band_energy E nfft m bank j <= (1 + u) ^ (n + 3) * e.
Proof.
  intros E u nfft m w n bank j Ha H1 Hw Hb e. pose proof Ha as (Hu & _ & _). unfold band_energy.
  assert (Hx : forall i, 0 <= m i * m i / INR nfft).
  { intros i. pose proof (inv_nfft nfft) as Hn. unfold Rdiv in *. rewrite Rmult_1_l in Hn.
    apply Rmult_le_pos; [apply Rle_0_sqr|exact Hn]. }
  pose proof (dot_additive _ _ _ Hw Hb) as Hadd.
  pose proof (additive_bounds E u (fun i => m i * m i / INR nfft) (@bin_power E nfft m) (bank j) 3 Ha H1 Hadd Hx
                (fun i => bin_power_bounds E u nfft m i Ha H1)) as K.
  pose proof (additive_exact_nonneg _ _ Hadd Hx) as He0.
  rewrite (dot_exact w n (bank j) _ Hb) in K, He0. fold e in K, He0.
  apply (bounds_widen u e _ (lin_depth (bank j) + 3) (n + 3)); [lra|exact He0| |exact K].
  pose proof (dot_depth _ _ _ Hb). lia.
Qed.
Lemma band_log : forall (E : Env) u nfft m w n bank j, accurate u 0 (@rnd E) -> u < 1 ->
  (forall k, 0 <= w k) -> dot_program w n (bank j) ->
  let e := bigsum n (fun k => w k * (m k * m k / INR nfft)) in 0 < e ->
  0 < @band_energy E nfft m bank j /\ Rabs (ln (@band_energy E nfft m bank j) - ln e) <= INR (n + 3) * - ln (1 - u).
Proof.
  intros E u nfft m w n bank j Ha H1 Hw Hb e He. pose proof Ha as (Hu & _ & _).
  destruct (band_bounds E u nfft m w n bank j Ha (Rlt_le _ _ H1) Hw Hb) as [A B]. fold e in A, B.
  set (v := @band_energy E nfft m bank j) in *.
  assert (P1 : 0 < (1 - u) ^ (n + 3)) by (apply pow_lt; lra).
  assert (P2 : 0 < (1 + u) ^ (n + 3)) by (apply pow_lt; lra).
  assert (Hv : 0 < v) by (eapply Rlt_le_trans; [|exact A]; apply Rmult_lt_0_compat; assumption).
  split; [exact Hv|].
  assert (L1 : INR (n + 3) * ln (1 - u) + ln e <= ln v).
  { rewrite <- ln_pow by lra. rewrite <- ln_mult by lra. apply Rcomplements.ln_le; [apply Rmult_lt_0_compat; lra|exact A]. }
  assert (L2 : ln v <= INR (n + 3) * ln (1 + u) + ln e).
  { rewrite <- (ln_pow (1 + u)) by lra. rewrite <- ln_mult by lra. apply Rcomplements.ln_le; [exact Hv|exact B]. }
  assert (L3 : ln (1 + u) <= - ln (1 - u)).
  { rewrite <- ln_Rinv by lra. apply Rcomplements.ln_le; [lra|].
    apply (Rmult_le_reg_r (1 - u)); [lra|]. rewrite Rinv_l by lra. nra. }
  pose proof (pos_INR (n + 3)) as Hn.
  pose proof (Rmult_le_compat_l _ _ _ Hn L3). apply Rabs_le. lra.
Qed.

(** binary64 without underflow *)
Lemma band_normal : forall nfft m bank j,
  (forall k, normal (1 / INR nfft) /\ normal (m k * m k) /\ normal (rnd53 (1 / INR nfft) * rnd53 (m k * m k))) ->
  normal_run (@bin_power binary53 nfft m) (bank j) ->
  @band_energy binary64 nfft m bank j = @band_energy binary53 nfft m bank j.
Proof.
  intros nfft m bank j Hn Hr. unfold band_energy.
  rewrite <- (lin_run_normal _ _ Hr).
  assert (Hp : forall k, @bin_power binary64 nfft m k = @bin_power binary53 nfft m k).
  { intros k. destruct (Hn k) as (A & B & C). unfold bin_power. cbn [rnd binary64 binary53].
    rewrite (rnd64_normal _ A), (rnd64_normal _ B). apply rnd64_normal. exact C. }
  clear Hr. induction (bank j) as [i| |p IHp q IHq|p IHp q IHq|c p IHp|c p IHp q IHq]; cbn [lin_run]; try congruence.
Qed.

(** ** polarity and gain *)
Lemma lin_run_ext : forall (E : Env) x y p, (forall i, x i = y i) -> @lin_run E x p = @lin_run E y p.
Proof. intros E x y p H. induction p; cbn [lin_run]; congruence. Qed.
Lemma bin_power_ext : forall (E : Env) nfft m m' k, m k = m' k -> @bin_power E nfft m k = @bin_power E nfft m' k.
Proof. intros. unfold bin_power. rewrite H. reflexivity. Qed.
Lemma band_polarity : forall (E : Env) hyp re im x nfft bank j, odd (@rnd E) -> (forall a b, hyp (- a) (- b) = hyp a b) ->
  @band_energy E nfft (@bin_magnitude E hyp re im (fun t => - x t)) bank j
  = @band_energy E nfft (@bin_magnitude E hyp re im x) bank j.
Proof.
  intros E hyp re im x nfft bank j Ho Hh. unfold band_energy. apply lin_run_ext. intros k. apply bin_power_ext.
  unfold bin_magnitude. rewrite !lin_run_opp by exact Ho. apply Hh.
Qed.
Lemma band_gain : forall hyp re im x nfft bank j k, (forall a b, hyp (bpow radix2 k * a) (bpow radix2 k * b) = bpow radix2 k * hyp a b) ->
  @band_energy binary53 nfft (@bin_magnitude binary53 hyp re im (fun t => bpow radix2 k * x t)) bank j
  = bpow radix2 (2 * k) * @band_energy binary53 nfft (@bin_magnitude binary53 hyp re im x) bank j.
Proof.
  intros hyp re im x nfft bank j k Hh. unfold band_energy. rewrite <- lin_run_scale. apply lin_run_ext. intros i.
  unfold bin_power, bin_magnitude. rewrite !lin_run_scale, Hh. cbn [rnd binary53].
  set (h := hyp _ _).
  replace (bpow radix2 k * h * (bpow radix2 k * h)) with (bpow radix2 (2 * k) * (h * h)).
  2:{ replace (2 * k)%Z with (k + k)%Z by lia. rewrite bpow_plus. ring. }
  rewrite (rnd53_scale (2 * k) (h * h)), <- (rnd53_scale (2 * k) (rnd53 (1 / INR nfft) * rnd53 (h * h))). f_equal. ring.
Qed.

(** ** mean subtraction *)
Lemma centred_mean : forall (E : Env) u n s x, accurate u 0 (@rnd E) -> (0 < n)%nat -> dot_program (fun _ => 1) n s ->
  Rabs (bigsum n (@centred E s n x) / INR n) <= ((1 + u) ^ (n + 2) - 1 + u) * (bigsum n (fun i => Rabs (x i)) / INR n).
Proof.
  intros E u n s x Ha Hn Hs. pose proof Ha as (Hu & _ & Hr).
  assert (HN : 0 < INR n) by (apply lt_0_INR; exact Hn).
  set (A := bigsum n (fun i => Rabs (x i)) / INR n). set (mu := bigsum n x / INR n).
  assert (HA : 0 <= A). { apply Rcomplements.Rdiv_le_0_compat; [apply bigsum_nonneg; intros; apply Rabs_pos|exact HN]. }
  set (P := (1 + u) ^ n). pose proof (pow_u_ge1 u n Hu) as HP. fold P in HP.
  assert (Hm : Rabs (@mean_of E s n x - mu) <= ((1 + u) * P - 1) * A).
  { assert (K : Rabs (@lin_run E x s / INR n - mu) <= (P - 1) * A).
    { pose proof (dot_error E u 0 _ n s x Ha Hs) as K. rewrite Rmult_0_r, Rplus_0_r in K. fold P in K.
      rewrite (bigsum_ext n (fun k => 1 * x k) x) in K by (intros; ring).
      rewrite (bigsum_ext n (fun k => Rabs (1 * x k)) (fun k => Rabs (x k))) in K by (intros; f_equal; ring).
      unfold mu, A. replace (@lin_run E x s / INR n - bigsum n x / INR n) with ((@lin_run E x s - bigsum n x) * / INR n) by (unfold Rdiv; ring).
      rewrite Rabs_mult, (Rabs_pos_eq (/ INR n)) by (apply Rlt_le, Rinv_0_lt_compat, HN).
      eapply Rle_trans; [apply Rmult_le_compat_r; [apply Rlt_le, Rinv_0_lt_compat, HN|exact K]|]. right. unfold Rdiv. ring. }
    assert (Hmu : Rabs mu <= A).
    { unfold mu, A, Rdiv. rewrite Rabs_mult, (Rabs_pos_eq (/ INR n)) by (apply Rlt_le, Rinv_0_lt_compat, HN).
      apply Rmult_le_compat_r; [apply Rlt_le, Rinv_0_lt_compat, HN|apply bigsum_Rabs]. }
    pose proof (round_step (@rnd E) u 0 (@lin_run E x s / INR n) mu A 0 n Ha HA (Rle_refl 0) Hmu) as S. rewrite !Rmult_0_r, !Rplus_0_r in S.
    apply S. exact K. }
  assert (Hmu : Rabs mu <= A).
  { unfold mu, A, Rdiv. rewrite Rabs_mult, (Rabs_pos_eq (/ INR n)) by (apply Rlt_le, Rinv_0_lt_compat, HN).
    apply Rmult_le_compat_r; [apply Rlt_le, Rinv_0_lt_compat, HN|apply bigsum_Rabs]. }
  set (mm := @mean_of E s n x) in *.
  assert (Hmm : Rabs mm <= (1 + u) * P * A).
  { replace mm with ((mm - mu) + mu) by ring. eapply Rle_trans; [apply Rabs_triang|]. lra. }
  assert (Hsum : bigsum n (@centred E s n x) / INR n
                 = (mu - mm) + bigsum n (fun i => @rnd E (x i - mm) - (x i - mm)) / INR n).
  { rewrite bigsum_minus. rewrite (bigsum_minus n x (fun _ => mm)), bigsum_const.
    change (bigsum n (@centred E s n x)) with (bigsum n (fun i => @rnd E (x i - mm))). unfold mu. field. lra. }
  rewrite Hsum. eapply Rle_trans; [apply Rabs_triang|].
  assert (H2 : Rabs (bigsum n (fun i => @rnd E (x i - mm) - (x i - mm)) / INR n) <= u * (A + (1 + u) * P * A)).
  { unfold Rdiv at 1. rewrite Rabs_mult, (Rabs_pos_eq (/ INR n)) by (apply Rlt_le, Rinv_0_lt_compat, HN).
    assert (S : Rabs (bigsum n (fun i => @rnd E (x i - mm) - (x i - mm))) <= bigsum n (fun i => u * (Rabs (x i) + (1 + u) * P * A))).
    { eapply Rle_trans; [apply bigsum_Rabs|]. apply bigsum_le. intros i _.
      specialize (Hr (x i - mm)). rewrite Rplus_0_r in Hr. eapply Rle_trans; [exact Hr|].
      apply Rmult_le_compat_l; [exact Hu|]. unfold Rminus. eapply Rle_trans; [apply Rabs_triang|]. rewrite Rabs_Ropp. lra. }
    eapply Rle_trans; [apply Rmult_le_compat_r; [apply Rlt_le, Rinv_0_lt_compat, HN|exact S]|]. right.
    rewrite bigsum_scal, bigsum_plus, bigsum_const. unfold A. field. lra. }
  rewrite Rabs_minus_sym in Hm.
  replace ((1 + u) ^ (n + 2)) with ((1 + u) * ((1 + u) * P)).
  2:{ unfold P. rewrite pow_add. cbn. ring. }
  replace (((1 + u) * ((1 + u) * P) - 1 + u) * A) with (((1 + u) * P - 1) * A + u * (A + (1 + u) * P * A)) by ring. lra.
Qed.

(** ** spectrograms *)
Lemma band_magnitudes : forall (E : Env) u d nfft m q w n bank j, accurate u 0 (@rnd E) -> u <= 1 -> 0 <= d <= 1 ->
  (forall k, 0 <= w k) -> dot_program w n (bank j) ->
  (forall k, (k < n)%nat -> 0 <= q k /\ (1 - d) * q k <= m k <= (1 + d) * q k) ->
  let e := bigsum n (fun k => q k ^ 2 / INR nfft * w k) in
  (1 - u) ^ (n + 3) * ((1 - d) ^ 2 * e) <= @band_energy E nfft m bank j <= (1 + u) ^ (n + 3) * ((1 + d) ^ 2 * e).
Proof.
  intros E u d nfft m q w n bank j Ha H1 Hd Hw Hb Hm e. pose proof Ha as (Hu & _ & _).
  destruct (band_bounds E u nfft m w n bank j Ha H1 Hw Hb) as [A B]. cbv zeta in A, B.
  pose proof (inv_nfft nfft) as Hn. unfold Rdiv in Hn. rewrite Rmult_1_l in Hn.
  assert (L : (1 - d) ^ 2 * e <= bigsum n (fun k => w k * (m k * m k / INR nfft))).
  { unfold e. rewrite <- bigsum_scal. apply bigsum_le. intros k Hk. destruct (Hm k Hk) as (Q & M1 & M2).
    replace ((1 - d) ^ 2 * (q k ^ 2 / INR nfft * w k)) with (w k * (((1 - d) * q k) * ((1 - d) * q k) * / INR nfft)) by (unfold Rdiv; ring).
    apply Rmult_le_compat_l; [apply Hw|]. apply Rmult_le_compat_r; [exact Hn|].
    assert (0 <= (1 - d) * q k) by (apply Rmult_le_pos; lra). apply Rmult_le_compat; lra. }
  assert (R : bigsum n (fun k => w k * (m k * m k / INR nfft)) <= (1 + d) ^ 2 * e).
  { unfold e. rewrite <- bigsum_scal. apply bigsum_le. intros k Hk. destruct (Hm k Hk) as (Q & M1 & M2).
    replace ((1 + d) ^ 2 * (q k ^ 2 / INR nfft * w k)) with (w k * (((1 + d) * q k) * ((1 + d) * q k) * / INR nfft)) by (unfold Rdiv; ring).
    apply Rmult_le_compat_l; [apply Hw|]. apply Rmult_le_compat_r; [exact Hn|].
    assert (0 <= (1 - d) * q k) by (apply Rmult_le_pos; lra). apply Rmult_le_compat; lra. }
  split.
  - eapply Rle_trans; [|exact A]. apply Rmult_le_compat_l; [apply pow_le; lra|exact L].
  - eapply Rle_trans; [exact B|]. apply Rmult_le_compat_l; [apply pow_le; lra|exact R].
Qed.
