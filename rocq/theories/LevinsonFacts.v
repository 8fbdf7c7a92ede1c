(** * Predictors of successive orders (proofs for C176) *)
From Coq Require Import Reals ZArith List String Bool Lia Lra.
From Verif Require Import Base BaseFacts SpecBase BigSum SpecLpc LpcTheory LpcMore SpecLevinson.
Import ListNotations.
Local Open Scope R_scope.

(** the next predictor *)
Definition next_k (L p : nat) (f a : nat -> R) : R := - bigsum (S p) (fun j => acf L f (S p - j) * a j) / residual_energy L p f a.
Definition next (L p : nat) (f a : nat -> R) (j : nat) : R :=
  (if Nat.leb j p then a j else 0) + next_k L p f a * (if Nat.leb 1 j then a (S p - j)%nat else 0).

Lemma bigsum_rev : forall n g, bigsum (S n) (fun j => g (n - j)%nat) = bigsum (S n) g.
Proof.
  induction n as [|n IH]; intros g; [reflexivity|]. rewrite bigsum_S_l. rewrite (bigsum_S (S n) g). rewrite Nat.sub_0_r, Rplus_comm. f_equal.
  rewrite <- (IH g). apply bigsum_ext. intros j Hj. f_equal. 
Qed.
Lemma dist_rev : forall p i j, (i <= S p)%nat -> (j <= p)%nat -> dist i (S p - j) = dist (S p - i) j.
Proof. intros p i j Hi Hj. unfold dist. destruct (Nat.leb_spec (S p - j) i), (Nat.leb_spec j (S p - i)); lia. Qed.
Lemma next_sum : forall L p f a (w : nat -> R),
  bigsum (S (S p)) (fun j => w j * next L p f a j)
  = bigsum (S p) (fun j => w j * a j) + next_k L p f a * bigsum (S p) (fun l => w (S p - l)%nat * a l).
Proof.
  intros L p f a w. unfold next.
  rewrite (bigsum_ext (S (S p)) _ (fun j => w j * (if Nat.leb j p then a j else 0) + next_k L p f a * (w j * (if Nat.leb 1 j then a (S p - j)%nat else 0)))) by (intros; ring).
  rewrite bigsum_plus, bigsum_scal. f_equal; [|f_equal].
  - rewrite (bigsum_S (S p)). destruct (Nat.leb_spec (S p) p); [lia|]. rewrite Rmult_0_r, Rplus_0_r. apply bigsum_ext. intros j Hj. destruct (Nat.leb_spec j p); [reflexivity|lia].
  - rewrite (bigsum_S_l (S p)). cbn [Nat.leb]. rewrite Rmult_0_r, Rplus_0_l. rewrite <- (bigsum_rev p (fun l => w (S p - l)%nat * a l)). apply bigsum_ext. intros j Hj.
    replace (S p - (p - j))%nat with (S j) by lia. replace (S p - S j)%nat with (p - j)%nat by lia. reflexivity.
Qed.
Lemma next_normal : forall L p f a, 0 < residual_energy L p f a -> normal_equations L p f a ->
  normal_equations L (S p) f (next L p f a) /\
  residual_energy L (S p) f (next L p f a) = (1 - next_k L p f a ^ 2) * residual_energy L p f a.
Proof.
  intros L p f a E0 Ha. pose proof (normal_energy L p f a Ha) as EN. destruct Ha as [A0 An].
  set (D := bigsum (S p) (fun j => acf L f (S p - j) * a j)).
  assert (KE : next_k L p f a * residual_energy L p f a = - D) by (unfold next_k; fold D; field; lra).
  assert (N : normal_equations L (S p) f (next L p f a)).
  { split.
    - unfold next. cbn [Nat.leb]. rewrite A0. ring.
    - intros i Hi. rewrite (next_sum L p f a (fun j => acf L f (dist i j))).
      destruct (Nat.eq_dec i (S p)) as [->|Hne].
      + rewrite (bigsum_ext (S p) (fun j => acf L f (dist (S p) j) * a j) (fun j => acf L f (S p - j) * a j)).
        2:{ intros j Hj. unfold dist. destruct (Nat.leb_spec j (S p)); [reflexivity|lia]. }
        fold D. rewrite (bigsum_ext (S p) (fun l => acf L f (dist (S p) (S p - l)) * a l) (fun k => a k * acf L f k)).
        2:{ intros l Hl. unfold dist. destruct (Nat.leb_spec (S p - l) (S p)); [|lia]. replace (S p - (S p - l))%nat with l by lia. ring. }
        rewrite <- EN, KE. ring.
      + rewrite An by lia. rewrite (bigsum_ext (S p) (fun l => acf L f (dist i (S p - l)) * a l) (fun j => acf L f (dist (S p - i) j) * a j)).
        2:{ intros l Hl. rewrite dist_rev by lia. reflexivity. }
        rewrite An by lia. ring. }
  split; [exact N|]. rewrite (normal_energy L (S p) f _ N).
  rewrite (bigsum_ext (S (S p)) _ (fun j => acf L f j * next L p f a j)) by (intros; ring). rewrite next_sum.
  fold D. rewrite (bigsum_ext (S p) (fun j => acf L f j * a j) (fun k => a k * acf L f k)) by (intros; ring). rewrite <- EN.
  replace (next_k L p f a ^ 2) with (next_k L p f a * next_k L p f a) by ring. replace D with (- (next_k L p f a * residual_energy L p f a)) by lra. ring.
Qed.
Lemma normal_positive : forall L p f a, sounding L f -> normal_equations L p f a -> 0 < residual_energy L p f a.
Proof. intros L p f a Hf [H _]. apply residual_energy_pos; [exact Hf|]. exists O. split; [lia|]. rewrite H. lra. Qed.
Lemma next_small : forall L p f a, sounding L f -> normal_equations L p f a -> Rabs (next_k L p f a) < 1.
Proof.
  intros L p f a Hf Ha. pose proof (normal_positive L p f a Hf Ha) as E0. destruct (next_normal L p f a E0 Ha) as (N & E1).
  pose proof (normal_positive L (S p) f _ Hf N) as E2. rewrite E1 in E2.
  assert (K : next_k L p f a ^ 2 < 1). { apply Rnot_le_lt. intros K. assert ((1 - next_k L p f a ^ 2) * residual_energy L p f a <= 0); [|lra]. rewrite <- (Rmult_0_l (residual_energy L p f a)). apply Rmult_le_compat_r; lra. }
  rewrite <- pow2_abs in K. apply Rnot_le_lt. intros K2. assert (1 ^ 2 <= Rabs (next_k L p f a) ^ 2) by (apply pow_incr; lra). lra.
Qed.
Lemma binom_O : forall n, binom n 0 = 1%nat.
Proof. destruct n; reflexivity. Qed.
Lemma binom_high : forall n k, (n < k)%nat -> binom n k = 0%nat.
Proof. induction n as [|n IH]; intros [|k] H; try lia; [reflexivity|]. cbn [binom]. rewrite !IH by lia. reflexivity. Qed.
Lemma binom_full : forall n, binom n n = 1%nat.
Proof. induction n as [|n IH]; [reflexivity|]. cbn [binom]. rewrite IH, binom_high by lia. reflexivity. Qed.
Lemma levinson : forall L f, sounding L f -> forall p, exists a, normal_equations L p f a /\
  forall j, (j <= p)%nat -> Rabs (a j) <= INR (binom p j) /\ Rabs (a j) <= INR (binom p (p - j)).
Proof.
  intros L f Hf p. induction p as [|p (a & Ha & B)].
  - exists (fun _ => 1). split.
    + split; [reflexivity|]. intros i Hi. lia.
    + intros j Hj. assert (j = O) as -> by lia. cbn. rewrite Rabs_pos_eq; lra.
  - pose proof (normal_positive L p f a Hf Ha) as E0. destruct (next_normal L p f a E0 Ha) as (N & _). pose proof (next_small L p f a Hf Ha) as K.
    exists (next L p f a). split; [exact N|]. intros j Hj. unfold next.
    assert (T : forall u v m n, Rabs u <= m -> Rabs v <= n -> Rabs (u + next_k L p f a * v) <= m + n).
    { intros u v m n U V. eapply Rle_trans; [apply Rabs_triang|]. rewrite Rabs_mult. pose proof (Rabs_pos v). pose proof (Rabs_pos (next_k L p f a)).
      assert (Rabs (next_k L p f a) * Rabs v <= 1 * n) by (apply Rmult_le_compat; lra). lra. }
    destruct j as [|j].
    + cbn [Nat.leb]. rewrite Rmult_0_r, Rplus_0_r, Nat.sub_0_r, binom_full. destruct (B O ltac:(lia)) as (B1 & _). rewrite binom_O in *. split; exact B1.
    + change (Nat.leb 1 (S j)) with true. cbv iota. change (binom (S p) (S j)) with (binom p j + binom p (S j))%nat. destruct (B (S p - S j)%nat ltac:(lia)) as (B1 & B2). replace (p - (S p - S j))%nat with j in B2 by lia.
      destruct (Nat.eq_dec j p) as [->|Hne].
      * destruct (Nat.leb_spec (S p) p); [lia|]. replace (S p - S p)%nat with O in * by lia. rewrite Rplus_0_l. rewrite binom_full, (binom_high p (S p)), Nat.add_0_r by lia.
        rewrite !binom_O in *. destruct Ha as (A0 & _). rewrite A0, Rmult_1_r in *. change (INR 1) with 1. split; lra.
      * destruct (Nat.leb_spec (S j) p); [|lia]. destruct (B (S j) ltac:(lia)) as (B3 & B4). split.
        -- rewrite plus_INR, Rplus_comm, (Rplus_comm (INR (binom p j))). rewrite Rplus_comm. apply T; assumption.
        -- replace (S p - S j)%nat with (S (p - S j)) in * by lia. cbn [binom]. rewrite plus_INR. apply T; assumption.
Qed.
Lemma normal_binomial : forall L p f a, sounding L f -> normal_equations L p f a -> forall j, (j <= p)%nat -> Rabs (a j) <= INR (binom p j).
Proof. intros L p f a Hf Ha j Hj. destruct (levinson L f Hf p) as (b & Hb & B). rewrite (normal_unique L p f b a Hf Hb Ha j Hj). apply B. exact Hj. Qed.
Lemma normal_step : forall L p f a b, sounding L f -> normal_equations L p f a -> normal_equations L (S p) f b ->
  exists k, Rabs k < 1 /\ b (S p) = k /\ (forall j, (1 <= j <= p)%nat -> b j = a j + k * a (S p - j)%nat) /\
    residual_energy L (S p) f b = (1 - k ^ 2) * residual_energy L p f a.
Proof.
  intros L p f a b Hf Ha Hb. pose proof (normal_positive L p f a Hf Ha) as E0. destruct (next_normal L p f a E0 Ha) as (N & E1).
  pose proof (normal_unique L (S p) f _ b Hf N Hb) as U. exists (next_k L p f a). split; [apply next_small; assumption|]. split; [|split].
  - rewrite U by lia. unfold next. destruct (Nat.leb_spec (S p) p); [lia|]. cbn [Nat.leb]. rewrite Nat.sub_diag. destruct Ha as (A0 & _). rewrite A0. ring.
  - intros j Hj. rewrite U by lia. unfold next. destruct (Nat.leb_spec j p); [|lia]. destruct j as [|j]; [lia|]. reflexivity.
  - rewrite <- E1. unfold residual_energy. apply bigsum_ext. intros t _. f_equal. unfold residual. apply bigsum_ext. intros j Hj. rewrite U by lia. reflexivity.
Qed.
Lemma binom_sum : forall n, bigsum (S n) (fun k => INR (binom n k)) = 2 ^ n.
Proof.
  induction n as [|n IH]; [cbn; lra|]. rewrite bigsum_S_l. cbn [binom]. rewrite (bigsum_ext (S n) _ (fun i => INR (binom n i) + INR (binom n (S i)))) by (intros; apply plus_INR).
  rewrite bigsum_plus, IH. rewrite (bigsum_S n), (binom_high n (S n)) by lia. pose proof IH as IH2. rewrite bigsum_S_l, binom_O in IH2. change (INR 0) with 0. change (INR 1) with 1 in *. rewrite <- tech_pow_Rmult. lra.
Qed.
Lemma coded_bound : forall p a m, (forall j, (j <= p)%nat -> Rabs (a j) <= INR (binom p j)) -> (1 <= m <= p)%nat -> Rabs (coded_cepstrum a m) <= 2 ^ p - 1.
Proof.
  intros p a m B Hm. unfold coded_cepstrum. eapply Rle_trans; [apply Rabs_triang|].
  assert (T : Rabs (bigsum (m - 1) (fun k => INR (S k) / INR m * a (m - S k)%nat)) <= bigsum (m - 1) (fun k => INR (binom p (S k)))).
  { eapply Rle_trans; [apply bigsum_Rabs|].
    apply Rle_trans with (bigsum (m - 1) (fun k => INR (binom p (m - S k)))).
    - apply bigsum_le. intros k Hk. rewrite Rabs_mult. rewrite <- (Rmult_1_l (INR (binom p (m - S k)))). apply Rmult_le_compat; try apply Rabs_pos; [|apply B; lia].
      assert (0 < INR m) by (apply lt_0_INR; lia). rewrite Rabs_pos_eq by (apply Rmult_le_pos; [apply pos_INR|left; apply Rinv_0_lt_compat; assumption]).
      apply Rmult_le_reg_r with (INR m); [assumption|]. unfold Rdiv. rewrite Rmult_assoc, Rinv_l, Rmult_1_r, Rmult_1_l by lra. apply le_INR. lia.
    - right. destruct (m - 1)%nat as [|q] eqn:Q; [reflexivity|]. rewrite <- (bigsum_rev q (fun k => INR (binom p (S k)))). apply bigsum_ext. intros k Hk. f_equal. f_equal. lia. }
  pose proof (B m ltac:(lia)) as B1. pose proof (binom_sum p) as S1. rewrite bigsum_S_l, binom_O in S1. change (INR 1) with 1 in S1.
  assert (S2 : bigsum m (fun k => INR (binom p (S k))) <= bigsum p (fun k => INR (binom p (S k)))).
  { assert (G : forall d, bigsum m (fun k => INR (binom p (S k))) <= bigsum (m + d) (fun k => INR (binom p (S k)))).
    { induction d as [|d IHd]; [rewrite Nat.add_0_r; lra|]. rewrite Nat.add_succ_r, bigsum_S. pose proof (pos_INR (binom p (S (m + d)))). lra. }
    specialize (G (p - m)%nat). replace (m + (p - m))%nat with p in G by lia. exact G. }
  destruct m as [|m']; [lia|]. rewrite bigsum_S in S2. replace (S m' - 1)%nat with m' in * by lia. lra.
Qed.
Lemma normal_decreasing : forall L f, sounding L f -> forall p q a b, (p <= q)%nat -> normal_equations L p f a -> normal_equations L q f b ->
  residual_energy L q f b <= residual_energy L p f a.
Proof.
  intros L f Hf p q a b Hq Ha. revert b. induction Hq as [|q Hq IH]; intros b Hb.
  - apply normal_minimal; [exact Hb|apply Ha].
  - destruct (levinson L f Hf q) as (c & Hc & _). specialize (IH c Hc). destruct (normal_step L q f c b Hf Hc Hb) as (k & K1 & _ & _ & ->).
    eapply Rle_trans; [|exact IH]. rewrite <- (Rmult_1_l (residual_energy L q f c)) at 2. apply Rmult_le_compat_r; [apply bigsum_nonneg; intros; apply pow2_ge_0|]. pose proof (pow2_ge_0 k). lra.
Qed.
