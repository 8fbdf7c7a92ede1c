(** * The orthonormal cosine transforms *)
From Coq Require Import Reals ZArith List String Bool Lia Lra Psatz.
From Verif Require Import Base BaseFacts SpecBase SpecMat SpecFeatures BigSum MatFacts Fourier.
Import ListNotations.
Local Open Scope R_scope.

(** ** trigonometric sums *)
Lemma dirichlet : forall N a,
  2 * sin (a / 2) * bigsum N (fun k => cos (INR k * a)) = sin ((INR N - 1 / 2) * a) + sin (a / 2).
Proof.
  induction N; intros a.
  - simpl. replace ((0 - 1 / 2) * a) with (- (a / 2)) by field. rewrite sin_neg. ring.
  - rewrite bigsum_S, Rmult_plus_distr_l, IHN, S_INR.
    replace ((INR N + 1 - 1 / 2) * a) with (INR N * a + a / 2) by field.
    replace ((INR N - 1 / 2) * a) with (INR N * a - a / 2) by field.
    rewrite sin_plus, sin_minus. ring.
Qed.
Lemma odd_cosines : forall N b,
  2 * sin b * bigsum N (fun k => cos ((2 * INR k + 1) * b)) = sin (2 * INR N * b).
Proof.
  induction N; intros b.
  - simpl. replace (2 * 0 * b) with 0 by ring. rewrite sin_0. ring.
  - rewrite bigsum_S, Rmult_plus_distr_l, IHN, S_INR.
    replace (2 * (INR N + 1) * b) with ((2 * INR N + 1) * b + b) by ring.
    replace (2 * INR N * b) with ((2 * INR N + 1) * b - b) by ring.
    rewrite sin_plus, sin_minus. ring.
Qed.
Lemma sin_IZR_PI : forall p, sin (IZR p * PI) = 0.
Proof. intros. apply sin_eq_0_1. exists p. auto. Qed.

Lemma sin_half_neq : forall p N, (0 < N)%nat -> (0 < Z.abs p < 2 * Z.of_nat N)%Z -> sin (PI * IZR p / INR N / 2) <> 0.
Proof.
  intros p N HN Hp. assert (HN' : 0 < INR N) by (apply lt_0_INR; auto). pose proof PI_RGT_0.
  assert (P : forall q, (0 < q < 2 * Z.of_nat N)%Z -> 0 < sin (PI * IZR q / INR N / 2)).
  { intros q [Hq1 Hq2]. apply IZR_lt in Hq1, Hq2. rewrite mult_IZR, <- INR_IZR_INZ in Hq2.
    apply sin_gt_0.
    - apply Rdiv_lt_0_compat; [|lra]. apply Rdiv_lt_0_compat; auto. apply Rmult_lt_0_compat; auto.
    - apply Rmult_lt_reg_r with (2 * INR N); [lra|].
      replace (PI * IZR q / INR N / 2 * (2 * INR N)) with (PI * IZR q) by (field; lra).
      apply Rmult_lt_compat_l; auto. }
  destruct (Z_lt_le_dec p 0).
  - specialize (P (- p)%Z ltac:(lia)). rewrite opp_IZR in P.
    replace (PI * - IZR p / INR N / 2) with (- (PI * IZR p / INR N / 2)) in P by (field; lra).
    rewrite sin_neg in P. lra.
  - specialize (P p ltac:(lia)). lra.
Qed.

Definition Seven (N : nat) (p : Z) : R := bigsum N (fun k => cos (INR k * (PI * IZR p / INR N))).
Lemma Seven_0 : forall N, Seven N 0 = INR N.
Proof.
  intros. unfold Seven. rewrite (bigsum_const' N 1); [ring|]. intros.
  replace (INR i * (PI * 0 / INR N)) with 0 by (unfold Rdiv; ring). apply cos_0.
Qed.
Lemma Seven_gen : forall N p, (0 < N)%nat -> (0 < Z.abs p < 2 * Z.of_nat N)%Z ->
  2 * Seven N p = 1 - cos (IZR p * PI).
Proof.
  intros N p HN Hp. pose proof (sin_half_neq p N HN Hp) as Hs.
  assert (HN' : 0 < INR N) by (apply lt_0_INR; auto).
  pose proof (dirichlet N (PI * IZR p / INR N)) as D. fold (Seven N p) in D.
  replace ((INR N - 1 / 2) * (PI * IZR p / INR N)) with (IZR p * PI - PI * IZR p / INR N / 2) in D by (field; lra).
  rewrite sin_minus, sin_IZR_PI in D. apply Rmult_eq_reg_l with (sin (PI * IZR p / INR N / 2)); auto. lra.
Qed.
Lemma cos_even_PI : forall q, cos (IZR (2 * q) * PI) = 1.
Proof.
  intros. pose proof (sin_IZR_PI q) as H.
  replace (IZR (2 * q) * PI) with (2 * (IZR q * PI)) by (rewrite mult_IZR; ring).
  rewrite cos_2a_sin, H. ring.
Qed.
Lemma cos_odd_PI : forall q, cos (IZR (2 * q + 1) * PI) = -1.
Proof.
  intros. replace (IZR (2 * q + 1) * PI) with (IZR (2 * q) * PI + PI) by (rewrite plus_IZR; ring).
  rewrite neg_cos, cos_even_PI. ring.
Qed.
Lemma Seven_even : forall N p, (0 < N)%nat -> (0 < Z.abs p < 2 * Z.of_nat N)%Z -> Z.even p = true -> Seven N p = 0.
Proof.
  intros N p HN Hp He. pose proof (Seven_gen N p HN Hp) as E. apply Z.even_spec in He as [q ->].
  rewrite cos_even_PI in E. lra.
Qed.
Lemma Seven_odd : forall N p, (0 < N)%nat -> (0 < Z.abs p < 2 * Z.of_nat N)%Z -> Z.odd p = true -> Seven N p = 1.
Proof.
  intros N p HN Hp He. pose proof (Seven_gen N p HN Hp) as E. apply Z.odd_spec in He as [q ->].
  rewrite cos_odd_PI in E. lra.
Qed.

Definition Sodd (N : nat) (p : Z) : R := bigsum N (fun k => cos ((2 * INR k + 1) * (PI * IZR p / (2 * INR N)))).
Lemma Sodd_0 : forall N, Sodd N 0 = INR N.
Proof.
  intros. unfold Sodd. rewrite (bigsum_const' N 1); [ring|]. intros.
  replace ((2 * INR i + 1) * (PI * 0 / (2 * INR N))) with 0 by (unfold Rdiv; ring). apply cos_0.
Qed.
Lemma Sodd_nz : forall N p, (0 < N)%nat -> (0 < Z.abs p < 2 * Z.of_nat N)%Z -> Sodd N p = 0.
Proof.
  intros N p HN Hp. pose proof (sin_half_neq p N HN Hp) as Hs.
  assert (HN' : 0 < INR N) by (apply lt_0_INR; auto).
  pose proof (odd_cosines N (PI * IZR p / (2 * INR N))) as D. fold (Sodd N p) in D.
  replace (2 * INR N * (PI * IZR p / (2 * INR N))) with (IZR p * PI) in D by (field; lra).
  rewrite sin_IZR_PI in D.
  replace (PI * IZR p / (2 * INR N)) with (PI * IZR p / INR N / 2) in D by (field; lra).
  destruct (Rmult_integral _ _ D) as [E|E]; auto. exfalso. apply Hs. lra.
Qed.

Lemma cos_prod : forall a b, cos a * cos b = (cos (a - b) + cos (a + b)) / 2.
Proof. intros. rewrite cos_minus, cos_plus. field. Qed.
Lemma sqrt_sq_div : forall a b, 0 <= a -> 0 < b -> sqrt (a / b) * sqrt (a / b) = a / b.
Proof. intros. apply sqrt_sqrt. apply Rmult_le_pos; auto. left. apply Rinv_0_lt_compat; auto. Qed.

(** ** column orthonormality *)
Definition delta (n m : nat) : R := if Nat.eqb n m then 1 else 0.

Lemma ortho2 : forall N n m, (n < N)%nat -> (m < N)%nat ->
  bigsum N (fun k => spec_dct_entry 2 N k n * spec_dct_entry 2 N k m) = delta n m.
Proof.
  intros N n m Hn Hm. assert (HN : (0 < N)%nat) by lia. assert (HN' : 0 < INR N) by (apply lt_0_INR; auto).
  unfold spec_dct_entry. cbn [Z.eqb Pos.eqb].
  rewrite (bigsum_ext N _ (fun k => 1 / INR N * (cos (INR k * (PI * IZR (Z.of_nat n - Z.of_nat m) / INR N))
      + cos (INR k * (PI * IZR (Z.of_nat n + Z.of_nat m + 1) / INR N)) - (if Nat.eqb k 0 then 1 else 0)))).
  - rewrite bigsum_scal, bigsum_minus, bigsum_plus. fold (Seven N (Z.of_nat n - Z.of_nat m)) (Seven N (Z.of_nat n + Z.of_nat m + 1)).
    rewrite (bigsum_delta N 0 (fun _ => 1)) by auto. unfold delta. destruct (Nat.eqb_spec n m) as [->|Hne].
    + rewrite Z.sub_diag, Seven_0, Seven_odd; [field; lra|auto|lia|].
      replace (Z.of_nat m + Z.of_nat m + 1)%Z with (2 * Z.of_nat m + 1)%Z by lia. apply Z.odd_spec. exists (Z.of_nat m). auto.
    + destruct (Z.even (Z.of_nat n - Z.of_nat m)) eqn:Ev.
      * rewrite Seven_even by (auto; lia). rewrite Seven_odd; [ring|auto|lia|].
        apply Z.even_spec in Ev as [q Eq]. apply Z.odd_spec. exists (q + Z.of_nat m)%Z. lia.
      * rewrite Seven_odd by (try lia; rewrite <- Z.negb_even, Ev; auto).
        rewrite Seven_even; [ring|auto|lia|].
        assert (Od : Z.odd (Z.of_nat n - Z.of_nat m) = true) by (rewrite <- Z.negb_even, Ev; auto).
        apply Z.odd_spec in Od as [q Eq]. apply Z.even_spec. exists (q + Z.of_nat m + 1)%Z. lia.
  - intros k Hk.
    replace (INR k * (PI * IZR (Z.of_nat n - Z.of_nat m) / INR N))
      with (PI * INR k * (2 * INR n + 1) / (2 * INR N) - PI * INR k * (2 * INR m + 1) / (2 * INR N))
      by (rewrite minus_IZR, <- !INR_IZR_INZ; field; lra).
    replace (INR k * (PI * IZR (Z.of_nat n + Z.of_nat m + 1) / INR N))
      with (PI * INR k * (2 * INR n + 1) / (2 * INR N) + PI * INR k * (2 * INR m + 1) / (2 * INR N))
      by (rewrite !plus_IZR, <- !INR_IZR_INZ; field; lra).
    set (A := PI * INR k * (2 * INR n + 1) / (2 * INR N)). set (B := PI * INR k * (2 * INR m + 1) / (2 * INR N)).
    pose proof (cos_prod A B) as P.
    destruct (Nat.eqb_spec k 0) as [->|].
    + assert (A = 0) by (unfold A; simpl; field; lra). assert (B = 0) by (unfold B; simpl; field; lra).
      rewrite H, H0, Rminus_0_r, Rplus_0_r, cos_0.
      replace (sqrt (1 / INR N) * 1 * (sqrt (1 / INR N) * 1)) with (sqrt (1 / INR N) * sqrt (1 / INR N)) by ring.
      rewrite sqrt_sq_div by lra. field; lra.
    + replace (sqrt (2 / INR N) * cos A * (sqrt (2 / INR N) * cos B))
        with (sqrt (2 / INR N) * sqrt (2 / INR N) * (cos A * cos B)) by ring.
      rewrite sqrt_sq_div, P by lra. field; lra.
Qed.

Lemma ortho3 : forall N n m, (n < N)%nat -> (m < N)%nat ->
  bigsum N (fun k => spec_dct_entry 3 N k n * spec_dct_entry 3 N k m) = delta n m.
Proof.
  intros N n m Hn Hm. assert (HN : (0 < N)%nat) by lia. assert (HN' : 0 < INR N) by (apply lt_0_INR; auto).
  unfold spec_dct_entry. cbn [Z.eqb Pos.eqb].
  set (sn := sqrt ((if Nat.eqb n 0 then 1 else 2) / INR N)). set (sm := sqrt ((if Nat.eqb m 0 then 1 else 2) / INR N)).
  rewrite (bigsum_ext N _ (fun k => sn * sm / 2 * (cos ((2 * INR k + 1) * (PI * IZR (Z.of_nat n - Z.of_nat m) / (2 * INR N)))
      + cos ((2 * INR k + 1) * (PI * IZR (Z.of_nat n + Z.of_nat m) / (2 * INR N)))))).
  - rewrite bigsum_scal, bigsum_plus. fold (Sodd N (Z.of_nat n - Z.of_nat m)) (Sodd N (Z.of_nat n + Z.of_nat m)).
    unfold delta. destruct (Nat.eqb_spec n m) as [<-|Hne].
    + rewrite Z.sub_diag, Sodd_0. assert (sm = sn) by reflexivity. rewrite H.
      unfold sn. rewrite sqrt_sq_div by (try destruct (Nat.eqb n 0); lra).
      destruct (Nat.eqb_spec n 0) as [->|].
      * simpl (Z.of_nat 0 + Z.of_nat 0)%Z. rewrite Sodd_0. field; lra.
      * rewrite Sodd_nz by lia. field; lra.
    + rewrite !Sodd_nz by lia. ring.
  - intros k Hk.
    replace ((2 * INR k + 1) * (PI * IZR (Z.of_nat n - Z.of_nat m) / (2 * INR N)))
      with (PI * INR n * (2 * INR k + 1) / (2 * INR N) - PI * INR m * (2 * INR k + 1) / (2 * INR N))
      by (rewrite minus_IZR, <- !INR_IZR_INZ; field; lra).
    replace ((2 * INR k + 1) * (PI * IZR (Z.of_nat n + Z.of_nat m) / (2 * INR N)))
      with (PI * INR n * (2 * INR k + 1) / (2 * INR N) + PI * INR m * (2 * INR k + 1) / (2 * INR N))
      by (rewrite plus_IZR, <- !INR_IZR_INZ; field; lra).
    set (A := PI * INR n * (2 * INR k + 1) / (2 * INR N)). set (B := PI * INR m * (2 * INR k + 1) / (2 * INR N)).
    pose proof (cos_prod A B) as P.
    replace (sn * cos A * (sm * cos B)) with (sn * sm * (cos A * cos B)) by ring. rewrite P. field.
Qed.

Lemma ortho4 : forall N n m, (n < N)%nat -> (m < N)%nat ->
  bigsum N (fun k => spec_dct_entry 4 N k n * spec_dct_entry 4 N k m) = delta n m.
Proof.
  intros N n m Hn Hm. assert (HN : (0 < N)%nat) by lia. assert (HN' : 0 < INR N) by (apply lt_0_INR; auto).
  unfold spec_dct_entry. cbn [Z.eqb Pos.eqb].
  rewrite (bigsum_ext N _ (fun k => 1 / INR N * (cos ((2 * INR k + 1) * (PI * IZR (Z.of_nat n - Z.of_nat m) / (2 * INR N)))
      + cos ((2 * INR k + 1) * (PI * IZR (Z.of_nat n + Z.of_nat m + 1) / (2 * INR N)))))).
  - rewrite bigsum_scal, bigsum_plus. fold (Sodd N (Z.of_nat n - Z.of_nat m)) (Sodd N (Z.of_nat n + Z.of_nat m + 1)).
    rewrite (Sodd_nz N (Z.of_nat n + Z.of_nat m + 1)) by lia.
    unfold delta. destruct (Nat.eqb_spec n m) as [<-|Hne].
    + rewrite Z.sub_diag, Sodd_0. field; lra.
    + rewrite Sodd_nz by lia. ring.
  - intros k Hk.
    replace ((2 * INR k + 1) * (PI * IZR (Z.of_nat n - Z.of_nat m) / (2 * INR N)))
      with (PI * (2 * INR k + 1) * (2 * INR n + 1) / (4 * INR N) - PI * (2 * INR k + 1) * (2 * INR m + 1) / (4 * INR N))
      by (rewrite minus_IZR, <- !INR_IZR_INZ; field; lra).
    replace ((2 * INR k + 1) * (PI * IZR (Z.of_nat n + Z.of_nat m + 1) / (2 * INR N)))
      with (PI * (2 * INR k + 1) * (2 * INR n + 1) / (4 * INR N) + PI * (2 * INR k + 1) * (2 * INR m + 1) / (4 * INR N))
      by (rewrite !plus_IZR, <- !INR_IZR_INZ; field; lra).
    set (A := PI * (2 * INR k + 1) * (2 * INR n + 1) / (4 * INR N)). set (B := PI * (2 * INR k + 1) * (2 * INR m + 1) / (4 * INR N)).
    pose proof (cos_prod A B) as P.
    replace (sqrt (2 / INR N) * cos A * (sqrt (2 / INR N) * cos B))
      with (sqrt (2 / INR N) * sqrt (2 / INR N) * (cos A * cos B)) by ring.
    rewrite sqrt_sq_div, P by lra. field; lra.
Qed.

(** type 1: M = N - 1 *)
Lemma end_weight_range : forall M k, 0 < end_weight M k <= 1.
Proof. intros. unfold end_weight. destruct (_ || _)%bool; lra. Qed.
Definition Send (M : nat) (p : Z) : R := bigsum (S M) (fun k => end_weight M k * cos (INR k * (PI * IZR p / INR M))).
Lemma Send_Seven : forall M p, (0 < M)%nat -> 2 * Send M p = 2 * Seven M p + cos (IZR p * PI) - 1.
Proof.
  intros M p HM. assert (HM' : 0 < INR M) by (apply lt_0_INR; auto).
  unfold Send, Seven. rewrite bigsum_S.
  rewrite (bigsum_ext M _ (fun k => cos (INR k * (PI * IZR p / INR M)) - (if Nat.eqb k 0 then 1 / 2 else 0))).
  - rewrite bigsum_minus, (bigsum_delta M 0 (fun _ => 1 / 2)) by auto.
    unfold end_weight. rewrite Nat.eqb_refl, orb_true_r.
    replace (INR M * (PI * IZR p / INR M)) with (IZR p * PI) by (field; lra). lra.
  - intros k Hk. unfold end_weight. destruct (Nat.eqb_spec k 0) as [->|]; cbn [orb].
    + simpl INR. rewrite Rmult_0_l, cos_0. lra.
    + destruct (Nat.eqb_spec k M); [lia|]. ring.
Qed.
Lemma Send_0 : forall M, (0 < M)%nat -> Send M 0 = INR M.
Proof.
  intros M HM. pose proof (Send_Seven M 0 HM) as E. rewrite Seven_0, Rmult_0_l, cos_0 in E. lra.
Qed.
Lemma Send_full : forall M, (0 < M)%nat -> Send M (2 * Z.of_nat M) = INR M.
Proof.
  intros M HM. rewrite <- Send_0 by auto. unfold Send. apply bigsum_ext. intros k Hk. f_equal.
  assert (HM' : 0 < INR M) by (apply lt_0_INR; auto).
  rewrite mult_IZR, <- INR_IZR_INZ.
  replace (INR k * (PI * (2 * INR M) / INR M)) with (0 + 2 * INR k * PI) by (field; lra).
  rewrite cos_period. replace (INR k * (PI * 0 / INR M)) with 0 by (unfold Rdiv; ring). auto.
Qed.
Lemma Send_nz : forall M p, (0 < M)%nat -> (0 < Z.abs p < 2 * Z.of_nat M)%Z -> Send M p = 0.
Proof.
  intros M p HM Hp. pose proof (Send_Seven M p HM) as E. pose proof (Seven_gen M p HM Hp). lra.
Qed.
Lemma ortho1 : forall N n m, (2 <= N)%nat -> (n < N)%nat -> (m < N)%nat ->
  bigsum N (fun k => spec_dct_entry 1 N k n * spec_dct_entry 1 N k m) = delta n m.
Proof.
  intros N n m H2 Hn Hm. remember (N - 1)%nat as M eqn:EM. assert (HM : (0 < M)%nat) by lia.
  replace N with (S M) by lia. assert (HM' : 0 < INR M) by (apply lt_0_INR; auto).
  unfold spec_dct_entry. cbn [Z.eqb Pos.eqb]. replace (S M - 1)%nat with M by lia.
  set (sn := sqrt (end_weight M n)). set (sm := sqrt (end_weight M m)).
  rewrite (bigsum_ext (S M) _ (fun k => sn * sm / INR M * (end_weight M k * cos (INR k * (PI * IZR (Z.of_nat n - Z.of_nat m) / INR M))
      + end_weight M k * cos (INR k * (PI * IZR (Z.of_nat n + Z.of_nat m) / INR M))))).
  - rewrite bigsum_scal, bigsum_plus. fold (Send M (Z.of_nat n - Z.of_nat m)) (Send M (Z.of_nat n + Z.of_nat m)).
    unfold delta. destruct (Nat.eqb_spec n m) as [<-|Hne].
    + rewrite Z.sub_diag, Send_0 by auto. assert (E : sm = sn) by reflexivity. rewrite E.
      assert (Es : sn * sn = end_weight M n) by (unfold sn; apply sqrt_sqrt; pose proof (end_weight_range M n); lra).
      rewrite Es. unfold end_weight. destruct (Nat.eqb_spec n 0) as [->|]; cbn [orb].
      * simpl (Z.of_nat 0 + Z.of_nat 0)%Z. rewrite Send_0 by auto. field; lra.
      * destruct (Nat.eqb_spec n M) as [->|].
        -- replace (Z.of_nat M + Z.of_nat M)%Z with (2 * Z.of_nat M)%Z by lia. rewrite Send_full by auto. field; lra.
        -- rewrite Send_nz by lia. field; lra.
    + rewrite (Send_nz M (Z.of_nat n - Z.of_nat m)) by lia. rewrite (Send_nz M (Z.of_nat n + Z.of_nat m)) by lia. ring.
  - intros k Hk.
    replace (INR k * (PI * IZR (Z.of_nat n - Z.of_nat m) / INR M))
      with (PI * INR k * INR n / INR M - PI * INR k * INR m / INR M)
      by (rewrite minus_IZR, <- !INR_IZR_INZ; field; lra).
    replace (INR k * (PI * IZR (Z.of_nat n + Z.of_nat m) / INR M))
      with (PI * INR k * INR n / INR M + PI * INR k * INR m / INR M)
      by (rewrite plus_IZR, <- !INR_IZR_INZ; field; lra).
    set (A := PI * INR k * INR n / INR M). set (B := PI * INR k * INR m / INR M).
    pose proof (cos_prod A B) as P.
    replace (sqrt (2 / INR M) * sqrt (end_weight M k) * sn * cos A * (sqrt (2 / INR M) * sqrt (end_weight M k) * sm * cos B))
      with ((sqrt (2 / INR M) * sqrt (2 / INR M)) * (sqrt (end_weight M k) * sqrt (end_weight M k)) * sn * sm * (cos A * cos B)) by ring.
    rewrite sqrt_sq_div, P by lra. rewrite sqrt_sqrt by (pose proof (end_weight_range M k); lra). field; lra.
Qed.

Lemma spec_dct_ortho : forall type N n m, (1 <= type <= 4)%Z -> (type = 1%Z -> (2 <= N)%nat) ->
  (n < N)%nat -> (m < N)%nat ->
  bigsum N (fun k => spec_dct_entry type N k n * spec_dct_entry type N k m) = delta n m.
Proof.
  intros type N n m Ht H1 Hn Hm.
  assert (type = 1 \/ type = 2 \/ type = 3 \/ type = 4)%Z as [->|[->|[->| ->]]] by lia.
  - apply ortho1; auto.
  - apply ortho2; auto.
  - apply ortho3; auto.
  - apply ortho4; auto.
Qed.

(** ** energy *)
Lemma dct_inner : forall type N x y, (1 <= type <= 4)%Z -> (type = 1%Z -> (2 <= N)%nat) ->
  bigsum N (fun k => spec_dct type N x k * spec_dct type N y k) = bigsum N (fun n => x n * y n).
Proof.
  intros type N x y Ht H1. unfold spec_dct.
  rewrite (bigsum_ext N _ (fun k => bigsum N (fun n => bigsum N (fun m => x n * y m * (spec_dct_entry type N k n * spec_dct_entry type N k m))))).
  - rewrite bigsum_swap. apply bigsum_ext. intros n Hn. rewrite bigsum_swap.
    rewrite (bigsum_ext N _ (fun m => if Nat.eqb m n then x n * y m else 0)).
    + rewrite (bigsum_delta N n (fun m => x n * y m)); auto.
    + intros m Hm. rewrite bigsum_scal, spec_dct_ortho by auto. unfold delta. rewrite Nat.eqb_sym.
      destruct (Nat.eqb m n); ring.
  - intros k Hk. rewrite bigsum_mult. apply bigsum_ext. intros n Hn. apply bigsum_ext. intros m Hm. ring.
Qed.

Lemma spec_dct_linear : forall type N a b x y k,
  spec_dct type N (fun n => a * x n + b * y n) k = a * spec_dct type N x k + b * spec_dct type N y k.
Proof.
  intros. unfold spec_dct. rewrite <- !bigsum_scal, <- bigsum_plus. apply bigsum_ext. intros. ring.
Qed.
Lemma spec_dct_ext : forall type N x y k, (forall n, (n < N)%nat -> x n = y n) -> spec_dct type N x k = spec_dct type N y k.
Proof. intros. unfold spec_dct. apply bigsum_ext. intros. rewrite H by auto. auto. Qed.

Lemma spec_dct2_const : forall N c k, (k < N)%nat ->
  spec_dct 2 N (fun _ => c) k = if Nat.eqb k 0 then c * sqrt (INR N) else 0.
Proof.
  intros N c k Hk. assert (HN : (0 < N)%nat) by lia. assert (HN' : 0 < INR N) by (apply lt_0_INR; auto).
  unfold spec_dct. rewrite bigsum_scal. unfold spec_dct_entry. cbn [Z.eqb Pos.eqb]. rewrite bigsum_scal.
  rewrite (bigsum_ext N _ (fun n => cos ((2 * INR n + 1) * (PI * IZR (Z.of_nat k) / (2 * INR N))))).
  2:{ intros. f_equal. rewrite <- INR_IZR_INZ. field. lra. }
  fold (Sodd N (Z.of_nat k)). destruct (Nat.eqb_spec k 0) as [->|].
  - simpl Z.of_nat. rewrite Sodd_0. rewrite <- (sqrt_sqrt (INR N)) at 2 by lra.
    unfold Rdiv. rewrite Rmult_1_l. rewrite sqrt_inv. field.
    apply Rgt_not_eq, sqrt_lt_R0; auto.
  - rewrite Sodd_nz by lia. ring.
Qed.

(** ** the model's coefficients *)
Lemma sqrt_quarter : forall a, 0 < a -> sqrt (1 / (4 * a)) * 2 = sqrt (1 / a).
Proof.
  intros. replace (1 / a) with (1 / (4 * a) * (2 * 2)) by (field; lra).
  rewrite sqrt_mult_alt by (left; apply Rdiv_lt_0_compat; lra). rewrite sqrt_square by lra. auto.
Qed.
Lemma pow_m1_cos : forall k, (-1) ^ k = cos (PI * INR k).
Proof.
  induction k.
  - simpl. rewrite Rmult_0_r, cos_0. auto.
  - rewrite S_INR. simpl. rewrite IHk. replace (PI * (INR k + 1)) with (PI * INR k + PI) by ring.
    rewrite neg_cos. ring.
Qed.
Lemma dct_coef_eq : forall type N k n, (1 <= type <= 4)%Z -> (type = 1%Z -> (2 <= N)%nat) ->
  (k < N)%nat -> (n < N)%nat -> dct_coef type N k n = spec_dct_entry type N k n.
Proof.
  intros type N k n Ht H1 Hk Hn. assert (HN : (0 < N)%nat) by lia. assert (HN' : 0 < INR N) by (apply lt_0_INR; auto).
  assert (type = 1 \/ type = 2 \/ type = 3 \/ type = 4)%Z as [->|[->|[->| ->]]] by lia;
    unfold dct_coef, spec_dct_entry; cbn [Z.eqb Pos.eqb].
  - specialize (H1 eq_refl). set (M := (N - 1)%nat). assert (HM : (0 < M)%nat) by lia.
    assert (HM' : 0 < INR M) by (apply lt_0_INR; auto).
    assert (Hh : 0 < sqrt (1 / 2)) by (apply sqrt_lt_R0; lra).
    assert (H2 : sqrt 2 = 2 * sqrt (1 / 2)).
    { rewrite <- (sqrt_square 2) at 2 by lra. rewrite <- sqrt_mult_alt by lra. f_equal. lra. }
    assert (Ek : (if Nat.eqb k 0 || Nat.eqb k M then 0.5 * sqrt (1 / INR M) else 0.5 * sqrt (2 / INR M))
               = 1 / 2 * sqrt (2 / INR M) * sqrt (end_weight M k)).
    { unfold end_weight. destruct (Nat.eqb k 0 || Nat.eqb k M)%bool.
      - rewrite Rmult_assoc, <- sqrt_mult_alt by (apply Rmult_le_pos; [lra|left; apply Rinv_0_lt_compat; auto]).
        replace (2 / INR M * (1 / 2)) with (1 / INR M) by (field; lra). lra.
      - rewrite sqrt_1. lra. }
    rewrite Ek.
    assert (En : (if Nat.eqb n 0 then sqrt 2 else if Nat.eqb n M then sqrt 2 * (-1) ^ k else 2 * cos (PI * INR k * INR n / INR M))
               = 2 * sqrt (end_weight M n) * cos (PI * INR k * INR n / INR M)).
    { unfold end_weight. destruct (Nat.eqb_spec n 0) as [->|]; cbn [orb].
      - simpl INR. replace (PI * INR k * 0 / INR M) with 0 by (field; lra). rewrite cos_0. lra.
      - destruct (Nat.eqb_spec n M) as [->|].
        + rewrite pow_m1_cos. replace (PI * INR k * INR M / INR M) with (PI * INR k) by (field; lra). rewrite H2. ring.
        + rewrite sqrt_1. ring. }
    rewrite En. field.
  - rewrite <- Rmult_assoc. f_equal. destruct (Nat.eqb k 0).
    + apply sqrt_quarter; auto.
    + replace (1 / (2 * INR N)) with (1 / (4 * (INR N / 2))) by (field; lra). rewrite sqrt_quarter by lra.
      f_equal. field. lra.
  - destruct (Nat.eqb_spec n 0) as [->|].
    + simpl INR. replace (PI * 0 * (2 * INR k + 1) / (2 * INR N)) with 0 by (field; lra). rewrite cos_0, Rmult_1_r.
      unfold Rdiv. rewrite !Rmult_1_l, sqrt_inv. auto.
    + f_equal. f_equal. field_simplify_eq; [|lra]. lra.
  - rewrite <- Rmult_assoc. f_equal.
    assert (0 < sqrt (2 * INR N)) by (apply sqrt_lt_R0; lra).
    assert (E : 2 / INR N = (2 / sqrt (2 * INR N)) * (2 / sqrt (2 * INR N))).
    { replace (2 / sqrt (2 * INR N) * (2 / sqrt (2 * INR N))) with (4 / (sqrt (2 * INR N) * sqrt (2 * INR N))) by (field; lra).
      rewrite sqrt_sqrt by lra. field. lra. }
    rewrite E, sqrt_square; [field; lra|]. left. apply Rdiv_lt_0_compat; lra.
Qed.

Lemma dct_row_fvec : forall type N x, (1 <= type <= 4)%Z -> (type = 1%Z -> (2 <= N)%nat) ->
  dct_row type (fvec N x) = fvec N (spec_dct type N x).
Proof.
  intros type N x Ht H1. unfold dct_row. rewrite fvec_length. unfold fvec at 2. apply map_ext_in.
  intros k Hk. apply in_seq in Hk.
  change (map (fun n => Fin (dct_coef type N k n)) (seq 0 N)) with (fvec N (dct_coef type N k)).
  rewrite fdot_fvec. f_equal. unfold spec_dct. apply bigsum_ext. intros n Hn. f_equal. apply dct_coef_eq; auto; lia.
Qed.
Lemma sp_dct_fmat : forall type r N x, (1 <= type <= 4)%Z -> (0 < r)%nat -> (0 < N)%nat -> (type = 1%Z -> (2 <= N)%nat) ->
  sp_dct (fmat r N x) type = Ok (fmat r N (fun i => spec_dct type N (x i))).
Proof.
  intros type r N x Ht Hr HN H1. unfold sp_dct.
  replace ((type <? 1) || (4 <? type))%Z with false by (symmetry; apply orb_false_intro; apply Z.ltb_ge; lia).
  rewrite ncols_fmat by auto.
  replace (Nat.ltb N (if (type =? 1)%Z then 2 else 1)) with false.
  - f_equal. unfold fmat. rewrite map_map. apply map_ext. intros. apply dct_row_fvec; auto.
  - symmetry. apply Nat.ltb_ge. destruct (Z.eqb_spec type 1); auto.
Qed.

(** ** inverses *)
Lemma spec_dct_entry_T : forall t t' N k n, inverse_type t t' -> spec_dct_entry t' N k n = spec_dct_entry t N n k.
Proof.
  intros t t' N k n [[-> ->]|[[-> ->]|[[-> ->]|[-> ->]]]]; unfold spec_dct_entry; cbn [Z.eqb Pos.eqb].
  - replace (PI * INR k * INR n / INR (N - 1)) with (PI * INR n * INR k / INR (N - 1)) by (unfold Rdiv; ring). ring.
  - auto.
  - auto.
  - replace (PI * (2 * INR k + 1) * (2 * INR n + 1)) with (PI * (2 * INR n + 1) * (2 * INR k + 1)) by ring. auto.
Qed.
Lemma spec_dct_inverse : forall t t' N x n, inverse_type t t' -> (t = 1%Z -> (2 <= N)%nat) -> (n < N)%nat ->
  spec_dct t' N (spec_dct t N x) n = x n.
Proof.
  intros t t' N x n Hi H1 Hn. unfold spec_dct.
  assert (Ht : (1 <= t <= 4)%Z) by (destruct Hi as [[-> ->]|[[-> ->]|[[-> ->]|[-> ->]]]]; lia).
  rewrite (bigsum_ext N _ (fun k => bigsum N (fun m => x m * (spec_dct_entry t N k m * spec_dct_entry t N k n)))).
  - rewrite bigsum_swap. rewrite (bigsum_ext N _ (fun m => if Nat.eqb m n then x m else 0)).
    + apply bigsum_delta. auto.
    + intros m Hm. rewrite bigsum_scal, spec_dct_ortho by auto. unfold delta. destruct (Nat.eqb m n); ring.
  - intros k Hk. rewrite <- bigsum_scal_r. apply bigsum_ext. intros m Hm. rewrite (spec_dct_entry_T t t') by auto. ring.
Qed.
Lemma sp_dct_inverse : forall t t' r N x, inverse_type t t' -> (t = 1%Z -> (2 <= N)%nat) -> (0 < r)%nat -> (0 < N)%nat ->
  (do y <- sp_dct (fmat r N x) t ; sp_dct y t') = Ok (fmat r N x).
Proof.
  intros t t' r N x Hi H1 Hr HN.
  assert (Ht : (1 <= t <= 4)%Z /\ (1 <= t' <= 4)%Z /\ (t' = 1%Z -> t = 1%Z))
    by (destruct Hi as [[-> ->]|[[-> ->]|[[-> ->]|[-> ->]]]]; lia).
  rewrite sp_dct_fmat by (auto; lia). cbn [rbind]. rewrite sp_dct_fmat by (auto; try lia; intros; apply H1; apply Ht; auto).
  f_equal. apply fmat_ext. intros. apply spec_dct_inverse; auto.
Qed.
