(** * Facts about Gaussian elimination, autocorrelation and linear prediction *)
From Coq Require Import Reals ZArith List String Bool Lia Lra Psatz.
From Verif Require Import Base BaseFacts SpecBase SpecMat BigSum MatFacts LinAlg SpecLpc.
Import ListNotations.
Local Open Scope R_scope.

(** ** Gaussian elimination *)
Lemma swap0_lt : forall n p i, (p < S n)%nat -> (i < S n)%nat -> (swap0 p i < S n)%nat.
Proof. intros. unfold swap0. destruct (Nat.eqb i 0); [assumption|]. destruct (Nat.eqb i p); lia. Qed.
Lemma swap0_invol : forall p i, swap0 p (swap0 p i) = i.
Proof.
  intros. unfold swap0. destruct (Nat.eqb_spec i 0) as [->|H0].
  - destruct (Nat.eqb_spec p 0) as [->|Hp]; [reflexivity|]. rewrite Nat.eqb_refl. reflexivity.
  - destruct (Nat.eqb_spec i p) as [->|Hp]; [rewrite Nat.eqb_refl; reflexivity|].
    destruct (Nat.eqb_spec i 0); [contradiction|]. destruct (Nat.eqb_spec i p); [contradiction|]. reflexivity.
Qed.
Lemma forall_swap : forall n p (P : nat -> Prop), (p < S n)%nat ->
  (forall i, (i < S n)%nat -> P (swap0 p i)) -> forall i, (i < S n)%nat -> P i.
Proof. intros n p P Hp H i Hi. rewrite <- (swap0_invol p i). apply H. apply swap0_lt; auto. Qed.

Lemma find_pivot_some : forall n (A : nat -> nat -> R) p,
  find (fun i => negb (Reqb (A i O) 0)) (seq 0 n) = Some p -> (p < n)%nat /\ A p O <> 0.
Proof.
  intros n A p H. apply find_some in H as [H1 H2]. apply in_seq in H1. split; [lia|].
  intro E. rewrite E, Reqb_refl in H2. discriminate.
Qed.
Lemma find_pivot_none : forall n (A : nat -> nat -> R),
  find (fun i => negb (Reqb (A i O) 0)) (seq 0 n) = None -> forall i, (i < n)%nat -> A i O = 0.
Proof.
  intros n A H i Hi. pose proof (find_none _ _ H i) as K. cbv beta in K.
  destruct (Req_EM_T (A i O) 0) as [E|E]; [exact E|].
  rewrite Reqb_false in K by exact E. assert (In i (seq 0 n)) by (apply in_seq; lia).
  specialize (K H0). discriminate.
Qed.

(** the reduced system is equivalent to the full one *)
Lemma eliminate : forall m (A : nat -> nat -> R) (b x : nat -> R), A O O <> 0 ->
  ((forall i, (i < S m)%nat -> bigsum (S m) (fun j => A i j * x j) = b i) <->
   (x O = (b O - bigsum m (fun j => A O (S j) * x (S j))) / A O O /\
    forall i, (i < m)%nat ->
      bigsum m (fun j => (A (S i) (S j) - A (S i) O / A O O * A O (S j)) * x (S j))
      = b (S i) - A (S i) O / A O O * b O)).
Proof.
  intros m A b x Hp.
  assert (E : forall i, bigsum m (fun j => (A (S i) (S j) - A (S i) O / A O O * A O (S j)) * x (S j))
     = bigsum m (fun j => A (S i) (S j) * x (S j))
       - A (S i) O / A O O * bigsum m (fun j => A O (S j) * x (S j))).
  { intros. rewrite <- bigsum_scal, <- bigsum_minus. apply bigsum_ext. intros. ring. }
  split.
  - intros H.
    pose proof (H O ltac:(lia)) as H0. rewrite bigsum_S_l in H0.
    set (s := bigsum m (fun j => A O (S j) * x (S j))) in *.
    assert (Hx : x O = (b O - s) / A O O) by (rewrite <- H0; field; exact Hp).
    split; [exact Hx|]. intros i Hi. rewrite E. fold s.
    pose proof (H (S i) ltac:(lia)) as Hi'. rewrite bigsum_S_l, Hx in Hi'. rewrite <- Hi'.
    field. exact Hp.
  - intros [Hx H] i Hi. rewrite bigsum_S_l. destruct i as [|i].
    + rewrite Hx. field. exact Hp.
    + specialize (H i ltac:(lia)). rewrite E in H. rewrite Hx.
      set (s := bigsum m (fun j => A O (S j) * x (S j))) in *.
      set (t := bigsum m (fun j => A (S i) (S j) * x (S j))) in *.
      assert (Ht : t = b (S i) - A (S i) O / A O O * b O + A (S i) O / A O O * s) by lra.
      rewrite Ht. field. exact Hp.
Qed.

Lemma solve_correct : forall n A b x, solve n A b = Some x ->
  forall i, (i < n)%nat -> bigsum n (fun j => A i j * x j) = b i.
Proof.
  induction n as [|m IH]; intros A b x H i Hi; [lia|].
  cbn [solve] in H.
  destruct (find _ (seq 0 (S m))) as [p|] eqn:Ef; [|discriminate].
  apply find_pivot_some in Ef as [Hp HA]. cbv zeta in H.
  match type of H with match ?s with _ => _ end = _ => destruct s as [y|] eqn:Es; [|discriminate] end.
  injection H as <-. revert i Hi. apply (forall_swap m p); [exact Hp|].
  set (A' := fun i j => A (swap0 p i) j) in *. set (b' := fun i => b (swap0 p i)) in *.
  assert (HA' : A' O O <> 0) by exact HA.
  apply (proj2 (eliminate m A' b' _ HA')). cbv beta iota. split; [reflexivity|].
  intros i Hi. apply (IH _ _ _ Es i Hi).
Qed.

Lemma solve_unique : forall n A b x, solve n A b = Some x ->
  forall y, (forall i, (i < n)%nat -> bigsum n (fun j => A i j * y j) = b i) ->
  forall i, (i < n)%nat -> y i = x i.
Proof.
  induction n as [|m IH]; intros A b x H y Hy i Hi; [lia|].
  cbn [solve] in H.
  destruct (find _ (seq 0 (S m))) as [p|] eqn:Ef; [|discriminate].
  apply find_pivot_some in Ef as [Hp HA]. cbv zeta in H.
  match type of H with match ?s with _ => _ end = _ => destruct s as [z|] eqn:Es; [|discriminate] end.
  injection H as <-.
  set (A' := fun i j => A (swap0 p i) j) in *. set (b' := fun i => b (swap0 p i)) in *.
  assert (HA' : A' O O <> 0) by exact HA.
  assert (K : forall i, (i < S m)%nat -> bigsum (S m) (fun j => A' i j * y j) = b' i)
    by (intros; apply Hy; apply swap0_lt; auto).
  apply (proj1 (eliminate m A' b' y HA')) in K as [K1 K2].
  pose proof (IH _ _ _ Es (fun j => y (S j)) K2) as Hyz.
  destruct i as [|i].
  - rewrite K1. f_equal. f_equal. apply bigsum_ext. intros. rewrite Hyz by assumption. reflexivity.
  - apply Hyz. lia.
Qed.

Lemma solve_none : forall n A b, solve n A b = None ->
  exists v, (exists i, (i < n)%nat /\ v i <> 0) /\
            forall i, (i < n)%nat -> bigsum n (fun j => A i j * v j) = 0.
Proof.
  induction n as [|m IH]; intros A b H; [discriminate|].
  cbn [solve] in H.
  destruct (find _ (seq 0 (S m))) as [p|] eqn:Ef.
  - apply find_pivot_some in Ef as [Hp HA]. cbv zeta in H.
    match type of H with match ?s with _ => _ end = _ => destruct s as [z|] eqn:Es; [discriminate|] end.
    set (A' := fun i j => A (swap0 p i) j) in *.
    assert (HA' : A' O O <> 0) by exact HA.
    apply IH in Es as (v & (i0 & Hi0 & Hv) & Hk).
    set (w := fun i => match i with
                       | O => (0 - bigsum m (fun j => A' O (S j) * v j)) / A' O O
                       | S j => v j end).
    exists w. split; [exists (S i0); split; [lia|exact Hv]|].
    apply (forall_swap m p); [exact Hp|].
    change (forall i, (i < S m)%nat -> bigsum (S m) (fun j => A' i j * w j) = (fun _ => 0) i).
    apply (proj2 (eliminate m A' (fun _ => 0) w HA')). split; [reflexivity|].
    intros i Hi. rewrite Rmult_0_r, Rminus_0_r. apply Hk. exact Hi.
  - pose proof (find_pivot_none _ _ Ef) as Hz.
    exists (fun i => if Nat.eqb i 0 then 1 else 0). split.
    + exists O. split; [lia|]. cbn. lra.
    + intros i Hi. rewrite bigsum_S_l. cbn [Nat.eqb]. rewrite Hz by exact Hi.
      rewrite (bigsum_zero m); [ring|]. intros. ring.
Qed.

Lemma solve_indep : forall n A b b', solve n A b = None -> solve n A b' = None.
Proof.
  intros n A b b' H. apply solve_none in H as (v & (i0 & Hi0 & Hv) & Hk).
  destruct (solve n A b') as [x|] eqn:E; [|reflexivity]. exfalso.
  pose proof (solve_correct _ _ _ _ E) as Hx. pose proof (solve_unique _ _ _ _ E) as Hu.
  apply Hv. assert (K : x i0 + v i0 = x i0); [|lra].
  apply (Hu (fun i => x i + v i)); [|exact Hi0]. intros i Hi.
  rewrite (bigsum_ext n _ (fun j => A i j * x j + A i j * v j)) by (intros; ring).
  rewrite bigsum_plus, Hx, Hk by exact Hi. ring.
Qed.

(** ** inverses *)
Lemma sequence_some : forall A B (g : A -> option B) (h : A -> B) l,
  (forall x, In x l -> g x = Some (h x)) -> sequence (map g l) = Some (map h l).
Proof.
  induction l as [|x t IH]; intros H; [reflexivity|]. cbn [map sequence].
  rewrite (H x) by (left; reflexivity). rewrite IH by (intros; apply H; right; assumption). reflexivity.
Qed.
Lemma sequence_none : forall A B (g : A -> option B) l x, In x l -> g x = None -> sequence (map g l) = None.
Proof.
  induction l as [|y t IH]; intros x Hx Hg; [destruct Hx|]. cbn [map sequence].
  destruct Hx as [->|Hx]; [rewrite Hg; reflexivity|].
  destruct (g y); [|reflexivity]. rewrite (IH _ Hx Hg). reflexivity.
Qed.

Lemma fmat_finiteb : forall r c m, forallb (forallb finiteb) (fmat r c m) = true.
Proof.
  intros. apply forallb_forall. intros row Hr. unfold fmat in Hr. apply in_map_iff in Hr as (i & <- & _).
  apply forallb_forall. intros v Hv. unfold fvec in Hv. apply in_map_iff in Hv as (j & <- & _). reflexivity.
Qed.

Lemma solve_ext : forall n A A' b b',
  (forall i j, (i < n)%nat -> (j < n)%nat -> A i j = A' i j) -> (forall i, (i < n)%nat -> b i = b' i) ->
  match solve n A b, solve n A' b' with
  | Some x, Some y => forall i, (i < n)%nat -> x i = y i
  | None, None => True
  | _, _ => False
  end.
Proof.
  intros n A A' b b' HA Hb.
  assert (Hs : forall i x, (i < n)%nat -> bigsum n (fun j => A i j * x j) = bigsum n (fun j => A' i j * x j)).
  { intros. apply bigsum_ext. intros. rewrite HA by assumption. reflexivity. }
  destruct (solve n A b) as [x|] eqn:E; destruct (solve n A' b') as [y|] eqn:E'; auto.
  - apply (solve_unique _ _ _ _ E'). intros i Hi. rewrite <- Hs, <- Hb by assumption.
    apply (solve_correct _ _ _ _ E); assumption.
  - apply solve_none in E' as (v & (i0 & Hi0 & Hv) & Hk).
    apply Hv. pose proof (solve_unique _ _ _ _ E (fun i => x i + v i)) as Hu.
    assert (K : x i0 + v i0 = x i0); [|lra]. apply Hu; [|exact Hi0]. intros i Hi.
    rewrite (bigsum_ext n _ (fun j => A i j * x j + A i j * v j)) by (intros; ring).
    rewrite bigsum_plus, (solve_correct _ _ _ _ E i Hi), Hs, Hk by exact Hi. ring.
  - apply solve_none in E as (v & (i0 & Hi0 & Hv) & Hk).
    apply Hv. pose proof (solve_unique _ _ _ _ E' (fun i => y i + v i)) as Hu.
    assert (K : y i0 + v i0 = y i0); [|lra]. apply Hu; [|exact Hi0]. intros i Hi.
    rewrite (bigsum_ext n _ (fun j => A' i j * y j + A' i j * v j)) by (intros; ring).
    rewrite bigsum_plus, (solve_correct _ _ _ _ E' i Hi), <- Hs, Hk by exact Hi. ring.
Qed.

(** a matrix with trivial kernel is inverted: the product with the inverse solves the system *)
Lemma linalg_inv_regular : forall n A, (0 < n)%nat ->
  (forall v, (forall i, (i < n)%nat -> bigsum n (fun j => A i j * v j) = 0) -> forall i, (i < n)%nat -> v i = 0) ->
  exists B, linalg_inv (fmat n n A) = Ok (fmat n n B) /\
    forall b i, (i < n)%nat ->
      bigsum n (fun j => A i j * bigsum n (fun k => B j k * b k)) = b i.
Proof.
  intros n A Hn HA.
  set (e := fun k i => if Nat.eqb i k then 1 else 0 : R).
  assert (Hsome : forall A' k, (forall i j, (i < n)%nat -> (j < n)%nat -> A' i j = A i j) ->
             exists x, solve n A' (e k) = Some x).
  { intros A' k HE. destruct (solve n A' (e k)) as [x|] eqn:Es; [eauto|]. exfalso.
    apply solve_none in Es as (v & (i0 & Hi0 & Hv) & Hk). apply Hv. apply HA; [|exact Hi0].
    intros i Hi. rewrite <- (Hk i Hi). apply bigsum_ext. intros. rewrite HE by assumption. reflexivity. }
  unfold linalg_inv. rewrite fmat_finiteb, fmat_length. cbn [negb].
  destruct (Nat.eqb_spec n 0) as [E|_]; [lia|].
  set (A' := fun i j => toR (nth j (nth i (fmat n n A) []) NaN)).
  assert (HE : forall i j, (i < n)%nat -> (j < n)%nat -> A' i j = A i j).
  { intros. unfold A'. rewrite fmat_nth, fvec_nth by assumption. reflexivity. }
  set (B := fun i k => match solve n A' (e k) with Some x => x i | None => 0 end).
  rewrite (sequence_some _ _ _ (fun k i => B i k)).
  2:{ intros k _. cbv beta. fold (e k). destruct (Hsome A' k HE) as [x Hx]. rewrite Hx. f_equal.
      unfold B. rewrite Hx. reflexivity. }
  exists B. split.
  - f_equal. unfold fmat, fvec. apply map_ext. intros i. rewrite map_map. reflexivity.
  - intros b i Hi.
    rewrite (bigsum_ext n _ (fun j => bigsum n (fun k => A i j * B j k * b k))).
    2:{ intros. rewrite <- bigsum_scal. apply bigsum_ext. intros. ring. }
    rewrite bigsum_swap.
    rewrite (bigsum_ext n _ (fun k => if Nat.eqb k i then b k else 0)).
    2:{ intros k Hk. rewrite bigsum_scal_r.
        destruct (Hsome A' k HE) as [x Hx].
        rewrite (bigsum_ext n _ (fun j => A' i j * x j)).
        2:{ intros. rewrite HE by assumption. unfold B. rewrite Hx. reflexivity. }
        rewrite (solve_correct _ _ _ _ Hx i Hi). unfold e.
        destruct (Nat.eqb_spec i k); destruct (Nat.eqb_spec k i); try lia; subst; ring. }
    rewrite bigsum_delta by exact Hi. reflexivity.
Qed.

Lemma linalg_inv_singular : forall n A v, (exists i, (i < n)%nat /\ v i <> 0) ->
  (forall i, (i < n)%nat -> bigsum n (fun j => A i j * v j) = 0) ->
  linalg_inv (fmat n n A) = Raise LinAlgError.
Proof.
  intros n A v (i0 & Hi0 & Hv) Hk.
  unfold linalg_inv. rewrite fmat_finiteb, fmat_length. cbn [negb].
  destruct (Nat.eqb_spec n 0) as [E|_]; [lia|].
  set (A' := fun i j => toR (nth j (nth i (fmat n n A) []) NaN)).
  assert (HE : forall i j, (i < n)%nat -> (j < n)%nat -> A' i j = A i j).
  { intros. unfold A'. rewrite fmat_nth, fvec_nth by assumption. reflexivity. }
  rewrite (sequence_none _ _ _ (seq 0 n) i0); [reflexivity|apply in_seq; lia|].
  cbv beta. destruct (solve n A' _) as [x|] eqn:E; [|reflexivity]. exfalso. apply Hv.
  pose proof (solve_unique _ _ _ _ E (fun i => x i + v i)) as Hu.
  assert (K : x i0 + v i0 = x i0); [|lra]. apply Hu; [|exact Hi0]. intros i Hi.
  rewrite (bigsum_ext n _ (fun j => A' i j * x j + A' i j * v j)) by (intros; ring).
  rewrite bigsum_plus, (solve_correct _ _ _ _ E i Hi).
  rewrite (bigsum_ext n (fun j => A' i j * v j) (fun j => A i j * v j)) by (intros; rewrite HE by assumption; reflexivity).
  rewrite Hk by exact Hi. ring.
Qed.
