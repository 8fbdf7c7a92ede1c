(** * Lemmas about the foundations in Base.v *)
From Coq Require Import Reals ZArith List String Bool Lia Lra Psatz Arith.
From Flocq Require Import Core.Raux.
From Verif Require Import Base.
Import ListNotations.
Local Open Scope R_scope.

(** ** Real booleans *)
Lemma Rleb_true : forall x y, x <= y -> Rleb x y = true.
Proof. intros; unfold Rleb; destruct (Rle_dec x y); auto; lra. Qed.
Lemma Rleb_false : forall x y, y < x -> Rleb x y = false.
Proof. intros; unfold Rleb; destruct (Rle_dec x y); auto; lra. Qed.
Lemma Rltb_true : forall x y, x < y -> Rltb x y = true.
Proof. intros; unfold Rltb; destruct (Rlt_dec x y); auto; lra. Qed.
Lemma Rltb_false : forall x y, y <= x -> Rltb x y = false.
Proof. intros; unfold Rltb; destruct (Rlt_dec x y); auto; lra. Qed.
Lemma Reqb_refl : forall x, Reqb x x = true.
Proof. intros; unfold Reqb; destruct (Req_EM_T x x); auto; lra. Qed.
Lemma Reqb_false : forall x y, x <> y -> Reqb x y = false.
Proof. intros; unfold Reqb; destruct (Req_EM_T x y); auto; lra. Qed.

(** ** Results *)
Lemma rbind_Ok : forall A B (r : result A) (k : A -> result B) b,
  rbind r k = Ok b -> exists a, r = Ok a /\ k a = Ok b.
Proof. intros A B [a|e] k b H; simpl in *; [eauto | discriminate]. Qed.

Ltac rinv H :=
  let a := fresh "a" in let H1 := fresh "H" in
  apply rbind_Ok in H; destruct H as [a [H1 H]].

Lemma mapM_ok_map : forall A B (f : A -> result B) (g : A -> B) l,
  (forall x, In x l -> f x = Ok (g x)) -> mapM f l = Ok (map g l).
Proof.
  induction l as [|x t IH]; intros Hf; simpl; auto.
  rewrite (Hf x) by (left; auto). simpl. rewrite IH; auto.
  intros; apply Hf; right; auto.
Qed.

Lemma mapM_ext : forall A B (f g : A -> result B) l,
  (forall x, In x l -> f x = g x) -> mapM f l = mapM g l.
Proof.
  induction l as [|x t IH]; intros Hf; simpl; auto.
  rewrite (Hf x) by (left; auto). rewrite IH; auto.
  intros; apply Hf; right; auto.
Qed.

Lemma mapM_map : forall A B C (f : B -> result C) (g : A -> B) l,
  mapM f (map g l) = mapM (fun x => f (g x)) l.
Proof. induction l; simpl; auto. rewrite IHl; auto. Qed.

Lemma mapM_length : forall A B (f : A -> result B) l ys,
  mapM f l = Ok ys -> List.length ys = List.length l.
Proof.
  induction l as [|x t IH]; intros ys H; simpl in *.
  - inversion H; auto.
  - rinv H. rinv H. inversion H; subst. simpl. rewrite (IH a0); auto.
Qed.

Lemma mapM_nth : forall A B (f : A -> result B) l ys (da : A) (db : B) i,
  mapM f l = Ok ys -> (i < List.length l)%nat -> f (nth i l da) = Ok (nth i ys db).
Proof.
  induction l as [|x t IH]; intros ys da db i H Hi; simpl in *; [lia|].
  rinv H. rinv H. inversion H; subst.
  destruct i; simpl; auto. apply IH; auto; lia.
Qed.

Lemma mapM_In : forall A B (f : A -> result B) l ys x,
  mapM f l = Ok ys -> In x l -> exists y, f x = Ok y /\ In y ys.
Proof.
  induction l as [|z t IH]; intros ys x H Hi; simpl in *; [tauto|].
  rinv H. rinv H. inversion H; subst. destruct Hi as [->|Hi].
  - eexists; split; eauto. left; auto.
  - destruct (IH _ _ H1 Hi) as [y [Hy1 Hy2]]. exists y; split; auto. right; auto.
Qed.

Lemma mapM_In_rev : forall A B (f : A -> result B) l ys y,
  mapM f l = Ok ys -> In y ys -> exists x, In x l /\ f x = Ok y.
Proof.
  induction l as [|z t IH]; intros ys y H Hi; simpl in *.
  - inversion H; subst; destruct Hi.
  - rinv H. rinv H. inversion H; subst. destruct Hi as [->|Hi]; eauto.
    destruct (IH _ _ H1 Hi) as [x [Hx1 Hx2]]; eauto.
Qed.

Lemma mapM_raise : forall A B (f : A -> result B) l e,
  mapM f l = Raise e -> exists x, In x l /\ f x = Raise e.
Proof.
  induction l as [|z t IH]; intros e H; simpl in *; [discriminate|].
  destruct (f z) eqn:E; simpl in H.
  - destruct (mapM f t) eqn:E2; simpl in H; [discriminate|].
    inversion H; subst. destruct (IH e eq_refl) as [x [? ?]]; eauto.
  - inversion H; subst; eauto.
Qed.

Lemma mapM_not_ok : forall A B (f : A -> result B) l x e,
  In x l -> f x = Raise e -> exists e', mapM f l = Raise e'.
Proof.
  induction l as [|z t IH]; intros x e Hi Hf; simpl in *; [tauto|].
  destruct Hi as [->|Hi].
  - rewrite Hf; simpl; eauto.
  - destruct (f z); simpl; eauto. destruct (IH x e Hi Hf) as [e' ->]. simpl; eauto.
Qed.

Lemma mapM_Forall_const_raise : forall A B (f : A -> result B) l e,
  l <> [] -> (forall x, In x l -> f x = Raise e) -> mapM f l = Raise e.
Proof.
  destruct l; intros; [congruence|]. simpl. rewrite H0; simpl; auto.
Qed.

(** ** Lists *)
Lemma map2_length : forall A B C (f : A -> B -> C) l m,
  List.length (map2 f l m) = Nat.min (List.length l) (List.length m).
Proof. induction l; destruct m; simpl; auto. Qed.

Lemma map2_nth : forall A B C (f : A -> B -> C) l m da db dc i,
  (i < List.length l)%nat -> (i < List.length m)%nat ->
  nth i (map2 f l m) dc = f (nth i l da) (nth i m db).
Proof.
  induction l; destruct m; simpl; intros; try lia.
  destruct i; auto. apply IHl; lia.
Qed.

Lemma map2_map_l : forall A A' B C (f : A -> B -> C) (g : A' -> A) l m,
  map2 f (map g l) m = map2 (fun x y => f (g x) y) l m.
Proof. induction l; destruct m; simpl; auto. rewrite IHl; auto. Qed.
Lemma map2_map_r : forall A B B' C (f : A -> B -> C) (g : B' -> B) l m,
  map2 f l (map g m) = map2 (fun x y => f x (g y)) l m.
Proof. induction l; destruct m; simpl; auto. rewrite IHl; auto. Qed.
Lemma map_map2 : forall A B C D (f : A -> B -> C) (g : C -> D) l m,
  map g (map2 f l m) = map2 (fun x y => g (f x y)) l m.
Proof. induction l; destruct m; simpl; auto. rewrite IHl; auto. Qed.
Lemma map2_ext : forall A B C (f g : A -> B -> C) l m,
  (forall x y, f x y = g x y) -> map2 f l m = map2 g l m.
Proof. induction l; destruct m; simpl; intros; auto. rewrite H, IHl; auto. Qed.
Lemma map2_comm : forall A B (f : A -> A -> B) l m,
  (forall x y, f x y = f y x) -> map2 f l m = map2 f m l.
Proof. induction l; destruct m; simpl; intros; auto. rewrite H, IHl; auto. Qed.
Lemma map2_map_same : forall A B C D (f : B -> C -> D) (g : A -> B) (h : A -> C) l,
  map2 f (map g l) (map h l) = map (fun x => f (g x) (h x)) l.
Proof. induction l; simpl; auto. rewrite IHl; auto. Qed.
Lemma map2_diag : forall A D (f : A -> A -> D) l, map2 f l l = map (fun x => f x x) l.
Proof. induction l; simpl; auto. rewrite IHl; auto. Qed.

Lemma map2_In : forall A B C (f : A -> B -> C) l m z,
  In z (map2 f l m) -> exists x y, In x l /\ In y m /\ z = f x y.
Proof.
  induction l; destruct m; simpl; intros; try tauto.
  destruct H as [<-|H]; eauto 8.
  destruct (IHl _ _ H) as (x & y & ? & ? & ?); eauto 8.
Qed.

Lemma nth_map : forall A B (f : A -> B) l i d d',
  (i < List.length l)%nat -> nth i (map f l) d' = f (nth i l d).
Proof.
  intros. rewrite nth_indep with (d' := f d) by (rewrite map_length; auto).
  apply map_nth.
Qed.

Lemma nth_map_seq : forall B (f : nat -> B) n i d,
  (i < n)%nat -> nth i (map f (seq 0 n)) d = f i.
Proof.
  intros. rewrite nth_map with (d := O) by (rewrite seq_length; auto).
  rewrite seq_nth; auto.
Qed.

Lemma list_eq_nth : forall A (d : A) l m,
  List.length l = List.length m ->
  (forall i, (i < List.length l)%nat -> nth i l d = nth i m d) -> l = m.
Proof.
  induction l; destruct m; simpl; intros; try lia; auto.
  f_equal. apply (H0 O); lia. apply IHl; auto. intros. apply (H0 (S i)); lia.
Qed.

Lemma map_seq_nth : forall A (d : A) l, map (fun i => nth i l d) (seq 0 (List.length l)) = l.
Proof.
  intros. apply (list_eq_nth _ d).
  - rewrite map_length, seq_length; auto.
  - intros. rewrite map_length, seq_length in H. rewrite nth_map_seq; auto.
Qed.

Lemma zlen_nonneg : forall A (l : list A), (0 <= zlen l)%Z.
Proof. intros; unfold zlen; lia. Qed.

Lemma zlen_map : forall A B (f : A -> B) l, zlen (map f l) = zlen l.
Proof. intros; unfold zlen; rewrite map_length; auto. Qed.

Lemma zrange_length : forall a b, List.length (zrange a b) = Z.to_nat (b - a).
Proof. intros; unfold zrange; rewrite map_length, seq_length; auto. Qed.

Lemma zrange_nth : forall a b i d, (i < Z.to_nat (b - a))%nat ->
  nth i (zrange a b) d = (a + Z.of_nat i)%Z.
Proof. intros; unfold zrange; rewrite nth_map_seq; auto. Qed.

Lemma zrange_In : forall a b z, In z (zrange a b) <-> (a <= z < b)%Z.
Proof.
  intros; unfold zrange; rewrite in_map_iff; split.
  - intros (k & <- & Hk). apply in_seq in Hk. lia.
  - intros. exists (Z.to_nat (z - a)). split; [lia|]. apply in_seq. lia.
Qed.

Lemma upd_length : forall A (l : list A) i x, List.length (upd l i x) = List.length l.
Proof. induction l; destruct i; simpl; intros; auto. Qed.
Lemma upd_nth_same : forall A (l : list A) i x d,
  (i < List.length l)%nat -> nth i (upd l i x) d = x.
Proof. induction l; destruct i; simpl; intros; auto; try lia. apply IHl; lia. Qed.
Lemma upd_nth_other : forall A (l : list A) i j x d,
  i <> j -> nth j (upd l i x) d = nth j l d.
Proof. induction l; destruct i, j; simpl; intros; auto; congruence || (apply IHl; congruence). Qed.

Lemma last_nth : forall A (l : list A) d, last l d = nth (List.length l - 1) l d.
Proof.
  induction l as [|x t IH]; intros; [reflexivity|].
  destruct t as [|y t]; [reflexivity|].
  transitivity (last (y :: t) d); [reflexivity|]. rewrite IH.
  cbn [List.length]. replace (S (S (List.length t)) - 1)%nat with (S (S (List.length t) - 1)) by lia.
  reflexivity.
Qed.

Lemma firstn_nth_lt : forall A (l : list A) n i d,
  (i < n)%nat -> nth i (firstn n l) d = nth i l d.
Proof.
  induction l; intros n i d Hi; destruct n; try lia; [reflexivity|].
  simpl. destruct i; auto. apply IHl; lia.
Qed.

Lemma skipn_nth_add : forall A (l : list A) n i d,
  nth i (skipn n l) d = nth (n + i) l d.
Proof. induction l; destruct n; simpl; intros; auto. destruct i; auto. Qed.

Lemma nth_ge : forall A (l : list A) i d, (List.length l <= i)%nat -> nth i l d = d.
Proof. intros; apply nth_overflow; auto. Qed.

(** ** Finite floats *)
Lemma finite_Fin : forall r, finite (Fin r).
Proof. intros; exists r; auto. Qed.
Global Hint Resolve finite_Fin : core.

Lemma finite_toR : forall x, finite x -> x = Fin (toR x).
Proof. intros x [r ->]; auto. Qed.

Lemma Forall_finite_map : forall l, Forall finite l -> exists l', l = map Fin l'.
Proof.
  induction l; intros H; [exists []; auto|].
  inversion H; subst. destruct H2 as [r ->]. destruct (IHl H3) as [l' ->].
  exists (r :: l'); auto.
Qed.

Lemma Forall_finite_Fin : forall l, Forall finite (map Fin l).
Proof. induction l; simpl; constructor; auto. Qed.
Global Hint Resolve Forall_finite_Fin : core.

Lemma Ok_inj : forall A (a b : A), Ok a = Ok b -> a = b.
Proof. congruence. Qed.
Lemma Fin_inj : forall a b, Fin a = Fin b -> a = b.
Proof. intros; congruence. Qed.

Lemma map_Fin_inj : forall l m, map Fin l = map Fin m -> l = m.
Proof. induction l; destruct m; simpl; intros; try congruence. inversion H; f_equal; auto. Qed.

Lemma Forall2_finite_matrix : forall m,
  Forall (fun r => Forall finite r) m -> exists m', m = map (map Fin) m'.
Proof.
  induction m; intros H; [exists []; auto|].
  inversion H; subst. destruct (Forall_finite_map _ H2) as [r ->].
  destruct (IHm H3) as [m' ->]. exists (r :: m'); auto.
Qed.

(** real sums of lists *)
Definition rsum (l : list R) : R := fold_right Rplus 0 l.

Lemma fsum_Fin : forall l, fsum (map Fin l) = Fin (rsum l).
Proof. induction l; simpl; auto. unfold fsum in *; simpl. rewrite IHl. auto. Qed.

Lemma fsum_Fin_map : forall A (f : A -> R) l, fsum (map (fun x => Fin (f x)) l) = Fin (rsum (map f l)).
Proof. intros. rewrite <- fsum_Fin, map_map; auto. Qed.

Lemma rsum_app : forall l m, rsum (l ++ m) = rsum l + rsum m.
Proof. induction l; simpl; intros; [lra|]. rewrite IHl; lra. Qed.

Lemma fsum_finite : forall l, Forall finite l -> finite (fsum l).
Proof. intros. destruct (Forall_finite_map _ H) as [l' ->]. rewrite fsum_Fin; auto. Qed.

Lemma fdot_Fin : forall a b, fdot (map Fin a) (map Fin b) = Fin (rsum (map2 Rmult a b)).
Proof.
  intros. unfold fdot. rewrite map2_map_l, map2_map_r. simpl.
  rewrite <- fsum_Fin. rewrite map_map2. auto.
Qed.

Lemma fdiv_Fin : forall a b, b <> 0 -> fdiv (Fin a) (Fin b) = Fin (a / b).
Proof. intros; simpl; destruct (Req_EM_T b 0); tauto. Qed.

Lemma flog_pos : forall a, 0 < a -> flog (Fin a) = Fin (ln a).
Proof. intros; simpl; destruct (Rlt_dec 0 a); tauto. Qed.

Lemma ln10_pos : 0 < ln 10.
Proof. rewrite <- ln_1. apply ln_increasing; lra. Qed.

Lemma flog10_pos : forall a, 0 < a -> flog10 (Fin a) = Fin (ln a / ln 10).
Proof.
  intros; unfold flog10. rewrite flog_pos by auto.
  apply fdiv_Fin. pose proof ln10_pos; lra.
Qed.

Lemma fsqrt_nonneg : forall a, 0 <= a -> fsqrt (Fin a) = Fin (sqrt a).
Proof. intros; simpl; destruct (Rlt_dec a 0); auto; lra. Qed.

Lemma fpow_pos : forall a y, 0 < a -> fpow (Fin a) y = Fin (if Req_EM_T y 0 then 1 else Rpower a y).
Proof. intros; unfold fpow; destruct (Req_EM_T y 0); auto; destruct (Rlt_dec 0 a); tauto. Qed.

Lemma fpown_Fin : forall a n, fpown (Fin a) n = Fin (a ^ n).
Proof. induction n; simpl; auto. rewrite IHn; auto. Qed.

Lemma finite_fadd : forall x y, finite x -> finite y -> finite (fadd x y).
Proof. intros x y [a ->] [b ->]; simpl; auto. Qed.
Lemma finite_fmul : forall x y, finite x -> finite y -> finite (fmul x y).
Proof. intros x y [a ->] [b ->]; simpl; auto. Qed.

(** ** Shapes *)
Lemma has_shape_rows : forall A (m : list (list A)) r c i d,
  has_shape m r c -> (i < r)%nat -> List.length (nth i m d) = c.
Proof.
  intros A m r c i d [H1 H2] Hi. rewrite Forall_forall in H2.
  apply H2. apply nth_In. lia.
Qed.

Lemma INR_IZR : forall n, INR n = IZR (Z.of_nat n).
Proof. intros; rewrite INR_IZR_INZ; auto. Qed.

(** equality of explicit lists/pairs of finite numbers *)
Ltac feq :=
  repeat match goal with
  | |- Ok _ = Ok _ => apply f_equal
  | |- _ :: _ = _ :: _ => f_equal
  | |- (_, _) = (_, _) => f_equal
  | |- Fin _ = Fin _ => apply f_equal
  end; try reflexivity; try lra.
