(** * Complex arithmetic on finite values agrees with Coquelicot's complex numbers *)
From Coq Require Import Reals List Lra Psatz.
From Coquelicot Require Import Complex.
From Verif Require Import Base BaseFacts Cplx.
Import ListNotations.
Local Open Scope R_scope.

Definition emb (z : C) : cplx := (Fin (fst z), Fin (snd z)).
Lemma cadd_emb : forall x y, cadd (emb x) (emb y) = emb (Cplus x y).
Proof. reflexivity. Qed.
Lemma csub_emb : forall x y, csub (emb x) (emb y) = emb (Cminus x y).
Proof. reflexivity. Qed.
Lemma cmul_emb : forall x y, cmul (emb x) (emb y) = emb (Cmult x y).
Proof. reflexivity. Qed.
Lemma cscal_emb : forall a x, cscal (Fin a) (emb x) = emb (Cmult (RtoC a) x).
Proof. intros. unfold cscal, emb, Cmult, RtoC. simpl. f_equal; f_equal; ring. Qed.
Lemma cre_emb : forall a, cre (Fin a) = emb (RtoC a).
Proof. reflexivity. Qed.
Lemma cconj_emb : forall z, cconj (emb z) = emb (fst z, - snd z).
Proof. reflexivity. Qed.
Lemma cexpi_emb : forall t, cexpi (Fin t) = emb (cos t, sin t).
Proof. reflexivity. Qed.
Lemma cabs_emb : forall z, cabs (emb z) = Fin (Cmod z).
Proof.
  intros [a b]. unfold cabs, emb, Cmod. cbn [fst snd fmul fadd fsqrt].
  destruct (Rlt_dec (a * a + b * b) 0); [nra|]. do 2 f_equal. ring.
Qed.
Lemma cinv_emb : forall z, z <> RtoC 0 -> cinv (emb z) = emb (Cinv z).
Proof.
  intros [a b] Hz. unfold cinv, emb, Cinv. cbn [fst snd fmul fadd fneg].
  assert (a * a + b * b <> 0).
  { intros E. apply Hz. unfold RtoC. f_equal; nra. }
  rewrite !fdiv_Fin by auto. do 3 f_equal; ring.
Qed.

