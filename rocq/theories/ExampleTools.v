(** * Small helpers for the concrete examples beside the property theorems *)
From Coq Require Import Reals ZArith List String Lra.
From Flocq Require Import Core.Raux.
From Verif Require Import Base BaseFacts Preprocessing PreprocessingFacts.
Import ListNotations.
Local Open Scope R_scope.

Lemma flen_exact : forall fs w n, w * IZR fs = IZR n -> flen (H := exact_env) fs w = n.
Proof. intros. unfold flen. simpl. rewrite H. apply Ztrunc_IZR. Qed.

(** framing in exact arithmetic once the two sample counts are known *)
Lemma framing_exact : forall sig fs wl wh L S,
  wh <= wl -> wl * IZR fs = IZR L -> wh * IZR fs = IZR S -> S <> 0%Z ->
  framing (H := exact_env) sig fs wl wh =
  do frames <- as_strided sig ((zlen sig - L) / S + 1) L S 1;
  match frames with [] => Raise IndexError | _ => Ok (frames, L) end.
Proof.
  intros. rewrite framing_as; auto.
  - rewrite (flen_exact fs wl L), (flen_exact fs wh S); auto.
  - rewrite (flen_exact fs wh S); auto.
Qed.
