(** * What callers mean by a 2-D signal, said with samples *)
From Coq Require Import Reals ZArith List String Bool.
From Verif Require Import Base Features Channels.
Import ListNotations.
Local Open Scope R_scope.

(** the Nx1 array of a mono signal, whatever its flags say *)
Definition column (x : list F) (l : layout) : array2 := mkArray (map (fun v => [v]) x) 1 l.
(** the same call with pre_emph=False *)
Definition without_pre (a : sargs) : sargs :=
  mkS (s_fs a) false (s_coeff a) (s_window a) (s_nfilts a) (s_nfft a) (s_low a) (s_high a)
      (s_scale a) (s_fbanks a) (s_approach a).
(** sample [t] of channel [k] of an N x c array *)
Definition sample (s : array2) (t k : nat) : F := nth k (nth t (rows2 s) []) NaN.
(** all rows have as many samples as there are channels *)
Definition regular (s : array2) : Prop := Forall (fun row => List.length row = cols2 s) (rows2 s).
