(** * Specification vocabulary for C178: windows of any samples *)
From Coq Require Import List.
From Verif Require Import Base.

(** the samples of window [i], whatever they are *)
Definition yin_window (L hop : nat) (sig : list F) (i : nat) : list F := firstn L (skipn (i * hop) sig).
