(** * Specification vocabulary: library functions of the Bark conversions *)
From Coq Require Import Reals.
Local Open Scope R_scope.

(** the library's arcsinh and sinh on [0, oo): right up to a relative error v *)
Definition arcsinh_within (v : R) (f : R -> R) : Prop := 0 <= v /\ forall x, 0 <= x -> Rabs (f x - arcsinh x) <= v * arcsinh x.
Definition sinh_within (v : R) (f : R -> R) : Prop := 0 <= v /\ forall x, 0 <= x -> Rabs (f x - sinh x) <= v * sinh x.
(** the library's log10 on (0, oo) and 10 ** x on all reals: right up to a relative error v *)
Definition log10_near (v : R) (f : R -> R) : Prop := 0 <= v /\ forall x, 0 < x -> Rabs (f x - ln x / ln 10) <= v * Rabs (ln x / ln 10).
Definition pow10_near (v : R) (f : R -> R) : Prop := 0 <= v /\ forall x, Rabs (f x - Rpower 10 x) <= v * Rpower 10 x.
