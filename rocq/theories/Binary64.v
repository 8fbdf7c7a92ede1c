(** * IEEE binary64 rounding as an instance of the model's [Env] *)
From Coq Require Import Reals ZArith.
From Flocq Require Import Core.
From Verif Require Import Base.

(** round to nearest, ties to even, 53 bits, exponents of binary64 with gradual
    underflow (overflow to infinity is not represented: every value used in the
    theorems is far below 2^1024) *)
Definition rnd64 (x : R) : R := round radix2 (FLT_exp (-1074) 53) ZnearestE x.
Definition binary64 : Env := {| rnd := rnd64 |}.
