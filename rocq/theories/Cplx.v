(** * Complex numbers as numpy handles them (library arithmetic, no function of /repo) *)
From Coq Require Import Reals List.
From Verif Require Import Base.
Import ListNotations.
Local Open Scope R_scope.

(** complex numpy scalars as pairs (real, imaginary) *)
Definition cplx : Type := (F * F)%type.
Definition cadd (x y : cplx) : cplx := (fadd (fst x) (fst y), fadd (snd x) (snd y)).
Definition csub (x y : cplx) : cplx := (fsub (fst x) (fst y), fsub (snd x) (snd y)).
Definition cmul (x y : cplx) : cplx :=
  (fsub (fmul (fst x) (fst y)) (fmul (snd x) (snd y)),
   fadd (fmul (fst x) (snd y)) (fmul (snd x) (fst y))).
(** real times complex *)
Definition cscal (a : F) (x : cplx) : cplx := (fmul a (fst x), fmul a (snd x)).
Definition cconj (x : cplx) : cplx := (fst x, fneg (snd x)).
Definition cre (a : F) : cplx := (a, f0).
(** exp(1j * t) *)
Definition cexpi (t : F) : cplx := (fcos t, fsin t).
(** np.abs, which is the C library's hypot: an infinite part gives inf even beside a NaN *)
Definition cabs (x : cplx) : F :=
  match fst x, snd x with
  | PInf, _ | NInf, _ | _, PInf | _, NInf => PInf
  | a, b => fsqrt (fadd (fmul a a) (fmul b b))
  end.
(** 1 / z by the textbook formula (numpy scales the operands first to avoid overflow) *)
Definition cinv (x : cplx) : cplx :=
  let d := fadd (fmul (fst x) (fst x)) (fmul (snd x) (snd x)) in
  (fdiv (fst x) d, fdiv (fneg (snd x)) d).

(** sums of complex numbers *)
Definition csum (l : list cplx) : cplx := fold_right cadd (f0, f0) l.
