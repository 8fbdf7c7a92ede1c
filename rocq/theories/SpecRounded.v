(** * Specification vocabulary: properties of roundings, exact meaning of programs *)
From Coq Require Import Reals ZArith List Permutation.
From Flocq Require Import Core.
From Verif Require Import Base SpecBase Rounded.
Local Open Scope R_scope.

(** a rounding is monotone, odd, keeps 0 *)
Definition monotone (r : R -> R) : Prop := forall x y, x <= y -> r x <= r y.
Definition odd (r : R -> R) : Prop := forall x, r (- x) = - r x.
(** error at most u relative plus eta absolute; eta = 0: purely relative *)
Definition accurate (u eta : R) (r : R -> R) : Prop := 0 <= u /\ 0 <= eta /\ forall x, Rabs (r x - x) <= u * Rabs x + eta.

(** binary64 without its exponent range: 53 bits, nearest, ties to even *)
Definition rnd53 (x : R) : R := round radix2 (FLX_exp 53) ZnearestE x.
Definition binary53 : Env := {| rnd := rnd53 |}.

(** the number a program stands for *)
Fixpoint lin_exact (x : nat -> R) (p : lin) : R :=
  match p with
  | Load i => x i
  | Zero => 0
  | Add p q => lin_exact x p + lin_exact x q
  | Sub p q => lin_exact x p - lin_exact x q
  | Scale c p => c * lin_exact x p
  | ScaleAdd c p q => c * lin_exact x p + lin_exact x q
  end.
(** the same with all signs made positive: the scale of the numbers involved *)
Fixpoint lin_size (x : nat -> R) (p : lin) : R :=
  match p with
  | Load i => Rabs (x i)
  | Zero => 0
  | Add p q | Sub p q => lin_size x p + lin_size x q
  | Scale c p => Rabs c * lin_size x p
  | ScaleAdd c p q => Rabs c * lin_size x p + lin_size x q
  end.
(** the largest number of roundings an input goes through *)
Fixpoint lin_depth (p : lin) : nat :=
  match p with
  | Load _ | Zero => 0
  | Add p q | Sub p q | ScaleAdd _ p q => S (Nat.max (lin_depth p) (lin_depth q))
  | Scale _ p => S (lin_depth p)
  end.
(** how often the absolute error eta of an operation can enter the result *)
Fixpoint lin_amp (p : lin) : R :=
  match p with
  | Load _ | Zero => 0
  | Add p q | Sub p q => lin_amp p + lin_amp q + 1
  | Scale c p => Rabs c * lin_amp p + 1
  | ScaleAdd c p q => Rabs c * lin_amp p + lin_amp q + 1
  end.
(** no differences and no negative constants *)
Fixpoint additive (p : lin) : Prop :=
  match p with
  | Load _ | Zero => True
  | Add p q => additive p /\ additive q
  | Sub _ _ => False
  | Scale c p => 0 <= c /\ additive p
  | ScaleAdd c p q => 0 <= c /\ additive p /\ additive q
  end.
(** every program that multiplies the inputs named in the list with their weights w and adds the
    products, in any order and bracketing, with or without fused multiply-add; inputs of weight 0 may
    be left out *)
Inductive dots (w : nat -> R) : list nat -> lin -> Prop :=
| dots_nil : dots w nil Zero
| dots_load : forall i, w i = 1 -> dots w (i :: nil) (Load i)
| dots_mul : forall i, dots w (i :: nil) (Scale (w i) (Load i))
| dots_fma : forall i l p, dots w l p -> dots w (i :: l) (ScaleAdd (w i) (Load i) p)
| dots_skip : forall i l p, w i = 0 -> dots w l p -> dots w (i :: l) p
| dots_add : forall l l' p q, l <> nil -> l' <> nil -> dots w l p -> dots w l' q -> dots w (l ++ l') (Add p q).
(** ... over the inputs 0 .. n-1, each once: what np.dot, np.sum and np.mean may do *)
Definition dot_program (w : nat -> R) (n : nat) (p : lin) : Prop := exists l, Permutation l (seq 0 n) /\ dots w l p.

(** the program with its constants stored as rounded numbers, and its depth counting those roundings *)
Fixpoint lin_stored `{Env} (p : lin) : lin :=
  match p with
  | Load i => Load i
  | Zero => Zero
  | Add p q => Add (lin_stored p) (lin_stored q)
  | Sub p q => Sub (lin_stored p) (lin_stored q)
  | Scale c p => Scale (rnd c) (lin_stored p)
  | ScaleAdd c p q => ScaleAdd (rnd c) (lin_stored p) (lin_stored q)
  end.
Fixpoint lin_depth2 (p : lin) : nat :=
  match p with
  | Load _ | Zero => 0
  | Add p q | Sub p q => S (Nat.max (lin_depth2 p) (lin_depth2 q))
  | Scale _ p => S (S (lin_depth2 p))
  | ScaleAdd _ p q => S (Nat.max (S (lin_depth2 p)) (lin_depth2 q))
  end.

(** every operation of the run has a result that is 0 or not subnormal in binary64 *)
Definition normal (x : R) : Prop := x = 0 \/ bpow radix2 (-1022) <= Rabs x.
Fixpoint normal_run (x : nat -> R) (p : lin) : Prop :=
  match p with
  | Load _ | Zero => True
  | Add p q => normal_run x p /\ normal_run x q /\ normal (@lin_run binary53 x p + @lin_run binary53 x q)
  | Sub p q => normal_run x p /\ normal_run x q /\ normal (@lin_run binary53 x p - @lin_run binary53 x q)
  | Scale c p => normal_run x p /\ normal (c * @lin_run binary53 x p)
  | ScaleAdd c p q => normal_run x p /\ normal_run x q /\ normal (c * @lin_run binary53 x p + @lin_run binary53 x q)
  end.

(** what rounding to a grid of numbers with gradual underflow (or none) satisfies: monotone, odd,
    keeps 1 and every number of the grid, and the difference of two different numbers is not rounded to 0 *)
Definition grid (r : R -> R) : Prop :=
  monotone r /\ odd r /\ r 1 = 1 /\ (forall x, r (r x) = r x) /\
  (forall x y, r x = x -> r y = y -> r (x - y) = 0 -> x = y).

(** the library's log10 on [1, oo) and 10 ** x on [0, oo): right up to a relative error v *)
Definition log10_within (v : R) (f : R -> R) : Prop := 0 <= v /\ forall x, 1 <= x -> Rabs (f x - ln x / ln 10) <= v * (ln x / ln 10).
Definition pow10_within (v : R) (f : R -> R) : Prop := 0 <= v /\ forall x, 0 <= x -> Rabs (f x - Rpower 10 x) <= v * Rpower 10 x.
