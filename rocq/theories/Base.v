(** * Base: numbers, results, lists -- the ground the model stands on.

    This file models no function of /repo.  It fixes how Python and numpy
    values are represented everywhere else:

    - [F]: a numpy float64 *without rounding, overflow or signed zeros*: a
      real number, plus infinity, minus infinity or NaN, with IEEE rules for
      the special values.  (Simplification; the one place where rounding is
      kept is [Env.rnd] below.)
    - [result A]: a Python call either returns a value or raises.
    - [Z] for Python integers, [string] for Python strings,
      [option] for values that may be [None].
    - [list (list F)] for a two-dimensional array, row by row. *)
From Coq Require Import Reals ZArith List String Bool.
From Flocq Require Import Core.Raux.
Import ListNotations.
Local Open Scope R_scope.

(** ** Booleans on reals *)
Definition Rleb (x y : R) : bool := if Rle_dec x y then true else false.
Definition Rltb (x y : R) : bool := if Rlt_dec x y then true else false.
Definition Reqb (x y : R) : bool := if Req_EM_T x y then true else false.

(** ** Floats *)
Inductive F : Type := Fin (r : R) | PInf | NInf | NaN.

Definition f0 : F := Fin 0.
Definition f1 : F := Fin 1.

Definition fneg (x : F) : F :=
  match x with Fin a => Fin (- a) | PInf => NInf | NInf => PInf | NaN => NaN end.

Definition fadd (x y : F) : F :=
  match x, y with
  | Fin a, Fin b => Fin (a + b)
  | NaN, _ | _, NaN => NaN
  | PInf, NInf | NInf, PInf => NaN
  | PInf, _ | _, PInf => PInf
  | NInf, _ | _, NInf => NInf
  end.

Definition fsub (x y : F) : F := fadd x (fneg y).

(** infinity times a finite factor *)
Definition finfmul (a : R) : F :=
  if Req_EM_T a 0 then NaN else if Rlt_dec 0 a then PInf else NInf.

Definition fmul (x y : F) : F :=
  match x, y with
  | Fin a, Fin b => Fin (a * b)
  | NaN, _ | _, NaN => NaN
  | PInf, Fin b => finfmul b
  | NInf, Fin b => finfmul (- b)
  | Fin a, PInf => finfmul a
  | Fin a, NInf => finfmul (- a)
  | PInf, PInf | NInf, NInf => PInf
  | PInf, NInf | NInf, PInf => NInf
  end.

(** division; a zero divisor counts as +0 (no signed zeros in the model) *)
Definition fdiv (x y : F) : F :=
  match x, y with
  | Fin a, Fin b =>
      if Req_EM_T b 0 then finfmul a else Fin (a / b)
  | NaN, _ | _, NaN => NaN
  | Fin _, PInf | Fin _, NInf => Fin 0
  | PInf, Fin b => if Rlt_dec b 0 then NInf else PInf
  | NInf, Fin b => if Rlt_dec b 0 then PInf else NInf
  | _, _ => NaN
  end.

Definition fabs (x : F) : F :=
  match x with Fin a => Fin (Rabs a) | PInf | NInf => PInf | NaN => NaN end.

(** comparisons: every comparison with NaN is false *)
Definition fleb (x y : F) : bool :=
  match x, y with
  | Fin a, Fin b => Rleb a b
  | NaN, _ | _, NaN => false
  | NInf, _ => true
  | _, PInf => true
  | _, _ => false
  end.
Definition fltb (x y : F) : bool :=
  match x, y with
  | Fin a, Fin b => Rltb a b
  | NaN, _ | _, NaN => false
  | NInf, NInf | PInf, PInf => false
  | NInf, _ => true
  | _, PInf => true
  | _, _ => false
  end.
Definition fgeb (x y : F) : bool := fleb y x.
Definition fgtb (x y : F) : bool := fltb y x.
Definition feqb (x y : F) : bool :=
  match x, y with
  | Fin a, Fin b => Reqb a b
  | PInf, PInf | NInf, NInf => true
  | _, _ => false
  end.

(** np.maximum / np.minimum: NaN propagates *)
Definition fmax2 (x y : F) : F :=
  match x, y with
  | NaN, _ | _, NaN => NaN
  | _, _ => if fleb x y then y else x
  end.
Definition fmin2 (x y : F) : F :=
  match x, y with
  | NaN, _ | _, NaN => NaN
  | _, _ => if fleb x y then x else y
  end.

Definition fsqrt (x : F) : F :=
  match x with
  | Fin a => if Rlt_dec a 0 then NaN else Fin (sqrt a)
  | PInf => PInf | _ => NaN
  end.

Definition flog (x : F) : F :=
  match x with
  | Fin a => if Rlt_dec 0 a then Fin (ln a) else if Req_EM_T a 0 then NInf else NaN
  | PInf => PInf | _ => NaN
  end.

Definition flog10 (x : F) : F := fdiv (flog x) (Fin (ln 10)).

Definition fexp (x : F) : F :=
  match x with Fin a => Fin (exp a) | PInf => PInf | NInf => Fin 0 | NaN => NaN end.

(** [10 ** x] *)
Definition fexp10 (x : F) : F :=
  match x with Fin a => Fin (Rpower 10 a) | PInf => PInf | NInf => Fin 0 | NaN => NaN end.

(** an integer exponent, and its parity (Base.v is below Flocq's Ztrunc: Int_part is the floor) *)
Definition is_intb (y : R) : bool := if Req_EM_T y (IZR (Int_part y)) then true else false.
Definition is_oddb (y : R) : bool := is_intb y && Z.odd (Int_part y).

(** [x ** y] for a float array [x] and a real exponent [y].  A negative base has a power for an
    integer exponent only.  The sign of an infinity that comes from a zero base and a negative
    odd exponent follows the sign of the zero, which the model does not have. *)
Definition fpow (x : F) (y : R) : F :=
  if Req_EM_T y 0 then Fin 1 else
  match x with
  | Fin a =>
      if Rlt_dec 0 a then Fin (Rpower a y)
      else if Req_EM_T a 0 then (if Rlt_dec 0 y then Fin 0 else PInf)
      else if is_intb y then Fin (powerRZ a (Int_part y)) else NaN
  | PInf => if Rlt_dec 0 y then PInf else Fin 0
  | NInf => if Rlt_dec 0 y then (if is_oddb y then NInf else PInf) else Fin 0
  | NaN => NaN
  end.

(** [x ** n] for a natural exponent *)
Fixpoint fpown (x : F) (n : nat) : F :=
  match n with O => Fin 1 | S m => fmul x (fpown x m) end.

(** [x ** n] for an integer exponent *)
Definition fpowz (x : F) (n : Z) : F :=
  if (n <? 0)%Z then fdiv (Fin 1) (fpown x (Z.to_nat (- n))) else fpown x (Z.to_nat n).

Definition fsin (x : F) : F := match x with Fin a => Fin (sin a) | _ => NaN end.
Definition fcos (x : F) : F := match x with Fin a => Fin (cos a) | _ => NaN end.
Definition ftan (x : F) : F := match x with Fin a => fdiv (Fin (sin a)) (Fin (cos a)) | _ => NaN end.
Definition fatan (x : F) : F :=
  match x with Fin a => Fin (atan a) | PInf => Fin (PI / 2) | NInf => Fin (- (PI / 2)) | NaN => NaN end.
Definition fsinh (x : F) : F :=
  match x with Fin a => Fin (sinh a) | y => y end.
Definition farcsinh (x : F) : F :=
  match x with Fin a => Fin (arcsinh a) | y => y end.

Definition finite (x : F) : Prop := exists r, x = Fin r.
Definition finiteb (x : F) : bool := match x with Fin _ => true | _ => false end.
(** the real value of a finite float (0 for the special values; always used
    behind a finiteness test) *)
Definition toR (x : F) : R := match x with Fin r => r | _ => 0 end.

(** ** Rounding

    Only where the code turns a product or quotient of floats into an
    integer does rounding matter for the shape of the result, so there the
    model applies [rnd].  Theorems either hold for every [rnd] or are stated
    for binary64 (see Binary64.v) or for exact arithmetic. *)
Class Env := { rnd : R -> R }.
Definition exact_env : Env := {| rnd := fun x => x |}.

(** ** Results *)
Inductive exn : Type :=
| ParameterError (msg : string)
| ZeroDivisionError
| ValueError
| IndexError
| KeyError
| TypeError
| LinAlgError
| OverflowError
| UnboundLocalError
| OutOfBoundsRead   (* not a Python exception: as_strided reads foreign memory *).

Inductive result (A : Type) : Type := Ok (a : A) | Raise (e : exn).
Arguments Ok {A} a.
Arguments Raise {A} e.

Definition rbind {A B} (r : result A) (k : A -> result B) : result B :=
  match r with Ok a => k a | Raise e => Raise e end.
Notation "'do' x <- r ; k" := (rbind r (fun x => k))
  (at level 200, x pattern, r at level 100, k at level 200).
Definition rmap {A B} (f : A -> B) (r : result A) : result B :=
  match r with Ok a => Ok (f a) | Raise e => Raise e end.

Fixpoint mapM {A B} (f : A -> result B) (l : list A) : result (list B) :=
  match l with
  | [] => Ok []
  | x :: t => do y <- f x; do ys <- mapM f t; Ok (y :: ys)
  end.

(** ** Lists *)
Fixpoint map2 {A B C} (f : A -> B -> C) (l : list A) (m : list B) : list C :=
  match l, m with
  | x :: l', y :: m' => f x y :: map2 f l' m'
  | _, _ => []
  end.

Definition zlen {A} (l : list A) : Z := Z.of_nat (List.length l).

(** [l[:n]] with Python's rules for negative [n] *)
Definition py_take {A} (n : Z) (l : list A) : list A :=
  if (n <? 0)%Z then firstn (Z.to_nat (zlen l + n)) l else firstn (Z.to_nat n) l.
(** [l[n:]] *)
Definition py_drop {A} (n : Z) (l : list A) : list A :=
  if (n <? 0)%Z then skipn (Z.to_nat (zlen l + n)) l else skipn (Z.to_nat n) l.

(** [l[i]] with Python's rules for negative [i] *)
Definition py_nth {A} (l : list A) (i : Z) : result A :=
  let j := if (i <? 0)%Z then (zlen l + i)%Z else i in
  if ((0 <=? j) && (j <? zlen l))%Z then
    match nth_error l (Z.to_nat j) with Some x => Ok x | None => Raise IndexError end
  else Raise IndexError.

Fixpoint upd {A} (l : list A) (i : nat) (x : A) : list A :=
  match l, i with
  | [], _ => []
  | _ :: t, O => x :: t
  | h :: t, S j => h :: upd t j x
  end.

(** [l[i] = x] with Python's rules for negative [i] *)
Definition py_set {A} (l : list A) (i : Z) (x : A) : result (list A) :=
  let j := if (i <? 0)%Z then (zlen l + i)%Z else i in
  if ((0 <=? j) && (j <? zlen l))%Z then Ok (upd l (Z.to_nat j) x) else Raise IndexError.

Fixpoint foldM {A B} (f : B -> A -> result B) (l : list A) (b : B) : result B :=
  match l with [] => Ok b | x :: t => do b' <- f b x; foldM f t b' end.

(** [range(a, b)] as a list of integers *)
Definition zrange (a b : Z) : list Z :=
  map (fun k => (a + Z.of_nat k)%Z) (seq 0 (Z.to_nat (b - a))).

(** sums; floating point association is irrelevant because there is no
    rounding, and NaN/inf propagation does not depend on the order *)
Definition fsum (l : list F) : F := fold_right fadd f0 l.
Definition fdot (a b : list F) : F := fsum (map2 fmul a b).

Definition fmaxl (l : list F) : result F :=
  match l with [] => Raise ValueError | x :: t => Ok (fold_left fmax2 t x) end.
Definition fminl (l : list F) : result F :=
  match l with [] => Raise ValueError | x :: t => Ok (fold_left fmin2 t x) end.

Definition fnat (n : nat) : F := Fin (INR n).
Definition fZ (z : Z) : F := Fin (IZR z).

(** np.mean over all elements (0/0 = NaN for an empty array) *)
Definition fmean (l : list F) : F := fdiv (fsum l) (fnat (List.length l)).

(** np.linspace(a, b, n) for n >= 0 (numpy/core/function_base.py); the last of two or
    more points is set to b *)
Definition flinspace (a b : F) (n : nat) : list F :=
  match n with
  | O => []
  | S O => [fadd a (fmul f0 (fsub b a))]
  | S m => map (fun k => fadd a (fmul (fnat k) (fdiv (fsub b a) (fnat m)))) (seq 0 m) ++ [b]
  end.

(** row-by-row broadcast product of two vectors (numpy rules for rank 1) *)
Definition bcast {A B} (f : A -> B -> B) (w : list A) (row : list B) : result (list B) :=
  if Nat.eqb (List.length w) (List.length row) then Ok (map2 f w row)
  else match w, row with
       | [a], _ => Ok (map (f a) row)
       | _, [b] => Ok (map (fun a => f a b) w)
       | _, _ => Raise ValueError
       end.

(** a matrix has [r] rows of [c] entries *)
Definition has_shape {A} (m : list (list A)) (r c : nat) : Prop :=
  List.length m = r /\ Forall (fun row => List.length row = c) m.

(** number of columns as numpy reports it ([0] if there are no rows: the only
    information lost by the list representation) *)
Definition ncols {A} (m : list (list A)) : nat :=
  match m with [] => O | r :: _ => List.length r end.

Definition column {A} (d : A) (m : list (list A)) (j : nat) : list A :=
  map (fun row => nth j row d) m.

(** [high_freq or fs / 2]: None and 0 both select fs/2 *)
Definition or_half (high : option R) (fs : Z) : R :=
  match high with
  | Some h => if Req_EM_T h 0 then IZR fs / 2 else h
  | None => IZR fs / 2
  end.
