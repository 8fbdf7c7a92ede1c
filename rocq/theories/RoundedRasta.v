(** * The RASTA filter in floating point *)
From Coq Require Import Reals ZArith List Bool.
From Verif Require Import Base Rounded.
Import ListNotations.
Local Open Scope R_scope.

(** spafe/utils/filters.py:32-33: k / 10 for the integers k = 2, 1, 0, -1, -2, one rounding each *)
Definition stored_numer `{Env} : list R := map (fun k => rnd (k / 10)) [2; 1; 0; -1; -2].
(** spafe/utils/filters.py:34, the literal -0.94 *)
Definition stored_pole `{Env} : R := rnd (-0.94).

(** a product that is rounded, or not when the compiler contracts it with the addition that follows
    into one fused multiply-add *)
Definition product `{Env} (fused : bool) (a b : R) : R := if fused then a * b else rnd (a * b).

(** scipy's C loop behind lfilter, one sample (library code):
      y = Z[0] + b[0]*x;  Z[n] = Z[n+1] + x*b[n+1] - y*a[n+1];  Z[3] = x*b[4] - y*a[4]
    with a padded by zeros.  [fu n] tells whether product n is fused.  scipy divides the coefficients
    by a[0] = 1 beforehand, which is exact and left out. *)
Definition rasta_float_step `{Env} (fu : nat -> bool) (z : R * R * R * R) (x : R) : R * (R * R * R * R) :=
  let '(z0, z1, z2, z3) := z in
  let b k := nth k stored_numer 0 in
  let y := rnd (z0 + product (fu 0%nat) (b 0%nat) x) in
  (y, (rnd (rnd (z1 + product (fu 1%nat) x (b 1%nat)) - product (fu 2%nat) y stored_pole),
       rnd (rnd (z2 + product (fu 3%nat) x (b 2%nat)) - product (fu 4%nat) y 0),
       rnd (rnd (z3 + product (fu 5%nat) x (b 3%nat)) - product (fu 6%nat) y 0),
       rnd (product (fu 7%nat) x (b 4%nat) - product (fu 8%nat) y 0))).

(** spafe/utils/filters.py:41: the state left by the FIR pass over the first four samples.  With the
    denominator 1 scipy uses np.convolve and returns its last four entries; the initial state only
    reaches the first four.  [fir j] is the program np.convolve runs for entry 4 + j. *)
Definition rasta_float_init `{Env} (fir : nat -> lin) (x : nat -> R) : R * R * R * R :=
  (lin_run x (fir 0%nat), lin_run x (fir 1%nat), lin_run x (fir 2%nat), lin_run x (fir 3%nat)).

(** the state before sample 4 + n *)
Fixpoint rasta_float_state `{Env} (fu : nat -> bool) (fir : nat -> lin) (x : nat -> R) (n : nat) : R * R * R * R :=
  match n with
  | O => rasta_float_init fir x
  | S n' => snd (rasta_float_step fu (rasta_float_state fu fir x n') (x (4 + n')%nat))
  end.
(** spafe/utils/filters.py:39-46, entry t of a row: the first four are multiplied by 0 (line 42) *)
Definition rasta_float `{Env} (fu : nat -> bool) (fir : nat -> lin) (x : nat -> R) (t : nat) : R :=
  if Nat.ltb t 4 then 0
  else fst (rasta_float_step fu (rasta_float_state fu fir x (t - 4)) (x t)).
