(** * normalize_ceps in floating point *)
From Coq Require Import Reals ZArith List String.
From Verif Require Import Base Rounded.
Import ListNotations.
Local Open Scope R_scope.

(** the entries of a matrix with c columns, row by row *)
Definition entries (c : nat) (x : nat -> nat -> R) (k : nat) : R := x (k / c)%nat (k mod c)%nat.

(** entry (i, j) of normalize_ceps of an r x c matrix, spafe/utils/cepstral.py:51-56, one rounding per
    operation.  [sc] is the program that adds up a column (np.mean(x, axis=0)), [sa] the one that adds
    up all entries (np.mean(x), np.std(x)).  [mx] and [mn] are np.max(x) and np.min(x), which do not
    round. *)
Definition ms_float `{Env} (sc : lin) (r : nat) (x : nat -> nat -> R) (i j : nat) : R :=
  centred sc r (fun q => x q j) i.
Definition mvn_float `{Env} (sc sa : lin) (r c : nat) (x : nat -> nat -> R) (i j : nat) : R :=
  rnd (ms_float sc r x i j / std_of sa (r * c) (entries c x)).
Definition vn_float `{Env} (sa : lin) (r c : nat) (x : nat -> nat -> R) (i j : nat) : R :=
  rnd (x i j / std_of sa (r * c) (entries c x)).
Definition mn_float `{Env} (sa : lin) (r c : nat) (x : nat -> nat -> R) (mx mn : R) (i j : nat) : R :=
  rnd (rnd (x i j - mean_of sa (r * c) (entries c x)) / rnd (mx - mn)).
