(** * lifter_ceps and deltas in floating point *)
From Coq Require Import Reals ZArith List.
From Verif Require Import Base Rounded.
Local Open Scope R_scope.

(** entry (i, j) of np.dot(ceps, np.diag(lift_vec)), spafe/utils/cepstral.py:86-88; [p j] is the program
    that multiplies a row with column j of the diagonal matrix and adds up *)
Definition lift_float `{Env} (p : nat -> lin) (x : nat -> nat -> R) (i j : nat) : R := lin_run (x i) (p j).

(** entry j of lift_vec, spafe/utils/cepstral.py:91-94, one rounding per operation; [L] is the integer
    int(-1 * lift), np.pi the stored pi, [sinf] the library's sine *)
Definition sine_weight `{Env} (sinf : R -> R) (L : R) (j : nat) : R :=
  rnd (1 + rnd (rnd (L / 2) * sinf (rnd (rnd (rnd PI * INR (j + 1)) / L)))).
(** ceps * lift_vec, spafe/utils/cepstral.py:95 *)
Definition sine_float `{Env} (sinf : R -> R) (L : R) (x : nat -> nat -> R) (i j : nat) : R :=
  rnd (x i j * sine_weight sinf L j).

(** entry (i, t) of deltas, spafe/utils/cepstral.py:112-123: [p] is the program by which lfilter multiplies
    2h+1 neighbours with the window and adds up; input m of the program is entry t + m - h of the row,
    the first or the last one outside of it *)
Definition delta_float `{Env} (p : lin) (c h : nat) (x : nat -> nat -> R) (i t : nat) : R :=
  lin_run (fun m => x i (Nat.min (c - 1) (t + m - h))) p.
