(** * Specification vocabulary, part 3: scaling factors, RASTA, liftering, deltas *)
From Coq Require Import Reals ZArith List String.
From Verif Require Import SpecBase.
Import ListNotations.
Local Open Scope R_scope.

(** factor of filter j (0-based) out of n *)
Definition spec_scale (name : string) (n j : nat) : R :=
  if String.eqb name "ascendant" then INR (j + 1) / INR n
  else if String.eqb name "descendant" then INR (n - j) / INR n
  else 1.
Definition scale_names : list string := ["ascendant"; "descendant"; "constant"]%string.

(** the RASTA recursion y[t] = 0.94 y[t-1] + 0.2x[t] + 0.1x[t-1] - 0.1x[t-3] - 0.2x[t-4],
    started at rest with y[0..3] = 0 *)
Fixpoint spec_rasta (x : nat -> R) (t : nat) : R :=
  match t with
  | O => 0
  | S t' => if Nat.ltb t' 3 then 0
            else 0.94 * spec_rasta x t' + 0.2 * x t + 0.1 * x (t - 1)%nat
                 - 0.1 * x (t - 3)%nat - 0.2 * x (t - 4)%nat
  end.

(** exponential liftering factor of column j *)
Definition spec_lift (lift : R) (j : nat) : R := if Nat.eqb j 0 then 1 else Rpower (INR j) lift.
(** sine liftering factor of column j (columns are counted from 1 in the formula) *)
Definition spec_sine_lift (L : R) (j : nat) : R := 1 + L / 2 * sin (PI * INR (j + 1) / L).

(** t + m - h limited to the index range 0..c-1 *)
Definition spec_clamp (c t m h : nat) : nat := Nat.min (c - 1) (t + m - h).
(** sum over k = -h..h of k * x[clamp(t+k)], written with m = k + h *)
Definition spec_delta (c h : nat) (x : nat -> R) (t : nat) : R :=
  bigsum (2 * h + 1) (fun m => (INR m - INR h) * x (spec_clamp c t m h)).
