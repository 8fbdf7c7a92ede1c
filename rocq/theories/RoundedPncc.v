(** * The recursions of pncc.py in floating point

    As in Rounded.v every operation is rounded by [rnd] of the class [Env]; comparisons and maxima are
    exact.  The functions work on the columns of their arguments separately, so a definition takes one
    column [x 0], [x 1], ... and gives entry [m].  The filter coefficients are the numbers stored for
    the arguments lm_a, lm_b, lam_t, myu_t, lam_myu; other decimal constants are rounded when read. *)
From Coq Require Import Reals ZArith List.
From Verif Require Import Base Rounded.
Local Open Scope R_scope.

(** pncc.py:87-95: one entry of the filter from the entry above and the input *)
Definition asym_step_of `{Env} (la lb o q : R) : R :=
  if Rle_dec o q then rnd (rnd (la * o) + rnd (rnd (1 - la) * q))
  else rnd (rnd (lb * o) + rnd (rnd (1 - lb) * q)).
(** pncc.py:83-96 (asymmetric_lowpass_filtering) for [n] frames: row m - 1 of row 0 is the last one,
    still zero unless it is row 0 itself *)
Fixpoint asym_of `{Env} (n : nat) (la lb : R) (x : nat -> R) (m : nat) : R :=
  match m with
  | O => asym_step_of la lb (if Nat.eqb n 1 then rnd (rnd 0.9 * x O) else 0) (x O)
  | S k => asym_step_of la lb (asym_of n la lb x k) (x m)
  end.

(** pncc.py:121-128: online_peak_power *)
Fixpoint peak_of `{Env} (lam : R) (x : nat -> R) (m : nat) : R :=
  match m with O => x O | S k => Rmax (rnd (lam * peak_of lam x k)) (x m) end.
(** pncc.py:121-136 (temporal_masking) *)
Definition mask_of `{Env} (lam mu : R) (x : nat -> R) (m : nat) : R :=
  match m with
  | O => x O
  | S k => if Rle_dec (rnd (lam * peak_of lam x k)) (x m) then x m else rnd (mu * peak_of lam x k)
  end.

(** pncc.py:249-271 (asymmetric_noise_suppression_with_temporal_masking), the coefficients 0.999, 0.5,
    0.85, 0.2 being the doubles next to them *)
Definition rectified_of `{Env} (n : nat) (t : R) (x : nat -> R) (m : nat) : R :=
  let d := rnd (x m - asym_of n (rnd 0.999) (rnd 0.5) x m) in
  if Rlt_dec d t then 0 else d.
Definition suppressed_of `{Env} (n : nat) (t : R) (x : nat -> R) (m : nat) : R :=
  if Rle_dec (rnd (2 * asym_of n (rnd 0.999) (rnd 0.5) x m)) (x m)
  then mask_of (rnd 0.85) (rnd 0.2) (rectified_of n t x) m
  else asym_of n (rnd 0.999) (rnd 0.5) (rectified_of n t x) m.

(** pncc.py:200-208: the power estimate myu; Python's sum goes from left to right *)
Fixpoint myu_of `{Env} (lam : R) (L : nat) (T : nat -> nat -> R) (m : nat) : R :=
  match m with
  | O => rnd 0.0001
  | S k => rnd (rnd (lam * myu_of lam L T k)
                + rnd (rnd (rnd (1 - lam) / INR L) * lin_run (T m) (sum_left L)))
  end.
(** pncc.py:211 *)
Definition normalised_of `{Env} (lam : R) (L : nat) (k : R) (T : nat -> nat -> R) (m l : nat) : R :=
  rnd (rnd (k * T m l) / myu_of lam L T m).
