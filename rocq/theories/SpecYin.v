(** * Specification vocabulary: the YIN pitch estimator (plain real mathematics) *)
From Coq Require Import Reals ZArith List.
From Flocq Require Import Core.Raux.
From Verif Require Import Base SpecBase.
Local Open Scope R_scope.

(** squared difference of the [L] samples [f] with themselves [tau] samples later *)
Definition yin_d (L : nat) (f : nat -> R) (tau : nat) : R :=
  bigsum (L - tau) (fun j => (f j - f (j + tau)%nat) ^ 2).
(** sum of the differences at the lags 1 .. tau *)
Definition yin_sum (d : nat -> R) (tau : nat) : R := bigsum tau (fun u => d (S u)).
(** cumulative mean normalised difference: not a number while all differences are 0 *)
Definition yin_c (d : nat -> R) (tau : nat) : F :=
  if Nat.eqb tau 0 then Fin 1
  else if Req_EM_T (yin_sum d tau) 0 then NaN
  else Fin (d tau * INR tau / yin_sum d tau).

(** the lag YIN has to find in [lo,hi): [s] is the first lag with a value below the threshold,
    [p] the end of the strictly falling run that starts at [s] *)
Definition yin_lag (c : nat -> F) (lo hi : nat) (th : R) (s p : nat) : Prop :=
  (lo <= s <= p)%nat /\ (p < hi)%nat /\ fltb (c s) (Fin th) = true /\
  (forall t, (lo <= t < s)%nat -> fltb (c t) (Fin th) = false) /\
  (forall t, (s <= t < p)%nat -> fltb (c (S t)) (c t) = true) /\
  ((S p < hi)%nat -> fltb (c (S p)) (c p) = false).
(** no lag in [lo,hi) has a value below the threshold *)
Definition yin_unvoiced (c : nat -> F) (lo hi : nat) (th : R) : Prop :=
  forall t, (lo <= t < hi)%nat -> fltb (c t) (Fin th) = false.

(** sample [t] of frame [i] *)
Definition yin_x (hop : nat) (x : nat -> R) (i t : nat) : R := x (i * hop + t)%nat.
(** number of windows of [L] samples every [hop] samples that end strictly before sample N *)
Definition yin_frames (N L hop : nat) : nat := ((N - L + (hop - 1)) / hop)%nat.

(** [a] is the first NaN among c 0 .. c (n-1), or, without NaN, the first smallest value *)
Definition is_argmin (c : nat -> F) (n a : nat) : Prop :=
  (a < n)%nat /\
  ((c a = NaN /\ forall t, (t < a)%nat -> c t <> NaN) \/
   ((forall t, (t < n)%nat -> c t <> NaN /\ fltb (c t) (c a) = false) /\
    forall t, (t < a)%nat -> fltb (c a) (c t) = true)).

(** the arguments of compute_yin in samples: windows of [L] samples every [hop] samples, lags from
    [lo] to [T] *)
Definition yin_config `{Env} (fs : Z) (wl wh low high : R) (L hop lo T : nat) : Prop :=
  (0 < fs)%Z /\ low <> 0 /\ high <> 0 /\
  Ztrunc (rnd (wl * IZR fs)) = Z.of_nat L /\ Ztrunc (rnd (wh * IZR fs)) = Z.of_nat hop /\ (1 <= hop)%nat /\
  Ztrunc (rnd (IZR fs / high)) = Z.of_nat lo /\ Ztrunc (rnd (IZR fs / low)) = Z.of_nat (S T).
