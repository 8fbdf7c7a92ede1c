(** * The triangular filter banks in floating point

    As in Rounded.v every operation is rounded by [rnd] of the class [Env]; comparisons are exact.
    [low] and [high] are the band limits as stored; nfilts and nfft are below 2^53, so the numbers
    0, 1, ..., nfilts + 1 and nfft // 2 are stored exactly.  Overflow is not represented. *)
From Coq Require Import Reals ZArith List String Bool.
From Verif Require Import Base.
Local Open Scope R_scope.

(** a quotient: x / 0 is an infinity or NaN *)
Definition quot_of `{Env} (a b : R) : F :=
  match fdiv (Fin a) (Fin b) with Fin q => Fin (rnd q) | v => v end.
(** a product with a finite number *)
Definition prod_of `{Env} (v : F) (a : R) : F :=
  match v with Fin x => Fin (rnd (x * a)) | v => fmul v (Fin a) end.

(** mel_fbanks.py:110-114: one entry of a row of zeros after both masked assignments *)
Definition slope_of `{Env} (lower center upper f : R) : F :=
  if Bool.eqb (Rleb center f) (Rleb f upper) then quot_of (rnd (upper - f)) (rnd (upper - center))
  else if Bool.eqb (Rleb lower f) (Rleb f center) then quot_of (rnd (f - lower)) (rnd (center - lower))
  else Fin 0.

(** mel_fbanks.py:80-81 and 95-96: entry k of scale_freqs *)
Definition scale_point_of `{Env} (lo hi : R) (n k : nat) : R :=
  let delta := rnd (Rabs (rnd (hi - lo)) / INR (n + 1)) in
  rnd (lo + rnd (delta * INR k)).

(** mel_fbanks.py:104: entry k of np.linspace(low, high, h + 1) (library function).  When the step
    underflows to zero numpy divides the index first; the last of two or more points is set to high. *)
Definition linspace_of `{Env} (low high : R) (h k : nat) : R :=
  let delta := rnd (high - low) in
  match h with
  | O => rnd (low + rnd (INR k * delta))
  | S _ =>
    if Nat.eqb k h then high
    else
      let step := rnd (delta / INR h) in
      if Req_EM_T step 0 then rnd (low + rnd (rnd (INR k / INR h) * delta))
      else rnd (low + rnd (INR k * step))
  end.

(** filters.py:67-75: entry j of scale_fbank *)
Definition factor_of `{Env} (scale : string) (n j : nat) : R :=
  if String.eqb scale "ascendant" then rnd (INR (j + 1) / INR n)
  else if String.eqb scale "descendant" then rnd (INR (n - j) / INR n)
  else 1.

(** mel_fbanks.py:107-118 with the points [pt 0 .. pt (n+1)] in Hz: entry (j, k) *)
Definition bank_entry_of `{Env} (pt : nat -> R) (low high : R) (n h : nat) (scale : string) (j k : nat) : F :=
  prod_of (slope_of (pt j) (pt (j + 1)%nat) (pt (j + 2)%nat) (linspace_of low high h k)) (factor_of scale n j).

(** linear_fbanks.py:96-105 (linear_filter_banks) *)
Definition linear_point_of `{Env} (low high : R) (n k : nat) : R := scale_point_of low high n k.
Definition linear_entry_of `{Env} (low high : R) (n h : nat) (scale : string) (j k : nat) : F :=
  fabs (bank_entry_of (linear_point_of low high n) low high n h scale j k).

(** converters.py:346-349 (hz2mel) and 382-385 (mel2hz) with the constants [a] and [b] of the approach
    (None: KeyError); [log10f] is np.log10 and [pow10f x] is 10 ** x *)
Definition mel_constants (approach : string) : option (R * R) :=
  if String.eqb approach "Oshaghnessy" then Some (2595, 700)
  else if String.eqb approach "Lindsay" then Some (2410, 625) else None.
Definition hz2mel_of `{Env} (log10f : R -> R) (a b f : R) : R := rnd (a * log10f (rnd (1 + rnd (f / b)))).
Definition mel2hz_of `{Env} (pow10f : R -> R) (a b m : R) : R := rnd (b * rnd (pow10f (rnd (m / a)) - 1)).

(** mel_fbanks.py:74-92 *)
Definition mel_point_of `{Env} (log10f pow10f : R -> R) (a b low high : R) (n k : nat) : R :=
  mel2hz_of pow10f a b (scale_point_of (hz2mel_of log10f a b low) (hz2mel_of log10f a b high) n k).
(** mel_fbanks.py:203-214 (mel_filter_banks); inverse_mel_filter_banks (lines 320-330) has the same
    entries in the columns from right to left *)
Definition mel_entry_of `{Env} (log10f pow10f : R -> R) (a b low high : R) (n h : nat) (scale : string) (j k : nat) : F :=
  bank_entry_of (mel_point_of log10f pow10f a b low high n) low high n h scale j k.
