(** * Floating-point evaluation of spafe/frequencies/dominant_frequencies.py, one frame *)
From Coq Require Import Reals ZArith List Bool.
From Flocq Require Import Core.Raux Core.Round_NE Core.Generic_fmt.
From Verif Require Import Base Rounded.
Local Open Scope R_scope.

(** (1 / nfft) * np.abs(.) and (1 / nfft) * (.)**2, dominant_frequencies.py:141-142; [m k] is the
    computed modulus of bin k *)
Definition dom_power `{Env} (nfft : nat) (m : nat -> R) (k : nat) : R :=
  let magnitude := rnd (rnd (1 / INR nfft) * m k) in
  rnd (rnd (1 / INR nfft) * rnd (magnitude * magnitude)).
(** np.argmax of p(0) .. p(n-1), dominant_frequencies.py:148: the first of the largest *)
Fixpoint first_max (p : nat -> R) (n : nat) : nat :=
  match n with O => O | S k => let b := first_max p k in if Rltb (p b) (p k) then k else b end.
(** np.fft.fftfreq(n, 1 / fs)[k] (library function), dominant_frequencies.py:145, 151:
    integers times val = 1.0 / (n * d) *)
Definition freq_axis `{Env} (n : nat) (fs : Z) (k : nat) : R :=
  rnd ((if Nat.ltb k (S ((n - 1) / 2)) then INR k else INR k - INR n) * rnd (1 / rnd (INR n * rnd (1 / IZR fs)))).
(** np.round(., 3) (library function), dominant_frequencies.py:158 *)
Definition round3 `{Env} (v : R) : R := rnd (IZR (ZnearestE (rnd (v * 1000))) / 1000).
(** the value appended for a frame, rounded: dominant_frequencies.py:138-158 *)
Definition dominant_in `{Env} (nfft : nat) (fs : Z) (m : nat -> R) : R :=
  let n := S (nfft / 2) in round3 (freq_axis n fs (first_max (dom_power nfft m) n)).
