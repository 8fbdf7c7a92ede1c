(** * Floating-point evaluation of spafe's numeric kernels

    The other model files compute in exact reals.  Here every operation is rounded by [rnd] of the
    class [Env], so that statements about rounding errors are about what numpy computes.  numpy,
    pocketfft and BLAS choose the order of the operations (blocking, pairwise sums, fused
    multiply-add, the FFT algorithm), so the linear steps are arbitrary straight-line programs and
    the theorems hold for all of them.  Overflow is not represented. *)
From Coq Require Import Reals ZArith List String Bool.
From Verif Require Import Base.
Import ListNotations.
Local Open Scope R_scope.

(** A straight-line program over the inputs x(0), x(1), ...: load an input, constant 0, sum,
    difference, product with a stored constant, fused multiply-add with a stored constant *)
Inductive lin :=
| Load (i : nat) | Zero | Add (p q : lin) | Sub (p q : lin) | Scale (c : R) (p : lin)
| ScaleAdd (c : R) (p q : lin).

(** its value in floating point: one rounding per operation *)
Fixpoint lin_run `{Env} (x : nat -> R) (p : lin) : R :=
  match p with
  | Load i => x i
  | Zero => 0
  | Add p q => rnd (lin_run x p + lin_run x q)
  | Sub p q => rnd (lin_run x p - lin_run x q)
  | Scale c p => rnd (c * lin_run x p)
  | ScaleAdd c p q => rnd (c * lin_run x p + lin_run x q)
  end.

(** np.absolute of the complex FFT value of bin [k] (mfcc.py:155): [re k] and [im k] are the
    programs for the two parts -- pre-emphasis, window and FFT of the samples of a frame are one
    linear program -- and [hyp] is the library's hypot *)
Definition bin_magnitude `{Env} (hyp : R -> R -> R) (re im : nat -> lin) (x : nat -> R) (k : nat) : R :=
  hyp (lin_run x (re k)) (lin_run x (im k)).
(** (1.0 / nfft) * np.square(.), mfcc.py:159 *)
Definition bin_power `{Env} (nfft : nat) (m : nat -> R) (k : nat) : R :=
  rnd (rnd (1 / INR nfft) * rnd (m k * m k)).
(** entry j of np.dot(abs_fft_values, fbanks.T), mfcc.py:162, [bank j] being the program that
    multiplies with row j of the bank and adds up *)
Definition band_energy `{Env} (nfft : nat) (m : nat -> R) (bank : nat -> lin) (j : nat) : R :=
  lin_run (bin_power nfft m) (bank j).

(** sums of n inputs from left to right *)
Fixpoint sum_left (n : nat) : lin :=
  match n with O => Zero | S O => Load 0 | S m => Add (sum_left m) (Load m) end.
(** products with w(0) .. w(n-1), summed from left to right *)
Fixpoint dot_left (w : nat -> R) (n : nat) : lin :=
  match n with O => Zero | S O => Scale (w O) (Load 0) | S m => Add (dot_left w m) (Scale (w m) (Load m)) end.

(** one column of x - np.mean(x, axis=0), cepstral.py:53; [s] is the program of the sum *)
Definition mean_of `{Env} (s : lin) (n : nat) (x : nat -> R) : R := rnd (lin_run x s / INR n).
Definition centred `{Env} (s : lin) (n : nat) (x : nat -> R) (i : nat) : R := rnd (x i - mean_of s n x).

(** np.std of n numbers (library function): mean, deviations, squares, mean, square root *)
Definition std_of `{Env} (s : lin) (n : nat) (x : nat -> R) : R :=
  rnd (sqrt (mean_of s n (fun i => let d := rnd (x i - mean_of s n x) in rnd (d * d)))).
(** an entry of "mvn" for a matrix with a single column, cepstral.py:52 *)
Definition mvn_of `{Env} (s : lin) (n : nat) (x : nat -> R) (i : nat) : F :=
  fdiv (Fin (centred s n x i)) (Fin (std_of s n x)) .

(** ** numpy's windows (library functions), entry n of M >= 2, with k = 2n - (M-1); [pi] is the float
    constant np.pi, [cosf] the library's cosine.  The decimal constants are rounded when read. *)
Definition angle `{Env} (pi : R) (M n : nat) : R :=
  rnd (rnd (pi * (2 * INR n - (INR M - 1))) / (INR M - 1)).
(** 0.5 + 0.5 * cos(pi * n / (M - 1)) *)
Definition hanning_of `{Env} (pi : R) (cosf : R -> R) (M n : nat) : R :=
  rnd (rnd 0.5 + rnd (rnd 0.5 * cosf (angle pi M n))).
(** 0.54 + 0.46 * cos(pi * n / (M - 1)) *)
Definition hamming_of `{Env} (pi : R) (cosf : R -> R) (M n : nat) : R :=
  rnd (rnd 0.54 + rnd (rnd 0.46 * cosf (angle pi M n))).
(** where(n <= 0, 1 + n / (M - 1), 1 - n / (M - 1)) *)
Definition bartlett_of `{Env} (M n : nat) : R :=
  let k := 2 * INR n - (INR M - 1) in
  if Rle_dec k 0 then rnd (1 + rnd (k / (INR M - 1))) else rnd (1 - rnd (k / (INR M - 1))).
(** 0.42 + 0.5 * cos(pi * n / (M - 1)) + 0.08 * cos(2.0 * pi * n / (M - 1)) *)
Definition blackman_of `{Env} (pi : R) (cosf : R -> R) (M n : nat) : R :=
  rnd (rnd (rnd 0.42 + rnd (rnd 0.5 * cosf (angle pi M n)))
       + rnd (rnd 0.08 * cosf (angle (rnd (2 * pi)) M n))).
