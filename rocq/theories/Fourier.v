(** * numpy.fft, scipy.fftpack.dct and numpy.dot as used by the feature extractors
    (library functions, given by their documented formulas) *)
From Coq Require Import Reals ZArith List String Bool.
From Verif Require Import Base Cplx.
Import ListNotations.
Local Open Scope R_scope.

(** crop or zero-pad to n samples *)
Definition crop_pad (n : nat) (x : list F) : list F := firstn n x ++ repeat f0 (n - List.length x).

(** bin k of the n-point DFT of a real vector of n samples:
    sum_j x[j] exp(-2 pi i j k / n) *)
Definition dft_bin (n : nat) (x : list F) (k : nat) : cplx :=
  (fsum (map (fun j => fmul (nth j x NaN) (Fin (cos (2 * PI * INR (j * k) / INR n)))) (seq 0 n)),
   fsum (map (fun j => fmul (nth j x NaN) (Fin (- sin (2 * PI * INR (j * k) / INR n)))) (seq 0 n))).

(** np.fft.fft(rows, nfft): fewer than one point is a ValueError *)
Definition np_fft (rows : list (list F)) (nfft : Z) : result (list (list cplx)) :=
  if (nfft <? 1)%Z then Raise ValueError
  else let n := Z.to_nat nfft in
       Ok (map (fun row => map (dft_bin n (crop_pad n row)) (seq 0 n)) rows).
(** np.fft.rfft(rows, nfft): bins 0 .. nfft//2 *)
Definition np_rfft (rows : list (list F)) (nfft : Z) : result (list (list cplx)) :=
  if (nfft <? 1)%Z then Raise ValueError
  else let n := Z.to_nat nfft in
       Ok (map (fun row => map (dft_bin n (crop_pad n row)) (seq 0 (S (n / 2)))) rows).

(** coefficient of x[n] in output k of scipy.fftpack.dct(x, type, norm="ortho") for a
    row of N samples; docstring of scipy.fftpack.dct *)
Definition dct_coef (type : Z) (N k n : nat) : R :=
  if (type =? 1)%Z then
    (if Nat.eqb k 0 || Nat.eqb k (N - 1) then 0.5 * sqrt (1 / INR (N - 1)) else 0.5 * sqrt (2 / INR (N - 1)))
    * (if Nat.eqb n 0 then sqrt 2
       else if Nat.eqb n (N - 1) then sqrt 2 * (-1) ^ k
       else 2 * cos (PI * INR k * INR n / INR (N - 1)))
  else if (type =? 2)%Z then
    (if Nat.eqb k 0 then sqrt (1 / (4 * INR N)) else sqrt (1 / (2 * INR N)))
    * (2 * cos (PI * INR k * (2 * INR n + 1) / (2 * INR N)))
  else if (type =? 3)%Z then
    (if Nat.eqb n 0 then 1 / sqrt (INR N)
     else sqrt (2 / INR N) * cos (PI * (INR k + 0.5) * INR n / INR N))
  else
    1 / sqrt (2 * INR N) * (2 * cos (PI * (2 * INR k + 1) * (2 * INR n + 1) / (4 * INR N))).

Definition dct_row (type : Z) (row : list F) : list F :=
  let N := List.length row in
  map (fun k => fdot row (map (fun n => Fin (dct_coef type N k n)) (seq 0 N))) (seq 0 N).

(** scipy.fftpack.dct(x, type, axis=1, norm="ortho"): ValueError for another type, for rows
    without entries and for type 1 with fewer than two entries *)
Definition sp_dct (x : list (list F)) (type : Z) : result (list (list F)) :=
  if ((type <? 1) || (4 <? type))%Z then Raise ValueError
  else if Nat.ltb (ncols x) (if (type =? 1)%Z then 2 else 1) then Raise ValueError
  else Ok (map (dct_row type) x).

(** np.dot(a, b.T): the two row lengths have to agree.  A bank without rows gives rows
    without entries (its row length is not represented). *)
Definition np_dot_T (a b : list (list F)) : result (list (list F)) :=
  match b with
  | [] => Ok (map (fun _ => []) a)
  | _ => if Nat.eqb (ncols a) (ncols b) then Ok (map (fun row => map (fdot row) b) a)
         else Raise ValueError
  end.
