(** * Evaluation of the cepstral functions in IEEE binary64, with overflow, infinities and NaN

    The same steps as in Rounded.v and RoundedCeps.v, on the binary64 numbers of IEEE 754 as
    formalised in Flocq (one NaN, signed zeros, round to nearest even) instead of reals rounded by
    [rnd64].  One frame of mfcc, imfcc, lfcc, ngcc (logarithm), gfcc and msrcc (power), without
    energy, lifter and normalisation. *)
From Coq Require Import ZArith List Bool.
From Flocq Require Import IEEE754.BinarySingleNaN.

Definition prec_ok : FLX.Prec_gt_0 53 := eq_refl.
Definition emax_ok : Prec_lt_emax 53 1024 := eq_refl.
(** a numpy float64 *)
Definition f64 : Set := binary_float 53 1024.
Definition add64 : f64 -> f64 -> f64 := @Bplus 53 1024 prec_ok emax_ok mode_NE.
Definition sub64 : f64 -> f64 -> f64 := @Bminus 53 1024 prec_ok emax_ok mode_NE.
Definition mul64 : f64 -> f64 -> f64 := @Bmult 53 1024 prec_ok emax_ok mode_NE.
Definition div64 : f64 -> f64 -> f64 := @Bdiv 53 1024 prec_ok emax_ok mode_NE.
Definition fma64 : f64 -> f64 -> f64 -> f64 := @Bfma 53 1024 prec_ok emax_ok mode_NE.
(** the float m * 2^e, rounded (a literal, or a Python int converted to float with e = 0) *)
Definition of_Z (m e : Z) : f64 := @binary_normalize 53 1024 prec_ok emax_ok mode_NE m e false.
Definition zero64 : f64 := B754_zero false.

(** straight-line programs as in Rounded.v, constants being floats *)
Inductive flin :=
| FLoad (i : nat) | FZero | FAdd (p q : flin) | FSub (p q : flin) | FScale (c : f64) (p : flin)
| FScaleAdd (c : f64) (p q : flin).
Fixpoint flin_run (x : nat -> f64) (p : flin) : f64 :=
  match p with
  | FLoad i => x i
  | FZero => zero64
  | FAdd p q => add64 (flin_run x p) (flin_run x q)
  | FSub p q => sub64 (flin_run x p) (flin_run x q)
  | FScale c p => mul64 c (flin_run x p)
  | FScaleAdd c p q => fma64 c (flin_run x p) (flin_run x q)
  end.

(** np.absolute of the complex FFT value of bin k, mfcc.py:155; [hyp] is the library's hypot *)
Definition magnitude64 (hyp : f64 -> f64 -> f64) (re im : nat -> flin) (x : nat -> f64) (k : nat) : f64 :=
  hyp (flin_run x (re k)) (flin_run x (im k)).
(** (1.0 / nfft) * np.square(.), mfcc.py:159 *)
Definition power64 (nfft : nat) (m : nat -> f64) (k : nat) : f64 :=
  mul64 (div64 (of_Z 1 0) (of_Z (Z.of_nat nfft) 0)) (mul64 (m k) (m k)).
(** entry j of np.dot(abs_fft_values, fbanks.T), mfcc.py:162 *)
Definition band64 (nfft : nat) (m : nat -> f64) (bank : nat -> flin) (j : nat) : f64 :=
  flin_run (power64 nfft m) (bank j).
(** entry of zero_handling, spafe/utils/preprocessing.py:52: both zeros are replaced by 2^-52 *)
Definition zeroed64 (v : f64) : f64 := match v with B754_zero _ => of_Z 1 (-52) | _ => v end.
(** dct(np.log(zero_handling(features)))[:, k]: mfcc.py:296-300, lfcc.py:278-282, ngcc.py:177-181 *)
Definition log_cepstrum64 (lnf : f64 -> f64) (hyp : f64 -> f64 -> f64) (re im : nat -> flin) (nfft : nat)
  (bank dct : nat -> flin) (x : nat -> f64) (k : nat) : f64 :=
  flin_run (fun j => lnf (zeroed64 (band64 nfft (magnitude64 hyp re im x) bank j))) (dct k).
(** dct(np.power(features, p))[:, k]: gfcc.py:301-304, msrcc.py:153-156 *)
Definition root_cepstrum64 (powf : f64 -> f64) (hyp : f64 -> f64 -> f64) (re im : nat -> flin) (nfft : nat)
  (bank dct : nat -> flin) (x : nat -> f64) (k : nat) : f64 :=
  flin_run (fun j => powf (band64 nfft (magnitude64 hyp re im x) bank j)) (dct k).
