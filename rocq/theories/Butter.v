(** * The band-pass filter of spafe/frequencies/dominant_frequencies.py:119-124 *)
From Coq Require Import Reals ZArith List String Bool.
From Coquelicot Require Import Complex.
From Verif Require Import Base Dominant.
Import ListNotations.
Local Open Scope R_scope.

(** Library functions of scipy.signal, in exact complex arithmetic.  A complex number is a pair of
    reals (Coquelicot's [C]). *)

(** np.exp(1j * t) *)
Definition cis (t : R) : C := (cos t, sin t).

(** np.sqrt of a complex number: the root with a real part that is not negative.  On the negative
    real axis the sign of the imaginary part follows the sign of a zero, which is not modelled;
    lp2bp_zpk uses both roots. *)
Definition csqrt (z : C) : C :=
  (sqrt ((Cmod z + fst z) / 2), (if Rltb (snd z) 0 then -1 else 1) * sqrt ((Cmod z - fst z) / 2)).

(** scipy.signal.buttap(N): poles -exp(1j*pi*m/(2*N)) for m in arange(-N+1, N, 2), no zeros, gain 1 *)
Definition buttap (N : nat) : list C :=
  map (fun i => Copp (cis (PI * (2 * INR i - INR N + 1) / (2 * INR N)))) (seq 0 N).

(** scipy.signal.lp2bp_zpk, the poles; the zeros are N times 0 and the gain is bw**N *)
Definition lp2bp_poles (wo bw : R) (p : list C) : list C :=
  let p_lp := map (fun z => Cmult z (RtoC (bw / 2))) p in
  let root := fun z => csqrt (Cminus (Cmult z z) (RtoC (wo * wo))) in
  map (fun z => Cplus z (root z)) p_lp ++ map (fun z => Cminus z (root z)) p_lp.

(** scipy.signal.bilinear_zpk with fs = 2, one zero or pole *)
Definition bilinear (z : C) : C := Cdiv (Cplus (RtoC 4) z) (Cminus (RtoC 4) z).

(** np.prod *)
Definition cprod (l : list C) : C := fold_left Cmult l (RtoC 1).

(** np.poly: for zero in seq_of_zeros: a = np.convolve(a, [1, -zero], mode="full") *)
Definition poly_step (a : list C) (r : C) : list C :=
  map (fun uv => Cminus (fst uv) (Cmult r (snd uv))) (combine (a ++ [RtoC 0]) (RtoC 0 :: a)).
Definition np_poly (roots : list C) : list C := fold_left poly_step roots [RtoC 1].

(** scipy.signal.butter(N, [w1, w2], "band") after its checks: prewarped edges, low-pass prototype,
    band-pass transform, bilinear transform, coefficients.  zpk2tf drops the imaginary parts, which
    are 0 because the poles come in conjugate pairs. *)
Definition butter_band (N : nat) (w1 w2 : R) : list F * list F :=
  let warped1 := 4 * tan (PI * w1 / 2) in
  let warped2 := 4 * tan (PI * w2 / 2) in
  let bw := warped2 - warped1 in
  let wo := sqrt (warped1 * warped2) in
  let p := lp2bp_poles wo bw (buttap N) in
  let z := repeat (RtoC 0) N in
  let k := bw ^ N in
  let k := k * fst (Cdiv (cprod (map (fun v => Cminus (RtoC 4) v) z)) (cprod (map (fun v => Cminus (RtoC 4) v) p))) in
  let z := map bilinear z ++ repeat (RtoC (-1)) N in
  let p := map bilinear p in
  (map (fun c => Fin (k * fst c)) (np_poly z), map (fun c => Fin (fst c)) (np_poly p)).

(** dominant_frequencies.py:121-124: lfilter(b, a, sig) with that design (order 6 in the code) *)
Definition band_pass (N : nat) (w1 w2 : R) (sig : list F) : list F :=
  lfilter (fst (butter_band N w1 w2)) (snd (butter_band N w1 w2)) sig.

(** dominant_frequencies.py:121-123: the normalised cut-off frequency (cutoff * 2) / fs ... *)
Definition cutoff_of `{Env} (fs : Z) (cutoff : R) : R := rnd (rnd (cutoff * 2) / IZR fs).
(** ... and the design.  scipy refuses cut-offs outside of 0 < Wn < 1.  Recent versions of scipy also
    refuse w1 >= w2, which older ones accept; no theorem is about that case. *)
Definition butter_design `{Env} (fs : Z) (lower upper : R) : result (list F * list F) :=
  if (fs =? 0)%Z then Raise ZeroDivisionError
  else
    let w1 := cutoff_of fs lower in
    let w2 := cutoff_of fs upper in
    if Rleb w1 0 || Rleb w2 0 || Rleb 1 w1 || Rleb 1 w2 then Raise ValueError
    else Ok (butter_band 6 w1 w2).

(** dominant_frequencies.py:16-164 (get_dominant_frequencies) with its own arguments butter_filter,
    lower_cutoff and upper_cutoff *)
Definition get_dominant_frequencies_of `{Env} (sig : list F) (fs : Z) (butter_filter : bool) (lower upper : R)
    (nfft : Z) (wlen whop : R) (wtype : string) (only_positive : bool) : result (list F) :=
  if butter_filter
  then do ba <- butter_design fs lower upper;
       get_dominant_frequencies sig fs (Some ba) nfft wlen whop wtype only_positive
  else get_dominant_frequencies sig fs None nfft wlen whop wtype only_positive.
