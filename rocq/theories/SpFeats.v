(** * Model of spafe/features/spfeats.py *)
From Coq Require Import Reals ZArith List String Bool.
From Verif Require Import Base Cplx Fourier Dominant.
Import ListNotations.
Local Open Scope R_scope.

(** The functions get a complex spectrum (np.fft.rfft of a signal); a real one has imaginary
    parts 0. *)
Definition magnitude (spectrum : list cplx) : list F := map cabs spectrum.
(** np.abs(np.fft.fftfreq(len(spectrum), 1.0 / fs)), spfeats.py:55 and alike *)
Definition abs_freqs (spectrum : list cplx) (fs : Z) : result (list F) :=
  do fr <- fftfreq (List.length spectrum) fs; Ok (map fabs fr).

(** spfeats.py:31-59 (spectral_centroid), for a natural exponent i *)
Definition spectral_centroid (fs : Z) (spectrum : list cplx) (i : nat) : result F :=
  let mag := magnitude spectrum in
  do freqs <- abs_freqs spectrum fs;
  Ok (fdiv (fsum (map2 fmul mag (map (fun f => fpown f i) freqs))) (fsum mag)).

(** the common lines of spectral_skewness (p = 3) and spectral_kurtosis (p = 4) *)
Definition spectral_moment (p : nat) (fs : Z) (spectrum : list cplx) : result F :=
  let mag := magnitude spectrum in
  do mu1 <- spectral_centroid fs spectrum 1;
  do mu2 <- spectral_centroid fs spectrum 2;
  do freqs <- abs_freqs spectrum fs;
  Ok (fdiv (fsum (map2 fmul mag (map (fun f => fpown (fsub f mu1) p) freqs)))
           (fmul (fsum mag) (fpown mu2 p))).
(** spfeats.py:62-92 (spectral_skewness); the argument sig is not used *)
Definition spectral_skewness : Z -> list cplx -> result F := spectral_moment 3.
(** spfeats.py:95-125 (spectral_kurtosis); the argument sig is not used *)
Definition spectral_kurtosis : Z -> list cplx -> result F := spectral_moment 4.

(** spfeats.py:128-155 (spectral_entropy) *)
Definition spectral_entropy (spectrum : list cplx) : F :=
  let mag := magnitude spectrum in
  fdiv (fmul (Fin (-1)) (fsum (map2 fmul mag (map flog mag)))) (flog (fnat (List.length mag))).

(** spfeats.py:158-188 (spectral_spread): one value per bin *)
Definition spectral_spread (fs : Z) (spectrum : list cplx) : result (list F) :=
  let mag := magnitude spectrum in
  do freqs <- abs_freqs spectrum fs;
  do mu1 <- spectral_centroid fs spectrum 1;
  let s := fpown (fsum (map (fun f => fsub f mu1) freqs)) 2 in
  Ok (map (fun m => fsqrt (fdiv (fmul s m) (fsum mag))) mag).

(** scipy.stats.mstats.gmean (library function): exp of the mean of the logarithms *)
Definition gmean (l : list F) : F := fexp (fmean (map flog l)).
(** spfeats.py:191-211 (spectral_flatness) *)
Definition spectral_flatness (spectrum : list cplx) : F :=
  let mag := magnitude spectrum in fdiv (gmean mag) (fmean mag).

(** spfeats.py:214-233 (spectral_rolloff) *)
Definition spectral_rolloff (spectrum : list cplx) (k : F) : F := fmul k (fsum (magnitude spectrum)).
(** the same lines as they run in the call of line 330, spectral_rolloff(fs, spectrum): the
    number fs takes the place of the spectrum and the spectrum that of k *)
Definition spectral_rolloff_swapped (fs : Z) (k : list cplx) : list cplx :=
  map (cscal (fabs (fZ fs))) k.

(** np.diff *)
Definition np_diff (l : list F) : list F := map2 fsub (tl l) l.
(** spfeats.py:236-264 (spectral_flux), for a natural p *)
Definition spectral_flux (spectrum : list cplx) (p : nat) : result F :=
  let s := fsum (map (fun d => fpown (fabs d) p) (np_diff (magnitude spectrum))) in
  if Nat.eqb p 0 then Raise ZeroDivisionError else Ok (fpow s (1 / INR p)).

(** np.mean of a complex array *)
Definition cmean (l : list cplx) : cplx :=
  let s := csum l in (fdiv (fst s) (fnat (List.length l)), fdiv (snd s) (fnat (List.length l))).
(** np.sqrt of a complex number: the square root with non-negative real part.  On the negative
    real axis the sign of the result follows the sign of the zero imaginary part, which the
    model does not have; the root with positive imaginary part is taken. *)
Definition csqrt (z : cplx) : cplx :=
  let m := cabs z in
  let a := fsqrt (fdiv (fadd m (fst z)) (Fin 2)) in
  let b := fsqrt (fdiv (fsub m (fst z)) (Fin 2)) in
  (a, if fltb (snd z) f0 then fneg b else b).
(** np.var of a complex array: the mean of |x - mean|**2 *)
Definition cvar (l : list cplx) : F :=
  let mu := cmean l in
  fmean (map (fun x => let d := csub x mu in fadd (fmul (fst d) (fst d)) (fmul (snd d) (snd d))) l).

(** The dictionary of spfeats.py:267-336 *)
Record spectral_feats := mkFeats {
  sf_centroid : F; sf_skewness : F; sf_kurtosis : F; sf_entropy : F; sf_spread : list F;
  sf_flatness : F; sf_rolloff : list cplx; sf_flux : F; sf_mean : cplx; sf_rms : cplx;
  sf_std : F; sf_variance : F }.

(** spfeats.py:267-336 (extract_feats) *)
Definition extract_feats (sig : list F) (fs nfft : Z) : result spectral_feats :=
  do X <- np_rfft [sig] nfft;
  let spectrum := nth 0 X [] in
  do centroid <- spectral_centroid fs spectrum 1;
  do skewness <- spectral_skewness fs spectrum;
  do kurtosis <- spectral_kurtosis fs spectrum;
  do spread <- spectral_spread fs spectrum;
  do flux <- spectral_flux spectrum 2;
  Ok (mkFeats centroid skewness kurtosis (spectral_entropy spectrum) spread
        (spectral_flatness spectrum) (spectral_rolloff_swapped fs spectrum) flux
        (cmean spectrum) (csqrt (cmean (map (fun z => cmul z z) spectrum)))
        (fsqrt (cvar spectrum)) (cvar spectrum)).
