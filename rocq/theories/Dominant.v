(** * Model of spafe/frequencies/dominant_frequencies.py *)
From Coq Require Import Reals ZArith List String Bool.
From Flocq Require Import Core.Raux Core.Round_NE Core.Generic_fmt.
From Verif Require Import Base Cplx Preprocessing Filters Fourier Yin.
Import ListNotations.
Local Open Scope R_scope.

(** np.fft.fftfreq(n, 1 / fs) (library function): k * fs / n for the first (n-1)//2 + 1 bins,
    (k - n) * fs / n for the others.  A sampling rate of 0 or no bins divide by zero. *)
Definition fftfreq (n : nat) (fs : Z) : result (list F) :=
  if (fs =? 0)%Z then Raise ZeroDivisionError
  else if Nat.eqb n 0 then Raise ZeroDivisionError
  else Ok (map (fun k => fmul (Fin (if Nat.ltb k (S ((n - 1) / 2)) then INR k else INR k - INR n))
                              (fdiv (fZ fs) (fnat n))) (seq 0 n)).

(** np.round(., 3): multiply by 1000, round to the nearest integer (ties to even), divide *)
Definition fround3 (x : F) : F :=
  match x with Fin r => Fin (IZR (ZnearestE (r * 1000)) / 1000) | y => y end.

(** scipy.signal.lfilter(b, a, x) from rest (library function), for a[0] = 1 and
    len(a) <= len(b), which is what scipy.signal.butter returns *)
Definition lfilter (b a x : list F) : list F :=
  fst (lfilter_state b a (repeat f0 (List.length b - 1)) x).

(** dominant_frequencies.py:136-154, one frame *)
Definition dominant_of (nfft fs : Z) (w : list F) : result F :=
  do X <- np_rfft [w] nfft;
  let magnitude_spectrum := map (fun z => fmul (Fin (1 / IZR nfft)) (cabs z)) (nth 0 X []) in
  let power_spectrum := map (fun v => fmul (Fin (1 / IZR nfft)) (fpown v 2)) magnitude_spectrum in
  do frequencies <- fftfreq (List.length power_spectrum) fs;
  do idx <- np_argmax power_spectrum;
  py_nth frequencies (Z.of_nat idx).

(** dominant_frequencies.py:16-164 (get_dominant_frequencies).  [butter] is None without
    butter_filter; with it, the coefficients (b, a) that scipy.signal.butter designs in lines
    121-123 for the two cut-off frequencies (the design is modelled in Butter.v). *)
Definition get_dominant_frequencies `{Env} (sig : list F) (fs : Z) (butter : option (list F * list F))
    (nfft : Z) (wlen whop : R) (wtype : string) (only_positive : bool) : result (list F) :=
  let sig := match butter with Some (b, a) => lfilter b a sig | None => sig end in
  do (frames, frame_length) <- framing sig fs wlen whop;
  do windows <- windowing frames frame_length wtype;
  do dominant_frequencies <- mapM (dominant_of nfft fs) windows;
  let dominant_frequencies := map fround3 dominant_frequencies in
  Ok (if only_positive then filter (fun v => fgeb v f0) dominant_frequencies
      else dominant_frequencies).
