(** * Model of spafe/fbanks/gammatone_fbanks.py *)
From Coq Require Import Reals ZArith List String Bool.
From Verif Require Import Base Cplx Preprocessing Converters Filters MelBanks.
Import ListNotations.
Local Open Scope R_scope.

(** spafe/fbanks/gammatone_fbanks.py:19-20 *)
Definition EarQ : R := 9.26449.
Definition minBW : R := 24.7.

(** spafe/fbanks/gammatone_fbanks.py:23-45 (generate_center_frequencies) *)
Definition generate_center_frequencies (min_freq max_freq : R) (nfilts : nat) : list F :=
  let c := Fin (EarQ * minBW) in
  rev (map (fun k =>
    let m := fnat (k + 1) in
    fsub (fmul (fadd (Fin max_freq) c)
               (fexp (fmul (fdiv m (fnat nfilts))
                           (fsub (flog (fadd (Fin min_freq) c)) (flog (fadd (Fin max_freq) c))))))
         c) (seq 0 nfilts)).

(** spafe/fbanks/gammatone_fbanks.py:48-85 (compute_gain) for one filter: the four
    entries of its column of A, and its gain *)
Definition compute_gain (fc B wT T : F) : list F * F :=
  let K := fexp (fmul B T) in
  let Cos := fcos (fmul (fmul (fmul (Fin 2) fc) (Fin PI)) T) in
  let Sin := fsin (fmul (fmul (fmul (Fin 2) fc) (Fin PI)) T) in
  let Smax := Fin (sqrt (3 + Rpower 2 (3 / 2))) in
  let Smin := Fin (sqrt (3 - Rpower 2 (3 / 2))) in
  let A := [fdiv (fadd Cos (fmul Smax Sin)) K; fdiv (fsub Cos (fmul Smax Sin)) K;
            fdiv (fadd Cos (fmul Smin Sin)) K; fdiv (fsub Cos (fmul Smin Sin)) K] in
  let Kj := cexpi wT in
  let G a := cmul (cscal (fmul (Fin 2) T) Kj) (csub (cre a) Kj) in
  let Kj2 := cmul Kj Kj in
  let Coe := cadd (csub (cre (fdiv (Fin (-2)) (fpown K 2))) (cscal (Fin 2) Kj2))
                  (cscal (fdiv (Fin 1) K) (cscal (Fin 2) (cadd (cre f1) Kj2))) in
  let Coe4 := cmul (cmul Coe Coe) (cmul Coe Coe) in
  (A, cabs (cmul (cmul (cmul (cmul (G (nth 0 A NaN)) (G (nth 1 A NaN))) (G (nth 2 A NaN)))
                       (G (nth 3 A NaN))) (cinv Coe4))).

(** spafe/fbanks/gammatone_fbanks.py:203-219, one filter before normalisation.
    [order] <> 0 and [fs] <> 0 are checked by the caller. *)
Definition gammatone_row (nfft fs order : Z) (fc : F) : list F :=
  let T := Fin (1 / IZR fs) in
  let ERB := fmul (Fin 1.0)
               (fpow (fadd (fpowz (fdiv fc (Fin EarQ)) order) (fpowz (Fin minBW) order)) (1 / IZR order)) in
  let B := fmul (Fin (1.019 * 2 * PI)) ERB in
  let wT := fmul (fmul (fmul (Fin 2) fc) (Fin PI)) T in
  let r := fexp (fmul B T) in
  let pole := (fdiv (fcos wT) r, fdiv (fsin wT) r) in
  let '(A, Gain) := compute_gain fc B wT T in
  map (fun k =>
    let u := cexpi (fdiv (fmul (Fin (2 * PI)) (fnat k)) (fZ nfft)) in
    fmul (fmul (fdiv (fpown T 4) Gain)
               (cabs (cmul (cmul (cmul (csub u (cre (nth 0 A NaN))) (csub u (cre (nth 1 A NaN))))
                                 (csub u (cre (nth 2 A NaN)))) (csub u (cre (nth 3 A NaN))))))
         (fpowz (cabs (cmul (csub u pole) (csub u (cconj pole)))) (-4)))
    (seq 0 (Z.to_nat (nfft / 2 + 1))).

(** spafe/fbanks/gammatone_fbanks.py:223 *)
Definition normalise_row (row : list F) : result (list F) :=
  do m <- fmaxl row; Ok (map (fun v => fdiv v m) row).

(** spafe/fbanks/gammatone_fbanks.py:88-231 (gammatone_filter_banks).  The centre
    frequencies are None for an unknown conversion name. *)
Definition gammatone_filter_banks (nfilts nfft fs : Z) (low_freq : R) (high_freq : option R)
    (scale : string) (order : Z) (approach : string) : result (list (list F) * list (option F)) :=
  let high := or_half high_freq fs in
  if Rltb low_freq 0 then Raise (ParameterError msg_low_freq)
  else if Rltb (IZR fs / 2) high then Raise (ParameterError msg_high_freq)
  else if ((nfilts <? 0) || (nfft <? 0))%Z then Raise ValueError  (* np.zeros *)
  else if (fs =? 0)%Z then Raise ZeroDivisionError                (* 1 / fs *)
  else if (order =? 0)%Z then Raise ZeroDivisionError             (* 1 / order *)
  else if (nfft =? 0)%Z then Raise IndexError                     (* fbank[:, idx] *)
  else
    let fcs := generate_center_frequencies low_freq high (Z.to_nat nfilts) in
    let fbank := map (gammatone_row nfft fs order) fcs in
    let fbank := match mapM normalise_row fbank with
                 | Ok b => b
                 | Raise _ => fbank
                 end in
    do scaling <- scale_fbank scale nfilts;
    Ok (scale_rows scaling fbank, map (fun f => hz2erb f approach) fcs).
