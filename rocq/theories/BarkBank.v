(** * Model of spafe/fbanks/bark_fbanks.py *)
From Coq Require Import Reals ZArith List String Bool.
From Flocq Require Import Core.Raux.
From Verif Require Import Base Preprocessing Converters Filters MelBanks.
Import ListNotations.
Local Open Scope R_scope.

(** spafe/fbanks/bark_fbanks.py:19-41 (Fm) *)
Definition Fm (fb fc : F) : F :=
  let d := fsub fb fc in
  if fltb d (Fin (-1.3)) || fltb (Fin 2.5) d then Fin 0
  else if fleb (Fin (-1.3)) d && fleb d (Fin (-0.5)) then
    fexp10 (fmul (Fin 2.5) (fadd d (Fin 0.5)))
  else if fltb (Fin (-0.5)) d && fltb d (Fin 0.5) then Fin 1
  else fexp10 (fmul (Fin (-1)) (fsub d (Fin 0.5))).

(** spafe/fbanks/bark_fbanks.py:153-160, one bin: np.floor of the rounded float, turned
    into an int only at line 164; int() of NaN is a ValueError, of inf an OverflowError *)
Definition bark_bin `{Env} (nfft fs : Z) (approach : string) (b : F) : F :=
  match fmul (fZ (nfft + 1)) (fdiv (bark2hz b approach) (fZ fs)) with
  | Fin x => Fin (IZR (Zfloor (rnd x)))
  | y => y
  end.
Definition py_int (x : F) : result Z :=
  match x with
  | Fin r => Ok (Ztrunc r)
  | NaN => Raise ValueError
  | _ => Raise OverflowError
  end.

(** spafe/fbanks/bark_fbanks.py:164-167, one pass of the inner loop over a row;
    (i * fs) / (nfft + 1) is a division of Python integers *)
Definition bark_row (nfft fs lo hi : Z) (approach : string) (fc : F) (row : list F) : result (list F) :=
  foldM (fun r i =>
           if (nfft + 1 =? 0)%Z then Raise ZeroDivisionError
           else py_set r i (Fm (hz2bark (Fin (IZR (i * fs) / IZR (nfft + 1))) approach) fc))
        (zrange lo hi) row.

(** spafe/fbanks/bark_fbanks.py:44-173 (bark_filter_banks) *)
Definition bark_filter_banks `{Env} (nfilts nfft fs : Z) (low_freq : R) (high_freq : option R)
    (scale approach : string) : result (list (list F) * list F) :=
  let high := or_half high_freq fs in
  if Rltb low_freq 0 then Raise (ParameterError msg_low_freq)
  else if Rltb (IZR fs / 2) high then Raise (ParameterError msg_high_freq)
  else
    let low_bark := hz2bark (Fin low_freq) approach in
    let high_bark := hz2bark (Fin high) approach in
    (* np.linspace and np.zeros reject negative sizes *)
    if ((nfilts <? 0) || (nfft / 2 + 1 <? 0))%Z then Raise ValueError
    else
      let centers := flinspace low_bark high_bark (Z.to_nat nfilts) in
      let bins := map (bark_bin nfft fs approach) centers in
      let zeros := repeat f0 (Z.to_nat (nfft / 2 + 1)) in
      do fbank <- mapM (fun fc =>
          do lo <- py_int (nth 0 bins NaN);
          do hi <- py_int (last bins NaN);
          bark_row nfft fs lo hi approach fc zeros) centers;
      do scaling <- scale_fbank scale nfilts;
      Ok (scale_rows scaling fbank, centers).
