(** * Model of spafe/fbanks/mel_fbanks.py and spafe/fbanks/linear_fbanks.py *)
From Coq Require Import Reals ZArith List String Bool.
From Verif Require Import Base Preprocessing Converters Filters.
Import ListNotations.
Local Open Scope R_scope.

(** spafe/fbanks/mel_fbanks.py:107-114, one filter: the left slope is written first,
    the right slope overwrites it.  Both masks use the Python idiom [a == b] on two
    comparisons, so they are also true where both comparisons are false. *)
Definition slope_row (freqs : list F) (center lower upper : F) : list F :=
  map (fun f =>
    let left_slope := Bool.eqb (fgeb f lower) (fleb f center) in
    let right_slope := Bool.eqb (fgeb f center) (fleb f upper) in
    if right_slope then fdiv (fsub upper f) (fsub upper center)
    else if left_slope then fdiv (fsub f lower) (fsub center lower)
    else f0) freqs.

(** [fbank * scaling]: row j times factor j *)
Definition scale_rows (s : list F) (fbank : list (list F)) : list (list F) :=
  map2 (fun a row => map (fun v => fmul v a) row) s fbank.

(** spafe/fbanks/mel_fbanks.py:80-84 and 95-99: nfilts + 2 equally spaced points *)
Definition scale_points (lo hi : F) (n : nat) : list F :=
  let delta := fdiv (fabs (fsub hi lo)) (fnat (n + 1)) in
  map (fun k => fadd lo (fmul delta (fnat k))) (seq 0 (n + 2)).

(** spafe/fbanks/mel_fbanks.py:19-120 (mel_filter_banks_helper).
    [low_freq] and [high_freq] are plain Python numbers, so dividing by
    nfilts + 1 = 0 raises in the linear branch; in the mel branch the division is
    numpy's and np.zeros rejects the negative count later. *)
Definition mel_filter_banks_helper (nfilts nfft fs : Z) (low_freq : R) (high_freq : option R)
    (scale fb_type approach : string) : result (list (list F) * list F) :=
  let high := or_half high_freq fs in
  if Rltb low_freq 0 then Raise (ParameterError msg_low_freq)
  else if Rltb (IZR fs / 2) high then Raise (ParameterError msg_high_freq)
  else
    let n := Z.to_nat nfilts in
    do pts <-
      (if String.eqb fb_type "mel" then
         do low_mel <- hz2mel (Fin low_freq) approach;
         do high_mel <- hz2mel (Fin high) approach;
         let sf := scale_points low_mel high_mel n in
         do centers_hz <- mapM (fun m => mel2hz m approach) (firstn n (skipn 1 sf));
         do lower_hz <- mapM (fun m => mel2hz m approach) (firstn n sf);
         do upper_hz <- mapM (fun m => mel2hz m approach) (skipn 2 sf);
         Ok (firstn n (skipn 1 sf), centers_hz, lower_hz, upper_hz)
       else if (nfilts + 1 =? 0)%Z then Raise ZeroDivisionError
       else
         let sf := scale_points (Fin low_freq) (Fin high) n in
         Ok (firstn n (skipn 1 sf), firstn n (skipn 1 sf), firstn n sf, skipn 2 sf));
    let '(center_freqs, centers_hz, lower_hz, upper_hz) := pts in
    if ((nfft / 2 + 1 <? 0) || (nfilts <? 0))%Z then Raise ValueError
    else
      let freqs := flinspace (Fin low_freq) (Fin high) (Z.to_nat (nfft / 2 + 1)) in
      let fbank := map2 (fun c lu => slope_row freqs c (fst lu) (snd lu))
                        centers_hz (map2 pair lower_hz upper_hz) in
      do scaling <- scale_fbank scale nfilts;
      Ok (scale_rows scaling fbank, center_freqs).

(** spafe/fbanks/mel_fbanks.py:123-214 (mel_filter_banks) *)
Definition mel_filter_banks (nfilts nfft fs : Z) (low_freq : R) (high_freq : option R)
    (scale approach : string) : result (list (list F) * list F) :=
  mel_filter_banks_helper nfilts nfft fs low_freq high_freq scale "mel" approach.

(** spafe/fbanks/mel_fbanks.py:302-306 (scales) *)
Definition inverse_scale (scale : string) : result string :=
  if String.eqb scale "ascendant" then Ok "descendant"%string
  else if String.eqb scale "descendant" then Ok "ascendant"%string
  else if String.eqb scale "constant" then Ok "constant"%string
  else Raise KeyError.

(** spafe/fbanks/mel_fbanks.py:217-330 (inverse_mel_filter_banks).  Lines 325-328 use
    the caller's high_freq: None minus a non-empty array is a TypeError, None minus
    an empty array is an empty array. *)
Definition inverse_mel_filter_banks (nfilts nfft fs : Z) (low_freq : R) (high_freq : option R)
    (scale approach : string) : result (list (list F) * list F) :=
  do sc <- inverse_scale scale;
  do bank <- mel_filter_banks_helper nfilts nfft fs low_freq high_freq sc "mel" approach;
  let '(fbanks, mel_freqs) := bank in
  let mirrored := map (@rev F) fbanks in
  do hz <- mapM (fun m => mel2hz m approach) mel_freqs;
  do centers <-
    match high_freq with
    | Some h => mapM (fun f => hz2mel (fsub (Fin h) f) approach) hz
    | None => match hz with [] => Ok [] | _ => Raise TypeError end
    end;
  Ok (map (map fabs) mirrored, centers).

(** spafe/fbanks/linear_fbanks.py:18-105 (linear_filter_banks) *)
Definition linear_filter_banks (nfilts nfft fs : Z) (low_freq : R) (high_freq : option R)
    (scale : string) : result (list (list F) * list F) :=
  do bank <- mel_filter_banks_helper nfilts nfft fs low_freq high_freq scale "lin" "Oshaghnessy";
  Ok (map (map fabs) (fst bank), snd bank).
