(** * Model of the computations in spafe/utils/vis.py (the matplotlib calls are not modelled) *)
From Coq Require Import Reals ZArith List String Bool.
From Flocq Require Import Core.
From Verif Require Import Base Converters.
Import ListNotations.
Local Open Scope R_scope.

(** spafe/utils/vis.py:144 *)
Definition vis_amin : F := Fin (1 / 10 ^ 10).
(** spafe/utils/vis.py:149-151, one entry *)
Definition db_entry (ref v : F) : F :=
  fmul (Fin 10) (flog10 (fdiv (fmax2 vis_amin v) (fmax2 vis_amin ref))).
(** spafe/utils/vis.py:144-152, the array handed to imshow, for a real spectrogram *)
Definition db_image (spec : list (list F)) (dbf : F) : result (list (list F)) :=
  let magnitude := map (map fabs) spec in
  do ref <- fmaxl (List.concat magnitude);
  let log_spec := map (map (db_entry ref)) magnitude in
  do m <- fmaxl (List.concat log_spec);
  Ok (map (map (fun v => fmax2 v (fsub m dbf))) log_spec).

(** "%.1f" % z (library function): sign and tenths, rounded to nearest, ties to even *)
Inductive label := Tenths (negative : bool) (k : N) | TextInf | TextNegInf | TextNaN.
Definition percent_1f (z : F) : label :=
  match z with
  | Fin r => Tenths (if Rlt_dec r 0 then true else false) (Z.to_N (Z.abs (ZnearestE (r * 10))))
  | PInf => TextInf | NInf => TextNegInf | NaN => TextNaN
  end.
(** spafe/utils/vis.py:15-30 (tick_function).  The dict is built before the look-up, so every
    conversion is computed for every name; "%.1f" % None would be a TypeError. *)
Definition tick_function (X : list F) (fb_type : string) : result (list label) :=
  do mel <- mapM (fun y => rmap percent_1f (hz2mel y "Oshaghnessy")) X;
  let bark := map (fun y => percent_1f (hz2bark y "Wang")) X in
  do gamma <- mapM (fun y => match hz2erb y "Glasberg" with Some z => Ok (percent_1f z) | None => Raise TypeError end) X;
  Ok (if String.eqb fb_type "mel" then mel
      else if String.eqb fb_type "bark" then bark
      else if String.eqb fb_type "gamma" then gamma
      else map percent_1f X).
