(** * Model of spafe/utils/cepstral.py *)
From Coq Require Import Reals ZArith List String Bool.
From Flocq Require Import Core.Raux.
From Verif Require Import Base Preprocessing.
Import ListNotations.
Local Open Scope R_scope.

(** np.std over all elements *)
Definition fstd (l : list F) : F :=
  let m := fmean l in fsqrt (fmean (map (fun v => fmul (fsub v m) (fsub v m)) l)).

(** np.mean(x, axis=0) *)
Definition col_means (x : list (list F)) : list F :=
  map (fun j => fmean (column NaN x j)) (seq 0 (ncols x)).

(** spafe/utils/cepstral.py:17-56 (normalize_ceps).  All four dict values are
    computed first; only np.max / np.min of an empty array can raise. *)
Definition normalize_ceps (x : list (list F)) (normalization_type : string)
  : result (list (list F)) :=
  let all := List.concat x in
  let means := col_means x in
  do mx <- fmaxl all;
  do mn <- fminl all;
  if String.eqb normalization_type "mvn"
  then Ok (map (fun row => map2 (fun v m => fdiv (fsub v m) (fstd all)) row means) x)
  else if String.eqb normalization_type "ms"
  then Ok (map (fun row => map2 fsub row means) x)
  else if String.eqb normalization_type "vn"
  then Ok (map (map (fun v => fdiv v (fstd all))) x)
  else if String.eqb normalization_type "mn"
  then Ok (map (map (fun v => fdiv (fsub v (fmean all)) (fsub mx mn))) x)
  else Raise KeyError.

(** spafe/utils/cepstral.py:59-95 (lifter_ceps).  [i ** lift] is computed in the
    reals (Python uses unbounded integers for an integer lift). *)
Definition lifter_ceps (ceps : list (list F)) (lift : R) : result (list (list F)) :=
  let n := ncols ceps in
  if Reqb lift 0 || Rltb 10 lift then Ok ceps
  else if Rltb 0 lift then
    let vec := f1 :: map (fun i => Fin (Rpower (INR i) lift)) (seq 1 (n - 1)) in
    if Nat.eqb (List.length vec) n then
      (* np.dot(ceps, np.diag(lift_vec)): the zeros off the diagonal take part *)
      Ok (map (fun row =>
            map (fun j => fdot row (map (fun k => if Nat.eqb k j then nth k vec NaN else f0)
                                        (seq 0 n)))
                (seq 0 n)) ceps)
    else Raise ValueError
  else
    let L := IZR (Ztrunc (-1 * lift)) in
    let vec := map (fun j => fadd f1 (fmul (Fin (L / 2))
                               (fsin (fdiv (Fin (PI * INR j)) (Fin L))))) (seq 1 n) in
    Ok (map (fun row => map2 fmul row vec) ceps).

(** spafe/utils/cepstral.py:98-123 (deltas).  [h] is floor(w/2); np.tile rejects a
    negative repeat count; x[:, 0] needs a column. *)
Definition deltas (x : list (list F)) (w : Z) : result (list (list F)) :=
  let cols := ncols x in
  let h := (w / 2)%Z in
  if Nat.eqb cols 0 then Raise IndexError
  else if (h <? 0)%Z then Raise ValueError
  else
    let hn := Z.to_nat h in
    let win := map fZ (map (fun k => (h - Z.of_nat k)%Z) (seq 0 (2 * hn + 1))) in
    Ok (map (fun row =>
          let xx := repeat (nth 0 row NaN) hn ++ row ++ repeat (nth (cols - 1) row NaN) hn in
          firstn cols (skipn (2 * hn) (fir win xx))) x).
