(** * Model of spafe/utils/filters.py *)
From Coq Require Import Reals ZArith List String Bool.
From Verif Require Import Base.
Import ListNotations.
Local Open Scope R_scope.

(** spafe/utils/filters.py:50-75 (scale_fbank).  The nfilts x 1 column is kept as
    the vector of its entries.  The dict is built before the look-up, so a
    negative count fails in np.ones / reshape whatever the name. *)
Definition scale_fbank (scale : string) (nfilts : Z) : result (list F) :=
  if (nfilts <? 0)%Z then Raise ValueError
  else
    let n := Z.to_nat nfilts in
    if String.eqb scale "ascendant"
    then Ok (map (fun i => fdiv (fnat i) (fnat n)) (seq 1 n))
    else if String.eqb scale "descendant"
    then Ok (map (fun i => fdiv (fnat (n - i)) (fnat n)) (seq 0 n))
    else if String.eqb scale "constant" then Ok (repeat f1 n)
    else Raise KeyError.

(** scipy.signal.lfilter with initial state (library function): one step of the
    transposed direct form II, and its iteration.  [a] is the denominator with
    a[0] = 1; missing coefficients contribute nothing (with the denominator 1 scipy
    takes the np.convolve branch, which has no feedback products). *)
Definition df2t_step (b a z : list F) (x : F) : F * list F :=
  let y := fadd (fmul (nth 0 b NaN) x) (nth 0 z NaN) in
  (y, map (fun k =>
        let s := fmul (nth (S k) b NaN) x in
        let s := if Nat.ltb (S k) (List.length z) then fadd s (nth (S k) z NaN) else s in
        match nth_error a (S k) with Some ak => fsub s (fmul ak y) | None => s end)
      (seq 0 (List.length z))).

Fixpoint lfilter_state (b a z xs : list F) : list F * list F :=
  match xs with
  | [] => ([], z)
  | x :: t =>
      let '(y, z') := df2t_step b a z x in
      let '(ys, zf) := lfilter_state b a z' t in (y :: ys, zf)
  end.

(** scipy.signal.lfilter_zi(b, 1) (library function): the loop of scipy for a
    denominator padded with zeros *)
Definition lfilter_zi_fir (b : list F) : list F :=
  let z0 := fsum (skipn 1 b) in
  map (fun k => fsub z0 (fsum (firstn k (skipn 1 b)))) (seq 0 (List.length b - 1)).

(** spafe/utils/filters.py:32-34 *)
Definition rasta_numer : list F :=
  let n := map fZ (zrange (-2) 3) in
  map (fun v => fdiv (fmul (Fin (-1)) v) (fsum (map (fun w => fmul w w) n))) n.
(** denom with the zeros that scipy's lfilter appends up to the length of the numerator: they
    matter for an infinite output, since 0 * inf is NaN *)
Definition rasta_denom : list F := [f1; Fin (-0.94); f0; f0; f0].

(** spafe/utils/filters.py:41-46, one row.  For rows of one to four entries the
    second lfilter call gets an empty array; the model then returns only the
    zeroed part (no theorem relies on this case). *)
Definition rasta_row (z row : list F) : result (list F * list F) :=
  do x0 <- py_nth row 0;
  let '(y1, z') := lfilter_state rasta_numer [f1] (map (fun v => fmul v x0) z) (firstn 4 row) in
  let y1 := map (fun v => fmul v f0) y1 in
  let '(y2, _) := lfilter_state rasta_numer rasta_denom z' (skipn 4 row) in
  Ok (y1 ++ y2, z').

Fixpoint rasta_rows (z : list F) (x : list (list F)) : result (list (list F)) :=
  match x with
  | [] => Ok []
  | row :: t =>
      do yz <- rasta_row z row;
      do ys <- rasta_rows (snd yz) t;
      Ok (fst yz :: ys)
  end.

(** spafe/utils/filters.py:17-47 (rasta_filter).  The filter state left by the FIR
    pass of a row is reused (scaled by the next row's first entry) for the next row. *)
Definition rasta_filter (x : list (list F)) : result (list (list F)) :=
  rasta_rows (lfilter_zi_fir rasta_numer) x.
