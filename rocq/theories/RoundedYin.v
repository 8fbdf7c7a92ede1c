(** * spafe/frequencies/fundamental_frequencies.py in floating point

    As in Rounded.v every operation is rounded by [rnd] of the class [Env]; comparisons are exact and
    overflow is not represented.  The samples are finite.  The algorithm of
    scipy.signal.fftconvolve is not fixed: [conv L x tau] is the number the library returns for the
    sum of x(j) x(j+tau) over a window of L samples. *)
From Coq Require Import Reals ZArith List String Bool.
From Flocq Require Import Core.Raux.
From Verif Require Import Base Yin.
Import ListNotations.
Local Open Scope R_scope.

Definition rounded `{Env} (v : F) : F := match v with Fin r => Fin (rnd r) | v => v end.

(** np.cumsum adds from left to right: the sum of the first k numbers *)
Fixpoint running `{Env} (v : nat -> R) (k : nat) : R :=
  match k with
  | O => 0
  | S m => match m with O => v O | S _ => rnd (running v m + v m) end
  end.

(** fundamental_frequencies.py:61-72: entry tau of tmp for the window x(0) .. x(L-1) *)
Definition difference_of `{Env} (conv : nat -> (nat -> R) -> nat -> R) (L : nat) (x : nat -> R) (tau : nat) : R :=
  let x_cum_sum := running (fun t => rnd (x t * x t)) in
  let rt_tau_0 := rnd (x_cum_sum L - x_cum_sum tau) in
  let rt_0 := x_cum_sum (L - tau)%nat in
  rnd (rnd (rt_0 + rt_tau_0) - rnd (2 * conv L x tau)).
(** fundamental_frequencies.py:16-73 (compute_difference) *)
Definition compute_difference_of `{Env} (conv : nat -> (nat -> R) -> nat -> R) (x : list R) (tau_max : Z) : list R :=
  let L := List.length x in
  py_take tau_max (map (difference_of conv L (fun t => nth t x 0)) (seq 0 L)).

(** fundamental_frequencies.py:76-97 (compute_cmnd) *)
Definition compute_cmnd_of `{Env} (d_t : list R) (tau : Z) : result (list F) :=
  let d := skipn 1 d_t in
  do num <- bcast (fun a b => rounded (fmul a b)) (map Fin d) (map fZ (zrange 1 tau));
  do q <- bcast (fun a b => rounded (fdiv a b)) num
            (map (fun k => Fin (running (fun u => nth u d 0) (S k))) (seq 0 (List.length d)));
  Ok (f1 :: q).

(** one turn of the loop in lines 249-266; get_pitch, np.argmin and min only compare *)
Definition yin_frame_of `{Env} (conv : nat -> (nat -> R) -> nat -> R) (frame : list R) (fs tau_min tau_max : Z) (th : R)
  : result (F * F * F) :=
  let df := compute_difference_of conv frame tau_max in
  do cmdf <- compute_cmnd_of df tau_max;
  do p <- get_pitch cmdf tau_min tau_max th;
  do am <- np_argmin cmdf;
  let argm := if (tau_min <? Z.of_nat am)%Z then rounded (fdiv (fZ fs) (fnat am)) else f0 in
  if negb (p =? 0)%Z then
    do h <- py_nth cmdf p;
    Ok (rounded (fdiv (fZ fs) (fZ p)), h, argm)
  else
    do h <- py_min cmdf;
    Ok (f0, h, argm).

(** fundamental_frequencies.py:129-268 (compute_yin): pitches, harmonic rates, argmins, times *)
Definition compute_yin_of `{Env} (conv : nat -> (nat -> R) -> nat -> R) (sig : list R) (fs : Z)
    (wlen whop low high th : R) : result (list F * list F * list F * list F) :=
  if Req_EM_T high 0 then Raise ZeroDivisionError
  else if Req_EM_T low 0 then Raise ZeroDivisionError
  else
    let tau_min := Ztrunc (rnd (IZR fs / high)) in
    let tau_max := Ztrunc (rnd (IZR fs / low)) in
    let w_len := Ztrunc (rnd (wlen * IZR fs)) in
    let w_step := Ztrunc (rnd (whop * IZR fs)) in
    do time_scale <- range_step (zlen sig - w_len) w_step;
    do times <- mapM (fun t => if (fs =? 0)%Z then Raise ZeroDivisionError
                               else Ok (rounded (fdiv (fZ t) (fZ fs)))) time_scale;
    let frames := map (fun t => py_slice t (t + w_len) sig) time_scale in
    do out <- mapM (fun frame => yin_frame_of conv frame fs tau_min tau_max th) frames;
    Ok (map (fun o => fst (fst o)) out, map (fun o => snd (fst o)) out, map snd out, times).
