(** * Model of spafe/frequencies/fundamental_frequencies.py *)
From Coq Require Import Reals ZArith List String Bool.
From Flocq Require Import Core.Raux.
From Verif Require Import Base.
Import ListNotations.
Local Open Scope R_scope.

(** np.cumsum *)
Definition cumsum (l : list F) : list F :=
  map (fun k => fsum (firstn (S k) l)) (seq 0 (List.length l)).

(** scipy.signal.fftconvolve(a, b) (mode "full"): the convolution sum; empty for an empty
    operand.  The FFT spreads an inf or NaN over the whole result, which is modelled as NaN
    everywhere. *)
Definition fftconvolve (a b : list F) : list F :=
  match a, b with
  | [], _ | _, [] => []
  | _, _ =>
      let na := List.length a in
      let nb := List.length b in
      if forallb finiteb a && forallb finiteb b then
        map (fun k => let lo := (k - (nb - 1))%nat in
                      fsum (map (fun i => fmul (nth i a NaN) (nth (k - i) b NaN))
                                (seq lo (Nat.min (S k) na - lo))))
            (seq 0 (na + nb - 1))
      else repeat NaN (na + nb - 1)
  end.

(** fundamental_frequencies.py:16-73 (compute_difference).  All three vectors added in line
    72 have length w. *)
Definition compute_difference (x : list F) (tau_max : Z) : list F :=
  let w := List.length x in
  let x_cum_sum := f0 :: cumsum (map2 fmul x x) in
  let conv := fftconvolve x (rev x) in
  let rt_tau_0 := map (fun c => fsub (nth w x_cum_sum NaN) c) (firstn w x_cum_sum) in
  (* x_cum_sum[w:0:-1]: from the last entry back to entry 1 *)
  let rt_0 := rev (skipn 1 x_cum_sum) in
  let rt := py_drop (Z.of_nat w - 1) conv in
  let tmp := map2 fsub (map2 fadd rt_0 rt_tau_0) (map (fmul (Fin 2)) rt) in
  py_take tau_max tmp.

(** fundamental_frequencies.py:76-97 (compute_cmnd) *)
Definition compute_cmnd (d_t : list F) (tau : Z) : result (list F) :=
  let d := skipn 1 d_t in
  do num <- bcast fmul d (map fZ (zrange 1 tau));
  do q <- bcast fdiv num (cumsum d);
  Ok (f1 :: q).

(** fundamental_frequencies.py:121-123, the inner while loop started at [tau].  The loop makes
    fewer than tau_max - tau turns, which is the [fuel] it is given. *)
Fixpoint descend (fuel : nat) (c : list F) (tau tau_max : Z) : result Z :=
  match fuel with
  | O => Ok tau
  | S fuel' =>
      if (tau + 1 <? tau_max)%Z then
        do b <- py_nth c (tau + 1);
        do a <- py_nth c tau;
        if fltb b a then descend fuel' c (tau + 1) tau_max else Ok tau
      else Ok tau
  end.
(** fundamental_frequencies.py:119-126, the outer while loop at [tau] *)
Fixpoint search (fuel : nat) (c : list F) (tau tau_max : Z) (th : R) : result Z :=
  match fuel with
  | O => Ok 0%Z
  | S fuel' =>
      if (tau <? tau_max)%Z then
        do v <- py_nth c tau;
        if fltb v (Fin th) then descend fuel c tau tau_max
        else search fuel' c (tau + 1) tau_max th
      else Ok 0%Z
  end.
(** fundamental_frequencies.py:100-126 (get_pitch) *)
Definition get_pitch (cmdf : list F) (tau_min tau_max : Z) (th : R) : result Z :=
  search (Z.to_nat (tau_max - tau_min)) cmdf tau_min tau_max th.

(** np.argmin / np.argmax: the first NaN if there is one, else the first extreme entry *)
Definition fisnan (x : F) : bool := match x with NaN => true | _ => false end.
Fixpoint arg_scan (better : F -> F -> bool) (l : list F) (i best : nat) (v : F) : nat :=
  match l with
  | [] => best
  | x :: t => if negb (fisnan v) && (fisnan x || better x v) then arg_scan better t (S i) i x
              else arg_scan better t (S i) best v
  end.
Definition np_argmin (l : list F) : result nat :=
  match l with [] => Raise ValueError | x :: t => Ok (arg_scan fltb t 1 0 x) end.
Definition np_argmax (l : list F) : result nat :=
  match l with [] => Raise ValueError | x :: t => Ok (arg_scan fgtb t 1 0 x) end.

(** Python's min over an array: NaN entries never win against the current one *)
Definition py_min (l : list F) : result F :=
  match l with
  | [] => Raise ValueError
  | x :: t => Ok (fold_left (fun b y => if fltb y b then y else b) t x)
  end.

(** the slice l[a:b] of Python *)
Definition slice_index {A} (l : list A) (i : Z) : nat :=
  Z.to_nat (if (i <? 0)%Z then zlen l + i else i).
Definition py_slice {A} (a b : Z) (l : list A) : list A :=
  firstn (slice_index l b - slice_index l a) (skipn (slice_index l a) l).

(** range(0, stop, step) *)
Definition range_step (stop step : Z) : result (list Z) :=
  if (step =? 0)%Z then Raise ValueError
  else Ok (map (fun k => (Z.of_nat k * step)%Z)
               (seq 0 (Z.to_nat (if (0 <? step)%Z then (stop + step - 1) / step
                                 else (- stop - step - 1) / (- step))))).

(** one turn of the loop in lines 249-266: pitch, harmonic rate and argmin value of a frame *)
Definition yin_frame (frame : list F) (fs tau_min tau_max : Z) (th : R) : result (F * F * F) :=
  let df := compute_difference frame tau_max in
  do cmdf <- compute_cmnd df tau_max;
  do p <- get_pitch cmdf tau_min tau_max th;
  do am <- np_argmin cmdf;
  let argm := if (tau_min <? Z.of_nat am)%Z then fdiv (fZ fs) (fnat am) else f0 in
  if negb (p =? 0)%Z then
    do h <- py_nth cmdf p;
    Ok (fdiv (fZ fs) (fZ p), h, argm)
  else
    do h <- py_min cmdf;
    Ok (f0, h, argm).

(** fundamental_frequencies.py:129-268 (compute_yin): pitches, harmonic rates, argmins, times.
    [rnd] rounds the quotients and products that are truncated to integers. *)
Definition compute_yin `{Env} (sig : list F) (fs : Z) (wlen whop low high th : R)
  : result (list F * list F * list F * list F) :=
  if Req_EM_T high 0 then Raise ZeroDivisionError
  else if Req_EM_T low 0 then Raise ZeroDivisionError
  else
    let tau_min := Ztrunc (rnd (IZR fs / high)) in
    let tau_max := Ztrunc (rnd (IZR fs / low)) in
    let w_len := Ztrunc (rnd (wlen * IZR fs)) in
    let w_step := Ztrunc (rnd (whop * IZR fs)) in
    do time_scale <- range_step (zlen sig - w_len) w_step;
    do times <- mapM (fun t => if (fs =? 0)%Z then Raise ZeroDivisionError
                               else Ok (fdiv (fZ t) (fZ fs))) time_scale;
    let frames := map (fun t => py_slice t (t + w_len) sig) time_scale in
    do out <- mapM (fun frame => yin_frame frame fs tau_min tau_max th) frames;
    Ok (map (fun o => fst (fst o)) out, map (fun o => snd (fst o)) out, map snd out, times).
