(** * Model of spafe/features/lpc.py *)
From Coq Require Import Reals ZArith List String Bool.
From Verif Require Import Base Preprocessing Cepstral Features LinAlg.
Import ListNotations.
Local Open Scope R_scope.

(** spafe/features/lpc.py:25-85 (__lpc_helper).  The slice of line 80 has exactly
    min(p, frame.size) entries, so the assignment never broadcasts.  The samples are floats;
    LpcPcm.v has the integer arrays that reach this function without pre-emphasis. *)
Definition lpc_helper (frame : list F) (order : Z) : result (list F * F) :=
  let p := (order + 1)%Z in
  if (p <? 0)%Z then Raise ValueError                       (* np.zeros(p), line 75 *)
  else
    do auto_corr <- correlate_full frame;
    let size := zlen frame in
    let part := py_drop (size - 1) (py_take (size + order) auto_corr) in
    let r := part ++ repeat f0 (Z.to_nat p - List.length part) in
    do inverse <- linalg_inv (toeplitz (removelast r));
    let rhs := map fneg (tl r) in
    let phi := map (fun row => fdot row rhs) inverse in
    let a := f1 :: phi in
    do first <- py_nth auto_corr 0;
    let e := fadd first (fsum (map2 fmul (tl auto_corr) a)) in
    Ok (a, fsqrt (fmul e e)).

(** spafe/features/lpc.py:88-201 (lpc); pre_emph_coeff is not used (line 179) and the windowed
    frames only contribute their number (line 193; the loop of line 196 runs over the frames) *)
Definition lpc `{Env} (sig : list F) (fs order : Z) (pre_emph : bool) (pre_emph_coeff : R)
    (window : option SlidingWindow) : result (list (list F) * list (list F)) :=
  let order := (order - 1)%Z in
  do (frames, windows) <- framed sig fs pre_emph 0.97 window;
  if (order + 1 <? 0)%Z then Raise ValueError               (* np.zeros, line 193 *)
  else
    do rows <- mapM (fun frame => lpc_helper frame order) frames;
    Ok (map fst rows, map (fun ae => [snd ae]) rows).

(** spafe/features/lpc.py:204-244 (lpc2lpcc) *)
Definition lpc2lpcc (a : list F) (e : F) (nceps : Z) : result (list F) :=
  let p := zlen a in
  let c := repeat f1 (Z.to_nat nceps) in
  let term (c : list F) (m k : Z) :=
    do cm <- py_nth c m;
    do ak <- py_nth a (m - k);
    Ok (fmul (fmul (Fin (IZR k / IZR m)) cm) ak) in
  do c <- py_set c 0 (flog (zero_handling1 e));
  do c <- foldM (fun c m => do am <- py_nth a m;
                            do ts <- mapM (term c m) (zrange 1 m);
                            py_set c m (fadd am (fsum ts))) (zrange 1 p) c;
  if (p <? nceps)%Z then
    foldM (fun c m => do ts <- mapM (term c m) (zrange (m - p) m);
                      py_set c m (fsum ts)) (zrange (p + 1) nceps) c
  else Ok c.

(** spafe/features/lpc.py:247-345 (lpcc) *)
Definition lpcc `{Env} (sig : list F) (fs order : Z) (pre_emph : bool) (pre_emph_coeff : R)
    (window : option SlidingWindow) (lifter : option R) (normalize : option string)
  : result (list (list F)) :=
  let order := (order - 1)%Z in
  do (frames, windows) <- framed sig fs pre_emph 0.97 window;
  if (order + 1 <? 0)%Z then Raise ValueError               (* np.zeros, line 331 *)
  else
    do lpccs <- mapM (fun frame => do (a, e) <- lpc_helper frame order;
                                   lpc2lpcc a e (order + 1)) frames;
    do lpccs <- match lifter with
                | Some l => if Reqb l 0 then Ok lpccs else lifter_ceps lpccs l
                | None => Ok lpccs
                end;
    match normalize with
    | Some t => if String.eqb t "" then Ok lpccs else normalize_ceps lpccs t
    | None => Ok lpccs
    end.
