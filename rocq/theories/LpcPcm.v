(** * spafe/features/lpc.py on integer samples (PCM arrays as read from a WAV file)

    framing keeps the dtype of the signal, and lpc and lpcc hand the frames, not the windowed
    frames, to __lpc_helper (lpc.py:196, 332).  Without pre-emphasis an integer array is therefore
    still an integer array in lines 75-82, where numpy computes modulo 2^bits. *)
From Coq Require Import Reals ZArith List String Bool.
From Flocq Require Import Core.Raux.
From Verif Require Import Base Preprocessing Cepstral Features LinAlg Lpc.
Import ListNotations.
Local Open Scope R_scope.

(** numpy's integer types: int8, int16, int32, int64 and uint8, uint16, ... *)
Inductive itype := Int (bits : Z) | UInt (bits : Z).
(** the value an integer gets in an array of the type *)
Definition wrap (t : itype) (z : Z) : Z :=
  match t with
  | Int b => ((z + 2 ^ (b - 1)) mod 2 ^ b - 2 ^ (b - 1))%Z
  | UInt b => (z mod 2 ^ b)%Z
  end.
(** the same on numbers of the model, which are integers here *)
Definition wrapF (t : itype) (v : F) : F :=
  match v with Fin r => Fin (IZR (wrap t (Zfloor r))) | y => y end.

(** spafe/features/lpc.py:25-85 (__lpc_helper) for a frame of the integer type [t].
    np.correlate sums the products modulo 2^bits (line 79), the array r has the type of the frame
    (line 75), so has -r[1:] (line 82).  scipy.linalg.inv converts to float64, and so do the
    products with its result. *)
Definition lpc_helper_pcm (t : itype) (frame : list F) (order : Z) : result (list F * F) :=
  let p := (order + 1)%Z in
  if (p <? 0)%Z then Raise ValueError
  else
    do corr <- correlate_full frame;
    let auto_corr := map (wrapF t) corr in
    let size := zlen frame in
    let part := py_drop (size - 1) (py_take (size + order) auto_corr) in
    let r := part ++ repeat f0 (Z.to_nat p - List.length part) in
    do inverse <- linalg_inv (toeplitz (removelast r));
    let rhs := map (fun v => wrapF t (fneg v)) (tl r) in
    let phi := map (fun row => fdot row rhs) inverse in
    let a := f1 :: phi in
    do first <- py_nth auto_corr 0;
    let e := fadd first (fsum (map2 fmul (tl auto_corr) a)) in
    Ok (a, fsqrt (fmul e e)).

(** lpc.py:178-199: pre_emphasis (scipy.signal.lfilter with float coefficients) returns float64 *)
Definition lpc_helper_of (t : itype) (pre_emph : bool) (frame : list F) (order : Z) : result (list F * F) :=
  if pre_emph then lpc_helper frame order else lpc_helper_pcm t frame order.

(** spafe/features/lpc.py:88-201 (lpc) of an integer array; framing only moves samples *)
Definition lpc_pcm `{Env} (t : itype) (sig : list Z) (fs order : Z) (pre_emph : bool) (pre_emph_coeff : R)
    (window : option SlidingWindow) : result (list (list F) * list (list F)) :=
  let order := (order - 1)%Z in
  do (frames, windows) <- framed (map fZ sig) fs pre_emph 0.97 window;
  if (order + 1 <? 0)%Z then Raise ValueError
  else
    do rows <- mapM (fun frame => lpc_helper_of t pre_emph frame order) frames;
    Ok (map fst rows, map (fun ae => [snd ae]) rows).

(** spafe/features/lpc.py:247-345 (lpcc) of an integer array *)
Definition lpcc_pcm `{Env} (t : itype) (sig : list Z) (fs order : Z) (pre_emph : bool) (pre_emph_coeff : R)
    (window : option SlidingWindow) (lifter : option R) (normalize : option string)
  : result (list (list F)) :=
  let order := (order - 1)%Z in
  do (frames, windows) <- framed (map fZ sig) fs pre_emph 0.97 window;
  if (order + 1 <? 0)%Z then Raise ValueError
  else
    do lpccs <- mapM (fun frame => do (a, e) <- lpc_helper_of t pre_emph frame order;
                                   lpc2lpcc a e (order + 1)) frames;
    do lpccs <- match lifter with
                | Some l => if Reqb l 0 then Ok lpccs else lifter_ceps lpccs l
                | None => Ok lpccs
                end;
    match normalize with
    | Some t => if String.eqb t "" then Ok lpccs else normalize_ceps lpccs t
    | None => Ok lpccs
    end.
