(** * Model of spafe/utils/converters.py

    Decimal literals are the exact decimals (their binary64 rounding is not
    modelled). *)
From Coq Require Import Reals ZArith List String Bool.
From Verif Require Import Base.
Local Open Scope R_scope.

(** spafe/utils/converters.py:19 (A) *)
Definition erb_A : R := (1000 * ln 10) / (24.7 * 4.37).

(** spafe/utils/converters.py:24-71 (hz2erb); an unknown approach falls through and
    returns None *)
Definition hz2erb (f : F) (approach : string) : option F :=
  if String.eqb approach "Glasberg"
  then Some (fmul (Fin erb_A) (flog10 (fadd f1 (fmul f (Fin 0.00437)))))
  else None.

(** spafe/utils/converters.py:74-115 (erb2hz) *)
Definition erb2hz (fe : F) (approach : string) : option F :=
  if String.eqb approach "Glasberg"
  then Some (fdiv (fsub (fexp10 (fdiv fe (Fin erb_A))) f1) (Fin 0.00437))
  else None.

(** spafe/utils/converters.py:123-192 (hz2bark) *)
Definition hz2bark (f : F) (approach : string) : F :=
  if String.eqb approach "Wang" then fmul (Fin 6) (farcsinh (fdiv f (Fin 600)))
  else if String.eqb approach "Tjomov" then
    fmul (Fin 6.7) (farcsinh (fdiv (fadd f (Fin 20)) (Fin 600)))
  else if String.eqb approach "Schroeder" then fmul (Fin 7) (farcsinh (fdiv f (Fin 650)))
  else if String.eqb approach "Terhardt" then
    fmul (Fin 13.3) (fatan (fdiv (fmul f (Fin 0.75)) (Fin 1000)))
  else if String.eqb approach "Zwicker" then
    fadd (Fin 8.7) (fmul (Fin 14.2) (flog10 (fdiv f (Fin 1000))))
  else if String.eqb approach "Traunmueller" then
    fsub (fdiv (fmul (Fin 26.28) f) (Fin (1 + 1960))) (Fin 0.53)
  else fmul (Fin 6) (farcsinh (fdiv f (Fin 600))).

(** spafe/utils/converters.py:276-285 (__traunmueller_helper) *)
Definition traunmueller_helper (fi : F) : F :=
  if fltb fi (Fin 2) then fdiv (fsub fi (Fin 0.3)) (Fin 0.85)
  else if fgtb fi (Fin 20.1) then fdiv (fadd fi (Fin 4.422)) (Fin 1.22)
  else fi.

(** spafe/utils/converters.py:195-273 (bark2hz), scalar argument, a numpy float: dividing
    by zero gives an infinity (a plain Python float would raise ZeroDivisionError) *)
Definition bark2hz (fb : F) (approach : string) : F :=
  if String.eqb approach "Wang" then fmul (Fin 600) (fsinh (fdiv fb (Fin 6)))
  else if String.eqb approach "Tjomov" then
    fsub (fmul (Fin 600) (fsinh (fdiv fb (Fin 6.7)))) (Fin 20)
  else if String.eqb approach "Schroeder" then fmul (Fin 650) (fsinh (fdiv fb (Fin 7)))
  else if String.eqb approach "Terhardt" then
    fmul (Fin (1000 / 0.75)) (ftan (fdiv fb (Fin 13)))
  else if String.eqb approach "Zwicker" then
    fexp10 (fadd (fdiv (fsub fb (Fin 8.7)) (Fin 14.2)) (Fin 3))
  else if String.eqb approach "Traunmueller" then
    fmul (Fin 1960) (fdiv (fadd (traunmueller_helper fb) (Fin 0.53))
                          (fsub (Fin 26.28) (traunmueller_helper fb)))
  else fmul (Fin 600) (fsinh (fdiv fb (Fin 6))).

(** spafe/utils/converters.py:291-349 (hz2mel).  Both dict values are computed, but
    neither can raise. *)
Definition hz2mel (f : F) (approach : string) : result F :=
  if String.eqb approach "Oshaghnessy"
  then Ok (fmul (Fin 2595) (flog10 (fadd f1 (fdiv f (Fin 700)))))
  else if String.eqb approach "Lindsay"
  then Ok (fmul (Fin 2410) (flog10 (fadd f1 (fdiv f (Fin 625)))))
  else Raise KeyError.

(** spafe/utils/converters.py:352-385 (mel2hz) *)
Definition mel2hz (fm : F) (approach : string) : result F :=
  if String.eqb approach "Oshaghnessy"
  then Ok (fmul (Fin 700) (fsub (fexp10 (fdiv fm (Fin 2595))) f1))
  else if String.eqb approach "Lindsay"
  then Ok (fmul (Fin 625) (fsub (fexp10 (fdiv fm (Fin 2410))) f1))
  else Raise KeyError.
