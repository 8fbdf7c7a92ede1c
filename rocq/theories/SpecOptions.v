(** * Specification vocabulary: the options lifter and normalize *)
From Coq Require Import Reals ZArith List String Bool.
From Verif Require Import Base Cepstral Features.
Local Open Scope R_scope.

(** the same call without lifter and normalisation *)
Definition plain_options (c : cargs) : cargs := mkC (c_num_ceps c) (c_dct_type c) (c_use_energy c) None None.
(** lifter_ceps, then normalize_ceps, applied to a result; no lifter, lifter 0, no name and the empty
    name switch them off *)
Definition after (lifter : option R) (normalize : option string) (y : list (list F)) : result (list (list F)) :=
  do z <- match lifter with None => Ok y | Some l => if Reqb l 0 then Ok y else lifter_ceps y l end;
  match normalize with None => Ok z | Some t => if String.eqb t "" then Ok z else normalize_ceps z t end.
