(** * Specification vocabulary: display of spectrograms and axes (plain real mathematics) *)
From Coq Require Import Reals ZArith List String Bool.
From Verif Require Import SpecBase Vis.
Local Open Scope R_scope.

(** level of the magnitude [v] in dB below [m], both not less than 1e-10 *)
Definition spec_db (m v : R) : R := 10 * (ln (Rmax (1 / 10 ^ 10) v / Rmax (1 / 10 ^ 10) m) / ln 10).
(** the number a tick label shows *)
Definition label_value (l : label) : option R :=
  match l with
  | Tenths neg k => Some ((if neg then -1 else 1) * IZR (Z.of_N k) / 10)
  | _ => None
  end.
(** the label shows [v] to one decimal *)
Definition shows (l : label) (v : R) : Prop := exists w, label_value l = Some w /\ Rabs (w - v) <= 1 / 20.
(** the frequency scale behind the type of a filter bank: mel, bark, gamma (ERB) or plain Hz *)
Definition spec_tick (fb_type : string) (f : R) : R :=
  if String.eqb fb_type "mel" then 2595 * (ln (1 + f / 700) / ln 10)
  else if String.eqb fb_type "bark" then 6 * arcsinh (f / 600)
  else if String.eqb fb_type "gamma" then 1000 * ln 10 / (24.7 * 4.37) * (ln (1 + f * 0.00437) / ln 10)
  else f.
