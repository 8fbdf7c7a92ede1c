(** * Model: the Bark and ERB conversions of spafe/utils/converters.py with one rounding per operation.
    Library functions are parameters; the literals are parameters too, because the same stored number is used in
    both directions. *)
From Coq Require Import Reals String.
From Verif Require Import Base.
Local Open Scope R_scope.

(** converters.py:179-192 and 258-273: the factor and the divisor of the approaches with arcsinh (Tjomov is below);
    another name falls through to the ones of Wang (lines 191-192, 272-273) *)
Definition arcsinh_constants (approach : string) : option (R * R) :=
  if String.eqb approach "Wang" then Some (6, 600)
  else if String.eqb approach "Tjomov" then None
  else if String.eqb approach "Schroeder" then Some (7, 650)
  else if String.eqb approach "Terhardt" then None
  else if String.eqb approach "Zwicker" then None
  else if String.eqb approach "Traunmueller" then None
  else Some (6, 600).
(** converters.py:180, 184: a * np.arcsinh(f / b) *)
Definition hz2bark_of `{Env} (arcsinhf : R -> R) (a b f : R) : R := rnd (a * arcsinhf (rnd (f / b))).
(** converters.py:259, 263: b * np.sinh(fb / a) *)
Definition bark2hz_of `{Env} (sinhf : R -> R) (a b z : R) : R := rnd (b * sinhf (rnd (z / a))).
(** converters.py:181-182 and 260-261 (Tjomov): 6.7 * np.arcsinh((f + 20) / 600) and 600 * np.sinh(fb / 6.7) - 20;
    [a] is the stored literal 6.7 *)
Definition hz2tjomov_of `{Env} (arcsinhf : R -> R) (a f : R) : R := rnd (a * arcsinhf (rnd (rnd (f + 20) / 600))).
Definition tjomov2hz_of `{Env} (sinhf : R -> R) (a z : R) : R := rnd (rnd (600 * sinhf (rnd (z / a))) - 20).
(** converters.py:70-71 and 114-115: A * np.log10(1 + f * 0.00437) and (10 ** (fe / A) - 1) / 0.00437; [a] is the
    stored A of line 19, [c] the stored literal 0.00437 *)
Definition hz2erb_of `{Env} (log10f : R -> R) (a c f : R) : R := rnd (a * log10f (rnd (1 + rnd (f * c)))).
Definition erb2hz_of `{Env} (pow10f : R -> R) (a c z : R) : R := rnd (rnd (pow10f (rnd (z / a)) - 1) / c).
(** converters.py:187-188 and 266-267 (Zwicker): 8.7 + 14.2 * np.log10(f / 1000) and 10 ** (((fb - 8.7) / 14.2) + 3);
    [a] and [b] are the stored literals 8.7 and 14.2 *)
Definition hz2zwicker_of `{Env} (log10f : R -> R) (a b f : R) : R := rnd (a + rnd (b * log10f (rnd (f / 1000)))).
Definition zwicker2hz_of `{Env} (pow10f : R -> R) (a b z : R) : R := pow10f (rnd (rnd (rnd (z - a) / b) + 3)).
