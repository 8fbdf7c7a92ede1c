(** * Specification vocabulary for C186: loudness of quiet and of loud bands *)
From Coq Require Import Reals.
Local Open Scope R_scope.

(** logarithm of the constant K such that the loudness of a faint band with energy w is about K * w^(4/3) *)
Definition faint_offset : R := ln (56.8 * 10 ^ 6 / (6.3 * 10 ^ 6 * (0.38 * 10 ^ 9) * (9.58 * 10 ^ 26))) / 3.
(** how far from that the logarithm can be for energies up to W *)
Definition faint_slack (W : R) : R := (W ^ 2 / (6.3 * 10 ^ 6) + W ^ 2 / (0.38 * 10 ^ 9) + W ^ 6 / (9.58 * 10 ^ 26)) / 3.
(** the same for energies of at least W and the law w^(-4/3) *)
Definition loud_slack (W : R) : R := (0.38 * 10 ^ 9 / W ^ 2 + 9.58 * 10 ^ 26 / W ^ 6) / 3.
