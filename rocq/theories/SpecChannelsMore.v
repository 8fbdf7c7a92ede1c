(** * Specification vocabulary: the arguments of the constant-Q functions without pre-emphasis *)
From Coq Require Import Reals ZArith List.
From Verif Require Import Base Cqt.
Definition cq_without_pre (a : qargs) : qargs :=
  mkQ (q_fs a) false (q_coeff a) (q_window a) (q_nfft a) (q_low a) (q_high a) (q_octaves a) (q_bins a)
      (q_threshold a) (q_f0 a) (q_rate a).
