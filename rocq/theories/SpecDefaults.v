(** * Specification vocabulary: calls that name the default window *)
From Coq Require Import Reals ZArith String List.
From Verif Require Import Base Preprocessing Features Cqt.
Local Open Scope R_scope.

(** 25 ms Hamming windows every 10 ms *)
Definition hamming_25_10 : SlidingWindow := {| win_len := 25 / 1000; win_hop := 10 / 1000; win_type := "hamming" |}.
(** the same call with this window argument *)
Definition with_window (a : sargs) (w : option SlidingWindow) : sargs :=
  {| s_fs := s_fs a; s_pre_emph := s_pre_emph a; s_coeff := s_coeff a; s_window := w; s_nfilts := s_nfilts a; s_nfft := s_nfft a;
     s_low := s_low a; s_high := s_high a; s_scale := s_scale a; s_fbanks := s_fbanks a; s_approach := s_approach a |}.
Definition with_cqt_window (a : qargs) (w : option SlidingWindow) : qargs :=
  {| q_fs := q_fs a; q_pre_emph := q_pre_emph a; q_coeff := q_coeff a; q_window := w; q_nfft := q_nfft a; q_low := q_low a; q_high := q_high a;
     q_octaves := q_octaves a; q_bins := q_bins a; q_threshold := q_threshold a; q_f0 := q_f0 a; q_rate := q_rate a |}.
(** sample t of frame i of the default window at 200 m samples per second *)
Definition default_frame (m : nat) (y : nat -> R) (i t : nat) : R :=
  (0.54 - 0.46 * cos (2 * PI * INR t / INR (5 * m - 1))) * y (i * (2 * m) + t)%nat.
