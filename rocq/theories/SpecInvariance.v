(** * Vocabulary for the invariance properties *)
From Coq Require Import Reals ZArith List String.
From Verif Require Import Base SpecBase SpecMat SpecBanks PreprocessingFacts Preprocessing Features Extractors.
Local Open Scope R_scope.

(** the same arguments with another hop (in seconds); window length and type stay *)
Definition with_hop (a : sargs) (h : R) : sargs :=
  {| s_fs := s_fs a; s_pre_emph := s_pre_emph a; s_coeff := s_coeff a;
     s_window := Some {| win_type := win_type (window_of a); win_len := win_len (window_of a); win_hop := h |};
     s_nfilts := s_nfilts a; s_nfft := s_nfft a; s_low := s_low a; s_high := s_high a; s_scale := s_scale a;
     s_fbanks := s_fbanks a; s_approach := s_approach a |}.
(** the hop in samples *)
Definition hop_samples `{Env} (a : sargs) : Z := flen (s_fs a) (win_hop (window_of a)).

(** every number of a row / of a matrix is NaN *)
Definition all_nan (row : list F) : Prop := Forall (fun v => v = NaN) row.
(** sample [t] is one of the samples of frame [i] that reach the Fourier transform *)
Definition sees `{Env} (a : sargs) (i t : nat) : Prop :=
  let start := (Z.of_nat i * hop_samples a)%Z in
  (start <= Z.of_nat t < start + Z.min (flen (s_fs a) (win_len (window_of a))) (s_nfft a))%Z.

(** the same arguments with another band *)
Definition with_band (a : sargs) (low : R) (high : option R) : sargs :=
  {| s_fs := s_fs a; s_pre_emph := s_pre_emph a; s_coeff := s_coeff a; s_window := s_window a;
     s_nfilts := s_nfilts a; s_nfft := s_nfft a; s_low := low; s_high := high; s_scale := s_scale a;
     s_fbanks := s_fbanks a; s_approach := s_approach a |}.
(** the same arguments with another number of Fourier points *)
Definition with_nfft (a : sargs) (n : Z) : sargs :=
  {| s_fs := s_fs a; s_pre_emph := s_pre_emph a; s_coeff := s_coeff a; s_window := s_window a;
     s_nfilts := s_nfilts a; s_nfft := n; s_low := s_low a; s_high := s_high a; s_scale := s_scale a;
     s_fbanks := s_fbanks a; s_approach := s_approach a |}.
(** a band [low, high] that the bank functions accept (None and 0 stand for fs/2) *)
Definition usable_band (fs : Z) (low : R) (high : option R) : Prop :=
  exists h, spec_high high fs h /\ 0 <= low < h /\ h <= IZR fs / 2.
(** squared distance of two rows of [n] numbers *)
Definition sqdist (n : nat) (u v : nat -> R) : R := bigsum n (fun k => (u k - v k) ^ 2).
(** the triangle on [0, 2] with its tip 1 at 1 *)
Definition tent (u : R) : R := Rmax 0 (Rmin u (2 - u)).
