(** * Specification vocabulary: constant-Q transform and resampling (plain real mathematics) *)
From Coq Require Import Reals ZArith List String.
From Verif Require Import Base Preprocessing PreprocessingFacts Features Extractors SpecBase SpecMat SpecFeatures SpecSpectral Cqt.
Import ListNotations.
Local Open Scope R_scope.

(** centre frequency [i] with [B] bins per octave above [f0] *)
Definition cqt_freq (f0 : R) (B i : nat) : R := f0 * Rpower 2 (INR i / INR B).
(** the ratio of frequency to bandwidth *)
Definition cqt_quality (q : R) (B : nat) : R := q / (Rpower 2 (1 / INR B) - 1).
(** frequency [i] lies in the band and [N], the number of samples that hold Q periods of it
    (rounded up), fits into [n] *)
Definition cqt_used (f0 q : R) (B : nat) (fs : Z) (low high : R) (n i N : nat) : Prop :=
  low <= cqt_freq f0 B i <= high /\
  (let r := cqt_quality q B * IZR fs / cqt_freq f0 B i in r <= INR N < r + 1) /\ (N <= n)%nat.
(** the samples [x 0 .. x (L-1)] followed by zeros *)
Definition padded (L : nat) (x : nat -> R) (t : nat) : R := if Nat.ltb t L then x t else 0.
(** Brown's transform: the mean of the [N] windowed samples from [s] on, multiplied by
    exp(-2 pi i f t / fs) *)
Definition brown_re (wt : string) (fs : Z) (f : R) (N s : nat) (x : nat -> R) : R :=
  / INR N * bigsum N (fun t => spec_window wt N t * x (s + t)%nat * cos (2 * PI * f * INR t / IZR fs)).
Definition brown_im (wt : string) (fs : Z) (f : R) (N s : nat) (x : nat -> R) : R :=
  / INR N * bigsum N (fun t => spec_window wt N t * x (s + t)%nat * - sin (2 * PI * f * INR t / IZR fs)).
(** matrix of complex numbers given by their parts *)
Definition cmat (r c : nat) (re im : nat -> nat -> R) : list (list (Base.F * Base.F)) :=
  map (fun i => cvec c (re i) (im i)) (seq 0 r).

(** parameters the transform is meant for *)
Definition cqt_config (f0 q : R) (B : nat) (fs : Z) (n : nat) (wt : string) : Prop :=
  0 < f0 /\ 0 < q /\ (0 < B)%nat /\ (0 < fs)%Z /\ (1 <= n)%nat /\ In wt window_names.
(** the rows of a transform: [P] frequencies from number [a] on, row [p] with windows of [len p]
    samples; they are exactly the frequencies in the band whose window fits *)
Definition cqt_rows (f0 q : R) (O B : nat) (fs : Z) (low high : R) (n a P : nat) (len : nat -> nat) : Prop :=
  (0 < P)%nat /\ (a + P <= O * B)%nat /\
  (forall i, (i < O * B)%nat -> ((exists N, cqt_used f0 q B fs low high n i N) <-> (a <= i < a + P)%nat)) /\
  (forall p, (p < P)%nat -> (1 <= len p)%nat /\ cqt_used f0 q B fs low high n (a + p) (len p)).
(** the framing arguments of cqcc in the record of the other extractors *)
Definition q_sargs (a : qargs) : sargs :=
  mkS (q_fs a) (q_pre_emph a) (q_coeff a) (q_window a) 0 0 0 None "" None "".
(** a call of cqt_spectrogram that has at least one row *)
Definition cqt_ready `{Env} (a : qargs) (N L hop n O B : nat) : Prop :=
  well_framed (q_sargs a) N L hop /\ q_nfft a = Z.of_nat n /\ q_octaves a = Z.of_nat O /\ q_bins a = Z.of_nat B /\
  or_half (q_high a) (q_fs a) <= IZR (q_fs a) / 2 /\
  cqt_config (q_f0 a) (q_rate a) B (q_fs a) n (win_type (window_of (q_sargs a))) /\
  exists i M, (i < O * B)%nat /\ cqt_used (q_f0 a) (q_rate a) B (q_fs a) (q_low a) (or_half (q_high a) (q_fs a)) n i M.
