(** * Specification for C169: the same samples under another sampling rate *)
From Coq Require Import Reals ZArith List String Bool.
From Verif Require Import Base Preprocessing Features Cqt SpFeats.
Local Open Scope R_scope.

(** Clocks run [l] times as fast: the sampling rate is multiplied by [l]. *)
Definition faster (l : R) (fs fs2 : Z) : Prop := 0 < l /\ IZR fs2 = l * IZR fs.

(** A frequency is multiplied by [l]; None stays None. *)
Definition freq_scaled (l : R) (h h2 : option R) : Prop :=
  match h, h2 with
  | None, None => True
  | Some v, Some v2 => v2 = l * v
  | _, _ => False
  end.

(** A duration is divided by [l].  None stands for the default window of 25 ms and 10 ms. *)
Definition the_window (w : option SlidingWindow) : SlidingWindow :=
  match w with None => default_window | Some v => v end.
Definition window_scaled (l : R) (w w2 : option SlidingWindow) : Prop :=
  win_len (the_window w) = l * win_len (the_window w2) /\ win_hop (the_window w) = l * win_hop (the_window w2) /\
  win_type (the_window w2) = win_type (the_window w).

(** The arguments of a feature extractor in the units of the other clock. *)
Definition same_but_units (l : R) (a a2 : sargs) : Prop :=
  faster l (s_fs a) (s_fs a2) /\ s_low a2 = l * s_low a /\ freq_scaled l (s_high a) (s_high a2) /\
  window_scaled l (s_window a) (s_window a2) /\
  s_pre_emph a2 = s_pre_emph a /\ s_coeff a2 = s_coeff a /\ s_nfilts a2 = s_nfilts a /\ s_nfft a2 = s_nfft a /\
  s_scale a2 = s_scale a /\ s_fbanks a2 = s_fbanks a /\ s_approach a2 = s_approach a.

(** The arguments of cqcc. *)
Definition same_but_units_q (l : R) (a a2 : qargs) : Prop :=
  faster l (q_fs a) (q_fs a2) /\ q_low a2 = l * q_low a /\ freq_scaled l (q_high a) (q_high a2) /\
  q_f0 a2 = l * q_f0 a /\ window_scaled l (q_window a) (q_window a2) /\
  q_pre_emph a2 = q_pre_emph a /\ q_coeff a2 = q_coeff a /\ q_nfft a2 = q_nfft a /\ q_octaves a2 = q_octaves a /\
  q_bins a2 = q_bins a /\ q_threshold a2 = q_threshold a /\ q_rate a2 = q_rate a.

(** A value of the result in the units of the other clock. *)
Definition times (l : R) (x : F) : F := fmul (Fin l) x.

(** The dictionary of extract_feats in the units of the other clock: centroid, spread and the entry called rolloff are
    frequencies or sampling rates; skewness and kurtosis are not free of units, because spfeats.py:91 and 124 divide by powers
    of the second moment itself. *)
Definition feats_units (l : R) (s : spectral_feats) : spectral_feats :=
  mkFeats (times l (sf_centroid s)) (times (/ l ^ 3) (sf_skewness s)) (times (/ l ^ 4) (sf_kurtosis s)) (sf_entropy s)
    (map (times l) (sf_spread s)) (sf_flatness s) (map (fun z => (times l (fst z), times l (snd z))) (sf_rolloff s)) (sf_flux s) (sf_mean s) (sf_rms s)
    (sf_std s) (sf_variance s).
