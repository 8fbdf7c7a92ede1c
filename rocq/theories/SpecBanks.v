(** * Specification vocabulary, part 4: triangular filter banks *)
From Coq Require Import Reals ZArith List String.
From Verif Require Import SpecBase SpecFilters.
Import ListNotations.
Local Open Scope R_scope.

(** the triangle rising from l to 1 at c and falling to u *)
Definition spec_tri (l c u f : R) : R := Rmax 0 (Rmin ((f - l) / (c - l)) ((u - f) / (u - c))).

(** a frequency scale: forward and inverse map *)
Record fscale := mkScale { fwd : R -> R; bwd : R -> R }.
(** identity scale of the linear bank *)
Definition lin_scale : fscale := mkScale (fun f => f) (fun f => f).
(** mel scales *)
Definition oshaghnessy : fscale :=
  mkScale (fun f => 2595 * (ln (1 + f / 700) / ln 10)) (fun m => 700 * (Rpower 10 (m / 2595) - 1)).
Definition lindsay : fscale :=
  mkScale (fun f => 2410 * (ln (1 + f / 625) / ln 10)) (fun m => 625 * (Rpower 10 (m / 2410) - 1)).
Definition spec_mel_scale (approach : string) (s : fscale) : Prop :=
  (approach = "Oshaghnessy"%string /\ s = oshaghnessy) \/ (approach = "Lindsay"%string /\ s = lindsay).

(** i-th of n + 2 points equally spaced on the scale from low to high *)
Definition spec_level (s : fscale) (low high : R) (n i : nat) : R :=
  fwd s low + INR i * ((fwd s high - fwd s low) / INR (n + 1)).
Definition spec_point (s : fscale) (low high : R) (n i : nat) : R := bwd s (spec_level s low high n i).

(** frequency at which column k of h + 1 columns is evaluated *)
Definition spec_col (low high : R) (h k : nat) : R := low + INR k * ((high - low) / INR h).

(** entry (j, k) of the triangular bank *)
Definition spec_bank (s : fscale) (low high : R) (n h : nat) (scale : string) (j k : nat) : R :=
  spec_scale scale n j *
  spec_tri (spec_point s low high n j) (spec_point s low high n (j + 1))
           (spec_point s low high n (j + 2)) (spec_col low high h k).

(** nfft // 2 *)
Definition half (nfft : Z) : nat := Z.to_nat (nfft / 2).
(** the upper band edge meant by a high_freq argument: None and 0 stand for fs/2 *)
Definition spec_high (high : option R) (fs : Z) (h : R) : Prop :=
  (high = Some h /\ h <> 0) \/ ((high = None \/ high = Some 0) /\ h = IZR fs / 2).

(** ** Bark filter bank *)
(** the masking curve as a function of the distance from the centre, in bark *)
Definition spec_Fm (d : R) : R :=
  if Rlt_dec d (-1.3) then 0
  else if Rle_dec d (-0.5) then Rpower 10 (2.5 * (d + 0.5))
  else if Rlt_dec d 0.5 then 1
  else if Rle_dec d 2.5 then Rpower 10 (0.5 - d)
  else 0.

Definition wang : fscale := mkScale (fun f => 6 * arcsinh (f / 600)) (fun b => 600 * sinh (b / 6)).
Definition tjomov : fscale :=
  mkScale (fun f => 6.7 * arcsinh ((f + 20) / 600)) (fun b => 600 * sinh (b / 6.7) - 20).
Definition schroeder : fscale := mkScale (fun f => 7 * arcsinh (f / 650)) (fun b => 650 * sinh (b / 7)).
(** the approaches whose two conversions are mutually inverse on all frequencies; an
    unknown name means Wang *)
Definition spec_bark_scale (approach : string) (s : fscale) : Prop :=
  (approach = "Tjomov"%string /\ s = tjomov) \/ (approach = "Schroeder"%string /\ s = schroeder) \/
  (~ In approach ["Tjomov"; "Schroeder"; "Terhardt"; "Zwicker"; "Traunmueller"]%string /\ s = wang).

(** centre j of n, equally spaced in bark, both ends included *)
Definition spec_bark_centre (s : fscale) (low high : R) (n j : nat) : R :=
  spec_col (fwd s low) (fwd s high) (n - 1) j.

(** what is assumed of a floating point rounding: monotone, exact on the half integers up to
    2^52 (true of binary64 and of no rounding at all) *)
Definition sane_rounding (round : R -> R) : Prop :=
  (forall x y, x <= y -> round x <= round y) /\
  (forall k : Z, (0 <= k <= 9007199254740992)%Z -> round (IZR k / 2) = IZR k / 2).

(** ** Gammatone filter bank *)
(** centre i of n: equally spaced in ln(f + c), from low inclusive to high exclusive *)
Definition gt_c : R := 9.26449 * 24.7.
Definition spec_gt_centre (low high : R) (n i : nat) : R :=
  exp (ln (low + gt_c) + INR i / INR n * (ln (high + gt_c) - ln (low + gt_c))) - gt_c.
(** pole radius: exp(-2 pi 1.019 ERB(fc) / fs) *)
Definition spec_gt_radius (fs : R) (order : nat) (fc : R) : R :=
  exp (- (2 * PI * 1.019 * Rpower ((fc / 9.26449) ^ order + 24.7 ^ order) (1 / INR order) / fs)).
(** squared distance in the plane from e^(i t) to the point (x, y) *)
Definition dist2 (t x y : R) : R := (cos t - x) ^ 2 + (sin t - y) ^ 2.
(** magnitude response of the fourth-order gammatone approximation at angle t, up to a
    constant: four real zeros, a pole pair r e^(+-i w) of multiplicity four *)
Definition spec_gt_mag (r w t : R) : R :=
  let zero s := dist2 t (r * (cos w + s * sin w)) 0 in
  sqrt (zero (1 + sqrt 2) * zero (- (1 + sqrt 2)) * zero (sqrt 2 - 1) * zero (- (sqrt 2 - 1)))
  / (dist2 t (r * cos w) (r * sin w) * dist2 t (r * cos w) (- (r * sin w))) ^ 2.
Definition spec_gt_response (fs : R) (order : nat) (nfft fc : R) (k : nat) : R :=
  spec_gt_mag (spec_gt_radius fs order fc) (2 * PI * fc / fs) (2 * PI * INR k / nfft).
