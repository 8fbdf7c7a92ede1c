(** * Properties: dominant frequencies in floating point *)
From Coq Require Import Reals ZArith List String Lia Lra.
From Flocq Require Import Core.
From Verif Require Import Base SpecBase BigSum Preprocessing PreprocessingFacts SpecMat SpecFilters SpecFeatures SpecSpectral
  Dominant Binary64 Rounded RoundedCeps SpecRounded RoundedFacts RoundedWindows RoundedBanksError SpecRoundedCeps RoundedDominant SpecRoundedDominant
  RoundedDominantLaws RoundedDominantCases.
Import ListNotations.
Local Open Scope R_scope.

(** ** C155: what rounding can do to the dominant frequency of a frame *)

(** [v i] is the frequency reported for frame i in exact arithmetic, [k i] its bin.  The computed value
    uses any programs for the spectrum and any accurate hypot.  It is always the frequency of a bin
    whose magnitude is the largest up to noise.  When the exact peak stands out from every other bin
    by more than the noise, it is the frequency of the exact answer. *)
Theorem C155_peak : forall `{Env} N x fs wl wh wt L hop n, cut_config fs wl wh wt N L hop -> (1 <= n)%nat ->
  exists k v, get_dominant_frequencies (fvec N x) fs None (Z.of_nat n) wl wh wt false = Ok (fvec (frame_count N L hop) v) /\
  forall (E' : Env) u w D hyp re im i, accurate u 0 (@rnd E') -> u < 1 -> hypot_within w hyp -> (i < frame_count N L hop)%nat ->
    frame_programs n L (fun z => spec_frame wt L hop z i) (S (n / 2)) re im ->
    (forall q, (q <= n / 2)%nat -> (lin_depth2 (re q) <= D)%nat /\ (lin_depth2 (im q) <= D)%nat) ->
    let mag := spec_mag n L (spec_frame wt L hop x i) in let nu := bin_noise u D x re im in
    let true_freq q := signed_bin (S (n / 2)) q * IZR fs / INR (S (n / 2)) in
    let computed := @dominant_in E' n fs (@bin_magnitude E' hyp (fun q => @lin_stored E' (re q)) (fun q => @lin_stored E' (im q)) x) in
    is_argmax (S (n / 2)) mag (k i) /\ near_milli (true_freq (k i)) (v i) /\
    (exists c, (c <= n / 2)%nat /\ peak_ratio u w * (mag (k i) - nu (k i)) <= mag c + nu c /\
       Rabs (computed - true_freq c) <= freq_slack u (true_freq c)) /\
    ((forall c, (c <= n / 2)%nat -> c <> k i -> mag c + nu c < peak_ratio u w * (mag (k i) - nu (k i))) ->
       Rabs (computed - v i) <= freq_slack u (true_freq (k i)) + / 2000).
Proof. exact @dominant_rounded. Qed.
Print Assumptions C155_peak.

(** two samples 1, -1 at 2 Hz: bin 1 stands out and is reported at -1 Hz; in 53-bit arithmetic
    the result stays within 0.0011 Hz of that *)
Example C155_peak_example : exists v,
  @get_dominant_frequencies exact_env (fvec 2 pair) 2 None 2 1 1 "hamming" false = Ok (fvec 1 v) /\
  Rabs (v 0%nat - -1) <= / 2000 /\
  Rabs (@dominant_in binary53 2 2 (@bin_magnitude binary53 (fun a b => sqrt (a ^ 2 + b ^ 2))
          (fun q => @lin_stored binary53 (pair_re q)) (fun q => @lin_stored binary53 (pair_im q)) pair) - v 0%nat) <= 0.0011.
Proof.
  destruct (C155_peak (H := exact_env) 2 pair 2 1 1 "hamming" 2 2 2 pair_cut ltac:(lia)) as (k & v & Hv & H).
  rewrite pair_count in Hv. exists v. split; [exact Hv|].
  assert (A : accurate (/ 2 ^ 53) 0 (@rnd binary53)) by exact rnd53_accurate.
  assert (Hh : hypot_within 0 (fun a b => sqrt (a ^ 2 + b ^ 2))).
  { split; [lra|]. intros a b. rewrite Rminus_diag_eq by reflexivity. rewrite Rabs_R0. lra. }
  destruct (H binary53 (/ 2 ^ 53) 0 3%nat _ pair_re pair_im 0%nat A ltac:(lra) Hh ltac:(rewrite pair_count; lia) pair_programs) as (P1 & P2 & _ & P4).
  { intros [|q] _; cbn; lia. }
  assert (M0 : spec_mag 2 2 (spec_frame "hamming" 2 2 pair 0) 0 = 0) by exact pair_mag0.
  assert (M1 : spec_mag 2 2 (spec_frame "hamming" 2 2 pair 0) 1 = 0.16) by exact pair_mag1.
  assert (K : k 0%nat = 1%nat).
  { destruct P1 as (B1 & B2 & _). change (S (2 / 2)) with 2%nat in B1, B2. destruct (k 0%nat) as [|[|]]; [|reflexivity|lia].
    specialize (B2 1%nat ltac:(lia)). rewrite M0, M1 in B2. lra. }
  rewrite K in P2, P4. change (S (2 / 2)) with 2%nat in P2, P4.
  assert (T : signed_bin 2 1 * IZR 2 / INR 2 = -1) by (unfold signed_bin; cbn; lra). rewrite T in P2, P4.
  split; [apply P2|]. eapply Rle_trans; [apply P4|].
  - intros c Hc Hne. assert (c = 0)%nat as -> by (change (2 / 2)%nat with 1%nat in Hc; lia). rewrite M0, M1.
    pose proof (pair_noise 0) as N0. pose proof (pair_noise 1) as N1. pose proof ratio_53 as R1.
    apply Rle_lt_trans with 0.01; [lra|]. apply Rlt_le_trans with (0.5 * 0.15); [lra|]. apply Rmult_le_compat; lra.
  - unfold freq_slack. rewrite Rabs_left by lra. lra.
Qed.

(** inverting the signal changes nothing, and with the exponent range left aside neither does a gain
    by a power of two; both hold for every program *)
Theorem C155_polarity : forall (E : Env) hyp re im x nfft fs, odd (@rnd E) -> (forall a b, hyp (- a) (- b) = hyp a b) ->
  @dominant_in E nfft fs (@bin_magnitude E hyp re im (fun t => - x t)) = @dominant_in E nfft fs (@bin_magnitude E hyp re im x).
Proof. exact dominant_polarity. Qed.
Print Assumptions C155_polarity.
Example C155_polarity_example : @dominant_in binary64 2 2 (@bin_magnitude binary64 (fun a b => sqrt (a ^ 2 + b ^ 2)) pair_re pair_im (fun t => - pair t))
  = @dominant_in binary64 2 2 (@bin_magnitude binary64 (fun a b => sqrt (a ^ 2 + b ^ 2)) pair_re pair_im pair).
Proof. apply C155_polarity; [exact rnd64_odd|]. intros a b. f_equal. ring. Qed.
Theorem C155_gain : forall hyp re im x nfft fs g, (forall a b, hyp (bpow radix2 g * a) (bpow radix2 g * b) = bpow radix2 g * hyp a b) ->
  @dominant_in binary53 nfft fs (@bin_magnitude binary53 hyp re im (fun t => bpow radix2 g * x t))
  = @dominant_in binary53 nfft fs (@bin_magnitude binary53 hyp re im x).
Proof. exact dominant_gain. Qed.
Print Assumptions C155_gain.
Example C155_gain_example : @dominant_in binary53 2 2 (@bin_magnitude binary53 (fun a b => sqrt (a ^ 2 + b ^ 2)) pair_re pair_im (fun t => bpow radix2 (-600) * pair t))
  = @dominant_in binary53 2 2 (@bin_magnitude binary53 (fun a b => sqrt (a ^ 2 + b ^ 2)) pair_re pair_im pair).
Proof. apply C155_gain. intros a b. apply hyp_scale. Qed.

(** In binary64 a signal that is quiet enough has 0 Hz as its dominant frequency in every frame, whatever
    it contains: the squares of all magnitudes underflow. *)
Theorem C155_quiet : forall hyp re im x nfft fs, hypot_sane hyp -> (1 <= nfft)%nat ->
  (forall k, (k <= nfft / 2)%nat -> let bound p := (1 + / 2 ^ 53) ^ lin_depth p * (lin_size x p + lin_amp p * bpow radix2 (-1075)) in
     bound (re k) <= bpow radix2 (-541) /\ bound (im k) <= bpow radix2 (-541)) ->
  @dominant_in binary64 nfft fs (@bin_magnitude binary64 hyp re im x) = 0.
Proof. exact quiet_dominant. Qed.
Print Assumptions C155_quiet.
Example C155_quiet_example : @dominant_in binary64 2 2 (@bin_magnitude binary64 (fun a b => sqrt (a ^ 2 + b ^ 2)) pair_re pair_im (fun t => bpow radix2 (-600) * pair t)) = 0.
Proof.
  apply C155_quiet; [exact sqrt_sane|lia|exact pair_quiet].
Qed.

(** So the dominant frequency in binary64 is not independent of the volume, even for gains that are
    powers of two and signals that are stored without error. *)
Theorem C155_binary64_gain_refuted : ~ (forall n L hop wt fs re im x g,
  frame_programs n L (fun z => spec_frame wt L hop z 0) (S (n / 2)) re im -> (1 <= n)%nat -> (0 < fs)%Z ->
  (forall t, rnd64 (x t) = x t) -> (forall t, rnd64 (bpow radix2 g * x t) = bpow radix2 g * x t) ->
  let computed z := @dominant_in binary64 n fs (@bin_magnitude binary64 (fun a b => sqrt (a ^ 2 + b ^ 2))
        (fun q => @lin_stored binary64 (re q)) (fun q => @lin_stored binary64 (im q)) z) in
  computed (fun t => bpow radix2 g * x t) = computed x).
Proof.
  intros H. specialize (H 2%nat 2%nat 2%nat "hamming"%string 2%Z pair_re pair_im pair (-600)%Z pair_programs ltac:(lia) ltac:(lia) pair_stored pair_stored_quiet).
  assert (K : 0 = -1) by (transitivity (@dominant_in binary64 2 2 (@bin_magnitude binary64 (fun a b => sqrt (a ^ 2 + b ^ 2))
    (fun q => @lin_stored binary64 (pair_re q)) (fun q => @lin_stored binary64 (pair_im q)) pair)); [rewrite <- H; symmetry; exact pair_quiet_value|exact pair_loud_value]).
  lra.
Qed.
Print Assumptions C155_binary64_gain_refuted.

(** ** C156: recordings below the resolution of binary64 look like silence *)

(** mfcc, imfcc, lfcc, ngcc, gfcc and msrcc: when the spectrum is below 2^-541, every band energy is
    computed as 0, and all coefficients are those of digital silence *)
Theorem C156_quiet_is_silence : forall lnf powf hyp re im x nfft bins bank dct k, hypot_sane hyp -> (forall j, reads bins (bank j)) ->
  (forall q, (q < bins)%nat -> let bound p := (1 + / 2 ^ 53) ^ lin_depth p * (lin_size x p + lin_amp p * bpow radix2 (-1075)) in
     bound (re q) <= bpow radix2 (-541) /\ bound (im q) <= bpow radix2 (-541)) ->
  (forall j, @band_energy binary64 nfft (@bin_magnitude binary64 hyp re im x) bank j = 0) /\
  @log_cepstrum binary64 lnf hyp re im nfft bank dct x k = @log_cepstrum binary64 lnf hyp re im nfft bank dct (fun _ => 0) k /\
  @root_cepstrum binary64 powf hyp re im nfft bank dct x k = @root_cepstrum binary64 powf hyp re im nfft bank dct (fun _ => 0) k.
Proof. exact quiet_cepstra. Qed.
Print Assumptions C156_quiet_is_silence.
(** the samples 2^-600, -2^-600, two filters, DCT of two values *)
Example C156_example : let x t := bpow radix2 (-600) * pair t in let bank j := Scale (INR (S j)) (Add (Load 0) (Load 1)) in
  let dct k := match k with O => Add (Load 0) (Load 1) | _ => Sub (Load 0) (Load 1) end in
  @log_cepstrum binary64 ln (fun a b => sqrt (a ^ 2 + b ^ 2)) pair_re pair_im 2 bank dct x 0
  = @log_cepstrum binary64 ln (fun a b => sqrt (a ^ 2 + b ^ 2)) pair_re pair_im 2 bank dct (fun _ => 0) 0.
Proof.
  intros x bank dct. apply (C156_quiet_is_silence ln (fun z => z) _ pair_re pair_im x 2 2 bank dct 0).
  - exact sqrt_sane.
  - intros j. cbn. lia.
  - intros q Hq. apply pair_quiet. cbn. lia.
Qed.
