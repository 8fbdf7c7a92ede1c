(** * Properties: cepstral coefficients in IEEE binary64, with overflow, infinities and NaN *)
From Coq Require Import Reals ZArith List Lia Lra.
From Flocq Require Import Core IEEE754.BinarySingleNaN.
From Verif Require Import Base Binary64 Rounded RoundedCeps SpecRounded RoundedFacts RoundedWindows RoundedBanksError SpecRoundedCeps SpecRoundedDominant
  Ieee SpecIeee IeeeFacts IeeeLaws IeeeCases.
Local Open Scope R_scope.

(** ** C157: the rounding model is the IEEE computation, for every signal below 2^400 *)

(** Any order of additions, subtractions, scalings and fused operations (FFT, filter bank, DCT): on
    finite inputs of size at most 2^k the IEEE result is finite and is the result of the rounding
    model. *)
Theorem C157_program : forall n x k p, (0 <= k <= 982)%Z ->
  (forall i, (i < n)%nat -> fin (x i) /\ Rabs (val (x i)) <= bpow radix2 k) -> program n p ->
  fin (flin_run x p) /\ val (flin_run x p) = @lin_run binary64 (fun i => val (x i)) (reals p).
Proof.
  intros n x k p Hk Hx Hp. apply (program_val n x (fun i => val (x i)) k p Hk); [|intros i Hi; apply Hx; exact Hi|exact Hp].
  intros i Hi. split; [apply Hx; exact Hi|reflexivity].
Qed.
Print Assumptions C157_program.

(** mfcc, imfcc, lfcc, ngcc: every coefficient of a frame of finite samples of size at most 2^400 is
    finite and is the one of the rounding model *)
Theorem C157_log_cepstra : forall h g lnf gl re im bank dct x N bins nfft n k,
  implements2 h g -> hypot_sane g -> implements1 (fun v => 0 < v) lnf gl -> (forall v, 0 < v -> Rabs (gl v) <= 4 * Rabs (ln v) + 1) ->
  (1 <= nfft)%nat -> (Z.of_nat nfft < 2 ^ 53)%Z ->
  (forall i, (i < N)%nat -> fin (x i) /\ Rabs (val (x i)) <= bpow radix2 400) ->
  (forall q, (q < bins)%nat -> program N (re q) /\ program N (im q)) ->
  (forall j, (j < n)%nat -> program bins (bank j) /\ additive (reals (bank j))) -> program n (dct k) ->
  let y := log_cepstrum64 lnf h re im nfft bank dct x k in
  fin y /\ val y = @log_cepstrum binary64 gl g (fun q => reals (re q)) (fun q => reals (im q)) nfft (fun j => reals (bank j))
                     (fun q => reals (dct q)) (fun i => val (x i)) k.
Proof. exact log_cepstrum_ieee. Qed.
Print Assumptions C157_log_cepstra.

(** gfcc and msrcc: the same, when the power function is defined at every band energy.  (A negative
    exponent, as in msrcc, is not defined at a band energy of 0.) *)
Theorem C157_root_cepstra : forall (D : R -> Prop) h g powf gp re im bank dct x N bins nfft n k,
  implements2 h g -> hypot_sane g -> implements1 D powf gp -> (forall v, D v -> Rabs v <= bpow radix2 929 -> Rabs (gp v) <= bpow radix2 980) ->
  (1 <= nfft)%nat -> (Z.of_nat nfft < 2 ^ 53)%Z ->
  (forall i, (i < N)%nat -> fin (x i) /\ Rabs (val (x i)) <= bpow radix2 400) ->
  (forall q, (q < bins)%nat -> program N (re q) /\ program N (im q)) ->
  (forall j, (j < n)%nat -> program bins (bank j)) -> program n (dct k) ->
  let re' q := reals (re q) in let im' q := reals (im q) in let bank' j := reals (bank j) in let x' i := val (x i) in
  (forall j, (j < n)%nat -> D (@band_energy binary64 nfft (@bin_magnitude binary64 g re' im' x') bank' j)) ->
  let y := root_cepstrum64 powf h re im nfft bank dct x k in
  fin y /\ val y = @root_cepstrum binary64 gp g re' im' nfft bank' (fun q => reals (dct q)) x' k.
Proof. exact root_cepstrum_ieee. Qed.
Print Assumptions C157_root_cepstra.

(** The samples 2^300 and 0. *)
Example C157_program_case : fin (flin_run (burst 300) (two_re 1)).
Proof. apply (C157_program 2 (burst 300) 400 (two_re 1)); [lia|apply burst_ok; lia|apply two_re_ok; lia]. Qed.
Example C157_log_cepstra_case : forall k, (k < 2)%nat -> fin (log_cepstrum64 ln64 hypot64 two_re two_im 2 two_bank two_dct (burst 300) k).
Proof.
  intros k Hk. apply (C157_log_cepstra hypot64 hypot_r ln64 ln_r two_re two_im two_bank two_dct (burst 300) 2 2 2 1 k hypot64_ok hypot_r_sane ln64_ok ln_r_grows);
    [lia|lia|apply burst_ok; lia|apply two_re_ok|intros; apply two_bank_ok|apply two_dct_ok].
Qed.
Example C157_root_cepstra_case : forall k, (k < 2)%nat -> fin (root_cepstrum64 cbrt64 hypot64 two_re two_im 2 two_bank two_dct (burst 300) k).
Proof.
  intros k Hk. apply (C157_root_cepstra (fun v => 0 < v) hypot64 hypot_r cbrt64 cbrt_r two_re two_im two_bank two_dct (burst 300) 2 2 2 1 k
    hypot64_ok hypot_r_sane cbrt64_ok cbrt_grows); [lia|lia|apply burst_ok; lia|apply two_re_ok|intros; apply two_bank_ok|apply two_dct_ok|].
  intros j Hj. exact (burst_energy j).
Qed.

(** ** C158: a value that is not finite, or too large to be squared, is never lost *)

(** A NaN or infinite sample makes every coefficient of its frame NaN or infinite: mfcc, imfcc, lfcc,
    ngcc, as long as the sample, the bin and the band are used at all. *)
Theorem C158_log_sample : forall h lnf re im nfft bank dct x k i q j, strict2 h -> strict1 lnf ->
  loads i (re q) \/ loads i (im q) -> loads q (bank j) -> loads j (dct k) ->
  ~ fin (x i) -> ~ fin (log_cepstrum64 lnf h re im nfft bank dct x k).
Proof.
  intros h lnf re im nfft bank dct x k i q j Hh Hl Hi Hq Hj Hx H. apply Hx.
  destruct (log_cepstrum_strict h lnf re im nfft bank dct x k Hl H j q Hj Hq) as [K _]. exact (magnitude_strict h re im x q i Hh K Hi).
Qed.
Print Assumptions C158_log_sample.

(** gfcc, and msrcc with a positive exponent *)
Theorem C158_root_sample : forall h powf re im nfft bank dct x k i q j, strict2 h -> strict1 powf ->
  loads i (re q) \/ loads i (im q) -> loads q (bank j) -> loads j (dct k) ->
  ~ fin (x i) -> ~ fin (root_cepstrum64 powf h re im nfft bank dct x k).
Proof.
  intros h powf re im nfft bank dct x k i q j Hh Hl Hi Hq Hj Hx H. apply Hx.
  destruct (root_cepstrum_strict h powf re im nfft bank dct x k Hl H j q Hj Hq) as [K _]. exact (magnitude_strict h re im x q i Hh K Hi).
Qed.
Print Assumptions C158_root_sample.

(** One bin whose magnitude reaches 2^512 is enough: its square overflows, and every coefficient of
    the frame is NaN or infinite, also those of bands in which the bin has weight 0. *)
Theorem C158_overflow : forall h lnf re im nfft bank dct x k q j, strict1 lnf -> loads q (bank j) -> loads j (dct k) ->
  bpow radix2 512 <= Rabs (val (magnitude64 h re im x q)) -> ~ fin (log_cepstrum64 lnf h re im nfft bank dct x k).
Proof.
  intros h lnf re im nfft bank dct x k q j Hl Hq Hj Hm H. destruct (log_cepstrum_strict h lnf re im nfft bank dct x k Hl H j q Hj Hq) as [_ K]. lra.
Qed.
Print Assumptions C158_overflow.

(** So the coefficients of a frame of finite samples need not be finite in float64, whatever the
    library: the frame 2^600, 0 is a counterexample.  The bound of C157 cannot be dropped. *)
Theorem C158_finite_refuted : forall h g lnf, implements2 h g -> hypot_sane g -> (forall a, 1 <= a -> a / 2 <= g a 0) -> strict1 lnf ->
  ~ (forall x, (forall i, (i < 2)%nat -> fin (x i)) -> fin (log_cepstrum64 lnf h two_re two_im 2 two_bank two_dct x 0)).
Proof.
  intros h g lnf Hi Hs Hg Hl H. apply (C158_overflow h lnf two_re two_im 2 two_bank two_dct (burst 600) 0 0 0 Hl); [cbn; tauto|reflexivity| |apply H; exact burst_fin].
  apply (burst_loud h g Hi Hs Hg).
Qed.
Print Assumptions C158_finite_refuted.

Example C158_log_sample_case : ~ fin (log_cepstrum64 ln64 hypot64 two_re two_im 2 two_bank two_dct (fun i => match i with O => B754_infinity false | _ => zero64 end) 1).
Proof. apply (C158_log_sample _ _ _ _ _ _ _ _ _ 0 1 0 hypot64_strict ln64_strict); [cbn; tauto|cbn; tauto|reflexivity|discriminate]. Qed.
Example C158_root_sample_case : ~ fin (root_cepstrum64 cbrt64 hypot64 two_re two_im 2 two_bank two_dct (fun i => match i with O => zero64 | _ => B754_nan end) 1).
Proof. apply (C158_root_sample _ _ _ _ _ _ _ _ _ 1 1 0 hypot64_strict cbrt64_strict); [cbn; tauto|cbn; tauto|reflexivity|discriminate]. Qed.
Example C158_overflow_case : ~ fin (log_cepstrum64 ln64 hypot64 two_re two_im 2 two_bank two_dct (burst 600) 1).
Proof.
  apply (C158_overflow _ _ _ _ _ _ _ _ _ 0 0 ln64_strict); [cbn; tauto|reflexivity|]. rewrite burst_magnitude. rewrite Rabs_pos_eq by apply bpow_ge_0. apply bpow_le. lia.
Qed.
Example C158_finite_refuted_case : ~ (forall x, (forall i, (i < 2)%nat -> fin (x i)) -> fin (log_cepstrum64 ln64 hypot64 two_re two_im 2 two_bank two_dct x 0)).
Proof. exact (C158_finite_refuted hypot64 hypot_r ln64 hypot64_ok hypot_r_sane hypot_r_lower ln64_strict). Qed.
