(** * Properties: IEEE binary64 cepstra compared with the result of the API in exact arithmetic *)
From Coq Require Import Reals ZArith List String Lia Lra.
From Flocq Require Import Core IEEE754.BinarySingleNaN.
From Coquelicot Require Rcomplements.
From Verif Require Import Base SpecBase BigSum Preprocessing SpecMat SpecFilters SpecBanks SpecFeatures Features Extractors FeaturesFacts
  Binary64 Rounded RoundedCeps SpecRounded RoundedFacts SpecRoundedCeps SpecRoundedDominant RoundedLaws RoundedCepsLaws RoundedCepsEnd
  Ieee SpecIeee SpecIeeeEnd IeeeFacts IeeeLaws IeeeCases IeeeEnd IeeeEndRun IeeeEndCases.
Import ListNotations.
Local Open Scope R_scope.

(** ** C159: how far the float64 coefficients can be from the exact ones, underflow included *)

(** mfcc, imfcc, lfcc and ngcc on a signal of finite floats of size at most 2^400.  [y] is the result
    of the call in exact arithmetic.  The float computation may use any programs for spectrum and DCT
    whose constants are the exact ones rounded to floats, and any bank whose weights [W] move no band
    energy by more than the fraction s.  Every intermediate result may underflow.  When the noise is
    at most r^2 of every band energy, the coefficient is finite and its error is at most the bound. *)
Theorem C159_log_cepstra : forall (E : Env) e a c N L hop n B (x : nat -> f64), In e [Mfcc; Imfcc; Lfcc; Ngcc] ->
  @well_framed E a N L hop -> (1 <= s_nfft a <= 2 ^ 40)%Z -> (0 < n)%nat ->
  @extractor_bank E e a = Ok (fmat n (S (half (s_nfft a))) B) -> (forall j k, 0 <= B j k) ->
  (0 <= c_num_ceps c <= s_nfilts a)%Z -> (1 <= c_dct_type c <= 4)%Z -> (c_dct_type c = 1%Z -> (2 <= n)%nat) ->
  c_use_energy c = false -> no_lifter c -> no_normalisation c ->
  (forall t, (t < N)%nat -> fin (x t) /\ Rabs (val (x t)) <= bpow radix2 400) ->
  let xr t := val (x t) in
  let K := Nat.min (Z.to_nat (c_num_ceps c)) n in let nf := Z.to_nat (s_nfft a) in let bins := S (half (s_nfft a)) in
  let f i z := frame_of a (extractor_coeff e a) L hop z i in
  let band i b := spec_band (half (s_nfft a)) nf L (f i xr) b in
  exists y, @run E e (fvec N xr) a c = Ok (fmat (frame_count N L hop) K y) /\
    forall h g lnf gl v wl r s D re im fre fim W bank dct fdct i k Y,
      implements2 h g -> hypot_sane g -> hypot_close v g -> implements1 (fun z => 0 < z) lnf gl -> ln_close wl gl -> 0 < r <= / 2 -> 0 <= s <= / 2 ->
      (i < frame_count N L hop)%nat -> (k < K)%nat ->
      frame_programs nf L (f i) bins re im ->
      (forall q, (q < bins)%nat -> float_program N (re q) (fre q) /\ float_program N (im q) (fim q)) ->
      (forall q, (q < bins)%nat -> (lin_depth2 (re q) <= D)%nat /\ (lin_depth2 (im q) <= D)%nat) ->
      (forall j, (j < n)%nat -> program bins (bank j) /\ dot_program (W j) bins (reals (bank j)) /\ (forall q, 0 <= W j q <= 1)) ->
      float_program n (dct k) (fdct k) -> (forall z, lin_exact z (dct k) = spec_dct (c_dct_type c) n z k) ->
      (forall j, (j < n)%nat -> bpow radix2 (-900) <= band i (B j) /\ Rabs (band i (W j) - band i (B j)) <= s * band i (B j) /\
         float_noise D nf bins xr re im (W j) <= r ^ 2 * band i (W j) /\ Rabs (ln (band i (B j))) <= Y) ->
      let z := log_cepstrum64 lnf h fre fim nf bank fdct x k in
      fin z /\ Rabs (val z - y i k)
        <= gain (dct k) * ((1 + / 2 ^ 53) ^ lin_depth2 (dct k) * ((1 + wl) * (Y + float_log_bound v r s bins)) - Y) + bpow radix2 (-1030).
Proof. exact run_log_float. Qed.
Print Assumptions C159_log_cepstra.

(** gfcc (p = 1/3) and msrcc with an exponent between -1 and 1 *)
Theorem C159_root_cepstra : forall (E : Env) e p a c N L hop n B (x : nat -> f64), root_exponent e p -> Rabs p <= 1 ->
  @well_framed E a N L hop -> (1 <= s_nfft a <= 2 ^ 40)%Z -> (0 < n)%nat ->
  @extractor_bank E e a = Ok (fmat n (S (half (s_nfft a))) B) -> (forall j k, 0 <= B j k) ->
  (0 <= c_num_ceps c <= s_nfilts a)%Z -> (1 <= c_dct_type c <= 4)%Z -> (c_dct_type c = 1%Z -> (2 <= n)%nat) ->
  c_use_energy c = false -> no_lifter c -> no_normalisation c ->
  (forall t, (t < N)%nat -> fin (x t) /\ Rabs (val (x t)) <= bpow radix2 400) ->
  let xr t := val (x t) in
  let K := Nat.min (Z.to_nat (c_num_ceps c)) n in let nf := Z.to_nat (s_nfft a) in let bins := S (half (s_nfft a)) in
  let f i z := frame_of a (extractor_coeff e a) L hop z i in
  let band i b := spec_band (half (s_nfft a)) nf L (f i xr) b in
  (forall i j, (i < frame_count N L hop)%nat -> (j < n)%nat -> 0 < band i (B j)) ->
  exists y, @run E e (fvec N xr) a c = Ok (fmat (frame_count N L hop) K y) /\
    forall h g powf gp v wp r s D re im fre fim W bank dct fdct i k Y,
      implements2 h g -> hypot_sane g -> hypot_close v g -> implements1 (fun z => 0 < z) powf gp -> pow_close wp p gp -> 0 < r <= / 2 -> 0 <= s <= / 2 ->
      (i < frame_count N L hop)%nat -> (k < K)%nat ->
      frame_programs nf L (f i) bins re im ->
      (forall q, (q < bins)%nat -> float_program N (re q) (fre q) /\ float_program N (im q) (fim q)) ->
      (forall q, (q < bins)%nat -> (lin_depth2 (re q) <= D)%nat /\ (lin_depth2 (im q) <= D)%nat) ->
      (forall j, (j < n)%nat -> program bins (bank j) /\ dot_program (W j) bins (reals (bank j)) /\ (forall q, 0 <= W j q <= 1)) ->
      float_program n (dct k) (fdct k) -> (forall z, lin_exact z (dct k) = spec_dct (c_dct_type c) n z k) ->
      (forall j, (j < n)%nat -> bpow radix2 (-900) <= band i (B j) /\ Rabs (band i (W j) - band i (B j)) <= s * band i (B j) /\
         float_noise D nf bins xr re im (W j) <= r ^ 2 * band i (W j) /\ Rpower (band i (B j)) p <= Y) ->
      let z := root_cepstrum64 powf h fre fim nf bank fdct x k in
      fin z /\ Rabs (val z - y i k)
        <= gain (dct k) * ((1 + / 2 ^ 53) ^ lin_depth2 (dct k) * ((1 + wp) * exp (Rabs p * float_log_bound v r s bins)) - 1) * Y + bpow radix2 (-1030).
Proof. exact run_root_float. Qed.
Print Assumptions C159_root_cepstra.

(** The samples 1/2, 1, 0 with pre-emphasis 1/2: the float64 coefficient against ln (9/32). *)
Example C159_log_cepstra_case : exists y, @mfcc exact_env (fvec 3 (fun t => val (three_signal t))) three_args quiet_ceps = Ok (fmat 1 1 y) /\
  let z := log_cepstrum64 ln64 hypot64 three_fre three_fim 2 two_bank (fun _ => FLoad 0) three_signal 0 in
  fin z /\ Rabs (val z - y 0%nat 0%nat)
    <= gain (Load 0) * ((1 + / 2 ^ 53) ^ 0 * ((1 + / 2 ^ 52) * (2 + float_log_bound (/ 2 ^ 52) (/ 2 ^ 40) 0 2)) - 2) + bpow radix2 (-1030).
Proof.
  destruct (C159_log_cepstra exact_env Mfcc three_args quiet_ceps 3 3 3 1 (fun _ _ => / 2) three_signal) as (y & Hy & H);
    [cbn; tauto|exact three_framed|cbn; lia|lia|reflexivity|intros; lra|cbn; lia|cbn; lia|discriminate|reflexivity|left; reflexivity|left; reflexivity|exact three_ok|].
  exists y. split; [exact Hy|].
  apply (H hypot64 hypot_r ln64 ln_r (/ 2 ^ 52) (/ 2 ^ 52) (/ 2 ^ 40) 0 3%nat three_re three_im three_fre three_fim (fun _ _ => / 2) two_bank (fun _ => Load 0) (fun _ => FLoad 0) 0%nat 0%nat 2); clear H Hy.
  - exact hypot64_ok.
  - exact hypot_r_sane.
  - exact hypot_r_close.
  - exact ln64_ok.
  - exact ln_r_close.
  - lra.
  - lra.
  - cbn; lia.
  - cbn; lia.
  - exact three_programs.
  - exact three_float.
  - intros [|q] _; cbn; lia.
  - intros j _. destruct three_bank as [P Q]. split; [exact P|]. split; [exact Q|]. intros; lra.
  - exact three_dct.
  - intros z. apply (dct_programs 2 1 0 (Load 0) ltac:(lia) ltac:(lia) ltac:(lia) quiet_dct).
  - intros j _. change (half (s_nfft three_args)) with 1%nat. change (Z.to_nat (s_nfft three_args)) with 2%nat. change (extractor_coeff Mfcc three_args) with (s_coeff three_args).
    rewrite three_band. split; [|split; [|split]].
    + apply Rle_trans with (bpow radix2 (-2)); [apply bpow_le; lia|]. change (bpow radix2 (-2)) with (/ 4). lra.
    + rewrite Rminus_diag_eq, Rabs_R0 by reflexivity. lra.
    + exact three_noise.
    + apply Rabs_le. assert (ln (9 / 32) < 0) by (rewrite <- ln_1; apply ln_increasing; lra). split; [|lra].
      replace (9 / 32) with (/ (32 / 9)) by lra. rewrite ln_Rinv by lra. apply Ropp_le_contravar. apply Rle_trans with (ln (exp 2)); [|rewrite ln_exp; lra].
      apply Rcomplements.ln_le; [lra|]. pose proof (exp_ineq1 1 ltac:(lra)). replace 2 with (1 + 1) by ring. rewrite exp_plus. nra.
Qed.
(** msrcc with the exponent -1/7 *)
Example C159_root_cepstra_case : exists y, @run exact_env (Msrcc (- (1 / 7))) (fvec 3 (fun t => val (three_signal t))) three_args quiet_ceps = Ok (fmat 1 1 y) /\
  let z := root_cepstrum64 (pow64 (- (1 / 7))) hypot64 three_fre three_fim 2 two_bank (fun _ => FLoad 0) three_signal 0 in
  fin z /\ Rabs (val z - y 0%nat 0%nat)
    <= gain (Load 0) * ((1 + / 2 ^ 53) ^ 0 * ((1 + / 2 ^ 52) * exp (Rabs (- (1 / 7)) * float_log_bound (/ 2 ^ 52) (/ 2 ^ 40) 0 2)) - 1) * 4 + bpow radix2 (-1030).
Proof.
  destruct (C159_root_cepstra exact_env (Msrcc (- (1 / 7))) (- (1 / 7)) three_args quiet_ceps 3 3 3 1 (fun _ _ => / 2) three_signal) as (y & Hy & H);
    [right; split; [reflexivity|lra]|rewrite Rabs_Ropp, Rabs_pos_eq; lra|exact three_framed|cbn; lia|lia|reflexivity|intros; lra|cbn; lia|cbn; lia|discriminate|reflexivity|left; reflexivity|left; reflexivity|exact three_ok| |].
  - intros i j Hi _. assert (i = 0%nat) as -> by (cbn in Hi; lia). change (half (s_nfft three_args)) with 1%nat. change (Z.to_nat (s_nfft three_args)) with 2%nat.
    change (extractor_coeff (Msrcc (- (1 / 7))) three_args) with (s_coeff three_args). rewrite three_band. lra.
  - exists y. split; [exact Hy|].
    apply (H hypot64 hypot_r (pow64 (- (1 / 7))) (pow_r (- (1 / 7))) (/ 2 ^ 52) (/ 2 ^ 52) (/ 2 ^ 40) 0 3%nat three_re three_im three_fre three_fim (fun _ _ => / 2) two_bank (fun _ => Load 0) (fun _ => FLoad 0) 0%nat 0%nat 4); clear H Hy.
    + exact hypot64_ok.
    + exact hypot_r_sane.
    + exact hypot_r_close.
    + apply pow64_ok.
    + apply pow_r_close.
    + lra.
    + lra.
    + cbn; lia.
    + cbn; lia.
    + exact three_programs.
    + exact three_float.
    + intros [|q] _; cbn; lia.
    + intros j _. destruct three_bank as [P Q]. split; [exact P|]. split; [exact Q|]. intros; lra.
    + exact three_dct.
    + intros z. apply (dct_programs 2 1 0 (Load 0) ltac:(lia) ltac:(lia) ltac:(lia) quiet_dct).
    + intros j _. change (half (s_nfft three_args)) with 1%nat. change (Z.to_nat (s_nfft three_args)) with 2%nat. change (extractor_coeff (Msrcc (- (1 / 7))) three_args) with (s_coeff three_args).
      rewrite three_band. split; [|split; [|split]].
      * apply Rle_trans with (bpow radix2 (-2)); [apply bpow_le; lia|]. change (bpow radix2 (-2)) with (/ 4). lra.
      * rewrite Rminus_diag_eq, Rabs_R0 by reflexivity. lra.
      * exact three_noise.
      * rewrite Rpower_Ropp. replace 4 with (/ (/ 4)) by lra. apply Rinv_le_contravar; [lra|]. apply Rle_trans with (9 / 32); [lra|].
        unfold Rpower. rewrite <- (exp_ln (9 / 32)) at 1 by lra. assert (ln (9 / 32) < 0) by (rewrite <- ln_1; apply ln_increasing; lra).
        left. apply exp_increasing. lra.
Qed.
