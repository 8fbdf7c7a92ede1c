(** * Properties: cepstral coefficients in floating point, from the samples to the result *)
From Coq Require Import Reals ZArith List String Lia Lra Permutation.
From Flocq Require Import Core.
From Coquelicot Require Rcomplements.
From Verif Require Import Base SpecBase BigSum Preprocessing PreprocessingFacts SpecMat SpecFilters SpecBanks SpecFeatures
  Features Extractors FeaturesFacts Binary64 Rounded SpecRounded RoundedFacts RoundedLaws RoundedCeps SpecRoundedCeps
  RoundedCepsLaws RoundedCepsEnd.
Import ListNotations.
Local Open Scope R_scope.

(** ** C154: how far floating-point cepstra can be from the exact ones *)

(** mfcc, imfcc, lfcc and ngcc.  [y] is the result in exact arithmetic.  The computed coefficient k of
    frame i uses any programs for spectrum, bank and DCT, any accurate hypot and log.  When rounding
    noise is at most r^2 of every band energy, the error is at most the bound. *)
Theorem C154_log_cepstra : forall (E : Env) e a c N L hop n B x, In e [Mfcc; Imfcc; Lfcc; Ngcc] ->
  @well_framed E a N L hop -> (1 <= s_nfft a)%Z -> (0 < n)%nat ->
  @extractor_bank E e a = Ok (fmat n (S (half (s_nfft a))) B) -> (forall j k, 0 <= B j k) ->
  (0 <= c_num_ceps c <= s_nfilts a)%Z -> (1 <= c_dct_type c <= 4)%Z -> (c_dct_type c = 1%Z -> (2 <= n)%nat) ->
  c_use_energy c = false -> no_lifter c -> no_normalisation c ->
  let K := Nat.min (Z.to_nat (c_num_ceps c)) n in let nf := Z.to_nat (s_nfft a) in let bins := S (half (s_nfft a)) in
  let f i z := frame_of a (extractor_coeff e a) L hop z i in
  let band i j := spec_band (half (s_nfft a)) nf L (f i x) (B j) in
  exists y, @run E e (fvec N x) a c = Ok (fmat (frame_count N L hop) K y) /\
    forall (E' : Env) u v r wl D hyp lnf re im bank dct i k Y,
      accurate u 0 (@rnd E') -> u < 1 -> hypot_within v hyp -> ln_within wl lnf -> 0 < r < 1 ->
      (i < frame_count N L hop)%nat -> (k < K)%nat ->
      frame_programs nf L (f i) bins re im ->
      (forall q, (q < bins)%nat -> (lin_depth2 (re q) <= D)%nat /\ (lin_depth2 (im q) <= D)%nat) ->
      (forall j, (j < n)%nat -> dot_program (B j) bins (bank j)) ->
      reads n (dct k) -> (forall z, lin_exact z (dct k) = spec_dct (c_dct_type c) n z k) ->
      (forall j, (j < n)%nat -> 0 < band i j /\ noise u D nf bins x re im (B j) <= r ^ 2 * band i j /\ Rabs (ln (band i j)) <= Y) ->
      Rabs (@log_cepstrum E' lnf hyp (fun q => @lin_stored E' (re q)) (fun q => @lin_stored E' (im q)) nf bank
              (fun q => @lin_stored E' (dct q)) x k - y i k)
      <= gain (dct k) * ((1 + u) ^ lin_depth2 (dct k) * ((1 + wl) * (Y + band_log_bound u v r bins)) - Y).
Proof. exact run_log_error. Qed.
Print Assumptions C154_log_cepstra.

(** gfcc (p = 1/3) and msrcc (p = gamma): the error is relative to the largest compressed energy Y *)
Theorem C154_root_cepstra : forall (E : Env) e p a c N L hop n B x, root_exponent e p ->
  @well_framed E a N L hop -> (1 <= s_nfft a)%Z -> (0 < n)%nat ->
  @extractor_bank E e a = Ok (fmat n (S (half (s_nfft a))) B) -> (forall j k, 0 <= B j k) ->
  (0 <= c_num_ceps c <= s_nfilts a)%Z -> (1 <= c_dct_type c <= 4)%Z -> (c_dct_type c = 1%Z -> (2 <= n)%nat) ->
  c_use_energy c = false -> no_lifter c -> no_normalisation c ->
  let K := Nat.min (Z.to_nat (c_num_ceps c)) n in let nf := Z.to_nat (s_nfft a) in let bins := S (half (s_nfft a)) in
  let f i z := frame_of a (extractor_coeff e a) L hop z i in
  let band i j := spec_band (half (s_nfft a)) nf L (f i x) (B j) in
  (forall i j, (i < frame_count N L hop)%nat -> (j < n)%nat -> 0 < band i j) ->
  exists y, @run E e (fvec N x) a c = Ok (fmat (frame_count N L hop) K y) /\
    forall (E' : Env) u v r wp D hyp powf re im bank dct i k Y,
      accurate u 0 (@rnd E') -> u < 1 -> hypot_within v hyp -> pow_within wp p powf -> 0 < r < 1 ->
      (i < frame_count N L hop)%nat -> (k < K)%nat ->
      frame_programs nf L (f i) bins re im ->
      (forall q, (q < bins)%nat -> (lin_depth2 (re q) <= D)%nat /\ (lin_depth2 (im q) <= D)%nat) ->
      (forall j, (j < n)%nat -> dot_program (B j) bins (bank j)) ->
      reads n (dct k) -> (forall z, lin_exact z (dct k) = spec_dct (c_dct_type c) n z k) ->
      (forall j, (j < n)%nat -> noise u D nf bins x re im (B j) <= r ^ 2 * band i j /\ Rpower (band i j) p <= Y) ->
      Rabs (@root_cepstrum E' powf hyp (fun q => @lin_stored E' (re q)) (fun q => @lin_stored E' (im q)) nf bank
              (fun q => @lin_stored E' (dct q)) x k - y i k)
      <= gain (dct k) * ((1 + u) ^ lin_depth2 (dct k) * ((1 + wp) * exp (Rabs p * band_log_bound u v r bins)) - 1) * Y.
Proof. exact run_root_error. Qed.
Print Assumptions C154_root_cepstra.

(** every program that multiplies with a row of the DCT matrix and adds up meets the conditions on
    [dct k]; its gain is at most sqrt n *)
Theorem C154_dct : forall t n k p, (1 <= t <= 4)%Z -> (t = 1%Z -> (2 <= n)%nat) -> (k < n)%nat ->
  dot_program (spec_dct_entry t n k) n p ->
  reads n p /\ (forall z, lin_exact z p = spec_dct t n z k) /\ gain p <= sqrt (INR n) /\ (lin_depth2 p <= S n)%nat.
Proof. exact dct_programs. Qed.
Print Assumptions C154_dct.
Example C154_dct_example : dot_program (spec_dct_entry 2 24 3) 24 (dot_left (spec_dct_entry 2 24 3) 24).
Proof. apply dot_left_program. Qed.

(** the spectrum evaluated by its definition meets the conditions on [re] and [im], and with samples
    up to M in size the noise of a band is at most a multiple of M^2 that does not depend on the band energy *)
Theorem C154_noise_floor : forall a co L hop nf i bins u z M b, 0 <= u -> (forall k, 0 <= b k) ->
  (forall t, (t < i * hop + L)%nat -> Rabs (z t) <= M) ->
  let wt := win_type (window_of a) in let T := Nat.min L nf in
  let re := plain_re (s_pre_emph a) co wt L hop nf i in let im := plain_im (s_pre_emph a) co wt L hop nf i in
  frame_programs nf L (fun s => frame_of a co L hop s i) bins re im /\
  (forall k, (lin_depth2 (re k) <= T + 6)%nat /\ (lin_depth2 (im k) <= T + 6)%nat) /\
  noise u (T + 6) nf bins z re im b
  <= 2 * (((1 + u) ^ (T + 6) - 1) * (INR T * ((1 + Rabs co) * M))) ^ 2 * bigsum bins b / INR nf.
Proof.
  intros a co L hop nf i bins u z M b Hu Hb Hz wt T re im. split; [apply plain_programs|]. split; [intros k; apply plain_depth|].
  apply plain_noise; assumption.
Qed.
Print Assumptions C154_noise_floor.
Example C154_noise_floor_example : forall b, (forall k, 0 <= b k) ->
  noise (/ 2 ^ 53) 9 4 3 (fun _ => 1) (plain_re true 0.97 "hamming" 3 3 4 0) (plain_im true 0.97 "hamming" 3 3 4 0) b
  <= 2 * (((1 + / 2 ^ 53) ^ 9 - 1) * (INR 3 * ((1 + Rabs 0.97) * 1))) ^ 2 * bigsum 3 b / INR 4.
Proof.
  intros b Hb. apply (plain_noise (/ 2 ^ 53) 4 3 true 0.97 "hamming" 3 3 0 (fun _ => 1) 1 b); auto.
  - lra.
  - intros. rewrite Rabs_R1. lra.
Qed.

(** a size for the bound of C154_log_cepstra: 24 filters, nfft = 512, a noise-to-signal ratio of 2^-40
    in every band, log energies up to 40: the error is below 1e-4 *)
Example C154_default_size : forall p, dot_program (spec_dct_entry 2 24 3) 24 p ->
  gain p * ((1 + / 2 ^ 53) ^ lin_depth2 p * ((1 + / 2 ^ 50) * (40 + band_log_bound (/ 2 ^ 53) (/ 2 ^ 50) (/ 2 ^ 20) 257)) - 40) <= 0.0001.
Proof.
  intros p Hp. destruct (dct_programs 2 24 3 p ltac:(lia) ltac:(lia) ltac:(lia) Hp) as (_ & _ & G & D).
  assert (L : forall t, 0 <= t <= / 2 -> 0 <= - ln (1 - t) <= 2 * t).
  { intros t Ht. rewrite <- ln_Rinv by lra. split.
    - rewrite <- ln_1. apply Rcomplements.ln_le; [lra|]. pose proof (one_plus_inv t ltac:(lra)). lra.
    - replace (2 * t) with (ln (exp (2 * t))) by apply ln_exp. apply Rcomplements.ln_le; [apply Rinv_0_lt_compat; lra|].
      apply Rle_trans with (1 + 2 * t).
      + apply (Rmult_le_reg_r (1 - t)); [lra|]. rewrite Rinv_l by lra. nra.
      + apply exp_ineq1_le. }
  assert (B : 0 <= band_log_bound (/ 2 ^ 53) (/ 2 ^ 50) (/ 2 ^ 20) 257 <= 0.00001).
  { unfold band_log_bound. pose proof (L (/ 2 ^ 53) ltac:(lra)). pose proof (L (/ 2 ^ 50) ltac:(lra)). pose proof (L (/ 2 ^ 20) ltac:(lra)).
    replace (INR (257 + 3)) with 260 by (rewrite INR_IZR_INZ; reflexivity). lra. }
  set (l := band_log_bound _ _ _ _) in *.
  assert (P : 1 <= (1 + / 2 ^ 53) ^ lin_depth2 p <= 1 + / 2 ^ 48).
  { split; [apply pow_R1_Rle; lra|]. eapply Rle_trans; [apply (pow_u_le (/ 2 ^ 53) _ 25 ltac:(lra) D)|]. lra. }
  set (q := (1 + / 2 ^ 53) ^ lin_depth2 p) in *.
  assert (G5 : gain p <= 5).
  { eapply Rle_trans; [exact G|]. rewrite <- (sqrt_pow2 5) by lra. apply sqrt_le_1_alt. rewrite INR_IZR_INZ. cbn. lra. }
  assert (G0 : 0 <= gain p) by apply lin_size_nonneg.
  assert (Q : 0 <= q * ((1 + / 2 ^ 50) * (40 + l)) - 40 <= 0.00002).
  { assert (X : 40 <= (1 + / 2 ^ 50) * (40 + l) <= 40.000011) by nra. set (w := (1 + / 2 ^ 50) * (40 + l)) in *. nra. }
  apply Rle_trans with (5 * 0.00002); [|lra]. apply Rmult_le_compat; lra.
Qed.

(** Without the condition on the noise there is no such guarantee: mfcc of three samples, whose only
    band holds the difference x(1) - c x(0) = -2^-60.  In binary64 the difference is rounded to 0, the
    zero is replaced by 2^-52, and the coefficient is off by more than 30 even with exact hypot and log. *)
Theorem C154_quiet_band_refuted : ~ (forall a c N L hop n B x y re im bank dct i k,
  @well_framed exact_env a N L hop -> @extractor_bank exact_env Mfcc a = Ok (fmat n (S (half (s_nfft a))) B) -> (forall j q, 0 <= B j q) ->
  (forall t, rnd64 (x t) = x t) -> rnd64 (s_coeff a) = s_coeff a ->
  @mfcc exact_env (fvec N x) a c = Ok (fmat (frame_count N L hop) n y) ->
  frame_programs (Z.to_nat (s_nfft a)) L (fun z => frame_of a (s_coeff a) L hop z i) (S (half (s_nfft a))) re im ->
  (forall j, (j < n)%nat -> dot_program (B j) (S (half (s_nfft a))) (bank j)) ->
  (forall q, (q < n)%nat -> dot_program (spec_dct_entry (c_dct_type c) n q) n (dct q)) ->
  (i < frame_count N L hop)%nat -> (k < n)%nat ->
  Rabs (@log_cepstrum binary64 ln (fun p q => sqrt (p ^ 2 + q ^ 2)) (fun q => @lin_stored binary64 (re q))
          (fun q => @lin_stored binary64 (im q)) (Z.to_nat (s_nfft a)) bank (fun q => @lin_stored binary64 (dct q)) x k - y i k) <= 30).
Proof.
  intros H. destruct quiet_exact as (y & Hy & Hv).
  specialize (H quiet_args quiet_ceps 3%nat 3%nat 3%nat 1%nat (fun _ => quiet_weights) quiet_signal y quiet_re quiet_im
    (fun _ => dot_left quiet_weights 2) (fun _ => Load 0) 0%nat 0%nat quiet_framed eq_refl).
  assert (K := H ltac:(intros j [|q]; cbn; lra) quiet_inputs quiet_stored Hy (quiet_programs 0 eq_refl)
    (fun _ _ => quiet_bank)). clear H.
  assert (Hd : forall q, (q < 1)%nat -> dot_program (spec_dct_entry (c_dct_type quiet_ceps) 1 q) 1 (Load 0)).
  { intros q Hq. assert (q = 0%nat) as -> by lia. apply quiet_dct. }
  specialize (K Hd ltac:(cbn; lia) ltac:(lia)).
  change (Z.to_nat (s_nfft quiet_args)) with 2%nat in K. cbv beta in K. rewrite quiet_computed, Hv in K.
  replace (- (52 * ln 2) - - (121 * ln 2)) with (69 * ln 2) in K by ring.
  pose proof ln_lt_2. rewrite Rabs_pos_eq in K by lra. lra.
Qed.
Print Assumptions C154_quiet_band_refuted.

(** a case that meets every condition: the same arguments and the samples 0, 1, 0 *)
Example C154_example : let x t := match t with 1%nat => 1 | _ => 0 end in
  exists y, @mfcc exact_env (fvec 3 x) quiet_args quiet_ceps = Ok (fmat 1 1 y) /\
  Rabs (@log_cepstrum binary53 (fun z => rnd53 (ln z)) (fun p q => rnd53 (sqrt (p ^ 2 + q ^ 2))) (fun q => @lin_stored binary53 (quiet_re q))
          (fun q => @lin_stored binary53 (quiet_im q)) 2 (fun _ => dot_left quiet_weights 2) (fun _ => @lin_stored binary53 (Load 0)) x 0 - y 0%nat 0%nat)
  <= gain (Load 0) * ((1 + / 2 ^ 53) ^ 0 * ((1 + / 2 ^ 53) * (ln 2 + band_log_bound (/ 2 ^ 53) (/ 2 ^ 53) (/ 2 ^ 50) 2)) - ln 2).
Proof.
  intros x.
  destruct (C154_log_cepstra exact_env Mfcc quiet_args quiet_ceps 3 3 3 1 (fun _ => quiet_weights) x) as (y & Hy & H);
    try (cbn; lia); try (cbn; tauto); try reflexivity; try (left; reflexivity).
  - exact quiet_framed.
  - intros _ [|q]; cbn; lra.
  - exists y. split; [exact Hy|].
    assert (A : accurate (/ 2 ^ 53) 0 (@rnd binary53)) by exact rnd53_accurate.
    assert (A' : forall z, Rabs (rnd53 z - z) <= / 2 ^ 53 * Rabs z).
    { intros z. destruct A as (_ & _ & A). specialize (A z). cbn [rnd binary53] in A. lra. }
    assert (B : spec_band (half (s_nfft quiet_args)) (Z.to_nat (s_nfft quiet_args)) 3
                  (frame_of quiet_args (extractor_coeff Mfcc quiet_args) 3 3 x 0) quiet_weights = / 2).
    { change (half (s_nfft quiet_args)) with 1%nat. change (Z.to_nat (s_nfft quiet_args)) with 2%nat.
      rewrite <- (spec_band_programs 1 2 3 (fun z => frame_of quiet_args (extractor_coeff Mfcc quiet_args) 3 3 z 0) quiet_re quiet_im x quiet_weights).
      - cbn [bigsum quiet_weights quiet_re quiet_im lin_exact x]. replace (INR 2) with 2 by (cbn [INR]; ring). lra.
      - apply quiet_programs. reflexivity. }
    apply (H binary53 (/ 2 ^ 53) (/ 2 ^ 53) (/ 2 ^ 50) (/ 2 ^ 53) 3%nat (fun p q => rnd53 (sqrt (p ^ 2 + q ^ 2))) (fun z => rnd53 (ln z))
             quiet_re quiet_im (fun _ => dot_left quiet_weights 2) (fun _ => Load 0) 0%nat 0%nat (ln 2) A); clear H.
    + lra.
    + split; [lra|]. intros p q. eapply Rle_trans; [apply A'|]. rewrite (Rabs_pos_eq (sqrt _)) by apply sqrt_pos. lra.
    + split; [lra|]. intros z _. apply A'.
    + lra.
    + cbn. lia.
    + cbn. lia.
    + exact (quiet_programs 0 eq_refl).
    + intros [|q] _; cbn; lia.
    + intros j _. exact quiet_bank.
    + cbn. lia.
    + intros z. apply (dct_programs 2 1 0 (Load 0) ltac:(lia) ltac:(lia) ltac:(lia) quiet_dct).
    + intros j _. rewrite B. split; [lra|]. split.
      * unfold noise. change (S (half (s_nfft quiet_args))) with 2%nat. change (Z.to_nat (s_nfft quiet_args)) with 2%nat.
        cbn [bigsum quiet_weights quiet_re quiet_im lin_size x]. replace (INR 2) with 2 by (cbn [INR]; ring).
        rewrite Rabs_R1, Rabs_R0. set (g := (1 + / 2 ^ 53) ^ 3 - 1).
        assert (Hg : 0 <= g <= / 2 ^ 51) by (unfold g; lra).
        assert (g ^ 2 <= (/ 2 ^ 51) ^ 2) by (apply pow_incr; exact Hg). lra.
      * rewrite ln_Rinv by lra. rewrite Rabs_Ropp. rewrite Rabs_pos_eq; [lra|]. rewrite <- ln_1. apply Rcomplements.ln_le; lra.
Qed.
