(** * Properties of bfcc and of the option use_energy in floating point *)
From Coq Require Import Reals ZArith List String Bool Lia Lra.
From Coquelicot Require Rcomplements.
From Verif Require Import Base SpecBase BigSum Preprocessing SpecMat SpecFilters SpecBanks SpecFeatures Features Extractors FeaturesFacts
  FeaturesMore Binary64 Rounded SpecRounded RoundedFacts RoundedLaws RoundedCeps SpecRoundedCeps RoundedCepsLaws RoundedCepsEnd
  SpecFft FftFacts FftEnd RoundedBark SpecRoundedBark SpecRoundedNormal RoundedBarkFacts BaseFacts MatFacts.
Import ListNotations.
Local Open Scope R_scope.

(** ** C166: log energies and Bark cepstra in floating point *)

(** use_energy=True: the first column that floating point computes is close to the one of exact
    arithmetic, for every extractor, if the energy of the frame exceeds the noise of the spectrum.
    The spectrum comes from any programs, the bins are added up in any order. *)
Theorem C166_energy : forall (E : Env) e a c N L hop n B x,
  @well_framed E a N L hop -> (1 <= s_nfft a)%Z -> (0 < n)%nat ->
  @extractor_bank E e a = Ok (fmat n (S (half (s_nfft a))) B) ->
  let nf := Z.to_nat (s_nfft a) in let bins := S (half (s_nfft a)) in
  let f i z := frame_of a (extractor_coeff e a) L hop z i in
  (forall i j, (i < frame_count N L hop)%nat -> (j < n)%nat -> compressible e (spec_band (half (s_nfft a)) nf L (f i x) (B j))) ->
  (0 < c_num_ceps c <= s_nfilts a)%Z -> (1 <= c_dct_type c <= 4)%Z -> (c_dct_type c = 1%Z -> (2 <= n)%nat) ->
  c_use_energy c = true -> no_lifter c -> no_normalisation c ->
  let total i := spec_total (half (s_nfft a)) nf L (f i x) in
  exists y, @run E e (fvec N x) a c = Ok (fmat (frame_count N L hop) (Nat.min (Z.to_nat (c_num_ceps c)) n) y) /\
    forall (E' : Env) u v r wl D hyp lnf re im s i Y,
      accurate u 0 (@rnd E') -> u < 1 -> hypot_within v hyp -> ln_within wl lnf -> 0 < r < 1 ->
      (i < frame_count N L hop)%nat -> frame_programs nf L (f i) bins re im ->
      (forall q, (q < bins)%nat -> (lin_depth2 (re q) <= D)%nat /\ (lin_depth2 (im q) <= D)%nat) ->
      dot_program (fun _ => 1) bins s ->
      0 < total i -> noise u D nf bins x re im (fun _ => 1) <= r ^ 2 * total i -> Rabs (ln (total i)) <= Y ->
      Rabs (@energy_float E' lnf hyp (fun q => @lin_stored E' (re q)) (fun q => @lin_stored E' (im q)) nf s x - y i 0%nat)
      <= (1 + wl) * band_log_bound u v r bins + wl * Y.
Proof. exact energy_error. Qed.
Print Assumptions C166_energy.

(** the same with a fast Fourier transform *)
Theorem C166_energy_fft : forall (E : Env) e a c N L hop n B x,
  @well_framed E a N L hop -> (1 <= s_nfft a)%Z -> (0 < n)%nat ->
  @extractor_bank E e a = Ok (fmat n (S (half (s_nfft a))) B) ->
  let nf := Z.to_nat (s_nfft a) in let bins := S (half (s_nfft a)) in
  let co := extractor_coeff e a in let wt := win_type (window_of a) in
  let f i := frame_of a co L hop x i in
  (forall i j, (i < frame_count N L hop)%nat -> (j < n)%nat -> compressible e (spec_band (half (s_nfft a)) nf L (f i) (B j))) ->
  (0 < c_num_ceps c <= s_nfilts a)%Z -> (1 <= c_dct_type c <= 4)%Z -> (c_dct_type c = 1%Z -> (2 <= n)%nat) ->
  c_use_energy c = true -> no_lifter c -> no_normalisation c ->
  let total i := spec_total (half (s_nfft a)) nf L (f i) in
  exists y, @run E e (fvec N x) a c = Ok (fmat (frame_count N L hop) (Nat.min (Z.to_nat (c_num_ceps c)) n) y) /\
    forall (E' : Env) u v r wl hyp lnf rs re im s i Y,
      accurate u 0 (@rnd E') -> u < 1 -> hypot_within v hyp -> ln_within wl lnf -> 0 < r < 1 ->
      (i < frame_count N L hop)%nat ->
      fft rs (leaf (s_pre_emph a) co wt L hop i) (fun _ => Zero) re im -> fft_size rs = nf ->
      dot_program (fun _ => 1) bins s ->
      0 < total i -> fft_noise u rs (frame_size (s_pre_emph a) co wt L hop i nf x) <= r ^ 2 * total i -> Rabs (ln (total i)) <= Y ->
      Rabs (@energy_float E' lnf hyp (fun q => @lin_stored E' (re q)) (fun q => @lin_stored E' (im q)) nf s x - y i 0%nat)
      <= (1 + wl) * band_log_bound u v r bins + wl * Y.
Proof. exact energy_fft. Qed.
Print Assumptions C166_energy_fft.

(** bfcc with powers and logarithms that are right up to a relative error; Y bounds the logarithms of
    the loudness of the bands *)
Theorem C166_bfcc : forall (E : Env) a c N L hop n B x,
  @well_framed E a N L hop -> (1 <= s_nfft a)%Z -> (0 < n)%nat ->
  @extractor_bank E Bfcc a = Ok (fmat n (S (half (s_nfft a))) B) -> (forall j k, 0 <= B j k) ->
  (0 <= c_num_ceps c <= s_nfilts a)%Z -> (1 <= c_dct_type c <= 4)%Z -> (c_dct_type c = 1%Z -> (2 <= n)%nat) ->
  c_use_energy c = false -> no_lifter c -> no_normalisation c ->
  let K := Nat.min (Z.to_nat (c_num_ceps c)) n in let nf := Z.to_nat (s_nfft a) in let bins := S (half (s_nfft a)) in
  let f i z := frame_of a (extractor_coeff Bfcc a) L hop z i in
  let band i j := spec_band (half (s_nfft a)) nf L (f i x) (B j) in
  exists y, @run E Bfcc (fvec N x) a c = Ok (fmat (frame_count N L hop) K y) /\
    forall (E' : Env) u v r wl wp D hyp lnf pw root re im bank dct i k Y,
      accurate u 0 (@rnd E') -> u < 1 -> hypot_within v hyp -> ln_within wl lnf -> @powers_within E' wp pw root -> 0 < r < 1 ->
      (i < frame_count N L hop)%nat -> (k < K)%nat ->
      frame_programs nf L (f i) bins re im ->
      (forall q, (q < bins)%nat -> (lin_depth2 (re q) <= D)%nat /\ (lin_depth2 (im q) <= D)%nat) ->
      (forall j, (j < n)%nat -> dot_program (B j) bins (bank j)) ->
      reads n (dct k) -> (forall z, lin_exact z (dct k) = spec_dct (c_dct_type c) n z k) ->
      (forall j, (j < n)%nat -> 0 < band i j /\ noise u D nf bins x re im (B j) <= r ^ 2 * band i j /\
         Rabs (ln (spec_loudness (band i j))) <= Y) ->
      Rabs (@loud_cepstrum E' lnf pw root hyp (fun q => @lin_stored E' (re q)) (fun q => @lin_stored E' (im q)) nf bank
              (fun q => @lin_stored E' (dct q)) x k - y i k)
      <= gain (dct k) * ((1 + u) ^ lin_depth2 (dct k) * ((1 + wl) * (Y + loud_log_bound u wp (band_log_bound u v r bins) Y)) - Y).
Proof. exact bark_error. Qed.
Print Assumptions C166_bfcc.

Theorem C166_bfcc_fft : forall (E : Env) a c N L hop n B b x,
  @well_framed E a N L hop -> (1 <= s_nfft a)%Z -> (0 < n)%nat ->
  @extractor_bank E Bfcc a = Ok (fmat n (S (half (s_nfft a))) B) -> (forall j k, 0 <= B j k <= b) ->
  (0 <= c_num_ceps c <= s_nfilts a)%Z -> (1 <= c_dct_type c <= 4)%Z -> (c_dct_type c = 1%Z -> (2 <= n)%nat) ->
  c_use_energy c = false -> no_lifter c -> no_normalisation c ->
  let K := Nat.min (Z.to_nat (c_num_ceps c)) n in let nf := Z.to_nat (s_nfft a) in let bins := S (half (s_nfft a)) in
  let co := extractor_coeff Bfcc a in let wt := win_type (window_of a) in
  let band i j := spec_band (half (s_nfft a)) nf L (frame_of a co L hop x i) (B j) in
  exists y, @run E Bfcc (fvec N x) a c = Ok (fmat (frame_count N L hop) K y) /\
    forall (E' : Env) u v r wl wp hyp lnf pw root rs re im bank dct i k Y,
      accurate u 0 (@rnd E') -> u < 1 -> hypot_within v hyp -> ln_within wl lnf -> @powers_within E' wp pw root -> 0 < r < 1 ->
      (i < frame_count N L hop)%nat -> (k < K)%nat ->
      fft rs (leaf (s_pre_emph a) co wt L hop i) (fun _ => Zero) re im -> fft_size rs = nf ->
      (forall j, (j < n)%nat -> dot_program (B j) bins (bank j)) ->
      reads n (dct k) -> (forall z, lin_exact z (dct k) = spec_dct (c_dct_type c) n z k) ->
      (forall j, (j < n)%nat -> 0 < band i j /\ b * fft_noise u rs (frame_size (s_pre_emph a) co wt L hop i nf x) <= r ^ 2 * band i j /\
         Rabs (ln (spec_loudness (band i j))) <= Y) ->
      Rabs (@loud_cepstrum E' lnf pw root hyp (fun q => @lin_stored E' (re q)) (fun q => @lin_stored E' (im q)) nf bank
              (fun q => @lin_stored E' (dct q)) x k - y i k)
      <= gain (dct k) * ((1 + u) ^ lin_depth2 (dct k) * ((1 + wl) * (Y + loud_log_bound u wp (band_log_bound u v r bins) Y)) - Y).
Proof. exact bark_fft. Qed.
Print Assumptions C166_bfcc_fft.

(** without rounding the modelled operations give the intensity-loudness law *)
Theorem C166_model : forall pw w, 0 < w -> (forall k z, pw k z = z ^ k) ->
  @loudness_float exact_env pw (spec_root (1 / 3)) w = spec_loudness w.
Proof. exact loudness_exact. Qed.
Print Assumptions C166_model.

(** *** frames of one filter and the samples 0, 1, 0 with a transform of 2 points, in 53-bit arithmetic *)
Definition one_sample (t : nat) : R := match t with 1%nat => 1 | _ => 0 end.
Definition pair_spectrum (c : R) (k : nat) : lin :=
  match k with O => Sub (Load 1) (Scale c (Load 0)) | _ => Sub (Scale c (Load 0)) (Load 1) end.
Lemma pair_programs : forall c, frame_programs 2 3 (fun z => frame_of quiet_args c 3 3 z 0) 2 (pair_spectrum c) (fun _ => Zero).
Proof.
  intros c z k Hk. destruct hann3 as [W0 W1].
  unfold spec_re, spec_im, frame_of, spec_frame. cbn [Nat.min bigsum quiet_args window_of s_window win_type s_pre_emph s_coeff Nat.mul Nat.add].
  rewrite W0, W1. unfold spec_pre. destruct k as [|[|k]]; [| |lia]; cbn [pair_spectrum lin_exact Nat.mul Nat.add].
  - replace (2 * PI * INR 0 / INR 2) with 0 by (cbn [INR]; lra). rewrite cos_0, sin_0. split; ring.
  - replace (2 * PI * INR 1 / INR 2) with PI by (cbn [INR]; field). rewrite cos_PI, sin_PI. split; ring.
Qed.
Lemma pair_total : forall c, spec_total 1 2 3 (frame_of quiet_args c 3 3 one_sample 0) = 1.
Proof.
  intros c. rewrite <- (spec_total_programs 1 2 3 (fun z => frame_of quiet_args c 3 3 z 0) _ _ one_sample (pair_programs c)).
  cbn [bigsum pair_spectrum lin_exact one_sample]. replace (INR 2) with 2 by (cbn [INR]; ring). lra.
Qed.
Lemma pair_band : forall c, spec_band 1 2 3 (frame_of quiet_args c 3 3 one_sample 0) quiet_weights = / 2.
Proof.
  intros c. rewrite <- (spec_band_programs 1 2 3 (fun z => frame_of quiet_args c 3 3 z 0) _ _ one_sample quiet_weights (pair_programs c)).
  cbn [bigsum pair_spectrum lin_exact one_sample quiet_weights]. replace (INR 2) with 2 by (cbn [INR]; ring). lra.
Qed.
Lemma pair_fft_noise : forall c, 0 <= c <= 1.01 ->
  fft_noise (/ 2 ^ 53) [2%nat] (frame_size true c "hanning" 3 3 0 2 one_sample) <= (/ 2 ^ 40) ^ 2 * / 2.
Proof.
  intros c Hc. unfold fft_noise, fft_growth. cbn [fold_right].
  assert (S2 : 0 <= sqrt (INR 2) <= 1.5).
  { split; [apply sqrt_pos|]. rewrite <- (sqrt_pow2 1.5) by lra. apply sqrt_le_1_alt. cbn [INR]. lra. }
  pose proof (frame_size_bound true c "hanning" 3 3 0 2 one_sample 1 ltac:(lia) ltac:(lra)) as F.
  assert (F1 : frame_size true c "hanning" 3 3 0 2 one_sample <= 10).
  { eapply Rle_trans; [apply F|].
    - intros [|[|s]] _; cbn [one_sample]; rewrite ?Rabs_R1, ?Rabs_R0; lra.
    - cbn [Nat.min INR]. rewrite Rabs_pos_eq by lra. nra. }
  assert (F0 : 0 <= frame_size true c "hanning" 3 3 0 2 one_sample) by (apply bigsum_nonneg; intros; apply pow2_ge_0).
  set (f := frame_size _ _ _ _ _ _ _ _) in *. clearbody f.
  assert (P8 : 0 <= (1 + / 2 ^ 53) ^ (2 * 2 + 4) - 1 <= 8.01 * / 2 ^ 53) by (cbn [Nat.mul Nat.add]; lra).
  assert (P5 : 1 <= (1 + / 2 ^ 53) ^ 5 <= 1 + 5.01 * / 2 ^ 53) by lra.
  set (s := sqrt (INR 2)) in *. set (p := (1 + / 2 ^ 53) ^ (2 * 2 + 4) - 1) in *. set (q := (1 + / 2 ^ 53) ^ 5) in *. clearbody s p q.
  assert (T : 0 <= 2 * s * p <= 24.03 * / 2 ^ 53).
  { split; [apply Rmult_le_pos; lra|]. eapply Rle_trans; [apply Rmult_le_compat; [lra|lra|apply Rmult_le_compat_l; [lra|apply S2]|apply P8]|]. lra. }
  set (t := 2 * s * p) in *. clearbody t.
  assert (G : 0 <= 1 * (1 + t) * q - 1 <= / 2 ^ 48).
  { pose proof (Rmult_le_compat (1 + t) _ q _ ltac:(lra) ltac:(lra) (Rplus_le_compat_l 1 _ _ (proj2 T)) (proj2 P5)).
    pose proof (Rmult_le_compat 1 (1 + t) 1 q ltac:(lra) ltac:(lra) ltac:(lra) (proj1 P5)). lra. }
  set (g := 1 * (1 + t) * q - 1) in *. clearbody g.
  apply Rle_trans with ((/ 2 ^ 48) ^ 2 * 10); [|lra]. apply Rmult_le_compat; try lra; [apply pow2_ge_0|]. apply pow_incr. exact G.
Qed.
Lemma pair_noise : forall c w, 0 <= w 0%nat <= 1 -> 0 <= w 1%nat <= 1 ->
  noise (/ 2 ^ 53) 3 2 2 one_sample (pair_spectrum c) (fun _ => Zero) w <= (/ 2 ^ 40) ^ 2 * / 2.
Proof.
  intros c w H0 H1. unfold noise. cbn [bigsum pair_spectrum lin_size one_sample]. rewrite Rabs_R1, Rabs_R0, Rmult_0_r.
  replace (INR 2) with 2 by (cbn [INR]; ring).
  assert (P : 0 <= (((1 + / 2 ^ 53) ^ 3 - 1) * (1 + 0)) ^ 2 <= (/ 2 ^ 50) ^ 2) by lra.
  replace (0 + 1) with (1 + 0) by ring. set (q := (_ * (1 + 0)) ^ 2) in *. clearbody q.
  assert (w 0%nat * q <= 1 * (/ 2 ^ 50) ^ 2) by (apply Rmult_le_compat; lra).
  assert (w 1%nat * q <= 1 * (/ 2 ^ 50) ^ 2) by (apply Rmult_le_compat; lra). lra.
Qed.
Lemma pair_depth : forall c q, (q < 2)%nat -> (lin_depth2 (pair_spectrum c q) <= 3)%nat /\ (lin_depth2 Zero <= 3)%nat.
Proof. intros c [|[|q]] Hq; try lia; cbn; lia. Qed.
Lemma rnd53_rel : forall z, Rabs (rnd53 z - z) <= / 2 ^ 53 * Rabs z.
Proof. intros z. destruct rnd53_accurate as (_ & _ & A). specialize (A z). cbn [rnd binary53] in A. lra. Qed.
Lemma hyp53 : hypot_within (/ 2 ^ 53) (fun p q => rnd53 (sqrt (p ^ 2 + q ^ 2))).
Proof. split; [lra|]. intros p q. eapply Rle_trans; [apply rnd53_rel|]. rewrite (Rabs_pos_eq (sqrt _)) by apply sqrt_pos. lra. Qed.
Lemma ln53 : ln_within (/ 2 ^ 53) (fun z => rnd53 (ln z)).
Proof. split; [lra|]. intros z _. apply rnd53_rel. Qed.
Lemma pow53 : @powers_within binary53 (/ 2 ^ 53) (fun k z => rnd53 (Rpower z (INR k))) (fun z => rnd53 (Rpower z (rnd53 (1 / 3)))).
Proof.
  assert (P : forall p, pow_within (/ 2 ^ 53) p (fun z => rnd53 (Rpower z p))).
  { intros p. split; [lra|]. intros z _. eapply Rle_trans; [apply rnd53_rel|]. rewrite Rabs_pos_eq; [lra|left; apply exp_pos]. }
  split; [lra|]. split; [intros k; apply P|]. apply P.
Qed.
Lemma log_small : forall t, 0 <= t <= / 2 -> 0 <= - ln (1 - t) <= 2 * t.
Proof.
  intros t Ht. rewrite <- ln_Rinv by lra. split.
  - rewrite <- ln_1. apply Rcomplements.ln_le; [lra|]. pose proof (one_plus_inv t ltac:(lra)). lra.
  - replace (2 * t) with (ln (exp (2 * t))) by apply ln_exp. apply Rcomplements.ln_le; [apply Rinv_0_lt_compat; lra|].
    apply Rle_trans with (1 + 2 * t).
    + apply (Rmult_le_reg_r (1 - t)); [lra|]. rewrite Rinv_l by lra. apply Rle_trans with (1 + t * (1 - 2 * t)); [|right; ring].
      pose proof (Rmult_le_pos t (1 - 2 * t) ltac:(lra) ltac:(lra)). lra.
    + apply exp_ineq1_le.
Qed.
Lemma pair_bound : 0 <= band_log_bound (/ 2 ^ 53) (/ 2 ^ 53) (/ 2 ^ 40) 2 <= / 10 ^ 11.
Proof.
  unfold band_log_bound. pose proof (log_small (/ 2 ^ 53) ltac:(lra)). pose proof (log_small (/ 2 ^ 40) ltac:(lra)).
  replace (INR (2 + 3)) with 5 by (cbn [Nat.add INR]; ring). lra.
Qed.

(** the energy of the frame is 1 and its logarithm 0; in 53-bit arithmetic the first column is within 1 in 10^10 *)
Lemma energy_value : forall y, @mfcc exact_env (fvec 3 one_sample) quiet_args (with_energy quiet_ceps true) = Ok (fmat 1 1 y) -> y 0%nat 0%nat = 0.
Proof.
  intros y Hy.
  assert (K := @run_fvec exact_env Mfcc quiet_args (with_energy quiet_ceps true) 3 3 3 1 (fun _ => quiet_weights) one_sample quiet_framed).
  change (run Mfcc (fvec 3 one_sample) quiet_args (with_energy quiet_ceps true)) with (@mfcc exact_env (fvec 3 one_sample) quiet_args (with_energy quiet_ceps true)) in K.
  specialize (K ltac:(cbn; lia) ltac:(lia) eq_refl
    ltac:(intros i j _ _; cbn [compressible]; apply spec_band_nonneg; [cbn; lia|intros [|k] _; cbn; lra])
    ltac:(cbn; lia) ltac:(cbn; lia) ltac:(cbn; lia) ltac:(cbn; lia) ltac:(cbn; lia) (or_introl eq_refl) (or_introl eq_refl)).
  rewrite Hy in K. apply Ok_inj in K. pose proof (fmat_inj _ _ _ _ K 0%nat 0%nat ltac:(lia) ltac:(lia)) as V.
  rewrite V. cbv beta zeta. change (c_use_energy (with_energy quiet_ceps true) && (0 =? 0)%nat)%bool with true. cbv iota.
  change (half (s_nfft quiet_args)) with 1%nat. change (Z.to_nat (s_nfft quiet_args)) with 2%nat. rewrite pair_total.
  unfold spec_log. destruct (Req_EM_T 1 0); [lra|]. apply ln_1.
Qed.
Example C166_energy_example : exists y, @mfcc exact_env (fvec 3 one_sample) quiet_args (with_energy quiet_ceps true) = Ok (fmat 1 1 y) /\
  y 0%nat 0%nat = 0 /\
  Rabs (@energy_float binary53 (fun z => rnd53 (ln z)) (fun p q => rnd53 (sqrt (p ^ 2 + q ^ 2)))
          (fun q => @lin_stored binary53 (pair_spectrum (1 + / 2 ^ 30) q)) (fun q => @lin_stored binary53 Zero) 2 (sum_left 2) one_sample - y 0%nat 0%nat)
  <= / 10 ^ 10.
Proof.
  destruct (C166_energy exact_env Mfcc quiet_args (with_energy quiet_ceps true) 3 3 3 1 (fun _ => quiet_weights) one_sample) as (y & Hy & H);
    [exact quiet_framed|cbn; lia|lia|reflexivity| |cbn; lia|cbn; lia|cbn; lia|reflexivity|left; reflexivity|left; reflexivity|].
  { intros i j _ _. cbn [compressible]. apply spec_band_nonneg; [cbn; lia|]. intros [|k] _; cbn; lra. }
  exists y. split; [exact Hy|]. split; [exact (energy_value y Hy)|].
  eapply Rle_trans.
  - apply (H binary53 (/ 2 ^ 53) (/ 2 ^ 53) (/ 2 ^ 40) (/ 2 ^ 53) 3%nat _ _ (pair_spectrum (1 + / 2 ^ 30)) (fun _ => Zero) (sum_left 2) 0%nat 0 rnd53_accurate);
      [lra|exact hyp53|exact ln53|lra|cbn; lia|apply pair_programs|intros; apply pair_depth; assumption|apply sum_left_program| | |];
      change (half (s_nfft quiet_args)) with 1%nat; change (Z.to_nat (s_nfft quiet_args)) with 2%nat; rewrite pair_total.
    + lra.
    + eapply Rle_trans; [apply pair_noise; lra|]. lra.
    + rewrite ln_1, Rabs_R0. lra.
  - change (S (half (s_nfft quiet_args))) with 2%nat. pose proof pair_bound. lra.
Qed.
Example C166_energy_fft_example : exists y, @mfcc exact_env (fvec 3 one_sample) quiet_args (with_energy quiet_ceps true) = Ok (fmat 1 1 y) /\
  y 0%nat 0%nat = 0 /\
  forall re im, fft [2%nat] (leaf true (1 + / 2 ^ 30) "hanning" 3 3 0) (fun _ => Zero) re im ->
  Rabs (@energy_float binary53 (fun z => rnd53 (ln z)) (fun p q => rnd53 (sqrt (p ^ 2 + q ^ 2)))
          (fun q => @lin_stored binary53 (re q)) (fun q => @lin_stored binary53 (im q)) 2 (sum_left 2) one_sample - y 0%nat 0%nat)
  <= / 10 ^ 10.
Proof.
  destruct (C166_energy_fft exact_env Mfcc quiet_args (with_energy quiet_ceps true) 3 3 3 1 (fun _ => quiet_weights) one_sample) as (y & Hy & H);
    [exact quiet_framed|cbn; lia|lia|reflexivity| |cbn; lia|cbn; lia|cbn; lia|reflexivity|left; reflexivity|left; reflexivity|].
  { intros i j _ _. cbn [compressible]. apply spec_band_nonneg; [cbn; lia|]. intros [|k] _; cbn; lra. }
  exists y. split; [exact Hy|]. split; [exact (energy_value y Hy)|]. intros re im Hf.
  eapply Rle_trans.
  - apply (H binary53 (/ 2 ^ 53) (/ 2 ^ 53) (/ 2 ^ 40) (/ 2 ^ 53) _ _ [2%nat] re im (sum_left 2) 0%nat 0 rnd53_accurate);
      [lra|exact hyp53|exact ln53|lra|cbn; lia|exact Hf|reflexivity|apply sum_left_program| | |];
      change (half (s_nfft quiet_args)) with 1%nat; change (Z.to_nat (s_nfft quiet_args)) with 2%nat; rewrite pair_total.
    + lra.
    + eapply Rle_trans; [apply (pair_fft_noise (1 + / 2 ^ 30)); lra|]. lra.
    + rewrite ln_1, Rabs_R0. lra.
  - change (S (half (s_nfft quiet_args))) with 2%nat. pose proof pair_bound. lra.
Qed.

(** the loudness of 1/2 is about exp(-27.5) *)
Lemma loud_half : Rabs (ln (spec_loudness (/ 2))) <= 50.
Proof.
  unfold spec_loudness, spec_root. set (e := _ / _).
  assert (He : / 2 ^ 130 <= e <= 1).
  { unfold e. set (n := _ * (/ 2) ^ 4). set (m := _ * _ * _).
    assert (Hm : 0 < m <= 2 ^ 142) by (unfold m; lra). assert (Hn : 2 ^ 12 <= n <= 2 ^ 23) by (unfold n; lra).
    assert (Hm1 : 2 ^ 23 <= m) by (unfold m; lra). clearbody n m. split.
    - apply (Rmult_le_reg_r m); [lra|]. unfold Rdiv. rewrite Rmult_assoc, Rinv_l, Rmult_1_r by lra. lra.
    - apply (Rmult_le_reg_r m); [lra|]. unfold Rdiv. rewrite Rmult_assoc, Rinv_l, Rmult_1_r by lra. lra. }
  destruct (Req_EM_T e 0) as [Z|_]; [lra|]. unfold Rpower. rewrite ln_exp.
  assert (L2 : 0 <= ln 2 <= 1).
  { split; [rewrite <- ln_1; apply Rcomplements.ln_le; lra|]. rewrite <- (ln_exp 1). apply Rcomplements.ln_le; [lra|].
    pose proof (exp_ineq1_le 1). lra. }
  assert (A : - (130 * ln 2) <= ln e).
  { replace (- (130 * ln 2)) with (ln (/ 2 ^ 130)).
    - apply Rcomplements.ln_le; lra.
    - rewrite ln_Rinv by lra. rewrite ln_pow by lra. rewrite INR_IZR_INZ. reflexivity. }
  assert (B : ln e <= 0) by (rewrite <- ln_1; apply Rcomplements.ln_le; lra).
  apply Rabs_le. lra.
Qed.
Lemma loud_bound : gain (Load 0) * ((1 + / 2 ^ 53) ^ lin_depth2 (Load 0) * ((1 + / 2 ^ 53) * (50 +
  loud_log_bound (/ 2 ^ 53) (/ 2 ^ 53) (band_log_bound (/ 2 ^ 53) (/ 2 ^ 53) (/ 2 ^ 40) 2) 50)) - 50) <= / 10 ^ 9.
Proof.
  unfold gain, loud_log_bound. cbn [lin_size lin_depth2 pow]. rewrite Rabs_R1.
  pose proof pair_bound as P. pose proof (log_small (/ 2 ^ 53) ltac:(lra)) as L. set (b := band_log_bound _ _ _ _) in *. set (t := - ln _) in *. lra.
Qed.
(** the only coefficient of bfcc is the logarithm of the loudness of the only band; in 53-bit arithmetic it
    is within 1 in 10^9 *)
Example C166_bfcc_example : exists y, @bfcc exact_env (fvec 3 one_sample) quiet_args quiet_ceps = Ok (fmat 1 1 y) /\
  Rabs (@loud_cepstrum binary53 (fun z => rnd53 (ln z)) (fun k z => rnd53 (Rpower z (INR k))) (fun z => rnd53 (Rpower z (rnd53 (1 / 3))))
          (fun p q => rnd53 (sqrt (p ^ 2 + q ^ 2))) (fun q => @lin_stored binary53 (pair_spectrum 0.97 q)) (fun q => @lin_stored binary53 Zero)
          2 (fun _ => dot_left quiet_weights 2) (fun _ => @lin_stored binary53 (Load 0)) one_sample 0 - y 0%nat 0%nat) <= / 10 ^ 9.
Proof.
  destruct (C166_bfcc exact_env quiet_args quiet_ceps 3 3 3 1 (fun _ => quiet_weights) one_sample) as (y & Hy & H);
    [exact quiet_framed|cbn; lia|lia|reflexivity|intros _ [|q]; cbn; lra|cbn; lia|cbn; lia|cbn; lia|reflexivity|left; reflexivity|left; reflexivity|].
  exists y. split; [exact Hy|]. eapply Rle_trans; [|exact loud_bound].
  apply (H binary53 (/ 2 ^ 53) (/ 2 ^ 53) (/ 2 ^ 40) (/ 2 ^ 53) (/ 2 ^ 53) 3%nat _ _ (fun k z => rnd53 (Rpower z (INR k))) (fun z => rnd53 (Rpower z (rnd53 (1 / 3))))
    (pair_spectrum 0.97) (fun _ => Zero) (fun _ => dot_left quiet_weights 2) (fun _ => Load 0) 0%nat 0%nat 50 rnd53_accurate);
    [lra|exact hyp53|exact ln53|exact pow53|lra|cbn; lia|cbn; lia|apply pair_programs|intros; apply pair_depth; assumption|intros; exact quiet_bank|cbn; lia| |].
  - intros z. apply (dct_programs 2 1 0 (Load 0) ltac:(lia) ltac:(lia) ltac:(lia) quiet_dct).
  - intros j _. change (half (s_nfft quiet_args)) with 1%nat. change (Z.to_nat (s_nfft quiet_args)) with 2%nat. rewrite pair_band.
    split; [lra|]. split; [apply pair_noise; cbn; lra|exact loud_half].
Qed.
Example C166_bfcc_fft_example : exists y, @bfcc exact_env (fvec 3 one_sample) quiet_args quiet_ceps = Ok (fmat 1 1 y) /\
  forall re im, fft [2%nat] (leaf true 0.97 "hanning" 3 3 0) (fun _ => Zero) re im ->
  Rabs (@loud_cepstrum binary53 (fun z => rnd53 (ln z)) (fun k z => rnd53 (Rpower z (INR k))) (fun z => rnd53 (Rpower z (rnd53 (1 / 3))))
          (fun p q => rnd53 (sqrt (p ^ 2 + q ^ 2))) (fun q => @lin_stored binary53 (re q)) (fun q => @lin_stored binary53 (im q))
          2 (fun _ => dot_left quiet_weights 2) (fun _ => @lin_stored binary53 (Load 0)) one_sample 0 - y 0%nat 0%nat) <= / 10 ^ 9.
Proof.
  destruct (C166_bfcc_fft exact_env quiet_args quiet_ceps 3 3 3 1 (fun _ => quiet_weights) 1 one_sample) as (y & Hy & H);
    [exact quiet_framed|cbn; lia|lia|reflexivity|intros _ [|q]; cbn; lra|cbn; lia|cbn; lia|cbn; lia|reflexivity|left; reflexivity|left; reflexivity|].
  exists y. split; [exact Hy|]. intros re im Hf. eapply Rle_trans; [|exact loud_bound].
  apply (H binary53 (/ 2 ^ 53) (/ 2 ^ 53) (/ 2 ^ 40) (/ 2 ^ 53) (/ 2 ^ 53) _ _ (fun k z => rnd53 (Rpower z (INR k))) (fun z => rnd53 (Rpower z (rnd53 (1 / 3)))) [2%nat]
    re im (fun _ => dot_left quiet_weights 2) (fun _ => Load 0) 0%nat 0%nat 50 rnd53_accurate);
    [lra|exact hyp53|exact ln53|exact pow53|lra|cbn; lia|cbn; lia|exact Hf|reflexivity|intros; exact quiet_bank|cbn; lia| |].
  - intros z. apply (dct_programs 2 1 0 (Load 0) ltac:(lia) ltac:(lia) ltac:(lia) quiet_dct).
  - intros j _. change (half (s_nfft quiet_args)) with 1%nat. change (Z.to_nat (s_nfft quiet_args)) with 2%nat. rewrite pair_band.
    split; [lra|]. split; [rewrite Rmult_1_l; apply (pair_fft_noise 0.97); lra|exact loud_half].
Qed.
Example C166_model_example : @loudness_float exact_env (fun k z => z ^ k) (spec_root (1 / 3)) 1000 = spec_loudness 1000.
Proof. apply C166_model; [lra|reflexivity]. Qed.
