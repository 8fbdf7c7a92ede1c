(** * Property theorems: spectrograms and cepstral features (C24 imfcc, C40-C49, C78, C79) *)
From Coq Require Import Reals ZArith List String Bool Lia Lra.
From Verif Require Import Base BaseFacts SpecBase SpecMat SpecFilters SpecBanks SpecFeatures BigSum MatFacts
  Preprocessing PreprocessingFacts MelBanks MelBanksMore ConvertersFacts Fourier DctFacts Features Extractors
  FeaturesFacts FeaturesMore FeaturesLaws FeaturesPhase ExampleTools ExampleFeatures.
Import ListNotations.
Local Open Scope R_scope.

(** C40. Entry (i, j) of every spectrogram is the bank-weighted power of frame i; the
    second result is the magnitude spectrum. *)
Theorem C40_spectrogram : forall `{Env} s a N L hop n B x,
  well_framed a N L hop -> (1 <= s_nfft a)%Z -> (0 < n)%nat ->
  spectro_bank s a = Ok (fmat n (S (half (s_nfft a))) B) ->
  spectrogram s (fvec N x) a
  = Ok (fmat (frame_count N L hop) n
          (fun i j => spec_band (half (s_nfft a)) (Z.to_nat (s_nfft a)) L
                        (frame_of a (spectro_coeff s a) L hop x i) (B j)),
        fmat (frame_count N L hop) (S (half (s_nfft a)))
          (fun i => spec_mag (Z.to_nat (s_nfft a)) L (frame_of a (spectro_coeff s a) L hop x i))).
Proof. exact @spectrogram_fvec. Qed.
Print Assumptions C40_spectrogram.

(** C40. A non-negative bank gives non-negative entries. *)
Theorem C40_nonneg : forall `{Env} s a N L hop n B x,
  well_framed a N L hop -> (1 <= s_nfft a)%Z -> (0 < n)%nat ->
  spectro_bank s a = Ok (fmat n (S (half (s_nfft a))) B) ->
  (forall j k, (j < n)%nat -> (k <= half (s_nfft a))%nat -> 0 <= B j k) ->
  exists P Q, spectrogram s (fvec N x) a
    = Ok (fmat (frame_count N L hop) n P, fmat (frame_count N L hop) (S (half (s_nfft a))) Q) /\
    (forall i j, (j < n)%nat -> 0 <= P i j) /\ (forall i k, 0 <= Q i k).
Proof.
  intros E s a N L hop n B x Hw Hn Hn0 HB Hpos. do 2 eexists. split; [apply spectrogram_fvec; eauto|]. split.
  - intros i j Hj. apply spec_band_nonneg; [lia|]. intros. apply Hpos; auto.
  - intros. apply sqrt_pos.
Qed.
Print Assumptions C40_nonneg.
Example C40_nonneg_example : forall x, exists P Q,
  @mel_spectrogram exact_env (fvec 1000 x) default_sargs = Ok (fmat 4 24 P, fmat 4 257 Q) /\ forall i j, (j < 24)%nat -> 0 <= P i j.
Proof.
  intros x. destruct (@valid_band_bank exact_env Mfcc default_sargs 24 default_band) as (B & HB & Hp); [auto|simpl; lia|].
  destruct (@C40_nonneg exact_env Mel default_sargs 1000 400 160 24 B x) as (P & Q & E & H & _); auto; try (simpl; lia).
  - apply default_framed. lia.
  - intros j k Hj Hk. apply Hp; [exact Hj|]. apply le_n_S. exact Hk.
  - exists P, Q. split; [exact E|exact H].
Qed.

(** a case: one frame of two samples 3, 1 (second half of a 4-sample signal), all-ones bank:
    power (4^2 + 2^2) / 2 *)
Example C40_example : forall x, @well_framed exact_env (mkS 1 false 0 (Some (mkWindow 2 2 "hanning")) 1 2 0 None "constant"
      (Some (fmat 1 2 (fun _ _ => 1))) "Oshaghnessy") 4 2 2 /\
  exists P Q, @linear_spectrogram exact_env (fvec 4 x) (mkS 1 false 0 (Some (mkWindow 2 2 "hanning")) 1 2 0 None "constant"
      (Some (fmat 1 2 (fun _ _ => 1))) "Oshaghnessy") = Ok (fmat 2 1 P, fmat 2 2 Q).
Proof.
  intros x.
  assert (W : @well_framed exact_env (mkS 1 false 0 (Some (mkWindow 2 2 "hanning")) 1 2 0 None "constant"
      (Some (fmat 1 2 (fun _ _ => 1))) "Oshaghnessy") 4 2 2).
  { unfold well_framed, window_of. cbn [s_window win_len win_hop win_type s_fs].
    split; [lra|]. split; [apply flen_exact; simpl; lra|]. split; [apply flen_exact; simpl; lra|].
    split; [lia|]. split; [lia|]. simpl; tauto. }
  split; auto. do 2 eexists.
  apply (@C40_spectrogram exact_env Linear _ 4 2 2 1 (fun _ _ => 1) x W); [simpl; lia|lia|reflexivity].
Qed.

(** C78. Parseval: when a frame fits into the FFT, the squared magnitudes of the half
    spectrum, the inner bins counted twice, add up to nfft times the energy of the windowed frame. *)
Theorem C78_parseval : forall `{Env} s a N L hop n B x,
  well_framed a N L hop -> (Z.of_nat L <= s_nfft a)%Z -> (0 < n)%nat ->
  spectro_bank s a = Ok (fmat n (S (half (s_nfft a))) B) ->
  exists P Q, spectrogram s (fvec N x) a
    = Ok (fmat (frame_count N L hop) n P, fmat (frame_count N L hop) (S (half (s_nfft a))) Q) /\
    forall i, bigsum (S (half (s_nfft a))) (fun k => bin_weight (Z.to_nat (s_nfft a)) k * Q i k ^ 2)
      = IZR (s_nfft a) * bigsum L (fun t => frame_of a (spectro_coeff s a) L hop x i t ^ 2).
Proof.
  intros E s a N L hop n B x Hw HL Hn0 HB.
  assert (1 <= L)%nat by (unfold well_framed in Hw; lia).
  do 2 eexists. split; [apply spectrogram_fvec; eauto; lia|]. intros i.
  rewrite half_nat by lia. cbv beta. rewrite parseval_half by lia. rewrite INR_IZR_INZ, Z2Nat.id by lia. auto.
Qed.
Print Assumptions C78_parseval.
Example C78_example : forall x, exists P Q,
  @mel_spectrogram exact_env (fvec 1000 x) default_sargs = Ok (fmat 4 24 P, fmat 4 257 Q) /\
  bigsum 257 (fun k => bin_weight 512 k * Q 2%nat k ^ 2)
  = 512 * bigsum 400 (fun t => frame_of default_sargs 0.97 400 160 x 2 t ^ 2).
Proof.
  intros x. destruct (@valid_band_bank exact_env Mfcc default_sargs 24 default_band) as (B & HB & _); [auto|simpl; lia|].
  destruct (@C78_parseval exact_env Mel default_sargs 1000 400 160 24 B x) as (P & Q & H1 & H2); auto; try (simpl; lia).
  - apply default_framed. lia.
  - exists P, Q. split; [exact H1|apply (H2 2%nat)].
Qed.

(** C41. Number of rows and columns of every feature matrix that is returned. *)
Theorem C41_shape : forall `{Env} e sig a c M, run e sig a c = Ok M -> (0 <= c_num_ceps c)%Z ->
  exists b, extractor_bank e a = Ok b /\
    zlen M = ((zlen sig - flen (s_fs a) (win_len (window_of a))) / flen (s_fs a) (win_hop (window_of a)) + 1)%Z /\
    Forall (fun row => List.length row = Nat.min (Z.to_nat (c_num_ceps c)) (List.length b)) M.
Proof. exact @run_shape. Qed.
Print Assumptions C41_shape.
Theorem C41_shape_psrcc : forall `{Env} sig a g c M, psrcc sig a g c = Ok M -> (0 <= c_num_ceps c)%Z ->
  exists b, spectro_bank Mel a = Ok b /\
    zlen M = ((zlen sig - flen (s_fs a) (win_len (window_of a))) / flen (s_fs a) (win_hop (window_of a)) + 1)%Z /\
    Forall (fun row => List.length row = Nat.min (Z.to_nat (c_num_ceps c)) (List.length b)) M.
Proof. exact @psrcc_shape. Qed.
Print Assumptions C41_shape_psrcc.

(** C42. Logarithmic features of a finite signal are finite for every non-negative bank. *)
Theorem C42_finite : forall `{Env} e a c N L hop n B x, logarithmic e = true ->
  well_framed a N L hop -> (1 <= s_nfft a)%Z -> (0 < n)%nat ->
  extractor_bank e a = Ok (fmat n (S (half (s_nfft a))) B) ->
  (forall j k, (j < n)%nat -> (k <= half (s_nfft a))%nat -> 0 <= B j k) ->
  (0 < c_num_ceps c <= s_nfilts a)%Z ->
  (1 <= c_dct_type c <= 4)%Z -> (c_dct_type c = 1%Z -> (2 <= n)%nat) ->
  tame_lifter c -> no_normalisation c ->
  exists y, run e (fvec N x) a c = Ok (fmat (frame_count N L hop) (Nat.min (Z.to_nat (c_num_ceps c)) n) y).
Proof.
  intros. eapply run_finite; eauto. intros. apply log_compressible; auto.
  apply spec_band_nonneg; [lia|]. intros. auto.
Qed.
Print Assumptions C42_finite.

(** C42. The same with the bank the library computes. *)
Theorem C42_finite_default_bank : forall `{Env} e a c N L hop n x, logarithmic e = true ->
  well_framed a N L hop -> (1 <= s_nfft a)%Z -> s_nfilts a = Z.of_nat n -> valid_band e a ->
  (0 < c_num_ceps c <= s_nfilts a)%Z ->
  (1 <= c_dct_type c <= 4)%Z -> (c_dct_type c = 1%Z -> (2 <= n)%nat) ->
  tame_lifter c -> no_normalisation c ->
  exists y, run e (fvec N x) a c = Ok (fmat (frame_count N L hop) (Z.to_nat (c_num_ceps c)) y).
Proof.
  intros E e a c N L hop n x He Hw Hn Hnf Hv Hc Ht Ht1 Hl Hnm.
  destruct (valid_band_bank e a n Hv Hnf ltac:(lia)) as (B & HB & Hp).
  destruct (C42_finite e a c N L hop n B x) as [y Hy]; auto; try lia.
  - intros. apply Hp; lia.
  - exists y. rewrite Hy. do 2 f_equal. lia.
Qed.
Print Assumptions C42_finite_default_bank.
Example C41_example : forall x, exists M, @mfcc exact_env (fvec 1000 x) default_sargs default_cargs = Ok M /\
  zlen M = 4%Z /\ Forall (fun row => List.length row = 13%nat) M.
Proof.
  intros x. destruct (@C42_finite_default_bank exact_env Mfcc default_sargs default_cargs 1000 400 160 24 x) as (y & E);
    [reflexivity|apply default_framed; lia|simpl; lia|reflexivity|apply default_band|simpl; lia|simpl; lia|discriminate|exact I|left; reflexivity|].
  eexists. split; [exact E|].
  unfold zlen. rewrite fmat_length. split; [reflexivity|]. apply Forall_forall. intros row Hr. unfold fmat in Hr. apply in_map_iff in Hr as (i & <- & _). apply fvec_length.
Qed.

(** C42. What silence gives (type-2 DCT): a fixed finite first coefficient, zeros behind it. *)
Theorem C42_silence : forall `{Env} e a c N L hop n B, logarithmic e = true ->
  well_framed a N L hop -> (1 <= s_nfft a)%Z -> (0 < n)%nat ->
  extractor_bank e a = Ok (fmat n (S (half (s_nfft a))) B) ->
  (0 <= c_num_ceps c <= s_nfilts a)%Z -> c_dct_type c = 2%Z -> c_use_energy c = false ->
  no_lifter c -> no_normalisation c ->
  run e (fvec N (fun _ => 0)) a c
  = Ok (fmat (frame_count N L hop) (Nat.min (Z.to_nat (c_num_ceps c)) n)
         (fun i k => if Nat.eqb k 0 then ln (/ 2 ^ 52) * sqrt (INR n) else 0)).
Proof. exact @run_silence_log. Qed.
Print Assumptions C42_silence.
Example C42_silence_example : @mfcc exact_env (fvec 1000 (fun _ => 0)) default_sargs default_cargs
  = Ok (fmat 4 13 (fun i k => if Nat.eqb k 0 then ln (/ 2 ^ 52) * sqrt (INR 24) else 0)).
Proof.
  destruct (@valid_band_bank exact_env Mfcc default_sargs 24 default_band) as (B & HB & Hp); [auto|simpl; lia|].
  apply (@C42_silence exact_env Mfcc default_sargs default_cargs 1000 400 160 24 B); auto; try (simpl; lia); try (left; reflexivity).
  apply default_framed. lia.
Qed.

(** a case: the default mfcc of any 1000 samples, and of silence *)
Example C42_example : forall x, exists y,
  @mfcc exact_env (fvec 1000 x) default_sargs default_cargs = Ok (fmat 4 13 y).
Proof.
  intros x. apply (@C42_finite_default_bank exact_env Mfcc default_sargs default_cargs 1000 400 160 24 x); auto;
    try (simpl; lia); try (left; reflexivity); try exact I.
  - apply default_framed. lia.
  - exact default_band.
Qed.

(** C43. gfcc of silence is zero. *)
Theorem C43_gfcc_silence : forall `{Env} a c N L hop n B,
  well_framed a N L hop -> (1 <= s_nfft a)%Z -> (0 < n)%nat ->
  extractor_bank Gfcc a = Ok (fmat n (S (half (s_nfft a))) B) ->
  (0 <= c_num_ceps c <= s_nfilts a)%Z -> (1 <= c_dct_type c <= 4)%Z -> (c_dct_type c = 1%Z -> (2 <= n)%nat) ->
  c_use_energy c = false -> no_lifter c -> no_normalisation c ->
  gfcc (fvec N (fun _ => 0)) a c
  = Ok (fmat (frame_count N L hop) (Nat.min (Z.to_nat (c_num_ceps c)) n) (fun _ _ => 0)).
Proof. exact @run_silence_gfcc. Qed.
Print Assumptions C43_gfcc_silence.
Example C43_gfcc_example : @gfcc exact_env (fvec 1000 (fun _ => 0)) (with_fbanks default_sargs (fmat 24 257 (fun j k => INR (j + k)))) default_cargs
  = Ok (fmat 4 13 (fun _ _ => 0)).
Proof.
  apply (@C43_gfcc_silence exact_env (with_fbanks default_sargs (fmat 24 257 (fun j k => INR (j + k)))) default_cargs 1000 400 160 24 (fun j k => INR (j + k)));
    auto; try (simpl; lia); try (left; reflexivity); try discriminate.
  apply default_framed. lia.
Qed.

(** C43. msrcc with a negative exponent (the default is -1/7): one band without energy
    makes every coefficient of that frame infinite or NaN. *)
Theorem C43_msrcc_zero_band : forall `{Env} g a c N L hop n B x i j, g < 0 ->
  well_framed a N L hop -> (1 <= s_nfft a)%Z -> (0 < n)%nat ->
  spectro_bank Mel a = Ok (fmat n (S (half (s_nfft a))) B) ->
  (i < frame_count N L hop)%nat -> (j < n)%nat ->
  spec_band (half (s_nfft a)) (Z.to_nat (s_nfft a)) L (frame_of a (s_coeff a) L hop x i) (B j) = 0 ->
  (0 <= c_num_ceps c <= s_nfilts a)%Z -> (1 <= c_dct_type c <= 4)%Z -> (c_dct_type c = 1%Z -> (2 <= n)%nat) ->
  c_use_energy c = false -> no_lifter c -> no_normalisation c ->
  exists M, msrcc (fvec N x) a g c = Ok M /\ List.length M = frame_count N L hop /\
    List.length (nth i M []) = Nat.min (Z.to_nat (c_num_ceps c)) n /\ nonfinite_row (nth i M []).
Proof. exact @msrcc_zero_band. Qed.
Print Assumptions C43_msrcc_zero_band.

(** a case: the default msrcc call on 1000 zeros *)
Example C43_example : exists M, @msrcc exact_env (fvec 1000 (fun _ => 0)) default_sargs (-1 / 7) default_cargs = Ok M /\
  List.length (nth 2 M []) = 13%nat /\ nonfinite_row (nth 2 M []).
Proof.
  destruct (@valid_band_bank exact_env Mfcc default_sargs 24 default_band) as (B & HB & _); [auto|simpl; lia|].
  destruct (@C43_msrcc_zero_band exact_env (-1 / 7) default_sargs default_cargs 1000 400 160 24 B (fun _ => 0) 2 0)
    as (M & H1 & _ & H2 & H3); auto; try lra; try (simpl; lia); try (left; reflexivity).
  - apply default_framed. lia.
  - change (frame_count 1000 400 160) with 4%nat. lia.
  - apply spec_band_zero. intros. apply frame_of_zero. auto.
  - exists M. auto.
Qed.

(** C44. A gain g multiplies every spectrogram entry by g^2 and every magnitude by |g|. *)
Theorem C44_spectrogram_gain : forall `{Env} s a N L hop n B x g,
  well_framed a N L hop -> (1 <= s_nfft a)%Z -> (0 < n)%nat ->
  spectro_bank s a = Ok (fmat n (S (half (s_nfft a))) B) ->
  exists P Q,
    spectrogram s (fvec N x) a = Ok (fmat (frame_count N L hop) n P, fmat (frame_count N L hop) (S (half (s_nfft a))) Q) /\
    spectrogram s (fvec N (fun t => g * x t)) a
    = Ok (fmat (frame_count N L hop) n (fun i j => g ^ 2 * P i j),
          fmat (frame_count N L hop) (S (half (s_nfft a))) (fun i k => Rabs g * Q i k)).
Proof. exact @spectrogram_gain. Qed.
Print Assumptions C44_spectrogram_gain.
Example C44_spectrogram_example : forall x, exists P Q,
  @mel_spectrogram exact_env (fvec 1000 x) default_sargs = Ok (fmat 4 24 P, fmat 4 257 Q) /\
  @mel_spectrogram exact_env (fvec 1000 (fun t => -3 * x t)) default_sargs
  = Ok (fmat 4 24 (fun i j => (-3) ^ 2 * P i j), fmat 4 257 (fun i k => Rabs (-3) * Q i k)).
Proof.
  intros x. destruct (@valid_band_bank exact_env Mfcc default_sargs 24 default_band) as (B & HB & Hp); [auto|simpl; lia|].
  apply (@C44_spectrogram_gain exact_env Mel default_sargs 1000 400 160 24 B x (-3)); auto; try (simpl; lia).
  apply default_framed. lia.
Qed.

(** C44. The logarithmic cepstra change in coefficient 0 only. *)
Theorem C44_log_gain : forall `{Env} e a c N L hop n B x g, In e [Mfcc; Imfcc; Lfcc; Ngcc] -> g <> 0 ->
  well_framed a N L hop -> (1 <= s_nfft a)%Z -> (0 < n)%nat ->
  extractor_bank e a = Ok (fmat n (S (half (s_nfft a))) B) ->
  (forall i j, (i < frame_count N L hop)%nat -> (j < n)%nat ->
     0 < spec_band (half (s_nfft a)) (Z.to_nat (s_nfft a)) L (frame_of a (extractor_coeff e a) L hop x i) (B j)) ->
  (0 <= c_num_ceps c <= s_nfilts a)%Z -> c_dct_type c = 2%Z -> c_use_energy c = false ->
  no_lifter c -> no_normalisation c ->
  exists y, run e (fvec N x) a c = Ok (fmat (frame_count N L hop) (Nat.min (Z.to_nat (c_num_ceps c)) n) y) /\
    run e (fvec N (fun t => g * x t)) a c
    = Ok (fmat (frame_count N L hop) (Nat.min (Z.to_nat (c_num_ceps c)) n)
           (fun i k => y i k + (if Nat.eqb k 0 then 2 * ln (Rabs g) * sqrt (INR n) else 0))).
Proof. exact @run_gain_log. Qed.
Print Assumptions C44_log_gain.

(** C44. gfcc and msrcc are multiplied by |g| to the power 2/3 and 2 gamma. *)
Theorem C44_root_gain : forall `{Env} e p a c N L hop n B x g, root_exponent e p -> g <> 0 ->
  well_framed a N L hop -> (1 <= s_nfft a)%Z -> (0 < n)%nat ->
  extractor_bank e a = Ok (fmat n (S (half (s_nfft a))) B) ->
  (forall i j, (i < frame_count N L hop)%nat -> (j < n)%nat ->
     let v := spec_band (half (s_nfft a)) (Z.to_nat (s_nfft a)) L (frame_of a (extractor_coeff e a) L hop x i) (B j) in
     0 < v \/ (0 <= v /\ 0 < p)) ->
  (0 <= c_num_ceps c <= s_nfilts a)%Z -> (1 <= c_dct_type c <= 4)%Z -> (c_dct_type c = 1%Z -> (2 <= n)%nat) ->
  c_use_energy c = false -> no_lifter c -> no_normalisation c ->
  exists y, run e (fvec N x) a c = Ok (fmat (frame_count N L hop) (Nat.min (Z.to_nat (c_num_ceps c)) n) y) /\
    run e (fvec N (fun t => g * x t)) a c
    = Ok (fmat (frame_count N L hop) (Nat.min (Z.to_nat (c_num_ceps c)) n)
           (fun i k => Rpower (Rabs g) (2 * p) * y i k)).
Proof. exact @run_gain_root. Qed.
Print Assumptions C44_root_gain.
Example C44_root_example : forall x, exists y,
  @msrcc exact_env (fvec 1000 x) default_sargs (1 / 7) default_cargs = Ok (fmat 4 13 y) /\
  @msrcc exact_env (fvec 1000 (fun t => -3 * x t)) default_sargs (1 / 7) default_cargs
  = Ok (fmat 4 13 (fun i k => Rpower (Rabs (-3)) (2 * (1 / 7)) * y i k)).
Proof.
  intros x. destruct (@valid_band_bank exact_env Mfcc default_sargs 24 default_band) as (B & HB & Hp); [auto|simpl; lia|].
  apply (@C44_root_gain exact_env (Msrcc (1 / 7)) (1 / 7) default_sargs default_cargs 1000 400 160 24 B x (-3)); auto;
    try (simpl; lia); try lra; try (left; reflexivity); try discriminate.
  - right. split; [reflexivity|lra].
  - apply default_framed. lia.
  - intros i j Hi Hj. right. split; [|lra]. apply spec_band_nonneg; [simpl; lia|]. intros k Hk. apply Hp; [exact Hj|]. apply le_n_S. exact Hk.
Qed.

(** a case with positive band energies: two samples, one FFT point *)
Example C44_example : exists y,
  @mfcc exact_env (fvec 2 (tiny_x 2 1)) (tiny 1) tiny_c = Ok (fmat 2 1 y) /\
  @mfcc exact_env (fvec 2 (fun t => -5 * tiny_x 2 1 t)) (tiny 1) tiny_c
  = Ok (fmat 2 1 (fun i k => y i k + (if Nat.eqb k 0 then 2 * ln (Rabs (-5)) * sqrt (INR 1) else 0))).
Proof.
  destruct (@C44_log_gain exact_env Mfcc (tiny 1) tiny_c 2 1 1 1 (fun _ _ => 1) (tiny_x 2 1) (-5)) as (y & H1 & H2); auto;
    try (simpl; lia); try lra; try (apply or_introl; reflexivity).
  - simpl; auto.
  - apply tiny_framed. reflexivity.
  - intros i j Hi _. change (half (s_nfft (tiny 1))) with 0%nat. change (Z.to_nat (s_nfft (tiny 1))) with 1%nat.
    rewrite (tiny_band 1). change (frame_count 2 1 1) with 2%nat in Hi.
    destruct i as [|[|i]]; [| |lia]; cbn [spec_pre tiny_x]; replace (2 - 1) with 1 by ring; rewrite Rinv_1; lra.
  - exists y. split; [exact H1|exact H2].
Qed.

(** C45. Row i depends only on the samples of frame i and, with pre-emphasis, the one before. *)
Theorem C45_row_locality : forall `{Env} e sig sig2 a c M M2 i,
  let L := flen (s_fs a) (win_len (window_of a)) in
  let hop := flen (s_fs a) (win_hop (window_of a)) in
  run e sig a c = Ok M -> run e sig2 a c = Ok M2 -> no_normalisation c ->
  (i < List.length M)%nat -> (i < List.length M2)%nat ->
  (forall j, (-1 <= j < L)%Z -> (0 <= j \/ s_pre_emph a = true)%Z -> (0 <= Z.of_nat i * hop + j)%Z ->
     nth (Z.to_nat (Z.of_nat i * hop + j)) sig NaN = nth (Z.to_nat (Z.of_nat i * hop + j)) sig2 NaN) ->
  nth i M [] = nth i M2 [].
Proof. intros E e sig sig2 a c M M2 i L hop H1 H2 Hn I1 I2 Hag. eapply run_row_eq; eauto. tauto. Qed.
Print Assumptions C45_row_locality.
Example C45_example : forall x z, (forall t, (159 <= t)%nat -> x t = z t) -> exists y y2,
  @mfcc exact_env (fvec 1000 x) default_sargs default_cargs = Ok (fmat 4 13 y) /\
  @mfcc exact_env (fvec 1400 z) default_sargs default_cargs = Ok (fmat 7 13 y2) /\
  nth 1 (fmat 4 13 y) [] = nth 1 (fmat 7 13 y2) [].
Proof.
  intros x z Hxz. destruct (C42_example x) as [y Hy].
  destruct (@C42_finite_default_bank exact_env Mfcc default_sargs default_cargs 1400 400 160 24 z) as [y2 Hy2];
    auto; try (simpl; lia); try (left; reflexivity); try exact I; try exact default_band.
  { apply default_framed. lia. }
  exists y, y2. split; [exact Hy|]. split; [exact Hy2|].
  destruct (default_framed 1000 ltac:(lia)) as (_ & EL & EH & _).
  apply (@C45_row_locality exact_env Mfcc (fvec 1000 x) (fvec 1400 z) default_sargs default_cargs); auto; try (left; reflexivity);
    try (rewrite fmat_length; lia).
  rewrite EL, EH. intros j Hj _ _. rewrite !fvec_nth by lia. f_equal. apply Hxz. lia.
Qed.

(** C79. Dropping the first hop samples drops the first row (with pre-emphasis, the new
    first row excepted). *)
Theorem C79_shift : forall `{Env} e sig a c M M2 i,
  let hop := flen (s_fs a) (win_hop (window_of a)) in
  (0 <= hop)%Z ->
  run e sig a c = Ok M -> run e (skipn (Z.to_nat hop) sig) a c = Ok M2 -> no_normalisation c ->
  (s_pre_emph a = true -> (0 < i)%nat) ->
  (S i < List.length M)%nat -> (i < List.length M2)%nat ->
  nth (S i) M [] = nth i M2 [].
Proof. intros E e sig a c M M2 i hop. apply run_shift. Qed.
Print Assumptions C79_shift.

(** a case: the default mfcc of 1000 samples and of the last 840 *)
Example C45_C79_example : forall x, exists M M2,
  @mfcc exact_env (fvec 1000 x) default_sargs default_cargs = Ok M /\
  @mfcc exact_env (skipn 160 (fvec 1000 x)) default_sargs default_cargs = Ok M2 /\
  List.length M = 4%nat /\ List.length M2 = 3%nat /\ nth 2 M [] = nth 1 M2 [].
Proof.
  intros x. destruct (C42_example x) as [y Hy].
  assert (Hs : skipn 160 (fvec 1000 x) = fvec 840 (fun i => x (160 + i)%nat)) by (apply (fvec_skipn 160 1000); lia).
  destruct (@C42_finite_default_bank exact_env Mfcc default_sargs default_cargs 840 400 160 24 (fun i => x (160 + i)%nat)) as [y2 Hy2];
    auto; try (simpl; lia); try (left; reflexivity); try exact I; try exact default_band.
  { apply default_framed. lia. }
  cbn [run] in Hy2. exists (fmat 4 13 y), (fmat 3 13 y2). rewrite Hs. split; auto. split; auto. rewrite !fmat_length. split; auto. split; auto.
  apply (@C79_shift exact_env Mfcc (fvec 1000 x) default_sargs default_cargs).
  - change (window_of default_sargs) with default_window. rewrite (flen_exact 16000 _ 160) by (simpl; lra). lia.
  - exact Hy.
  - change (window_of default_sargs) with default_window. rewrite (flen_exact 16000 _ 160) by (simpl; lra).
    change (Z.to_nat 160) with 160%nat. rewrite Hs. exact Hy2.
  - left; auto.
  - intros. lia.
  - rewrite fmat_length. lia.
  - rewrite fmat_length. lia.
Qed.

(** C46. use_energy changes column 0 only; ... *)
Theorem C46_other_columns : forall `{Env} e sig a c M, run e sig a (with_energy c false) = Ok M ->
  no_lifter c -> no_normalisation c -> (0 < c_num_ceps c)%Z ->
  exists M', run e sig a (with_energy c true) = Ok M' /\ List.length M' = List.length M /\
    forall i, (i < List.length M)%nat -> List.length (nth i M' []) = List.length (nth i M []) /\
      forall k, (0 < k)%nat -> nth k (nth i M' []) NaN = nth k (nth i M []) NaN.
Proof. exact @run_energy_false. Qed.
Print Assumptions C46_other_columns.
(** ... column 0 becomes the logarithm of the frame's total power; ... *)
Theorem C46_column_0 : forall `{Env} e a c N L hop n B x,
  well_framed a N L hop -> (1 <= s_nfft a)%Z -> (0 < n)%nat ->
  extractor_bank e a = Ok (fmat n (S (half (s_nfft a))) B) ->
  (forall i j, (i < frame_count N L hop)%nat -> (j < n)%nat ->
     compressible e (spec_band (half (s_nfft a)) (Z.to_nat (s_nfft a)) L (frame_of a (extractor_coeff e a) L hop x i) (B j))) ->
  (0 < c_num_ceps c <= s_nfilts a)%Z -> (1 <= c_dct_type c <= 4)%Z -> (c_dct_type c = 1%Z -> (2 <= n)%nat) ->
  no_lifter c -> no_normalisation c ->
  exists y, run e (fvec N x) a (with_energy c true)
            = Ok (fmat (frame_count N L hop) (Nat.min (Z.to_nat (c_num_ceps c)) n) y) /\
    forall i, y i 0%nat = spec_log (spec_total (half (s_nfft a)) (Z.to_nat (s_nfft a)) L
                                      (frame_of a (extractor_coeff e a) L hop x i)).
Proof.
  intros E e a c N L hop n B x Hw Hn Hn0 HB HG Hc Ht Ht1 Hl Hnm. eexists. split.
  - apply (run_fvec e a (with_energy c true) N L hop n B x); auto; simpl; lia.
  - intros i. reflexivity.
Qed.
Print Assumptions C46_column_0.
(** ... without columns it is an IndexError. *)
Theorem C46_no_columns : forall `{Env} e sig a c M, run e sig a (with_energy c false) = Ok M ->
  c_num_ceps c = 0%Z -> run e sig a (with_energy c true) = Raise IndexError.
Proof. exact @run_energy_no_columns. Qed.
Print Assumptions C46_no_columns.
Example C46_more_example : forall x, exists y M',
  @mfcc exact_env (fvec 1000 x) default_sargs (with_energy default_cargs false) = Ok (fmat 4 13 y) /\
  @mfcc exact_env (fvec 1000 x) default_sargs (with_energy default_cargs true) = Ok M' /\
  (forall k, (0 < k)%nat -> nth k (nth 2 M' []) NaN = nth k (nth 2 (fmat 4 13 y) []) NaN) /\
  @mfcc exact_env (fvec 1000 (fun _ => 0)) default_sargs (with_energy (mkC 0 2 false None None) true) = Raise IndexError.
Proof.
  intros x. destruct (@C42_finite_default_bank exact_env Mfcc default_sargs default_cargs 1000 400 160 24 x) as [y Hy];
    auto; try (simpl; lia); try (left; reflexivity); try exact I; try exact default_band.
  { apply default_framed. lia. }
  destruct (@valid_band_bank exact_env Mfcc default_sargs 24 default_band) as (B & HB & _); [auto|simpl; lia|].
  pose proof (@C42_silence exact_env Mfcc default_sargs (mkC 0 2 false None None) 1000 400 160 24 B eq_refl (default_framed 1000 ltac:(lia))
    ltac:(simpl; lia) ltac:(lia) HB ltac:(simpl; lia) eq_refl eq_refl (or_introl eq_refl) (or_introl eq_refl)) as Hy0.
  destruct (@C46_other_columns exact_env Mfcc (fvec 1000 x) default_sargs default_cargs _ Hy) as (M' & E & _ & K);
    [left; reflexivity|left; reflexivity|cbn; lia|].
  exists y, M'. split; [exact Hy|]. split; [exact E|]. split.
  - apply (K 2%nat). rewrite fmat_length. change (frame_count 1000 400 160) with 4%nat. lia.
  - exact (@C46_no_columns exact_env Mfcc (fvec 1000 (fun _ => 0)) default_sargs (mkC 0 2 false None None) _ Hy0 eq_refl).
Qed.
Example C46_example : forall x, exists y, @mfcc exact_env (fvec 1000 x) default_sargs (with_energy default_cargs true) = Ok (fmat 4 13 y) /\
  y 1%nat 0%nat = spec_log (spec_total 256 512 400 (frame_of default_sargs 0.97 400 160 x 1)).
Proof.
  intros x. destruct (@valid_band_bank exact_env Mfcc default_sargs 24 default_band) as (B & HB & Hp); [auto|simpl; lia|].
  destruct (@C46_column_0 exact_env Mfcc default_sargs default_cargs 1000 400 160 24 B x) as (y & H1 & H2); auto;
    try (simpl; lia); try (left; reflexivity).
  - apply default_framed. lia.
  - intros i j Hi Hj. cbn [compressible]. apply spec_band_nonneg; [simpl; lia|]. intros k Hk. apply Hp; [auto|]. apply le_n_S. exact Hk.
  - exists y. split; [exact H1|apply (H2 1%nat)].
Qed.

(** C47. More coefficients than filters are refused before anything else is looked at. *)
Theorem C47_nfilts : forall `{Env} e sig a c, (s_nfilts a < c_num_ceps c)%Z ->
  run e sig a c = Raise (ParameterError msg_nfilts).
Proof. intros E e sig a c Hc. rewrite run_cep. unfold cep. rewrite (proj2 (Z.ltb_lt _ _)) by auto. auto. Qed.
Print Assumptions C47_nfilts.
Theorem C47_nfilts_psrcc : forall `{Env} sig a g c, (s_nfilts a < c_num_ceps c)%Z ->
  psrcc sig a g c = Raise (ParameterError msg_nfilts).
Proof. intros E sig a g c Hc. rewrite psrcc_unfold. rewrite (proj2 (Z.ltb_lt _ _)) by auto. auto. Qed.
Print Assumptions C47_nfilts_psrcc.
Example C47_psrcc_example : forall sig, @psrcc exact_env sig default_sargs 1 (mkC 25 2 true None None) = Raise (ParameterError msg_nfilts).
Proof. intros sig. apply C47_nfilts_psrcc. cbn. lia. Qed.
Example C47_example : @bfcc exact_env [] (mkS 0 true 0 None 12 0 (-1) None "no such scale" None "no such approach") default_cargs
  = Raise (ParameterError msg_nfilts).
Proof. apply (@C47_nfilts exact_env Bfcc). simpl. lia. Qed.

(** C48. Half of the functions ignore pre_emph_coeff (0.97 is always used) ... *)
Theorem C48_coefficient_ignored_spectrograms : forall `{Env} s sig a k, s <> Mel ->
  spectrogram s sig (with_coeff a k) = spectrogram s sig a.
Proof. exact @spectro_no_coeff. Qed.
Print Assumptions C48_coefficient_ignored_spectrograms.
Theorem C48_coefficient_ignored : forall `{Env} e sig a c k, In e [Lfcc; Bfcc; Gfcc] ->
  run e sig (with_coeff a k) c = run e sig a c.
Proof. exact @run_no_coeff. Qed.
Print Assumptions C48_coefficient_ignored.
(** ... and the others honour it: any two coefficients can be told apart. *)
Theorem C48_mel_spectrogram_uses_it : forall `{Env} k k', rnd 1 = 1 -> k <> k' ->
  exists sig a, mel_spectrogram sig (with_coeff a k) <> mel_spectrogram sig (with_coeff a k').
Proof. intros E k k' Hr Hk. exists (fvec 2 (tiny_x k k')), (tiny 0). exact (mel_depends k k' Hr Hk). Qed.
Print Assumptions C48_mel_spectrogram_uses_it.
Theorem C48_others_use_it : forall `{Env} e k k', In e [Mfcc; Imfcc; Ngcc] \/ (exists g, g <> 0 /\ e = Msrcc g) ->
  rnd 1 = 1 -> k <> k' ->
  exists sig a c, run e sig (with_coeff a k) c <> run e sig (with_coeff a k') c.
Proof.
  intros E e k k' He Hr Hk. exists (fvec 2 (tiny_x k k')), (tiny 0), tiny_c. exact (run_depends e k k' He Hr Hk).
Qed.
Print Assumptions C48_others_use_it.
Example C48_uses_example : (exists sig a c, @mfcc exact_env sig (with_coeff a 0.97) c <> @mfcc exact_env sig (with_coeff a 0.5) c) /\
  (exists sig a, @mel_spectrogram exact_env sig (with_coeff a 0.97) <> @mel_spectrogram exact_env sig (with_coeff a 0.5)) /\
  forall sig, @linear_spectrogram exact_env sig (with_coeff default_sargs 0.5) = @linear_spectrogram exact_env sig default_sargs.
Proof.
  split; [apply (@C48_others_use_it exact_env Mfcc 0.97 0.5); [left; cbn; auto|reflexivity|lra]|].
  split; [apply (@C48_mel_spectrogram_uses_it exact_env 0.97 0.5); [reflexivity|lra]|].
  intros sig. apply (@C48_coefficient_ignored_spectrograms exact_env Linear). discriminate.
Qed.
Example C48_example : forall sig, @lfcc exact_env sig (with_coeff default_sargs 0.5) default_cargs = @lfcc exact_env sig default_sargs default_cargs.
Proof. intros. apply (@C48_coefficient_ignored exact_env Lfcc). simpl; auto. Qed.

(** C49. Only the first nfft samples of a frame count. *)
Theorem C49_truncation : forall `{Env} e sig sig2 a c M M2,
  let L := flen (s_fs a) (win_len (window_of a)) in
  let hop := flen (s_fs a) (win_hop (window_of a)) in
  (1 <= L)%Z -> run e sig a c = Ok M -> run e sig2 a c = Ok M2 -> List.length sig = List.length sig2 ->
  (forall i j, (i < List.length M)%nat -> (-1 <= j < s_nfft a)%Z -> (0 <= j \/ s_pre_emph a = true)%Z ->
     (0 <= Z.of_nat i * hop + j)%Z ->
     nth (Z.to_nat (Z.of_nat i * hop + j)) sig NaN = nth (Z.to_nat (Z.of_nat i * hop + j)) sig2 NaN) ->
  M = M2.
Proof. exact @run_truncated. Qed.
Print Assumptions C49_truncation.
(** a case: one-point FFT, frames of two samples; every second sample is without effect *)
Example C49_example : forall x y,
  let a := mkS 1 false 0 (Some (mkWindow 2 2 "hamming")) 1 1 0 None "constant" (Some [[f1]]) "Oshaghnessy" in
  (forall t, x (2 * t)%nat = y (2 * t)%nat) ->
  exists M, @mfcc exact_env (fvec 4 x) a tiny_c = Ok M /\ @mfcc exact_env (fvec 4 y) a tiny_c = Ok M.
Proof.
  intros x y a Hxy.
  assert (L2 : @flen exact_env (s_fs a) (win_len (window_of a)) = 2%Z) by (apply (flen_exact 1 2 2); lra).
  assert (H2 : @flen exact_env (s_fs a) (win_hop (window_of a)) = 2%Z) by (apply (flen_exact 1 2 2); lra).
  assert (W : @well_framed exact_env a 4 2 2).
  { unfold well_framed. rewrite L2, H2. simpl. repeat split; auto; try lra; try lia. tauto. }
  assert (R : forall z, exists u, run (H := exact_env) Mfcc (fvec 4 z) a tiny_c = Ok (fmat 2 1 u)).
  { intros z. apply (@C42_finite exact_env Mfcc a tiny_c 4 2 2 1 (fun _ _ => 1) z); auto; try (simpl; lia); try exact I;
      try (left; reflexivity). intros; lra. }
  destruct (R x) as [u Hu]. destruct (R y) as [v Hv]. exists (fmat 2 1 u). split; [exact Hu|].
  assert (fmat 2 1 u = fmat 2 1 v) as ->; [|exact Hv].
  apply (@C49_truncation exact_env Mfcc (fvec 4 x) (fvec 4 y) a tiny_c); auto; rewrite ?L2, ?H2; try lia.
  - intros i j Hi Hj Hj0 _. rewrite fmat_length in Hi. assert (j = 0%Z) by (simpl in Hj0, Hj; destruct Hj0; [lia|discriminate]). subst j.
    rewrite !fvec_nth by lia. f_equal. replace (Z.to_nat (Z.of_nat i * 2 + 0)) with (2 * i)%nat by lia. auto.
Qed.

(** C24. imfcc needs an explicit high_freq or bank, like the bank function it calls. *)
Theorem C24_imfcc_never_returns : forall `{Env} sig a c M,
  s_fbanks a = None -> s_high a = None -> (1 <= s_nfilts a)%Z -> imfcc sig a c <> Ok M.
Proof.
  intros E sig a c M Hb Hh Hn H. unfold imfcc in H. destruct (_ <? _)%Z; [discriminate|].
  rewrite Hb, Hh in H. apply rbind_Ok in H as (b & H & _).
  destruct (inverse_mel_filter_banks _ _ _ _ _ _ _) as [[B cc]|] eqn:E2; [|discriminate].
  eapply inverse_none_never; eauto.
Qed.
Print Assumptions C24_imfcc_never_returns.
Example C24_never_example : forall sig M, @imfcc exact_env sig default_sargs default_cargs <> Ok M.
Proof. intros sig M. apply C24_imfcc_never_returns; [reflexivity|reflexivity|cbn; lia]. Qed.
Theorem C24_imfcc_type_error : forall `{Env} sig a c,
  s_fbanks a = None -> s_high a = None -> (1 <= s_nfilts a)%Z -> (c_num_ceps c <= s_nfilts a)%Z ->
  In (s_approach a) mel_names -> In (s_scale a) scale_names -> 0 <= s_low a -> (0 <= s_nfft a)%Z ->
  imfcc sig a c = Raise TypeError.
Proof.
  intros E sig a c Hb Hh Hn Hc Ha Hs Hl Hf. unfold imfcc. rewrite (proj2 (Z.ltb_ge _ _)) by lia. rewrite Hb, Hh.
  rewrite inverse_none by auto. reflexivity.
Qed.
Print Assumptions C24_imfcc_type_error.
Example C24_imfcc_example : forall sig, @imfcc exact_env sig default_sargs default_cargs = Raise TypeError.
Proof. intros. apply C24_imfcc_type_error; auto; simpl; try lia; try lra; tauto. Qed.
