(** * Properties of the features of the same sound framed from another instant on *)
From Coq Require Import Reals ZArith List String Bool Lia Lra.
From Verif Require Import Base BaseFacts SpecBase BigSum Preprocessing SpecMat MatFacts SpecFilters SpecBanks SpecFeatures MelBanksMore Features
  Extractors FeaturesFacts FeaturesMore FeaturesLaws FeaturesPhase ExampleFeatures ExampleTools SpecInvariance SpecOptions SpecBudget BudgetFacts PropertiesNoise PropertiesBudget SpecShift ShiftFacts.
Import ListNotations.
Local Open Scope R_scope.

(** ** C180: rows that start a few samples apart *)

(** two rows, of the same or of different recordings, that have the same samples but for s at either end: the magnitudes
    and the roots of the band energies differ by at most what these samples can account for *)
Theorem C180_spectrogram : forall (E : Env) s a N N2 L hop n B x z M,
  @well_framed E a N L hop -> @well_framed E a N2 L hop -> (Z.of_nat L <= s_nfft a)%Z -> (0 < n)%nat ->
  @spectro_bank E s a = Ok (fmat n (S (half (s_nfft a))) B) -> (forall j k, (j < n)%nat -> (k <= half (s_nfft a))%nat -> 0 <= B j k) ->
  0 <= M -> (forall t, (t < N)%nat -> Rabs (x t) <= M) -> (forall t, (t < N2)%nat -> Rabs (z t) <= M) ->
  exists P Q P2 Q2,
    @spectrogram E s (fvec N x) a = Ok (fmat (frame_count N L hop) n P, fmat (frame_count N L hop) (S (half (s_nfft a))) Q) /\
    @spectrogram E s (fvec N2 z) a = Ok (fmat (frame_count N2 L hop) n P2, fmat (frame_count N2 L hop) (S (half (s_nfft a))) Q2) /\
    forall r i i2, (i < frame_count N L hop)%nat -> (i2 < frame_count N2 L hop)%nat -> later L hop r x i z i2 ->
      (forall k, Rabs (Q2 i2 k - Q i k) <= slip_mag (s_pre_emph a) (spectro_coeff s a) M r) /\
      (forall j, (j < n)%nat ->
         Rabs (sqrt (P2 i2 j) - sqrt (P i j))
         <= slip_level (s_pre_emph a) (spectro_coeff s a) M r (bigsum (S (half (s_nfft a))) (B j)) (Z.to_nat (s_nfft a))).
Proof. exact spectrogram_slip. Qed.
Print Assumptions C180_spectrogram.

(** mfcc, imfcc, lfcc and ngcc: the rows are near each other when the bands are well above that *)
Theorem C180_cepstra : forall (E : Env) e a c N N2 L hop n B x z M,
  @well_framed E a N L hop -> @well_framed E a N2 L hop -> (Z.of_nat L <= s_nfft a)%Z -> (0 < n)%nat ->
  @extractor_bank E e a = Ok (fmat n (S (half (s_nfft a))) B) -> (forall j k, (j < n)%nat -> (k <= half (s_nfft a))%nat -> 0 <= B j k) ->
  In e [Mfcc; Imfcc; Lfcc; Ngcc] ->
  0 <= M -> (forall t, (t < N)%nat -> Rabs (x t) <= M) -> (forall t, (t < N2)%nat -> Rabs (z t) <= M) ->
  (0 <= c_num_ceps c <= s_nfilts a)%Z -> (1 <= c_dct_type c <= 4)%Z -> (c_dct_type c = 1%Z -> (2 <= n)%nat) ->
  c_use_energy c = false -> no_lifter c -> no_normalisation c ->
  exists y y2,
    @run E e (fvec N x) a c = Ok (fmat (frame_count N L hop) (Nat.min (Z.to_nat (c_num_ceps c)) n) y) /\
    @run E e (fvec N2 z) a c = Ok (fmat (frame_count N2 L hop) (Nat.min (Z.to_nat (c_num_ceps c)) n) y2) /\
    forall s i i2 r, (i < frame_count N L hop)%nat -> (i2 < frame_count N2 L hop)%nat -> later L hop s x i z i2 ->
      (forall j, (j < n)%nat ->
         let P := spec_band (half (s_nfft a)) (Z.to_nat (s_nfft a)) L (frame_of a (extractor_coeff e a) L hop x i) (B j) in
         0 <= r j < 1 /\ 0 < P /\
         slip_level (s_pre_emph a) (extractor_coeff e a) M s (bigsum (S (half (s_nfft a))) (B j)) (Z.to_nat (s_nfft a)) <= r j * sqrt P) ->
      sqdist (Nat.min (Z.to_nat (c_num_ceps c)) n) (y i) (y2 i2) <= bigsum n (fun j => (2 * ln (1 - r j)) ^ 2).
Proof. intros. eapply slip_rows; eassumption. Qed.
Print Assumptions C180_cepstra.

(** every row of a recording that was cut out of a longer one, from sample T on, has such a row of the longer one: T / hop
    rows later, and T mod hop samples earlier *)
Theorem C180_crop : forall N N2 L hop T x z i, (0 < hop)%nat -> (hop <= L)%nat -> (L <= N)%nat -> (T + N <= N2)%nat ->
  (forall t, (t < N)%nat -> x t = z (T + t)%nat) -> (i < frame_count N L hop)%nat ->
  (i + T / hop < frame_count N2 L hop)%nat /\ later L hop (T mod hop) x i z (i + T / hop).
Proof. exact crop_row. Qed.
Print Assumptions C180_crop.

(** mel_spectrogram with the defaults, any recording within [-1, 1] and what is left of it from sample 321 on: row i is
    row i + 2 of the recording, up to 5.88 in every magnitude *)
Example C180_spectrogram_example : forall z, (forall t, Rabs (z t) <= 1) -> exists P Q P2 Q2,
  @mel_spectrogram exact_env (fvec 1000 (fun t => z (321 + t)%nat)) default_sargs = Ok (fmat 4 24 P, fmat 4 257 Q) /\
  @mel_spectrogram exact_env (fvec 1400 z) default_sargs = Ok (fmat 7 24 P2, fmat 7 257 Q2) /\
  forall i k, (i < 4)%nat -> Rabs (Q2 (i + 2)%nat k - Q i k) <= 5.88.
Proof.
  intros z Hz. destruct (C174_banks exact_env Mfcc default_sargs 24 default_band) as (B & HB & HT); [reflexivity|lia|simpl; lia|exact I|].
  destruct (C180_spectrogram exact_env Mel default_sargs 1000 1400 400 160 24 B (fun t => z (321 + t)%nat) z 1) as (P & Q & P2 & Q2 & R & R2 & H); auto; try (simpl; lia); try lra.
  - apply default_framed. lia.
  - apply default_framed. lia.
  - intros j k Hj Hk. apply HT; assumption.
  - exists P, Q, P2, Q2. split; [exact R|]. split; [exact R2|]. intros i k Hi.
    destruct (C180_crop 1000 1400 400 160 321 (fun t => z (321 + t)%nat) z i) as (C1 & C2); auto; try lia.
    destruct (H _ i _ Hi C1 C2) as (H1 & _). change (321 / 160)%nat with 2%nat in H1. eapply Rle_trans; [apply H1|].
    unfold slip_mag, pre_peak. change (321 mod 160)%nat with 1%nat. cbn [s_pre_emph default_sargs spectro_coeff s_coeff]. rewrite (Rabs_pos_eq 0.97) by lra. simpl INR. lra.
Qed.
(** mfcc with rows of nine samples and one band, the bin of the mean: a recording of ones, and one that was switched on
    a sample earlier *)
Definition nine : sargs := mkS 1 false 0 (Some (mkWindow 9 3 "bartlet")) 1 9 0 None "constant" (Some [[f1; f0; f0; f0; f0]]) "Oshaghnessy".
Definition nine_b (j k : nat) : R := match k with O => 1 | _ => 0 end.
Definition clicked (t : nat) : R := match t with O => -1 | _ => 1 end.
Lemma nine_framed : @well_framed exact_env nine 12 9 3.
Proof.
  unfold well_framed, window_of, nine. cbn [s_window s_fs win_len win_hop win_type].
  split; [lra|]. split; [apply flen_exact; simpl; lra|]. split; [apply flen_exact; simpl; lra|]. split; [lia|]. split; [lia|]. simpl; tauto.
Qed.
Lemma nine_band : spec_band 4 9 9 (frame_of nine 0 9 3 (fun _ => 1) 0) (nine_b 0) = (4 / 3) ^ 2.
Proof.
  unfold spec_band. cbn [bigsum nine_b]. rewrite !Rmult_0_r, Rmult_1_r, !Rplus_0_r, Rplus_0_l.
  unfold spec_power, spec_sq.
  assert (C : forall f, spec_re 9 9 f 0 = bigsum 9 f /\ spec_im 9 9 f 0 = 0).
  { intros f. unfold spec_re, spec_im. cbn [Nat.min]. split.
    - apply bigsum_ext. intros t _. replace (2 * PI * INR (t * 0) / INR 9) with 0 by (rewrite Nat.mul_0_r; simpl; field). rewrite cos_0. ring.
    - apply bigsum_zero. intros t _. replace (2 * PI * INR (t * 0) / INR 9) with 0 by (rewrite Nat.mul_0_r; simpl; field). rewrite sin_0. ring. }
  destruct (C (frame_of nine 0 9 3 (fun _ => 1) 0)) as (-> & ->).
  assert (S4 : bigsum 9 (frame_of nine 0 9 3 (fun _ => 1) 0) = 4); [|rewrite S4; simpl INR; field].
  unfold frame_of, spec_frame, window_of, nine. cbn [s_window win_type s_pre_emph spec_pre].
  unfold spec_window. cbn [Nat.leb String.eqb Ascii.eqb Bool.eqb]. unfold spec_bartlett. cbn [bigsum].
  rewrite !INR_IZR_INZ. cbn [Nat.sub Z.of_nat Pos.of_succ_nat Pos.succ].
  repeat match goal with |- context [Rabs ?u] => first [rewrite (Rabs_pos_eq u) by lra | rewrite (Rabs_left1 u) by lra] end. lra.
Qed.
Example C180_cepstra_example : exists y y2,
  @mfcc exact_env (fvec 12 (fun _ => 1)) nine tiny_c = Ok (fmat 2 1 y) /\ @mfcc exact_env (fvec 12 clicked) nine tiny_c = Ok (fmat 2 1 y2) /\
  sqdist 1 (y 0%nat) (y2 0%nat) <= (2 * ln (1 - 1 / 2)) ^ 2.
Proof.
  destruct (C180_cepstra exact_env Mfcc nine tiny_c 12 12 9 3 1 nine_b (fun _ => 1) clicked 1) as (y & y2 & Y & Y2 & D);
    try (simpl; lia); try (left; reflexivity); try reflexivity; auto; try lra.
  - exact nine_framed.
  - exact nine_framed.
  - intros j [|k] _ _; simpl; lra.
  - intros t _. rewrite Rabs_R1. lra.
  - intros [|t] _; unfold clicked; [rewrite Rabs_left by lra|rewrite Rabs_R1]; lra.
  - exists y, y2. split; [exact Y|]. split; [exact Y2|].
    eapply Rle_trans; [apply (D 1%nat 0%nat 0%nat (fun _ => 1 / 2)); [change (frame_count 12 9 3) with 2%nat; lia|change (frame_count 12 9 3) with 2%nat; lia| |]|cbn [bigsum]; lra].
    + split; [lia|]. intros t Ht. reflexivity.
    + intros j Hj. assert (j = 0%nat) by lia. subst j. cbv zeta. change (half (s_nfft nine)) with 4%nat. change (Z.to_nat (s_nfft nine)) with 9%nat.
      change (extractor_coeff Mfcc nine) with 0. rewrite nine_band, sqrt_pow2 by lra. split; [lra|]. split; [lra|].
      unfold slip_level, slip_mag, pre_peak. cbn [s_pre_emph nine]. replace (bigsum 5 (nine_b 0) / INR 9) with ((1 / 3) ^ 2) by (simpl; field). rewrite sqrt_pow2 by lra. simpl INR. lra.
Qed.
