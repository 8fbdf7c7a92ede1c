(** * Properties of the features of a recording made through a fixed filter (microphone, line, room) *)
From Coq Require Import Reals ZArith List String Bool Lia Lra.
From Coquelicot Require Rcomplements.
From Verif Require Import Base BaseFacts SpecBase BigSum Preprocessing SpecMat MatFacts SpecFilters SpecBanks SpecFeatures MelBanksMore Features
  Extractors FeaturesFacts FeaturesMore FeaturesLaws FeaturesPhase ExampleFeatures SpecInvariance SpecOptions SpecBudget BudgetFacts SpecColour ColourFacts PropertiesNoise PropertiesBudget.
Import ListNotations.
Local Open Scope R_scope.

(** ** C175: recordings made through a fixed filter *)

(** every magnitude is multiplied by the gain of the filter at its bin, up to what crosses the borders of
    the frame; the root of a band energy by the gain within the band *)
Theorem C175_spectrogram : forall (E : Env) s a N L hop n B m h x M,
  @well_framed E a N L hop -> (Z.of_nat L <= s_nfft a)%Z -> (0 < n)%nat ->
  @spectro_bank E s a = Ok (fmat n (S (half (s_nfft a))) B) ->
  0 <= M -> (forall t, (t < N)%nat -> Rabs (x t) <= M) ->
  let z := Z.to_nat (s_nfft a) in
  let peak := pre_peak (s_pre_emph a) (spectro_coeff s a) M in
  exists P Q P2 Q2,
    @spectrogram E s (fvec N x) a = Ok (fmat (frame_count N L hop) n P, fmat (frame_count N L hop) (S (half (s_nfft a))) Q) /\
    @spectrogram E s (fvec N (filtered m h x)) a = Ok (fmat (frame_count N L hop) n P2, fmat (frame_count N L hop) (S (half (s_nfft a))) Q2) /\
    forall i, (i < frame_count N L hop)%nat ->
      (forall k, Rabs (Q2 i k - response z m h k * Q i k) <= edge_mag m h peak) /\
      (forall j g d, (j < n)%nat -> even_gain z m h (half (s_nfft a)) (B j) g d ->
         g * exp (- d) * sqrt (P i j) - edge_level m h peak (bigsum (S (half (s_nfft a))) (B j)) z <= sqrt (P2 i j)
         <= g * exp d * sqrt (P i j) + edge_level m h peak (bigsum (S (half (s_nfft a))) (B j)) z).
Proof. exact spectrogram_filtered. Qed.
Print Assumptions C175_spectrogram.

(** mfcc, imfcc, lfcc and ngcc: one row that depends only on the filter and the bank is added to the features of
    every frame whose bands are well above what crosses the borders *)
Theorem C175_offset : forall (E : Env) e a c N L hop n B m h x M g d r,
  @well_framed E a N L hop -> (Z.of_nat L <= s_nfft a)%Z -> (0 < n)%nat ->
  @extractor_bank E e a = Ok (fmat n (S (half (s_nfft a))) B) -> In e [Mfcc; Imfcc; Lfcc; Ngcc] ->
  0 <= M -> (forall t, (t < N)%nat -> Rabs (x t) <= M) ->
  (forall j, (j < n)%nat -> even_gain (Z.to_nat (s_nfft a)) m h (half (s_nfft a)) (B j) (g j) (d j) /\ 0 <= r j < 1) ->
  (0 <= c_num_ceps c <= s_nfilts a)%Z -> (1 <= c_dct_type c <= 4)%Z -> (c_dct_type c = 1%Z -> (2 <= n)%nat) ->
  c_use_energy c = false -> no_lifter c -> no_normalisation c ->
  exists y y2,
    @run E e (fvec N x) a c = Ok (fmat (frame_count N L hop) (Nat.min (Z.to_nat (c_num_ceps c)) n) y) /\
    @run E e (fvec N (filtered m h x)) a c = Ok (fmat (frame_count N L hop) (Nat.min (Z.to_nat (c_num_ceps c)) n) y2) /\
    forall i, (i < frame_count N L hop)%nat ->
      (forall j, (j < n)%nat ->
         let P := spec_band (half (s_nfft a)) (Z.to_nat (s_nfft a)) L (frame_of a (extractor_coeff e a) L hop x i) (B j) in
         0 < P /\ edge_level m h (pre_peak (s_pre_emph a) (extractor_coeff e a) M) (bigsum (S (half (s_nfft a))) (B j)) (Z.to_nat (s_nfft a))
                  <= r j * (g j * exp (- d j) * sqrt P)) ->
      sqdist (Nat.min (Z.to_nat (c_num_ceps c)) n) (fun k => y i k + spec_dct (c_dct_type c) n (fun j => 2 * ln (g j)) k) (y2 i)
      <= bigsum n (fun j => (2 * (d j - ln (1 - r j))) ^ 2).
Proof. intros. eapply colour_rows; eassumption. Qed.
Print Assumptions C175_offset.

(** normalize="ms" takes that row away again *)
Theorem C175_ms : forall (E : Env) e a c N L hop n B m h x M g d r,
  @well_framed E a N L hop -> (Z.of_nat L <= s_nfft a)%Z -> (0 < n)%nat ->
  @extractor_bank E e a = Ok (fmat n (S (half (s_nfft a))) B) -> In e [Mfcc; Imfcc; Lfcc; Ngcc] ->
  0 <= M -> (forall t, (t < N)%nat -> Rabs (x t) <= M) ->
  (forall j, (j < n)%nat -> even_gain (Z.to_nat (s_nfft a)) m h (half (s_nfft a)) (B j) (g j) (d j) /\ 0 <= r j < 1) ->
  (0 <= c_num_ceps c <= s_nfilts a)%Z -> (1 <= c_dct_type c <= 4)%Z -> (c_dct_type c = 1%Z -> (2 <= n)%nat) ->
  c_use_energy c = false -> no_lifter c -> c_normalize c = Some "ms"%string -> (0 < c_num_ceps c)%Z ->
  exists y y2,
    @run E e (fvec N x) a c = Ok (fmat (frame_count N L hop) (Nat.min (Z.to_nat (c_num_ceps c)) n) y) /\
    @run E e (fvec N (filtered m h x)) a c = Ok (fmat (frame_count N L hop) (Nat.min (Z.to_nat (c_num_ceps c)) n) y2) /\
    ((forall i, (i < frame_count N L hop)%nat -> forall j, (j < n)%nat ->
         let P := spec_band (half (s_nfft a)) (Z.to_nat (s_nfft a)) L (frame_of a (extractor_coeff e a) L hop x i) (B j) in
         0 < P /\ edge_level m h (pre_peak (s_pre_emph a) (extractor_coeff e a) M) (bigsum (S (half (s_nfft a))) (B j)) (Z.to_nat (s_nfft a))
                  <= r j * (g j * exp (- d j) * sqrt P)) ->
     forall i, (i < frame_count N L hop)%nat ->
       sqdist (Nat.min (Z.to_nat (c_num_ceps c)) n) (y i) (y2 i) <= bigsum n (fun j => (2 * (2 * (d j - ln (1 - r j)))) ^ 2)).
Proof. intros. eapply colour_ms; eassumption. Qed.
Print Assumptions C175_ms.

(** normalize="mvn" does not, not even for a plain gain: it divides by the deviation of the whole matrix *)
Theorem C175_mvn_refuted : ~ forall (E : Env) a c N x g, 0 < g -> c_normalize c = Some "mvn"%string ->
  forall y y2, @run E Mfcc (fvec N x) a c = Ok y -> @run E Mfcc (fvec N (filtered 1 (fun _ => g) x)) a c = Ok y2 -> y = y2.
Proof.
  intros H. destruct (mvn_gain exact_env eq_refl) as (y & y2 & Y & Y2 & D). apply D.
  pose proof (H exact_env pair_a pair_c 2%nat pair_x 2 ltac:(lra) eq_refl _ _ Y Y2) as Q.
  unfold fmat in Q. cbn [map seq fvec] in Q. inversion Q. reflexivity.
Qed.
Print Assumptions C175_mvn_refuted.

(** mel_spectrogram with the defaults, any recording within [-1, 1], the filter y t = x t - x (t-1) / 2:
    every magnitude is that of the recording times the gain of the filter, up to 1.97 *)
Definition tap (b : R) (s : nat) : R := match s with O => 1 | _ => b end.
Lemma smear_tap : forall b, smear 2 (tap b) = Rabs b.
Proof. intros. unfold smear. cbn [bigsum tap]. simpl INR. ring. Qed.
Example C175_spectrogram_example : forall x, (forall t, Rabs (x t) <= 1) -> exists P Q P2 Q2,
  @mel_spectrogram exact_env (fvec 1000 x) default_sargs = Ok (fmat 4 24 P, fmat 4 257 Q) /\
  @mel_spectrogram exact_env (fvec 1000 (filtered 2 (tap (- 0.5)) x)) default_sargs = Ok (fmat 4 24 P2, fmat 4 257 Q2) /\
  forall i k, (i < 4)%nat -> Rabs (Q2 i k - response 512 2 (tap (- 0.5)) k * Q i k) <= 1.97.
Proof.
  intros x Hx. destruct (C174_banks exact_env Mfcc default_sargs 24 default_band) as (B & HB & HT); [reflexivity|lia|simpl; lia|exact I|].
  destruct (C175_spectrogram exact_env Mel default_sargs 1000 400 160 24 B 2 (tap (- 0.5)) x 1) as (P & Q & P2 & Q2 & R & R2 & H); auto; try (simpl; lia); try lra.
  - apply default_framed. lia.
  - exists P, Q, P2, Q2. split; [exact R|]. split; [exact R2|]. intros i k Hi. destruct (H i Hi) as (H1 & _). eapply Rle_trans; [apply H1|].
    unfold edge_mag. rewrite smear_tap. unfold pre_peak. cbn [s_pre_emph default_sargs spectro_coeff s_coeff]. rewrite (Rabs_left (- 0.5)), (Rabs_pos_eq 0.97) by lra. lra.
Qed.
(** frames of one sample, the recording (1, 3) and the filter y t = x t + x (t-1) / 1000 *)
Lemma tap_even : even_gain 1 2 (tap 0.001) 0 (fun _ => 1) 1.001 0.
Proof.
  split; [lra|]. split; [lra|]. intros k Hk. split; [lra|]. intros _. assert (k = 0%nat) by lia. subst k. rewrite Ropp_0, exp_0.
  assert (Q : response 1 2 (tap 0.001) 0 = 1.001); [|rewrite Q; lra].
  unfold response. cbn [bigsum tap Nat.mul Nat.add]. replace (2 * PI * INR 0 / INR 1) with 0 by (simpl; field). rewrite cos_0, sin_0.
  transitivity (sqrt (1.001 ^ 2)); [|apply sqrt_pow2; lra]. f_equal. cbn [bigsum tap]. lra.
Qed.
Lemma tap_level : forall w, w = 1 -> edge_level 2 (tap 0.001) (pre_peak true 1 3) w 1 = 0.012.
Proof. intros w ->. unfold edge_level, edge_mag, pre_peak. rewrite smear_tap. rewrite !Rabs_pos_eq by lra. change (INR 1) with 1. replace (1 / 1) with 1 by lra. rewrite sqrt_1. lra. Qed.
Lemma tap_clear : forall i, (i < 2)%nat -> forall j, (j < 1)%nat ->
  let P := spec_band 0 1 1 (frame_of (tiny 1) 1 1 1 two i) (fun _ => 1) in
  0 < P /\ edge_level 2 (tap 0.001) (pre_peak true 1 3) (bigsum 1 (fun _ => 1)) 1 <= 0.02 * (1.001 * exp (- 0) * sqrt P).
Proof.
  intros i Hi j Hj P. pose proof (two_band i Hi) as T. fold P in T. split; [lra|]. rewrite tap_level by (simpl; lra). rewrite Ropp_0, exp_0. pose proof (above_one P T). lra.
Qed.
Lemma two_peak : forall t, (t < 2)%nat -> Rabs (two t) <= 3.
Proof. intros [|t] _; simpl; rewrite Rabs_pos_eq; lra. Qed.
(** mfcc: 2 ln 1.001 is added, up to 0.041 *)
Example C175_offset_example : exists y y2,
  @mfcc exact_env (fvec 2 two) (tiny 1) tiny_c = Ok (fmat 2 1 y) /\ @mfcc exact_env (fvec 2 (filtered 2 (tap 0.001) two)) (tiny 1) tiny_c = Ok (fmat 2 1 y2) /\
  forall i, (i < 2)%nat -> sqdist 1 (fun k => y i k + spec_dct 2 1 (fun _ => 2 * ln 1.001) k) (y2 i) <= 0.041 ^ 2.
Proof.
  destruct (C175_offset exact_env Mfcc (tiny 1) tiny_c 2 1 1 1 (fun _ _ => 1) 2 (tap 0.001) two 3 (fun _ => 1.001) (fun _ => 0) (fun _ => 0.02)) as (y & y2 & Y & Y2 & D);
    try (simpl; lia); try (left; reflexivity); try reflexivity; auto; try lra.
  - apply tiny_framed. reflexivity.
  - exact two_peak.
  - intros j _. split; [exact tap_even|lra].
  - exists y, y2. split; [exact Y|]. split; [exact Y2|]. intros i Hi. eapply Rle_trans; [apply (D i Hi); exact (tap_clear i Hi)|]. cbn [bigsum]. pose proof two_log.
    rewrite Rplus_0_l. apply pow_incr. lra.
Qed.
(** normalize="ms": the rows of the two recordings are within 0.082 *)
Example C175_ms_example : exists y y2,
  @mfcc exact_env (fvec 2 two) (tiny 1) (mkC 1 2 false None (Some "ms"%string)) = Ok (fmat 2 1 y) /\
  @mfcc exact_env (fvec 2 (filtered 2 (tap 0.001) two)) (tiny 1) (mkC 1 2 false None (Some "ms"%string)) = Ok (fmat 2 1 y2) /\
  forall i, (i < 2)%nat -> sqdist 1 (y i) (y2 i) <= 0.082 ^ 2.
Proof.
  destruct (C175_ms exact_env Mfcc (tiny 1) (mkC 1 2 false None (Some "ms"%string)) 2 1 1 1 (fun _ _ => 1) 2 (tap 0.001) two 3 (fun _ => 1.001) (fun _ => 0) (fun _ => 0.02)) as (y & y2 & Y & Y2 & D);
    try (simpl; lia); try (left; reflexivity); try reflexivity; auto; try lra.
  - apply tiny_framed. reflexivity.
  - exact two_peak.
  - intros j _. split; [exact tap_even|lra].
  - exists y, y2. split; [exact Y|]. split; [exact Y2|]. intros i Hi. eapply Rle_trans; [apply (D tap_clear i Hi)|]. cbn [bigsum]. pose proof two_log.
    rewrite Rplus_0_l. apply pow_incr. lra.
Qed.
