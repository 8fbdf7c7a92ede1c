(** * Properties of the distance between the features of two recordings *)
From Coq Require Import Reals ZArith List String Bool Lia Lra.
From Verif Require Import Base BaseFacts SpecBase BigSum Preprocessing SpecMat MatFacts SpecFilters SpecBanks SpecFeatures MelBanksMore Features
  Extractors FeaturesFacts FeaturesMore FeaturesLaws FeaturesPhase ExampleFeatures SpecInvariance SpecBudget PropertiesNoise PropertiesBudget SpecContract ContractFacts.
Import ListNotations.
Local Open Scope R_scope.

(** ** C181: features are no further apart than the recordings *)

(** roots of band energies, row by row and over the whole recording *)
Theorem C181_spectrogram : forall (E : Env) s a N L hop n B x x2,
  @well_framed E a N L hop -> (Z.of_nat L <= s_nfft a)%Z -> (0 < n)%nat ->
  @spectro_bank E s a = Ok (fmat n (S (half (s_nfft a))) B) -> thrifty n (half (s_nfft a)) B ->
  exists P Q P2 Q2,
    @spectrogram E s (fvec N x) a = Ok (fmat (frame_count N L hop) n P, fmat (frame_count N L hop) (S (half (s_nfft a))) Q) /\
    @spectrogram E s (fvec N x2) a = Ok (fmat (frame_count N L hop) n P2, fmat (frame_count N L hop) (S (half (s_nfft a))) Q2) /\
    (forall i, (i < frame_count N L hop)%nat ->
       bigsum n (fun j => (sqrt (P2 i j) - sqrt (P i j)) ^ 2) <= frame_energy L (frame_of a (spectro_coeff s a) L hop (fun t => x2 t - x t) i)) /\
    bigsum (frame_count N L hop) (fun i => bigsum n (fun j => (sqrt (P2 i j) - sqrt (P i j)) ^ 2))
    <= INR (overlap L hop) * (pre_gain (s_pre_emph a) (spectro_coeff s a) ^ 2 * apart_energy N x x2).
Proof. exact spectrogram_contract. Qed.
Print Assumptions C181_spectrogram.

(** msrcc with gamma = 1/2: the same for its rows *)
Theorem C181_root : forall (E : Env) a c N L hop n B x x2,
  @well_framed E a N L hop -> (Z.of_nat L <= s_nfft a)%Z -> (0 < n)%nat ->
  @extractor_bank E (Msrcc (/ 2)) a = Ok (fmat n (S (half (s_nfft a))) B) -> thrifty n (half (s_nfft a)) B ->
  (0 <= c_num_ceps c <= s_nfilts a)%Z -> (1 <= c_dct_type c <= 4)%Z -> (c_dct_type c = 1%Z -> (2 <= n)%nat) ->
  c_use_energy c = false -> no_lifter c -> no_normalisation c ->
  let K := Nat.min (Z.to_nat (c_num_ceps c)) n in
  exists y y2, @msrcc E (fvec N x) a (/ 2) c = Ok (fmat (frame_count N L hop) K y) /\ @msrcc E (fvec N x2) a (/ 2) c = Ok (fmat (frame_count N L hop) K y2) /\
    (forall i, (i < frame_count N L hop)%nat ->
       sqdist K (y i) (y2 i) <= frame_energy L (frame_of a (extractor_coeff (Msrcc (/ 2)) a) L hop (fun t => x2 t - x t) i)) /\
    bigsum (frame_count N L hop) (fun i => sqdist K (y i) (y2 i))
    <= INR (overlap L hop) * (pre_gain (s_pre_emph a) (extractor_coeff (Msrcc (/ 2)) a) ^ 2 * apart_energy N x x2).
Proof. intros. apply (root_contract E (Msrcc (/ 2)) a c N L hop n B x x2); auto. Qed.
Print Assumptions C181_root.

(** mfcc, imfcc and lfcc: for rows whose bands all have roots of at least m, above the norm of the difference of the
    frames. The number of bands and coefficients does not matter. *)
Theorem C181_log : forall (E : Env) e a c N L hop n B x x2,
  @well_framed E a N L hop -> (Z.of_nat L <= s_nfft a)%Z -> (0 < n)%nat ->
  @extractor_bank E e a = Ok (fmat n (S (half (s_nfft a))) B) -> thrifty n (half (s_nfft a)) B ->
  (0 <= c_num_ceps c <= s_nfilts a)%Z -> (1 <= c_dct_type c <= 4)%Z -> (c_dct_type c = 1%Z -> (2 <= n)%nat) ->
  c_use_energy c = false -> no_lifter c -> no_normalisation c -> In e [Mfcc; Imfcc; Lfcc] ->
  let K := Nat.min (Z.to_nat (c_num_ceps c)) n in
  let band y i j := spec_band (half (s_nfft a)) (Z.to_nat (s_nfft a)) L (frame_of a (extractor_coeff e a) L hop y i) (B j) in
  let D i := frame_energy L (frame_of a (extractor_coeff e a) L hop (fun t => x2 t - x t) i) in
  exists y y2, @run E e (fvec N x) a c = Ok (fmat (frame_count N L hop) K y) /\ @run E e (fvec N x2) a c = Ok (fmat (frame_count N L hop) K y2) /\
    forall i m, (i < frame_count N L hop)%nat -> (forall j, (j < n)%nat -> m <= sqrt (band x i j)) -> sqrt (D i) < m ->
      sqdist K (y i) (y2 i) <= (2 * sqrt (D i) / (m - sqrt (D i))) ^ 2.
Proof. intros. eapply log_contract; eassumption. Qed.
Print Assumptions C181_log.

(** mel_spectrogram with the defaults and any two recordings of 1000 samples *)
Example C181_spectrogram_example : forall x x2, exists P Q P2 Q2,
  @mel_spectrogram exact_env (fvec 1000 x) default_sargs = Ok (fmat 4 24 P, fmat 4 257 Q) /\
  @mel_spectrogram exact_env (fvec 1000 x2) default_sargs = Ok (fmat 4 24 P2, fmat 4 257 Q2) /\
  bigsum 4 (fun i => bigsum 24 (fun j => (sqrt (P2 i j) - sqrt (P i j)) ^ 2)) <= 11.65 * apart_energy 1000 x x2.
Proof.
  intros x x2. destruct (C174_banks exact_env Mfcc default_sargs 24 default_band) as (B & HB & HT); [reflexivity|lia|simpl; lia|exact I|].
  destruct (C181_spectrogram exact_env Mel default_sargs 1000 400 160 24 B x x2) as (P & Q & P2 & Q2 & R & R2 & _ & H); auto; try (simpl; lia).
  - apply default_framed. lia.
  - exists P, Q, P2, Q2. split; [exact R|]. split; [exact R2|]. eapply Rle_trans; [exact H|].
    change (overlap 400 160) with 3%nat. unfold pre_gain. cbn [s_pre_emph default_sargs spectro_coeff s_coeff]. rewrite Rabs_pos_eq by lra. simpl INR.
    rewrite <- Rmult_assoc. apply Rmult_le_compat_r; [apply bigsum_nonneg; intros; apply pow2_ge_0|]. lra.
Qed.
Example C181_root_example : forall x x2, exists y y2,
  @msrcc exact_env (fvec 1000 x) default_sargs (/ 2) default_cargs = Ok (fmat 4 13 y) /\
  @msrcc exact_env (fvec 1000 x2) default_sargs (/ 2) default_cargs = Ok (fmat 4 13 y2) /\
  bigsum 4 (fun i => sqdist 13 (y i) (y2 i)) <= 11.65 * apart_energy 1000 x x2.
Proof.
  intros x x2. destruct (C174_banks exact_env (Msrcc (/ 2)) default_sargs 24 default_band) as (B & HB & HT); [reflexivity|lia|simpl; lia|exact I|].
  destruct (C181_root exact_env default_sargs default_cargs 1000 400 160 24 B x x2) as (y & y2 & Y & Y2 & _ & H); auto; try (simpl; lia); try (left; reflexivity); try reflexivity.
  - apply default_framed. lia.
  - exists y, y2. split; [exact Y|]. split; [exact Y2|]. eapply Rle_trans; [exact H|].
    change (overlap 400 160) with 3%nat. unfold pre_gain. cbn [s_pre_emph default_sargs extractor_coeff s_coeff]. rewrite Rabs_pos_eq by lra. simpl INR.
    rewrite <- Rmult_assoc. apply Rmult_le_compat_r; [apply bigsum_nonneg; intros; apply pow2_ge_0|]. lra.
Qed.
(** mfcc of (1, 3) and (1.01, 3.01), rows of one sample *)
Example C181_log_example : exists y y2,
  @mfcc exact_env (fvec 2 two) (tiny 1) tiny_c = Ok (fmat 2 1 y) /\ @mfcc exact_env (fvec 2 (fun t => two t + 0.01)) (tiny 1) tiny_c = Ok (fmat 2 1 y2) /\
  sqdist 1 (y 0%nat) (y2 0%nat) <= (0.02 / 0.99) ^ 2.
Proof.
  destruct (C181_log exact_env Mfcc (tiny 1) tiny_c 2 1 1 1 (fun _ _ => 1) two (fun t => two t + 0.01)) as (y & y2 & Y & Y2 & D);
    try (simpl; lia); try (left; reflexivity); try reflexivity; auto.
  - apply tiny_framed. reflexivity.
  - intros k Hk. split; [intros; lra|simpl; lra].
  - exists y, y2. split; [exact Y|]. split; [exact Y2|].
    assert (F : frame_energy 1 (frame_of (tiny 1) (extractor_coeff Mfcc (tiny 1)) 1 1 (fun t => two t + 0.01 - two t) 0) = 0.01 ^ 2).
    { unfold frame_energy, frame_of, spec_frame. cbn [bigsum tiny s_pre_emph window_of s_window win_type Nat.mul Nat.add spec_pre]. unfold spec_window. cbn [Nat.leb]. lra. }
    pose proof (D 0%nat 1) as D0. rewrite F, sqrt_pow2 in D0 by lra. eapply Rle_trans; [apply D0|right; lra]; [change (frame_count 2 1 1) with 2%nat; lia| |lra].
    intros j Hj. assert (j = 0%nat) by lia. subst j. pose proof (two_band 0 ltac:(lia)) as T. apply above_one. exact T.
Qed.
