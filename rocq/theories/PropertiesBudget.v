(** * Properties of the energy of a frame, its spectrogram row and its first coefficient *)
From Coq Require Import Reals ZArith List String Bool Lia Lra.
From Coquelicot Require Rcomplements.
From Verif Require Import Base BaseFacts SpecBase BigSum Preprocessing SpecMat MatFacts SpecFilters SpecBanks SpecFeatures MelBanksMore Features
  Extractors FeaturesFacts FeaturesMore FeaturesLaws FeaturesPhase ExampleFeatures SpecBudget BudgetFacts.
Import ListNotations.
Local Open Scope R_scope.

(** ** C174: where the energy of a frame goes *)

(** the banks that mfcc, imfcc, lfcc and msrcc compute hand out no more than they get, for every scale *)
Theorem C174_banks : forall (E : Env) e a n, @valid_band E e a -> s_nfilts a = Z.of_nat n -> (1 <= n)%nat -> (0 <= s_nfft a)%Z ->
  match e with Mfcc | Imfcc | Lfcc | Msrcc _ => True | _ => False end ->
  exists B, @extractor_bank E e a = Ok (fmat n (S (half (s_nfft a))) B) /\ thrifty n (half (s_nfft a)) B.
Proof. exact @banks_thrifty. Qed.
Print Assumptions C174_banks.

(** a row of the spectrogram adds up to at most the power of the half spectrum, which lies between a half
    and all of the energy of the windowed frame. Power in bins whose weights add up to one is not lost.
    Recordings within M have frames of energy at most L times the square of the pre-emphasised peak. *)
Theorem C174_budget : forall (E : Env) s a N L hop n B x,
  @well_framed E a N L hop -> (Z.of_nat L <= s_nfft a)%Z -> (0 < n)%nat ->
  @spectro_bank E s a = Ok (fmat n (S (half (s_nfft a))) B) -> thrifty n (half (s_nfft a)) B ->
  exists P Q, @spectrogram E s (fvec N x) a = Ok (fmat (frame_count N L hop) n P, fmat (frame_count N L hop) (S (half (s_nfft a))) Q) /\
    forall i, (i < frame_count N L hop)%nat ->
      let e := frame_energy L (frame_of a (spectro_coeff s a) L hop x i) in
      let power k := Q i k ^ 2 / IZR (s_nfft a) in
      bigsum n (P i) <= bigsum (S (half (s_nfft a))) power <= e /\ e / 2 <= bigsum (S (half (s_nfft a))) power /\
      (forall inside : nat -> bool, (forall k, (k <= half (s_nfft a))%nat -> inside k = true -> bigsum n (fun j => B j k) = 1) ->
         bigsum (S (half (s_nfft a))) (fun k => if inside k then power k else 0) <= bigsum n (P i)) /\
      (forall M, 0 <= M -> (forall t, (t < N)%nat -> Rabs (x t) <= M) -> e <= INR L * pre_peak (s_pre_emph a) (spectro_coeff s a) M ^ 2).
Proof. exact spectrogram_budget. Qed.
Print Assumptions C174_budget.

(** the first coefficient of mfcc, imfcc, lfcc and ngcc has a ceiling set by the energy of the frame, and
    one set by the peak of the recording *)
Theorem C174_ceiling : forall (E : Env) e a c N L hop n B x,
  @well_framed E a N L hop -> (Z.of_nat L <= s_nfft a)%Z -> (0 < n)%nat ->
  @extractor_bank E e a = Ok (fmat n (S (half (s_nfft a))) B) -> thrifty n (half (s_nfft a)) B -> In e [Mfcc; Imfcc; Lfcc; Ngcc] ->
  (1 <= c_num_ceps c <= s_nfilts a)%Z -> c_dct_type c = 2%Z -> c_use_energy c = false -> no_lifter c -> no_normalisation c ->
  exists y, @run E e (fvec N x) a c = Ok (fmat (frame_count N L hop) (Nat.min (Z.to_nat (c_num_ceps c)) n) y) /\
    forall i, (i < frame_count N L hop)%nat ->
      y i 0%nat <= sqrt (INR n) * ln (frame_energy L (frame_of a (extractor_coeff e a) L hop x i) / INR n + spec_eps) /\
      (forall M, 0 <= M -> (forall t, (t < N)%nat -> Rabs (x t) <= M) ->
         y i 0%nat <= sqrt (INR n) * ln (INR L * pre_peak (s_pre_emph a) (extractor_coeff e a) M ^ 2 / INR n + spec_eps)).
Proof. exact run_ceiling. Qed.
Print Assumptions C174_ceiling.

(** with use_energy, for every extractor and any bank: the first coefficient is the logarithm of the
    energy of the windowed frame, less at most ln 2; ln(2^-52) for a frame of zeros *)
Theorem C174_energy : forall (E : Env) e a c N L hop n B x,
  @well_framed E a N L hop -> (Z.of_nat L <= s_nfft a)%Z -> (0 < n)%nat ->
  @extractor_bank E e a = Ok (fmat n (S (half (s_nfft a))) B) ->
  (forall i j, (i < frame_count N L hop)%nat -> (j < n)%nat ->
     compressible e (spec_band (half (s_nfft a)) (Z.to_nat (s_nfft a)) L (frame_of a (extractor_coeff e a) L hop x i) (B j))) ->
  (1 <= c_num_ceps c <= s_nfilts a)%Z -> (1 <= c_dct_type c <= 4)%Z -> (c_dct_type c = 1%Z -> (2 <= n)%nat) ->
  c_use_energy c = true -> no_lifter c -> no_normalisation c ->
  exists y, @run E e (fvec N x) a c = Ok (fmat (frame_count N L hop) (Nat.min (Z.to_nat (c_num_ceps c)) n) y) /\
    forall i, (i < frame_count N L hop)%nat ->
      let e0 := frame_energy L (frame_of a (extractor_coeff e a) L hop x i) in
      (e0 = 0 -> y i 0%nat = ln spec_eps) /\ (0 < e0 -> ln e0 - ln 2 <= y i 0%nat <= ln e0).
Proof. exact run_energy. Qed.
Print Assumptions C174_energy.

(** defaults: whatever the recording within [-1, 1], rows of mel_spectrogram add up to at most 1553, and
    the first coefficient of mfcc stays below 21 *)
Example C174_spectrogram_example : forall x, (forall t, Rabs (x t) <= 1) -> exists P Q,
  @mel_spectrogram exact_env (fvec 1000 x) default_sargs = Ok (fmat 4 24 P, fmat 4 257 Q) /\
  forall i, (i < 4)%nat -> bigsum 24 (P i) <= 1553.
Proof.
  intros x Hx. destruct (C174_banks exact_env Mfcc default_sargs 24 default_band) as (B & HB & HT); [reflexivity|lia|simpl; lia|exact I|].
  destruct (C174_budget exact_env Mel default_sargs 1000 400 160 24 B x) as (P & Q & R & H); auto; try (simpl; lia).
  - apply default_framed. lia.
  - exists P, Q. split; [exact R|]. intros i Hi. destruct (H i Hi) as ((H1 & H2) & _ & _ & H3).
    specialize (H3 1 ltac:(lra) ltac:(intros; apply Hx)). eapply Rle_trans; [exact H1|]. eapply Rle_trans; [exact H2|]. eapply Rle_trans; [exact H3|].
    unfold pre_peak. cbn [s_pre_emph default_sargs spectro_coeff s_coeff]. rewrite Rabs_pos_eq by lra. rewrite INR_IZR_INZ. simpl IZR. lra.
Qed.
Example C174_ceiling_example : forall x, (forall t, Rabs (x t) <= 1) -> exists y,
  @mfcc exact_env (fvec 1000 x) default_sargs default_cargs = Ok (fmat 4 13 y) /\ forall i, (i < 4)%nat -> y i 0%nat <= 21.
Proof.
  intros x Hx. destruct (C174_banks exact_env Mfcc default_sargs 24 default_band) as (B & HB & HT); [reflexivity|lia|simpl; lia|exact I|].
  destruct (C174_ceiling exact_env Mfcc default_sargs default_cargs 1000 400 160 24 B x) as (y & R & H); auto; try (simpl; lia); try (simpl; tauto).
  - apply default_framed. lia.
  - left; reflexivity.
  - left; reflexivity.
  - exists y. split; [exact R|]. intros i Hi. destruct (H i Hi) as (_ & H3).
    specialize (H3 1 ltac:(lra) ltac:(intros; apply Hx)). eapply Rle_trans; [exact H3|].
    unfold pre_peak. cbn [s_pre_emph default_sargs extractor_coeff s_coeff]. rewrite Rabs_pos_eq by lra. rewrite !INR_IZR_INZ. simpl IZR.
    assert (EP : 0 < spec_eps <= 0.01).
    { unfold spec_eps. split; [apply Rinv_0_lt_compat, pow_lt; lra|]. replace 0.01 with (/ 100) by lra. apply Rinv_le_contravar; [lra|]. rewrite <- (IZR_pow 2 52) || idtac. simpl. lra. }
    set (v := 400 * ((1 + 0.97) * 1) ^ 2 / 24 + spec_eps).
    assert (V : 0 < v <= 64 * 1.02) by (unfold v; lra).
    assert (L2 : ln 2 <= 0.7).
    { rewrite <- (ln_exp 0.7). apply Rcomplements.ln_le; [lra|].
      assert (D : forall u v p q, 0 <= p -> p <= exp u -> v = u + u -> q <= p * p -> q <= exp v).
      { intros u w p q P0 P1 -> Q. rewrite exp_plus. eapply Rle_trans; [exact Q|]. apply Rmult_le_compat; assumption. }
      apply (D 0.35 _ 1.4156); [lra| |lra|lra]. apply (D 0.175 _ 1.1898); [lra| |lra|lra]. apply (D 0.0875 _ 1.0908); [lra| |lra|lra].
      apply (D 0.04375 _ 1.04444); [lra| |lra|lra]. apply (D 0.021875 _ 1.02198); [lra| |lra|lra]. apply (D 0.0109375 _ 1.0109375); [lra| |lra|lra].
      pose proof (exp_ineq1_le 0.0109375). lra. }
    assert (LV : ln v <= 4.22).
    { apply Rle_trans with (ln (64 * 1.02)); [apply Rcomplements.ln_le; lra|]. rewrite ln_mult by lra. replace 64 with (2 ^ 6) by lra. rewrite ln_pow by lra.
      assert (ln 1.02 <= 0.02) by (rewrite <- (ln_exp 0.02); apply Rcomplements.ln_le; [lra|]; pose proof (exp_ineq1_le 0.02); lra).
      rewrite INR_IZR_INZ. simpl IZR. lra. }
    assert (S24 : sqrt 24 <= 4.9) by (rewrite <- (sqrt_pow2 4.9) by lra; apply sqrt_le_1_alt; lra).
    pose proof (sqrt_pos 24). apply Rle_trans with (4.9 * 4.22); [|lra].
    destruct (Rle_dec 0 (ln v)); [apply Rmult_le_compat; lra|]. apply Rle_trans with 0; nra.
Qed.
Example C174_energy_example : forall x, exists y,
  @mfcc exact_env (fvec 1000 x) default_sargs (mkC 13 2 true None None) = Ok (fmat 4 13 y) /\
  (0 < frame_energy 400 (frame_of default_sargs 0.97 400 160 x 2) ->
   ln (frame_energy 400 (frame_of default_sargs 0.97 400 160 x 2)) - ln 2 <= y 2%nat 0%nat <= ln (frame_energy 400 (frame_of default_sargs 0.97 400 160 x 2))).
Proof.
  intros x. destruct (C174_banks exact_env Mfcc default_sargs 24 default_band) as (B & HB & HT); [reflexivity|lia|simpl; lia|exact I|].
  destruct (C174_energy exact_env Mfcc default_sargs (mkC 13 2 true None None) 1000 400 160 24 B x) as (y & R & H); auto; try (simpl; lia).
  - apply default_framed. lia.
  - intros i j Hi Hj. simpl compressible. apply (thrifty_band 24); [simpl; lia|exact HT|exact Hj].
  - left; reflexivity.
  - left; reflexivity.
  - exists y. split; [exact R|]. apply (H 2%nat). unfold frame_count. simpl. lia.
Qed.
