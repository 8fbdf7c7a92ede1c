(** * C186: loudness of quiet and of loud bands (intensity_power_law, bfcc) *)
From Coq Require Import Reals ZArith List String Bool Lia Lra.
From Verif Require Import Base BaseFacts SpecBase BigSum SpecMat MatFacts SpecBanks SpecFeatures SpecInvariance Preprocessing Features Extractors FeaturesFacts FeaturesMore ExampleTools DctFacts SpecLoud LoudFacts.
Import ListNotations.
Local Open Scope R_scope.

(** A band with more energy is louder up to 27000, and quieter from 35300 on: the law takes the energy for a frequency. *)
Theorem C186_louder_refuted : forall r c x, exists y, intensity_power_law (fmat r c x) = fmat r c y /\
  forall i j i2 j2, (0 <= x i j < x i2 j2 -> x i2 j2 <= 27000 -> y i j < y i2 j2) /\ (35300 <= x i j < x i2 j2 -> y i2 j2 < y i j).
Proof.
  intros r c x. exists (fun i j => spec_loudness (x i j)). unfold intensity_power_law. rewrite (fmat_map r c _ ipl spec_loudness) by apply ipl_Fin.
  split; [reflexivity|]. intros. split; [apply loudness_rises|apply loudness_falls].
Qed.
Print Assumptions C186_louder_refuted.
(** So a row of bfcc is 4/3 of the row of mfcc with the same bank (but for a constant in coefficient 0) when its bands
    are faint, and -4/3 of it when they are loud. *)
Theorem C186_rows : forall (E : Env) a c N L hop n B, @well_framed E a N L hop -> (1 <= s_nfft a)%Z -> (0 < n)%nat ->
  @extractor_bank E Bfcc a = Ok (fmat n (S (half (s_nfft a))) B) -> (forall j k, (j < n)%nat -> (k <= half (s_nfft a))%nat -> 0 <= B j k) ->
  s_pre_emph a = false \/ s_coeff a = 0.97 -> (0 <= c_num_ceps c <= s_nfilts a)%Z -> (1 <= c_dct_type c <= 4)%Z -> (c_dct_type c = 1%Z -> (2 <= n)%nat) ->
  c_use_energy c = false -> no_lifter c -> no_normalisation c ->
  let K := Nat.min (Z.to_nat (c_num_ceps c)) n in
  let band x i j := spec_band (half (s_nfft a)) (Z.to_nat (s_nfft a)) L (frame_of a (extractor_coeff Bfcc a) L hop x i) (B j) in
  forall x, exists y z, @bfcc E (fvec N x) a c = Ok (fmat (frame_count N L hop) K y) /\
    @mfcc E (fvec N x) (with_fbanks a (fmat n (S (half (s_nfft a))) B)) c = Ok (fmat (frame_count N L hop) K z) /\
  forall i W, (c_dct_type c = 2%Z -> (forall j, (j < n)%nat -> 0 < band x i j <= W) ->
      sqdist K (y i) (fun k => 4 / 3 * z i k + (if Nat.eqb k 0 then faint_offset * sqrt (INR n) else 0)) <= INR n * faint_slack W ^ 2) /\
    (0 < W -> (forall j, (j < n)%nat -> W <= band x i j) -> sqdist K (y i) (fun k => - (4 / 3) * z i k) <= INR n * loud_slack W ^ 2).
Proof. intros E a c N L hop n B ? ? ? ? ? ? ? ? ? ? ? ? K band x. apply (bark_laws a c N L hop n B); assumption. Qed.
Print Assumptions C186_rows.
(** Every coefficient beyond the first changes its sign when the recording is amplified enough. *)
Theorem C186_gain_refuted : forall (E : Env) a c N L hop n B, @well_framed E a N L hop -> (1 <= s_nfft a)%Z -> (0 < n)%nat ->
  @extractor_bank E Bfcc a = Ok (fmat n (S (half (s_nfft a))) B) -> (forall j k, (j < n)%nat -> (k <= half (s_nfft a))%nat -> 0 <= B j k) ->
  s_pre_emph a = false \/ s_coeff a = 0.97 -> (0 <= c_num_ceps c <= s_nfilts a)%Z -> c_dct_type c = 2%Z ->
  c_use_energy c = false -> no_lifter c -> no_normalisation c ->
  let K := Nat.min (Z.to_nat (c_num_ceps c)) n in
  let band x i j := spec_band (half (s_nfft a)) (Z.to_nat (s_nfft a)) L (frame_of a (extractor_coeff Bfcc a) L hop x i) (B j) in
  forall x, exists z, @mfcc E (fvec N x) (with_fbanks a (fmat n (S (half (s_nfft a))) B)) c = Ok (fmat (frame_count N L hop) K z) /\
  forall i k, (1 <= k < K)%nat -> (forall j, (j < n)%nat -> 0 < band x i j) -> z i k <> 0 ->
  exists g0 g1, 0 < g0 /\ 0 < g1 /\ forall g, exists y, @bfcc E (fvec N (fun t => g * x t)) a c = Ok (fmat (frame_count N L hop) K y) /\
    (0 < g <= g0 -> 0 < y i k * z i k) /\ (g1 <= g -> y i k * z i k < 0).
Proof.
  intros E a c N L hop n B Hw Hn Hn0 HB HP Hpre Hc H2 Hu Hl Hm K band x.
  destruct (bark_flip a c N L hop n B Hw Hn Hn0 HB HP Hpre Hc ltac:(lia) ltac:(lia) Hu Hl Hm x) as (z & Z & F).
  exists z. split; [exact Z|]. intros i k Hk Hb Hz. apply (F i k H2 Hk Hb Hz).
Qed.
Print Assumptions C186_gain_refuted.

(** energies 100 and 200 against 10^6 and 2 * 10^6 *)
Example C186_louder_example : exists a b c d, intensity_power_law [[Fin 100; Fin 200; Fin 1000000; Fin 2000000]] = [[Fin a; Fin b; Fin c; Fin d]] /\ a < b /\ d < c.
Proof.
  destruct (C186_louder_refuted 1 4 (fun _ j => match j with O => 100 | S O => 200 | S (S O) => 1000000 | _ => 2000000 end)) as (y & E & H).
  exists (y 0 0)%nat, (y 0 1)%nat, (y 0 2)%nat, (y 0 3)%nat. split; [exact E|]. destruct (H 0 0 0 1)%nat as (H1 & _). destruct (H 0 2 0 3)%nat as (_ & H2). cbv beta iota in H1, H2. split; [apply H1|apply H2]; lra.
Qed.
(** rows of one sample and two bands, the second with four times the energy of the first *)
Definition duo : sargs := mkS 1 false 0 (Some (mkWindow 1 1 "hamming")) 2 1 0 None "constant" (Some [[f1]; [Fin 4]]) "Wang".
Definition duo_b (j k : nat) : R := match j with O => 1 | _ => 4 end.
Definition duo_c : cargs := mkC 2 2 false None None.
Lemma duo_framed : @well_framed exact_env duo 2 1 1.
Proof.
  unfold well_framed, window_of, duo. cbn [s_window s_fs win_len win_hop win_type].
  split; [lra|]. split; [apply flen_exact; simpl; lra|]. split; [apply flen_exact; simpl; lra|]. split; [lia|]. split; [lia|]. simpl; tauto.
Qed.
Lemma duo_band : forall x i j, spec_band 0 1 1 (frame_of duo 0.97 1 1 x i) (duo_b j) = x i ^ 2 * duo_b j 0.
Proof.
  intros. unfold spec_band, spec_power, spec_sq, spec_re, spec_im, frame_of, spec_frame, window_of, duo. cbn [bigsum Nat.min s_pre_emph s_window win_type spec_pre].
  unfold spec_window. cbn [Nat.leb Nat.mul]. rewrite Nat.mul_1_r, Nat.add_0_r. replace (2 * PI * INR 0 / INR 1) with 0 by (simpl; field). rewrite cos_0, sin_0. simpl INR. field.
Qed.
Lemma duo_rows : forall x, exists y z, @bfcc exact_env (fvec 2 x) duo duo_c = Ok (fmat 2 2 y) /\ @mfcc exact_env (fvec 2 x) duo duo_c = Ok (fmat 2 2 z) /\
  forall i W, ((forall j, (j < 2)%nat -> 0 < x i ^ 2 * duo_b j 0 <= W) ->
      sqdist 2 (y i) (fun k => 4 / 3 * z i k + (if Nat.eqb k 0 then faint_offset * sqrt 2 else 0)) <= 2 * faint_slack W ^ 2) /\
    (0 < W -> (forall j, (j < 2)%nat -> W <= x i ^ 2 * duo_b j 0) -> sqdist 2 (y i) (fun k => - (4 / 3) * z i k) <= 2 * loud_slack W ^ 2).
Proof.
  intros x. destruct (C186_rows exact_env duo duo_c 2 1 1 2 duo_b duo_framed) with (x := x) as (y & z & Y & Z & R); try (simpl; lia); try (left; reflexivity); try reflexivity.
  - intros [|j] k _ _; simpl; lra.
  - exists y, z. split; [exact Y|]. split; [exact Z|]. intros i W. destruct (R i W) as (R1 & R2). split.
    + intros Hb. apply R1; [reflexivity|]. intros j Hj. change (half (s_nfft duo)) with 0%nat. change (Z.to_nat (s_nfft duo)) with 1%nat. change (extractor_coeff Bfcc duo) with 0.97. rewrite duo_band. apply Hb; exact Hj.
    + intros HW Hb. apply R2; [exact HW|]. intros j Hj. change (half (s_nfft duo)) with 0%nat. change (Z.to_nat (s_nfft duo)) with 1%nat. change (extractor_coeff Bfcc duo) with 0.97. rewrite duo_band. apply Hb; exact Hj.
Qed.
(** samples of 10 against samples of 10000 *)
Example C186_rows_example : exists y z, @bfcc exact_env (fvec 2 (fun t => match t with O => 10 | _ => 10000 end)) duo duo_c = Ok (fmat 2 2 y) /\
  @mfcc exact_env (fvec 2 (fun t => match t with O => 10 | _ => 10000 end)) duo duo_c = Ok (fmat 2 2 z) /\
  sqdist 2 (y 0%nat) (fun k => 4 / 3 * z 0%nat k + (if Nat.eqb k 0 then faint_offset * sqrt 2 else 0)) <= 2 * 0.009 ^ 2 /\
  sqdist 2 (y 1%nat) (fun k => - (4 / 3) * z 1%nat k) <= 2 * 0.00001 ^ 2.
Proof.
  destruct (duo_rows (fun t => match t with O => 10 | _ => 10000 end)) as (y & z & Y & Z & R). exists y, z. split; [exact Y|]. split; [exact Z|]. split.
  - destruct (R 0%nat 400) as (R1 & _). eapply Rle_trans; [apply R1|].
    + intros [|[|j]] Hj; cbn [duo_b]; try lia; lra.
    + apply Rmult_le_compat_l; [lra|]. apply pow_incr. unfold faint_slack. lra.
  - destruct (R 1%nat 100000000) as (_ & R2). eapply Rle_trans; [apply R2|].
    + lra.
    + intros [|[|j]] Hj; cbn [duo_b]; try lia; lra.
    + apply Rmult_le_compat_l; [lra|]. apply pow_incr. unfold loud_slack. lra.
Qed.
(** the second coefficient of a recording of ones is negative when it is attenuated and positive when it is amplified *)
Example C186_gain_example : exists g0 g1, 0 < g0 /\ 0 < g1 /\ forall g, exists y, @bfcc exact_env (fvec 2 (fun _ => g)) duo duo_c = Ok (fmat 2 2 y) /\
  (0 < g <= g0 -> y 0%nat 1%nat < 0) /\ (g1 <= g -> 0 < y 0%nat 1%nat).
Proof.
  destruct (C186_gain_refuted exact_env duo duo_c 2 1 1 2 duo_b duo_framed) with (x := fun _ : nat => 1) as (z & Z & F); try (simpl; lia); try (left; reflexivity); try reflexivity.
  - intros [|j] k _ _; simpl; lra.
  - assert (ZN : z 0%nat 1%nat < 0).
    { pose proof (run_fvec (H := exact_env) Mfcc duo duo_c 2 1 1 2 duo_b (fun _ => 1) duo_framed ltac:(simpl; lia) ltac:(lia) eq_refl) as RV. cbn [run] in RV.
      change (with_fbanks duo (fmat 2 (S (half (s_nfft duo))) duo_b)) with duo in Z. rewrite RV in Z; try (simpl; lia); try (left; reflexivity); try discriminate.
      - assert (ZZ : forall (A : Type) (u v : A), Ok u = Ok v -> u = v) by congruence. apply ZZ in Z. clear ZZ.
        assert (I1 : (0 < frame_count 2 1 1)%nat) by (vm_compute; lia). assert (I2 : (1 < Nat.min (Z.to_nat (c_num_ceps duo_c)) 2)%nat) by (vm_compute; lia).
        apply (fun e => fmat_inj _ _ _ _ e 0%nat 1%nat I1 I2) in Z. cbv beta in Z. rewrite <- Z. cbv zeta. cbn [c_use_energy duo_c andb c_dct_type].
        change (half (s_nfft duo)) with 0%nat. change (Z.to_nat (s_nfft duo)) with 1%nat. change (frame_of duo (extractor_coeff Mfcc duo) 1 1 (fun _ => 1) 0) with (frame_of duo 0.97 1 1 (fun _ => 1) 0).
        unfold spec_dct. cbn [bigsum compression]. rewrite !duo_band. cbn [duo_b]. unfold spec_dct_entry. cbn [Z.eqb Pos.eqb Nat.eqb].
        replace (PI * INR 1 * (2 * INR 1 + 1) / (2 * INR 2)) with (PI - PI / 4) by (simpl; field). rewrite cos_minus, cos_PI, sin_PI, cos_PI4.
        replace (1 ^ 2 * 1) with 1 by ring. replace (1 ^ 2 * 4) with 4 by ring. rewrite !log_pos, ln_1 by lra. assert (0 < ln 4) by (rewrite <- ln_1; apply ln_increasing; lra).
        replace (2 / INR 2) with 1 by (simpl; field). rewrite sqrt_1. assert (0 < 1 / sqrt 2) by (apply Rdiv_lt_0_compat; [lra|apply sqrt_lt_R0; lra]).
        assert (0 < ln 4 * (1 / sqrt 2)) by (apply Rmult_lt_0_compat; assumption). lra.
      - intros i j Hi Hj. cbn [compressible]. apply spec_band_nonneg; [simpl; lia|]. intros k _. destruct j; simpl; lra. }
    destruct (F 0%nat 1%nat) as (g0 & g1 & G0 & G1 & G); [simpl; lia| |lra|].
    + intros j Hj. change (half (s_nfft duo)) with 0%nat. change (Z.to_nat (s_nfft duo)) with 1%nat. change (extractor_coeff Bfcc duo) with 0.97. rewrite duo_band. destruct j; cbn [duo_b]; lra.
    + exists g0, g1. split; [exact G0|]. split; [exact G1|]. intros g. destruct (G g) as (y & Y & Q1 & Q2). exists y. split.
      * rewrite (fvec_ext 2 (fun _ => g) (fun _ => g * 1)) by (intros; ring). exact Y.
      * split; intros Hg; [specialize (Q1 Hg)|specialize (Q2 Hg)]; nra.
Qed.
