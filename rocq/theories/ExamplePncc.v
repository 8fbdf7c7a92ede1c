(** * Helpers for the statements and examples about pncc *)
From Coq Require Import Reals ZArith List String Bool Lia Lra.
From Verif Require Import Base BaseFacts SpecBase SpecMat SpecFilters SpecBanks SpecFeatures SpecPncc BigSum MatFacts
  Preprocessing Fourier Features Extractors FeaturesFacts FeaturesLaws ExampleTools ExampleFeatures
  Pncc PnccNames PnccFacts PnccMore.
Import ListNotations.
Local Open Scope R_scope.

Lemma smoothing_value : forall n c r q L N, (0 < n)%nat -> (1 <= N)%nat -> (1 <= L <= c)%nat -> (c <= L + N + 1)%nat ->
  (forall m i, (m < n)%nat -> (1 <= i < L)%nat -> q m i <> 0) ->
  weight_smoothing (fmat n c r) (fmat n c q) (Z.of_nat L) (Z.of_nat N)
  = Ok (fmat n c (fun m l => let l1 := Nat.max (l - N) 1 in let l2 := Nat.min (l + N) L in
          bigsum (l2 - l1) (fun i => r m (l1 + i)%nat / q m (l1 + i)%nat) / INR (l2 - l1 + 1))).
Proof.
  intros n c r q L N Hn HN HL Hc Hq. rewrite !fmat_gmat. rewrite smooth_gmat by auto. f_equal. apply gmat_ext.
  intros m l Hm Hl. apply smoothF_fin. intros i Hi. apply sm_range in Hi. auto.
Qed.
Lemma smoothing_below_one : forall n c q L N, (0 < n)%nat -> (1 <= N)%nat -> (1 <= L <= c)%nat -> (c <= L + N + 1)%nat ->
  (forall m i, (m < n)%nat -> (1 <= i < L)%nat -> q m i <> 0) ->
  exists y, weight_smoothing (fmat n c q) (fmat n c q) (Z.of_nat L) (Z.of_nat N) = Ok (fmat n c y) /\
    forall m l, (m < n)%nat -> (l < c)%nat -> 0 <= y m l < 1.
Proof.
  intros n c q L N Hn HN HL Hc Hq. eexists. split; [apply smoothing_value; auto|]. intros m l Hm Hl. cbv zeta beta.
  set (l1 := Nat.max (l - N) 1). set (k := (Nat.min (l + N) L - l1)%nat).
  rewrite (bigsum_ext k _ (fun _ => 1)).
  - rewrite bigsum_const, Rmult_1_r. assert (0 < INR (k + 1)) by (apply lt_0_INR; lia).
    split; [apply Rmult_le_pos; [apply pos_INR|left; apply Rinv_0_lt_compat; auto]|].
    apply Rmult_lt_reg_r with (INR (k + 1)); auto. unfold Rdiv. rewrite Rmult_assoc, Rinv_l, Rmult_1_r, Rmult_1_l by lra. apply lt_INR. lia.
  - intros i Hi. field. apply Hq; auto. unfold k, l1 in *. lia.
Qed.
Lemma smoothing_channel_0 : forall n c r q r' q' L N, (0 < n)%nat -> (1 <= N)%nat -> (1 <= L <= c)%nat -> (c <= L + N + 1)%nat ->
  (forall m l, (m < n)%nat -> (1 <= l < c)%nat -> r m l = r' m l /\ q m l = q' m l) ->
  weight_smoothing (fmat n c r) (fmat n c q) (Z.of_nat L) (Z.of_nat N)
  = weight_smoothing (fmat n c r') (fmat n c q') (Z.of_nat L) (Z.of_nat N).
Proof.
  intros n c r q r' q' L N Hn HN HL Hc H. rewrite !fmat_gmat. rewrite !smooth_gmat by auto. f_equal. apply gmat_ext.
  intros m l Hm Hl. unfold smoothF. do 2 f_equal. apply map_ext_in. intros i Hi. apply in_seq in Hi.
  destruct (H m i Hm) as [-> ->]; auto. unfold sm_lo, sm_hi in *. lia.
Qed.
Lemma smoothing_nan : forall n c r q L N m l i, (0 < n)%nat -> (1 <= N)%nat -> (1 <= L <= c)%nat -> (c <= L + N + 1)%nat ->
  (m < n)%nat -> (l < c)%nat -> (Nat.max (l - N) 1 <= i < Nat.min (l + N) L)%nat -> r m i = 0 -> q m i = 0 ->
  exists M, weight_smoothing (fmat n c r) (fmat n c q) (Z.of_nat L) (Z.of_nat N) = Ok M /\ nth l (nth m M []) NaN = NaN /\
    List.length M = n /\ List.length (nth m M []) = c.
Proof.
  intros n c r q L N m l i Hn HN HL Hc Hm Hl Hi Hr Hq. rewrite !fmat_gmat, smooth_gmat by auto. eexists. split; [reflexivity|].
  rewrite gmat_nth, gmat_length, map_length, seq_length by auto. rewrite nth_map_seq by auto. split; auto.
  unfold smoothF. rewrite fsum_NaN; [apply fmul_NaN_r|].
  assert (fdiv (Fin (r m i)) (Fin (q m i)) = NaN) as <-.
  { rewrite Hr, Hq. unfold fdiv, finfmul. destruct (Req_EM_T 0 0); [|lra]. auto. }
  apply (in_map (fun i => fdiv (Fin (r m i)) (Fin (q m i)))). apply in_seq. unfold sm_lo, sm_hi. lia.
Qed.
Lemma mean_power_finite : forall n c T lam L k, (0 < n)%nat -> (1 <= L <= c)%nat -> 0 < lam <= 1 -> 0 <= k ->
  (forall m l, (m < n)%nat -> 0 <= T m l) ->
  exists y mu, mean_power_normalization (fmat n c T) lam (Z.of_nat L) k = Ok (fmat n c y) /\
    mu 0%nat = 0.0001 /\
    (forall m, (S m < n)%nat -> mu (S m) = lam * mu m + (1 - lam) * (bigsum L (T (S m)) / INR L)) /\
    forall m l, (m < n)%nat -> 0 < mu m /\ y m l = k * T m l / mu m /\ 0 <= y m l.
Proof.
  intros n c T lam L k Hn HL Hlam Hk HT.
  assert (Hmu : forall m, (m < n)%nat -> 0 < MYU lam L T m) by (intros; apply MYU_pos; auto; try lia; intros; apply HT; lia).
  exists (fun m l => k * T m l / MYU lam L T m), (MYU lam L T). split.
  - rewrite fmat_gmat, mean_power_gmat by auto. f_equal. apply fmat_of_gmat. intros m l Hm Hl.
    rewrite (myuF_fin lam L _ T) by auto. cbn [fmul]. apply fdiv_Fin. specialize (Hmu m Hm). lra.
  - split; [reflexivity|]. split.
    + intros m Hm. cbn [MYU]. unfold Rdiv. ring.
    + intros m l Hm. specialize (Hmu m Hm). split; auto. split; auto. apply Rmult_le_pos; [apply Rmult_le_pos; auto|].
      left. apply Rinv_0_lt_compat. auto.
Qed.
Lemma pband_zero : forall p h n L f b, (1 <= p)%nat -> (forall t, f t = 0) -> spec_pband p h n L f b = 0.
Proof.
  intros p h n L f b Hp Hf. unfold spec_pband. apply bigsum_zero. intros k _.
  assert (spec_mag n L f k = 0) as ->.
  { unfold spec_mag, spec_sq, spec_re, spec_im. rewrite !bigsum_zero by (intros; rewrite Hf; ring).
    replace (0 ^ 2 + 0 ^ 2) with 0 by ring. apply sqrt_0. }
  rewrite pow_i by lia. unfold Rdiv. ring.
Qed.
Lemma pncc_silence : forall `{Env} a p c N L hop n nf B, (1 <= p)%nat ->
  well_framed a N L hop -> (1 <= s_nfft a)%Z ->
  extractor_bank Gfcc a = Ok (fmat n (S (half (s_nfft a))) B) ->
  s_nfilts a = Z.of_nat nf -> (2 <= nf <= n)%nat -> (n <= nf + 5)%nat ->
  (forall j k, (j < n)%nat -> (k <= half (s_nfft a))%nat -> 0 <= B j k) ->
  (0 <= c_num_ceps c <= s_nfilts a)%Z -> (1 <= c_dct_type c <= 4)%Z ->
  no_lifter c -> no_normalisation c ->
  pncc (fvec N (fun _ => 0)) a p c
  = Ok (repeat (repeat NaN (Nat.min (Z.to_nat (c_num_ceps c)) n)) (frame_count N L hop)).
Proof.
  intros E a p c N L hop n nf B Hp Hw Hn HB Hnf Hs H5 Hpos Hc Ht Hl Hnm.
  pose proof (frame_count_pos N L hop) as Hf.
  assert (Z0 : forall m l, spec_medium (frame_count N L hop) 2 (fun i => band_power a p L hop B (fun _ => 0) i l) m = 0).
  { intros. unfold spec_medium. rewrite bigsum_zero; [unfold Rdiv; ring|]. intros. destruct (_ && _)%bool; auto.
    apply pband_zero; auto. intros. apply frame_of_zero. auto. }
  assert (R : forall i, (i < frame_count N L hop)%nat -> exists M, pncc (fvec N (fun _ => 0)) a p c = Ok M /\ List.length M = frame_count N L hop /\
     nth i M [] = repeat NaN (Nat.min (Z.to_nat (c_num_ceps c)) n)).
  { intros i Hi. destruct (pncc_silent a p c N L hop n nf B) with (x := fun _ : nat => 0) (m := i) (l := 1%nat) as (M & H1 & H2 & H3); auto; try lia.
    exists M. split; auto. }
  destruct (R 0%nat Hf) as (M & H1 & H2 & _). rewrite H1. f_equal.
  apply (list_eq_nth _ []); [rewrite repeat_length; auto|]. intros i Hi. destruct (R i) as (M' & H1' & _ & H3); [lia|].
  rewrite H1 in H1'. apply Ok_inj in H1'. subst M'. rewrite H3.
  rewrite (nth_indep _ [] (repeat NaN (Nat.min (Z.to_nat (c_num_ceps c)) n))) by (rewrite repeat_length; lia). symmetry. apply nth_repeat.
Qed.

(** the default arguments of pncc, pncc.py:274-292 *)
Definition default_pncc : sargs := mkS 16000 true 0.97 None 24 512 0 None "constant" None "Glasberg".
Lemma default_pncc_bank : exists B, @extractor_bank exact_env Gfcc default_pncc = Ok (fmat 24 (S (half (s_nfft default_pncc))) B) /\
  forall j k, (j < 24)%nat -> (k <= half (s_nfft default_pncc))%nat -> 0 <= B j k.
Proof.
  destruct (@valid_band_bank exact_env Gfcc default_pncc 24) as (B & HB & Hp); [|reflexivity|simpl; lia|].
  - exists 8000. unfold default_pncc. cbn [s_fbanks s_scale s_high s_low s_fs s_approach s_nfft].
    split; [auto|]. split; [simpl; tauto|]. split; [right; split; auto; lra|]. repeat split; try lra; try lia.
  - exists B. split; auto. intros. apply Hp; auto. lia.
Qed.
(** frames of one sample, two filters *)
Definition pncc_tiny : sargs :=
  mkS 1 false 0 (Some (mkWindow 1 1 "hamming")) 2 1 0 None "constant" (Some (fmat 2 1 (fun _ _ => 1))) "Glasberg".
Definition pncc_tiny_c : cargs := mkC 2 2 false None None.
Lemma pncc_tiny_framed : forall N, (1 <= N)%nat -> @well_framed exact_env pncc_tiny N 1 1.
Proof.
  intros N HN. unfold well_framed, window_of, pncc_tiny. cbn [s_window s_fs win_len win_hop win_type].
  split; [lra|]. split; [apply flen_exact; simpl; lra|]. split; [apply flen_exact; simpl; lra|].
  split; [lia|]. split; [lia|]. simpl; tauto.
Qed.
Lemma pncc_tiny_band : forall x i l, band_power pncc_tiny 2 1 1 (fun _ _ => 1) x i l = x i ^ 2.
Proof.
  intros. unfold band_power, spec_pband. change (half (s_nfft pncc_tiny)) with 0%nat. change (Z.to_nat (s_nfft pncc_tiny)) with 1%nat.
  cbn [bigsum]. unfold spec_mag. replace (sqrt (spec_sq 1 1 (frame_of pncc_tiny (s_coeff pncc_tiny) 1 1 x i) 0) ^ 2)
    with (spec_sq 1 1 (frame_of pncc_tiny (s_coeff pncc_tiny) 1 1 x i) 0).
  2:{ rewrite <- Rsqr_pow2, Rsqr_sqrt; auto. apply spec_sq_nonneg. }
  unfold spec_sq, spec_re, spec_im. cbn [Nat.min bigsum]. unfold frame_of, spec_frame, window_of, pncc_tiny, spec_pre.
  cbn [s_window win_type s_pre_emph]. unfold spec_window. cbn [Nat.leb]. replace (2 * PI * INR (0 * 0) / INR 1) with 0 by (simpl; field).
  rewrite cos_0, sin_0. replace (i * 1 + 0)%nat with i by lia. simpl INR. field.
Qed.
Lemma pncc_tiny_audible : forall N x m l, (forall t, 0 < x t) -> (m < N)%nat ->
  0 < spec_medium N 2 (fun i => band_power pncc_tiny 2 1 1 (fun _ _ => 1) x i l) m.
Proof.
  intros N x m l Hx Hm. apply (medium_pos N 2 _ m m); auto; try lia.
  - intros. rewrite pncc_tiny_band. apply pow2_ge_0.
  - rewrite pncc_tiny_band. apply pow_lt. auto.
Qed.
Lemma pncc_tiny_rpower : 1 <= Rpower 3 (INR 2 / 15).
Proof.
  rewrite <- (Rpower_O 3) by lra. apply Rle_Rpower; [lra|]. simpl. lra.
Qed.
