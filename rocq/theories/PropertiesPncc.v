(** * Property theorems: power-normalised cepstra (C67-C71, C101-C106, parts of C41, C43, C47) *)
From Coq Require Import Reals ZArith List String Bool Lia Lra.
From Verif Require Import Base BaseFacts SpecBase SpecMat SpecBanks SpecFeatures SpecPncc BigSum MatFacts
  Preprocessing PreprocessingFacts Fourier Features Extractors FeaturesFacts FeaturesLaws ExampleTools ExampleFeatures
  Pncc PnccNames PnccFacts PnccMore ExamplePncc.
Import ListNotations.
Local Open Scope R_scope.

(** C67. Medium-time power: the mean over 2M+1 frames, frames outside counting as zero, ... *)
Theorem C67_medium_time : forall n c x M, (0 < n)%nat ->
  medium_time_power_calculation (fmat n c x) M = fmat n c (fun m l => spec_medium n M (fun i => x i l) m).
Proof. exact medium_fmat. Qed.
Print Assumptions C67_medium_time.
(** ... non-negative and never above a bound of the column. *)
Theorem C67_range : forall n c x M, (0 < n)%nat ->
  exists y, medium_time_power_calculation (fmat n c x) M = fmat n c y /\
    forall m l b, (m < n)%nat -> (l < c)%nat -> (forall i, (i < n)%nat -> 0 <= x i l <= b) -> 0 <= y m l <= b.
Proof.
  intros n c x M Hn. eexists. split; [apply medium_fmat; auto|]. intros m l b Hm Hl Hx. cbv beta.
  assert (0 <= b) by (pose proof (Hx m Hm); lra).
  split; [apply medium_nonneg|apply medium_bound; auto]; intros; apply Hx; auto.
Qed.
Print Assumptions C67_range.
Example C67_range_example : exists y, medium_time_power_calculation (fmat 3 1 (fun i _ => 2 ^ i)) 1 = fmat 3 1 y /\ 0 <= y 1%nat 0%nat <= 4.
Proof.
  destruct (C67_range 3 1 (fun i _ => 2 ^ i) 1) as (y & E & H); [lia|]. exists y. split; [exact E|]. apply H; [lia|lia|].
  intros i Hi. destruct i as [|[|[|i]]]; cbn; try lra; lia.
Qed.
(** a case: three frames 1, 2, 4, M = 1: (0+1+2)/3, (1+2+4)/3, (2+4+0)/3 *)
Example C67_example : medium_time_power_calculation (fmat 3 1 (fun i _ => 2 ^ i)) 1
  = [[Fin 1]; [Fin (7 / 3)]; [Fin 2]].
Proof.
  rewrite C67_medium_time by lia. unfold fmat, fvec. cbn [seq map]. unfold spec_medium. cbn [bigsum Nat.leb Nat.add Nat.mul andb pow INR].
  repeat f_equal; lra.
Qed.

(** C68. The asymmetric filter: each row is one filter step from the row before; the first row
    is a step from 0, or, when there is a single frame, from 0.9 times the input. *)
Theorem C68_recursion : forall n c x la lb, (0 < n)%nat ->
  exists y, asymmetric_lowpass_filtering (fmat n c x) la lb = Ok (fmat n c y) /\
    (forall m l, (S m < n)%nat -> (l < c)%nat -> y (S m) l = asym_step la lb (y m l) (x (S m) l)) /\
    (forall l, (l < c)%nat -> y 0%nat l = asym_step la lb (if Nat.eqb n 1 then 0.9 * x 0%nat l else 0) (x 0%nat l)).
Proof.
  intros n c x la lb Hn. eexists. split; [apply asym_fmat; auto|]. split; intros; reflexivity.
Qed.
Print Assumptions C68_recursion.
(** C68. For non-negative input the output stays between 0 and any bound of the column. *)
Theorem C68_range : forall n c x la lb, (0 < n)%nat -> 0 <= la <= 1 -> 0 <= lb <= 1 ->
  exists y, asymmetric_lowpass_filtering (fmat n c x) la lb = Ok (fmat n c y) /\
    forall m l b, (m < n)%nat -> (l < c)%nat -> (forall i, (i <= m)%nat -> 0 <= x i l <= b) -> 0 <= y m l <= b.
Proof.
  intros n c x la lb Hn Ha Hb. eexists. split; [apply asym_fmat; auto|]. intros m l b Hm Hl Hx. cbv beta.
  apply asymR_bounds; auto. unfold asym_init. pose proof (Hx 0%nat ltac:(lia)). destruct (Nat.eqb n 1); lra.
Qed.
Print Assumptions C68_range.
(** C68. With two or more frames the first row is (1 - lm_a) times the first input row. *)
Theorem C68_first_row : forall n c x la lb, (2 <= n)%nat ->
  exists y, asymmetric_lowpass_filtering (fmat n c x) la lb = Ok (fmat n c y) /\
    forall l, (l < c)%nat -> 0 <= x 0%nat l -> y 0%nat l = (1 - la) * x 0%nat l.
Proof.
  intros n c x la lb Hn. eexists. split; [apply asym_fmat; lia|]. intros l Hl Hx. cbn [asymR]. unfold asym_init, asym_step.
  destruct (Nat.eqb_spec n 1); [lia|]. destruct (Rle_dec 0 (x 0%nat l)); [ring|contradiction].
Qed.
Print Assumptions C68_first_row.
Example C68_range_example : exists y, asymmetric_lowpass_filtering (fmat 4 2 (fun i _ => INR i)) 0.999 0.5 = Ok (fmat 4 2 y) /\
  0 <= y 2%nat 1%nat <= 2 /\ y 0%nat 1%nat = (1 - 0.999) * INR 0.
Proof.
  destruct (C68_range 4 2 (fun i _ => INR i) 0.999 0.5) as (y & E & H); [lia|lra|lra|].
  destruct (C68_first_row 4 2 (fun i _ => INR i) 0.999 0.5) as (z & E' & K); [lia|].
  exists y. split; [exact E|]. rewrite E in E'. apply Ok_inj in E'. split.
  - apply H; [lia|lia|]. intros i Hi. split; [apply pos_INR|]. change 2 with (INR 2). apply le_INR. exact Hi.
  - rewrite (fmat_inj _ _ _ _ E') by lia. apply K; [lia|apply pos_INR].
Qed.
(** a case: frames 8, 0 with coefficients 1/2 and 1/4: 4, then 1 *)
Example C68_example : asymmetric_lowpass_filtering [[Fin 8]; [Fin 0]] (1 / 2) (1 / 4) = Ok [[Fin 4]; [Fin 1]].
Proof.
  destruct (C68_recursion 2 1 (fun i _ => if Nat.eqb i 0 then 8 else 0) (1 / 2) (1 / 4)) as (y & H1 & H2 & H3); [lia|].
  assert (E0 : y 0%nat 0%nat = 4) by (rewrite H3 by lia; cbn [Nat.eqb]; unfold asym_step; destruct (Rle_dec 0 8); lra).
  assert (E1 : y 1%nat 0%nat = 1) by (rewrite H2 by lia; rewrite E0; cbn [Nat.eqb]; unfold asym_step; destruct (Rle_dec 4 0); lra).
  change [[Fin 8]; [Fin 0]] with (fmat 2 1 (fun i _ => if Nat.eqb i 0 then 8 else 0)). rewrite H1.
  unfold fmat, fvec. cbn [seq map]. rewrite E0, E1. reflexivity.
Qed.

(** C69. Temporal masking: with [peak m l] the largest of lam^(m-i) * x i l, an input that
    reaches lam times the peak of the frame before passes, another one is replaced by mu
    times that peak.  Outputs are non-negative for non-negative input. *)
Theorem C69_masking : forall n c x lam mu, (0 < n)%nat -> 0 <= lam ->
  exists y peak, temporal_masking (fmat n c x) lam mu = Ok (fmat n c y) /\
    (forall m l, is_decayed_peak lam (fun i => x i l) m (peak m l)) /\
    (forall l, y 0%nat l = x 0%nat l) /\
    (forall m l, lam * peak m l <= x (S m) l -> y (S m) l = x (S m) l) /\
    (forall m l, x (S m) l < lam * peak m l -> y (S m) l = mu * peak m l) /\
    (forall m l, 0 <= mu -> (forall i, (i <= m)%nat -> 0 <= x i l) -> 0 <= y m l).
Proof.
  intros n c x lam mu Hn Hl.
  exists (fun m l => maskR lam mu (fun i => x i l) m), (fun m l => peakR lam (fun i => x i l) m).
  split; [apply mask_fmat; auto|]. split; [intros; apply peak_is; auto|]. split; [reflexivity|].
  split; [intros m l H; cbn [maskR]; destruct (Rle_dec _ _); [auto|contradiction]|].
  split; [intros m l H; cbn [maskR]; destruct (Rle_dec _ _); [lra|auto]|].
  intros. apply maskR_nonneg; auto.
Qed.
Print Assumptions C69_masking.
(** a case: a loud frame masks a quiet one *)
Example C69_example : temporal_masking [[Fin 10]; [Fin 1]] 0.85 0.2 = Ok [[Fin 10]; [Fin 2]].
Proof.
  destruct (C69_masking 2 1 (fun i _ => if Nat.eqb i 0 then 10 else 1) 0.85 0.2) as (y & pk & H1 & H2 & H3 & _ & H5 & _); [lia|lra|].
  destruct (H2 0%nat 0%nat) as [(i & Hi & Ei) _]. assert (i = 0%nat) by lia. subst i. cbn in Ei.
  change [[Fin 10]; [Fin 1]] with (fmat 2 1 (fun i _ => if Nat.eqb i 0 then 10 else 1)). rewrite H1.
  unfold fmat, fvec. cbn [seq map]. rewrite H3, (H5 0%nat 0%nat) by (cbn; rewrite Ei; lra). rewrite Ei. cbn. repeat f_equal; lra.
Qed.

(** C70. Weight smoothing: entry l is the sum of R/Q over the channels l1 .. l2-1 divided by
    l2-l1+1, one more than the number of terms. *)
Theorem C70_smoothing : forall n c r q L N, (0 < n)%nat -> (1 <= N)%nat -> (1 <= L <= c)%nat -> (c <= L + N + 1)%nat ->
  (forall m i, (m < n)%nat -> (1 <= i < L)%nat -> q m i <> 0) ->
  weight_smoothing (fmat n c r) (fmat n c q) (Z.of_nat L) (Z.of_nat N)
  = Ok (fmat n c (fun m l => let l1 := Nat.max (l - N) 1 in let l2 := Nat.min (l + N) L in
          bigsum (l2 - l1) (fun i => r m (l1 + i)%nat / q m (l1 + i)%nat) / INR (l2 - l1 + 1))).
Proof. exact smoothing_value. Qed.
Print Assumptions C70_smoothing.
(** C70. Equal matrices therefore give weights below 1. *)
Theorem C70_below_one : forall n c q L N, (0 < n)%nat -> (1 <= N)%nat -> (1 <= L <= c)%nat -> (c <= L + N + 1)%nat ->
  (forall m i, (m < n)%nat -> (1 <= i < L)%nat -> q m i <> 0) ->
  exists y, weight_smoothing (fmat n c q) (fmat n c q) (Z.of_nat L) (Z.of_nat N) = Ok (fmat n c y) /\
    forall m l, (m < n)%nat -> (l < c)%nat -> 0 <= y m l < 1.
Proof. exact smoothing_below_one. Qed.
Print Assumptions C70_below_one.
(** C70. Channel 0 is without influence, whatever it contains. *)
Theorem C70_channel_0 : forall n c r q r' q' L N, (0 < n)%nat -> (1 <= N)%nat -> (1 <= L <= c)%nat -> (c <= L + N + 1)%nat ->
  (forall m l, (m < n)%nat -> (1 <= l < c)%nat -> r m l = r' m l /\ q m l = q' m l) ->
  weight_smoothing (fmat n c r) (fmat n c q) (Z.of_nat L) (Z.of_nat N)
  = weight_smoothing (fmat n c r') (fmat n c q') (Z.of_nat L) (Z.of_nat N).
Proof. exact smoothing_channel_0. Qed.
Print Assumptions C70_channel_0.
(** C70. A channel in range in which both matrices are zero makes the weight NaN. *)
Theorem C70_nan : forall n c r q L N m l i, (0 < n)%nat -> (1 <= N)%nat -> (1 <= L <= c)%nat -> (c <= L + N + 1)%nat ->
  (m < n)%nat -> (l < c)%nat -> (Nat.max (l - N) 1 <= i < Nat.min (l + N) L)%nat -> r m i = 0 -> q m i = 0 ->
  exists M, weight_smoothing (fmat n c r) (fmat n c q) (Z.of_nat L) (Z.of_nat N) = Ok M /\ nth l (nth m M []) NaN = NaN /\
    List.length M = n /\ List.length (nth m M []) = c.
Proof. exact smoothing_nan. Qed.
Print Assumptions C70_nan.
Example C70_more_example :
  (exists y, weight_smoothing (fmat 2 5 (fun _ i => INR i + 1)) (fmat 2 5 (fun _ i => INR i + 1)) 5 4 = Ok (fmat 2 5 y) /\ 0 <= y 1%nat 3%nat < 1) /\
  weight_smoothing (fmat 2 5 (fun _ i => if Nat.eqb i 0 then 7 else 1)) (fmat 2 5 (fun _ i => INR i + 1)) 5 4
  = weight_smoothing (fmat 2 5 (fun _ _ => 1)) (fmat 2 5 (fun _ i => INR i + 1)) 5 4 /\
  (exists M, weight_smoothing (fmat 2 5 (fun _ _ => 0)) (fmat 2 5 (fun _ _ => 0)) 5 4 = Ok M /\ nth 3 (nth 1 M []) NaN = NaN).
Proof.
  split; [|split].
  - destruct (C70_below_one 2 5 (fun _ i => INR i + 1) 5 4) as (y & E & H); try lia.
    + intros m i _ _. pose proof (pos_INR i). lra.
    + exists y. split; [exact E|apply H; lia].
  - apply (C70_channel_0 2 5 _ _ _ _ 5 4); try lia. intros m l _ Hl. destruct (Nat.eqb_spec l 0); [lia|auto].
  - destruct (C70_nan 2 5 (fun _ _ => 0) (fun _ _ => 0) 5 4 1 3 2) as (M & E & H & _); try lia; auto. eauto.
Qed.
Example C70_example : exists y, weight_smoothing (fmat 2 3 (fun _ _ => 5)) (fmat 2 3 (fun _ _ => 5)) 3 4 = Ok (fmat 2 3 y) /\
  y 1%nat 0%nat = 2 / 3.
Proof.
  eexists. split.
  - apply (C70_smoothing 2 3 (fun _ _ => 5) (fun _ _ => 5) 3 4); try lia. intros. lra.
  - cbn. lra.
Qed.

(** C71. The running power of mean power normalisation is positive in every frame; the result
    is finite and non-negative, silence included. *)
Theorem C71_mean_power : forall n c T lam L k, (0 < n)%nat -> (1 <= L <= c)%nat -> 0 < lam <= 1 -> 0 <= k ->
  (forall m l, (m < n)%nat -> 0 <= T m l) ->
  exists y mu, mean_power_normalization (fmat n c T) lam (Z.of_nat L) k = Ok (fmat n c y) /\
    mu 0%nat = 0.0001 /\
    (forall m, (S m < n)%nat -> mu (S m) = lam * mu m + (1 - lam) * (bigsum L (T (S m)) / INR L)) /\
    forall m l, (m < n)%nat -> 0 < mu m /\ y m l = k * T m l / mu m /\ 0 <= y m l.
Proof. exact mean_power_finite. Qed.
Print Assumptions C71_mean_power.
Example C71_example : exists y, mean_power_normalization (fmat 3 2 (fun _ _ => 0)) 0.999 2 1 = Ok (fmat 3 2 y) /\
  y 2%nat 1%nat = 0.
Proof.
  destruct (C71_mean_power 3 2 (fun _ _ => 0) 0.999 2 1) as (y & mu & H1 & _ & _ & H4); try lia; try lra; [intros; lra|].
  exists y. split; auto. destruct (H4 2%nat 1%nat) as (_ & -> & _); [lia|]. unfold Rdiv. ring.
Qed.

(** C41 for pncc. *)
Theorem C41_shape_pncc : forall `{Env} sig a p c M, pncc sig a p c = Ok M -> (0 <= c_num_ceps c)%Z ->
  exists b, extractor_bank Gfcc a = Ok b /\
    zlen M = ((zlen sig - flen (s_fs a) (win_len (window_of a))) / flen (s_fs a) (win_hop (window_of a)) + 1)%Z /\
    Forall (fun row => List.length row = Nat.min (Z.to_nat (c_num_ceps c)) (List.length b)) M.
Proof. exact @pncc_shape. Qed.
Print Assumptions C41_shape_pncc.
(** C47 for pncc. *)
Theorem C47_nfilts_pncc : forall `{Env} sig a p c, (s_nfilts a < c_num_ceps c)%Z ->
  pncc sig a p c = Raise (ParameterError msg_nfilts).
Proof. intros E sig a p c Hc. unfold pncc. rewrite (proj2 (Z.ltb_lt _ _)) by auto. auto. Qed.
Print Assumptions C47_nfilts_pncc.
Example C41_C47_pncc_example :
  (forall M, @pncc exact_env (fvec 1000 (fun _ => 0)) default_pncc 2 default_cargs = Ok M -> exists b : list (list F), zlen M = 4%Z /\
     Forall (fun row => List.length row = Nat.min 13 (List.length b)) M) /\
  forall sig, @pncc exact_env sig default_pncc 2 (mkC 25 2 true None None) = Raise (ParameterError msg_nfilts).
Proof.
  split.
  - intros M H. destruct (@C41_shape_pncc exact_env _ _ _ _ _ H) as (b & _ & Z & Hr); [cbn; lia|]. exists b. split; [|exact Hr].
    destruct (default_framed 1000 ltac:(lia)) as (_ & EL & EH & _). rewrite Z. change (s_fs default_pncc) with (s_fs default_sargs).
    change (window_of default_pncc) with (window_of default_sargs). rewrite EL, EH. unfold zlen. rewrite fvec_length. reflexivity.
  - intros sig. apply C47_nfilts_pncc. cbn. lia.
Qed.

(** C101. pncc of a signal whose medium-time power is positive in every frame and every
    channel but the first is finite. *)
Theorem C101_finite : forall `{Env} a p c N L hop n nf B x,
  well_framed a N L hop -> (1 <= s_nfft a)%Z ->
  extractor_bank Gfcc a = Ok (fmat n (S (half (s_nfft a))) B) ->
  s_nfilts a = Z.of_nat nf -> (1 <= nf <= n)%nat -> (n <= nf + 5)%nat ->
  (forall j k, (j < n)%nat -> (k <= half (s_nfft a))%nat -> 0 <= B j k) ->
  (0 <= c_num_ceps c <= s_nfilts a)%Z -> (1 <= c_dct_type c <= 4)%Z -> (c_dct_type c = 1%Z -> (2 <= n)%nat) ->
  no_lifter c -> no_normalisation c ->
  (forall m l, (m < frame_count N L hop)%nat -> (1 <= l < nf)%nat ->
     0 < spec_medium (frame_count N L hop) 2 (fun i => band_power a p L hop B x i l) m) ->
  exists y, pncc (fvec N x) a p c = Ok (fmat (frame_count N L hop) (Nat.min (Z.to_nat (c_num_ceps c)) n) y).
Proof. intros. eexists. eapply pncc_audible; eauto. Qed.
Print Assumptions C101_finite.

(** C102. One channel (not the first) without power in five frames around frame m turns row m
    and, from the second frame on, all rows after it into NaN. *)
Theorem C102_silent_channel : forall `{Env} a p c N L hop n nf B x m l,
  well_framed a N L hop -> (1 <= s_nfft a)%Z ->
  extractor_bank Gfcc a = Ok (fmat n (S (half (s_nfft a))) B) ->
  s_nfilts a = Z.of_nat nf -> (1 <= nf <= n)%nat -> (n <= nf + 5)%nat ->
  (forall j k, (j < n)%nat -> (k <= half (s_nfft a))%nat -> 0 <= B j k) ->
  (0 <= c_num_ceps c <= s_nfilts a)%Z -> (1 <= c_dct_type c <= 4)%Z -> (c_dct_type c = 1%Z -> (2 <= n)%nat) ->
  no_lifter c -> no_normalisation c ->
  (m < frame_count N L hop)%nat -> (1 <= l < nf)%nat ->
  spec_medium (frame_count N L hop) 2 (fun i => band_power a p L hop B x i l) m = 0 ->
  exists M, pncc (fvec N x) a p c = Ok M /\ List.length M = frame_count N L hop /\
    forall i, (i < frame_count N L hop)%nat -> i = m \/ (1 <= m <= i)%nat ->
      nth i M [] = repeat NaN (Nat.min (Z.to_nat (c_num_ceps c)) n).
Proof. intros. eapply pncc_silent; eauto. Qed.
Print Assumptions C102_silent_channel.

(** C43 for pncc: silence gives NaN everywhere (two or more filters). *)
Theorem C43_pncc_silence : forall `{Env} a p c N L hop n nf B, (1 <= p)%nat ->
  well_framed a N L hop -> (1 <= s_nfft a)%Z ->
  extractor_bank Gfcc a = Ok (fmat n (S (half (s_nfft a))) B) ->
  s_nfilts a = Z.of_nat nf -> (2 <= nf <= n)%nat -> (n <= nf + 5)%nat ->
  (forall j k, (j < n)%nat -> (k <= half (s_nfft a))%nat -> 0 <= B j k) ->
  (0 <= c_num_ceps c <= s_nfilts a)%Z -> (1 <= c_dct_type c <= 4)%Z ->
  no_lifter c -> no_normalisation c ->
  pncc (fvec N (fun _ => 0)) a p c
  = Ok (repeat (repeat NaN (Nat.min (Z.to_nat (c_num_ceps c)) n)) (frame_count N L hop)).
Proof. exact @pncc_silence. Qed.
Print Assumptions C43_pncc_silence.
(** a case: the default call on 1000 zeros *)
Example C43_pncc_example : @pncc exact_env (fvec 1000 (fun _ => 0)) default_pncc 2 default_cargs = Ok (repeat (repeat NaN 13) 4).
Proof.
  destruct default_pncc_bank as (B & HB & Hp).
  apply (@C43_pncc_silence exact_env default_pncc 2 default_cargs 1000 400 160 24 24 B); auto;
    try (simpl; lia); try (left; reflexivity).
  - apply default_framed. lia.
Qed.

(** C103. Gain: every row of pncc(g x) is a multiple of the row of pncc(x).  The factor is
    |g|^(power/15) for the first row and between 1 and that for the others. *)
Theorem C103_gain : forall `{Env} a p c N L hop n nf B,
  well_framed a N L hop -> (1 <= s_nfft a)%Z ->
  extractor_bank Gfcc a = Ok (fmat n (S (half (s_nfft a))) B) ->
  s_nfilts a = Z.of_nat nf -> (1 <= nf <= n)%nat -> (n <= nf + 5)%nat ->
  (forall j k, (j < n)%nat -> (k <= half (s_nfft a))%nat -> 0 <= B j k) ->
  (0 <= c_num_ceps c <= s_nfilts a)%Z -> (1 <= c_dct_type c <= 4)%Z -> (c_dct_type c = 1%Z -> (2 <= n)%nat) ->
  no_lifter c -> no_normalisation c -> forall x g, g <> 0 ->
  (forall m l, (m < frame_count N L hop)%nat -> (1 <= l < nf)%nat ->
     0 < spec_medium (frame_count N L hop) 2 (fun i => band_power a p L hop B x i l) m) ->
  exists y s, pncc (fvec N x) a p c = Ok (fmat (frame_count N L hop) (Nat.min (Z.to_nat (c_num_ceps c)) n) y) /\
    pncc (fvec N (fun t => g * x t)) a p c
    = Ok (fmat (frame_count N L hop) (Nat.min (Z.to_nat (c_num_ceps c)) n) (fun i k => s i * y i k)) /\
    s 0%nat = Rpower (Rabs g) (INR p / 15) /\
    forall i, (i < frame_count N L hop)%nat ->
      Rmin 1 (Rpower (Rabs g) (INR p / 15)) <= s i <= Rmax 1 (Rpower (Rabs g) (INR p / 15)).
Proof. exact @pncc_gain. Qed.
Print Assumptions C103_gain.

(** C104. Row m does not depend on samples behind the end of frame m+2, nor on the length of
    the signal, as long as there are more than m+2 frames. *)
Theorem C104_lookahead : forall `{Env} a p c N1 N2 L hop n nf B x y m,
  well_framed a N1 L hop -> well_framed a N2 L hop -> (1 <= s_nfft a)%Z ->
  extractor_bank Gfcc a = Ok (fmat n (S (half (s_nfft a))) B) ->
  s_nfilts a = Z.of_nat nf -> (1 <= nf <= n)%nat -> (n <= nf + 5)%nat ->
  (0 <= c_num_ceps c <= s_nfilts a)%Z -> (1 <= c_dct_type c <= 4)%Z -> (c_dct_type c = 1%Z -> (2 <= n)%nat) ->
  no_lifter c -> no_normalisation c ->
  (m + 2 < frame_count N1 L hop)%nat -> (m + 2 < frame_count N2 L hop)%nat ->
  (forall t, (t < (m + 2) * hop + L)%nat -> x t = y t) ->
  exists M1 M2, pncc (fvec N1 x) a p c = Ok M1 /\ pncc (fvec N2 y) a p c = Ok M2 /\
    List.length M1 = frame_count N1 L hop /\ List.length M2 = frame_count N2 L hop /\
    forall i, (i <= m)%nat -> nth i M1 [] = nth i M2 [].
Proof. exact @pncc_causal. Qed.
Print Assumptions C104_lookahead.

(** C105. From the second frame on the coefficients are bounded by a number that depends on
    the number of filters only. *)
Theorem C105_bounded : forall `{Env} a p c N L hop n B,
  well_framed a N L hop -> (1 <= s_nfft a)%Z ->
  extractor_bank Gfcc a = Ok (fmat n (S (half (s_nfft a))) B) ->
  s_nfilts a = Z.of_nat n -> (1 <= n)%nat ->
  (forall j k, (j < n)%nat -> (k <= half (s_nfft a))%nat -> 0 <= B j k) ->
  (0 <= c_num_ceps c <= s_nfilts a)%Z -> (1 <= c_dct_type c <= 4)%Z -> (c_dct_type c = 1%Z -> (2 <= n)%nat) ->
  no_lifter c -> no_normalisation c -> forall x,
  (forall m l, (m < frame_count N L hop)%nat -> (1 <= l < n)%nat ->
     0 < spec_medium (frame_count N L hop) 2 (fun i => band_power a p L hop B x i l) m) ->
  exists y, pncc (fvec N x) a p c = Ok (fmat (frame_count N L hop) (Nat.min (Z.to_nat (c_num_ceps c)) n) y) /\
    forall i k, (1 <= i < frame_count N L hop)%nat -> (k < n)%nat ->
      Rabs (y i k) <= sqrt (INR n) * Rpower (1000 * INR n) (1 / 15).
Proof. intros. eapply pncc_bounded; eauto; lia. Qed.
Print Assumptions C105_bounded.

(** a case for C101, C103, C104, C105: one-sample frames, two equal filters, samples 1, 2, 3, ...;
    the power of frame m is (m+1)^2 *)
Example C101_C105_example : exists y,
  @pncc exact_env (fvec 5 (fun t => INR t + 1)) pncc_tiny 2 pncc_tiny_c = Ok (fmat 5 2 y) /\
  (forall i k, (1 <= i < 5)%nat -> (k < 2)%nat -> Rabs (y i k) <= sqrt (INR 2) * Rpower (1000 * INR 2) (1 / 15)) /\
  exists s, @pncc exact_env (fvec 5 (fun t => 3 * (INR t + 1))) pncc_tiny 2 pncc_tiny_c = Ok (fmat 5 2 (fun i k => s i * y i k)) /\
    1 <= s 3%nat <= Rpower 3 (INR 2 / 15).
Proof.
  assert (Aud : forall m l, (m < frame_count 5 1 1)%nat -> (1 <= l < 2)%nat ->
     0 < spec_medium (frame_count 5 1 1) 2 (fun i => band_power pncc_tiny 2 1 1 (fun _ _ => 1) (fun t => INR t + 1) i l) m).
  { intros m l Hm Hl. apply pncc_tiny_audible; auto. intros t. pose proof (pos_INR t). lra. }
  assert (W : @well_framed exact_env pncc_tiny 5 1 1) by (apply pncc_tiny_framed; lia).
  destruct (@C105_bounded exact_env pncc_tiny 2 pncc_tiny_c 5 1 1 2 (fun _ _ => 1)) with (x := fun t : nat => INR t + 1) as (y & H1 & H2);
    auto; try (simpl; lia); try (left; reflexivity); try (intros; lra).
  destruct (@C103_gain exact_env pncc_tiny 2 pncc_tiny_c 5 1 1 2 2 (fun _ _ => 1)) with (x := fun t : nat => INR t + 1) (g := 3)
    as (y' & s & G1 & G2 & G3 & G4); auto; try (simpl; lia); try (left; reflexivity); try (intros; lra).
  change (frame_count 5 1 1) with 5%nat in *. change (Nat.min (Z.to_nat (c_num_ceps pncc_tiny_c)) 2) with 2%nat in *.
  exists y'. split; auto. split.
  - intros i k Hi Hk. rewrite H1 in G1. apply Ok_inj in G1. rewrite <- (fmat_inj _ _ _ _ G1) by lia. auto.
  - exists s. split; auto. specialize (G4 3%nat ltac:(lia)). rewrite (Rabs_pos_eq 3) in G4 by lra.
    assert (1 <= Rpower 3 (INR 2 / 15)) by (apply pncc_tiny_rpower). unfold Rmin, Rmax in G4.
    destruct (Rle_dec 1 (Rpower 3 (INR 2 / 15))); lra.
Qed.
(** a case for C102: the same with silence in the first five frames out of seven *)
Example C102_example : exists M,
  @pncc exact_env (fvec 7 (fun t => if Nat.ltb t 5 then 0 else 1)) pncc_tiny 2 pncc_tiny_c = Ok M /\ nth 6 M [] = [NaN; NaN].
Proof.
  destruct (@C102_silent_channel exact_env pncc_tiny 2 pncc_tiny_c 7 1 1 2 2 (fun _ _ => 1)
     (fun t => if Nat.ltb t 5 then 0 else 1) 2 1) as (M & H1 & H2 & H3); auto;
    try (simpl; lia); try (left; reflexivity); try (intros; lra).
  - apply pncc_tiny_framed. lia.
  - change (frame_count 7 1 1) with 7%nat. lia.
  - unfold spec_medium. change (frame_count 7 1 1) with 7%nat.
    rewrite bigsum_zero; [unfold Rdiv; ring|]. intros i Hi. destruct (_ && _)%bool eqn:Ew; auto.
    apply andb_prop in Ew as [_ Ew]. apply Nat.leb_le in Ew. rewrite pncc_tiny_band. destruct (Nat.ltb_spec i 5); [|lia]. ring.
  - exists M. split; auto. apply (H3 6%nat); [change (frame_count 7 1 1) with 7%nat|]; lia.
Qed.
(** a case for C104: the default call on 1000 and 1400 samples *)
Example C104_example : forall x y, (forall t, (t < 880)%nat -> x t = y t) -> exists M1 M2,
  @pncc exact_env (fvec 1000 x) default_pncc 2 default_cargs = Ok M1 /\
  @pncc exact_env (fvec 1400 y) default_pncc 2 default_cargs = Ok M2 /\ nth 1 M1 [] = nth 1 M2 [].
Proof.
  intros x y Hxy. destruct default_pncc_bank as (B & HB & Hp).
  destruct (@C104_lookahead exact_env default_pncc 2 default_cargs 1000 1400 400 160 24 24 B x y 1) as (M1 & M2 & H1 & H2 & _ & _ & H3); auto;
    try (simpl; lia); try (left; reflexivity); try (apply default_framed; lia).
  - change (frame_count 1400 400 160) with 7%nat. lia.
  - exists M1, M2. auto.
Qed.

(** C106. A bank with another number of rows than nfilts: too few rows are an IndexError, six
    or more too many a ZeroDivisionError (in between the call succeeds, C102 and C104). *)
Theorem C106_small_bank : forall `{Env} a p c N L hop n nf B x,
  well_framed a N L hop -> (1 <= s_nfft a)%Z ->
  extractor_bank Gfcc a = Ok (fmat n (S (half (s_nfft a))) B) ->
  s_nfilts a = Z.of_nat nf -> (1 <= n < nf)%nat -> (c_num_ceps c <= s_nfilts a)%Z ->
  pncc (fvec N x) a p c = Raise IndexError.
Proof.
  intros E a p c N L hop n nf B x Hw Hn HB Hnf Hs Hc. rewrite (pncc_fvec a p c N L hop n B x) by (auto; lia).
  rewrite Hnf, core_index; auto. apply frame_count_pos.
Qed.
Print Assumptions C106_small_bank.
Theorem C106_large_bank : forall `{Env} a p c N L hop n nf B x,
  well_framed a N L hop -> (1 <= s_nfft a)%Z ->
  extractor_bank Gfcc a = Ok (fmat n (S (half (s_nfft a))) B) ->
  s_nfilts a = Z.of_nat nf -> (1 <= nf)%nat -> (nf + 6 <= n)%nat -> (c_num_ceps c <= s_nfilts a)%Z ->
  pncc (fvec N x) a p c = Raise ZeroDivisionError.
Proof.
  intros E a p c N L hop n nf B x Hw Hn HB Hnf Hs H6 Hc. rewrite (pncc_fvec a p c N L hop n B x) by (auto; lia).
  rewrite Hnf, core_zerodiv; auto. apply frame_count_pos.
Qed.
Print Assumptions C106_large_bank.
Example C106_large_example : forall x, @pncc exact_env (fvec 5 x) (with_fbanks pncc_tiny (fmat 8 1 (fun _ _ => 1))) 2 pncc_tiny_c = Raise ZeroDivisionError.
Proof.
  intros x. apply (@C106_large_bank exact_env _ 2 pncc_tiny_c 5 1 1 8 2 (fun _ _ => 1)); auto; try (simpl; lia).
  apply pncc_tiny_framed. lia.
Qed.
Example C106_example : forall x, @pncc exact_env (fvec 5 x) (with_fbanks pncc_tiny (fmat 1 1 (fun _ _ => 1))) 2 pncc_tiny_c = Raise IndexError.
Proof.
  intros x. apply (@C106_small_bank exact_env _ 2 pncc_tiny_c 5 1 1 1 2 (fun _ _ => 1)); try reflexivity; try (simpl; lia).
  apply (pncc_tiny_framed 5). lia.
Qed.
