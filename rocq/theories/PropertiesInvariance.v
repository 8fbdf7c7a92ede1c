(** * Property theorems: what the features do and do not depend on (C125-C132) *)
From Coq Require Import Reals ZArith List String Bool Lia Lra Permutation.
From Verif Require Import Base BaseFacts SpecBase SpecMat SpecFilters SpecBanks SpecFeatures BigSum MatFacts
  Preprocessing PreprocessingFacts MelBanks MelBanksFacts MelBanksMore Cepstral Fourier DctFacts Features Extractors
  FeaturesFacts FeaturesMore FeaturesLaws FeaturesPhase Lpc SpecLpc ExampleTools ExampleFeatures
  SpecInvariance InvarianceFacts InvarianceMore InvarianceLaws.
Import ListNotations.
Local Open Scope R_scope.

(** ** C125: recordings played backwards *)
(** When the frames cover the recording exactly and pre-emphasis is off, every extractor (with
    any lifter, energy and normalisation setting) gives the rows of the recording in reverse
    order, and raises whenever it raises on the recording. *)
Theorem C125_features : forall `{Env} e a c N L hop m x,
  well_framed a N L hop -> N = (L + m * hop)%nat -> s_pre_emph a = false -> (Z.of_nat L <= s_nfft a)%Z ->
  run e (fvec N (fun t => x (N - 1 - t)%nat)) a c = rmap (@rev _) (run e (fvec N x) a c).
Proof. exact @run_reverse. Qed.
Print Assumptions C125_features.

Theorem C125_spectrogram : forall `{Env} s a N L hop m x,
  well_framed a N L hop -> N = (L + m * hop)%nat -> s_pre_emph a = false -> (Z.of_nat L <= s_nfft a)%Z ->
  spectrogram s (fvec N (fun t => x (N - 1 - t)%nat)) a
  = rmap (fun PQ => (rev (fst PQ), rev (snd PQ))) (spectrogram s (fvec N x) a).
Proof.
  intros E s a N L hop m x H1 H2 H3 H4. rewrite (spectrogram_reverse s a N L hop m x) by auto.
  destruct (spectrogram s (fvec N x) a) as [[]|]; reflexivity.
Qed.
Print Assumptions C125_spectrogram.

(** lpc and lpcc, which use the frames before windowing: no condition on nfft *)
Theorem C125_lpc : forall `{Env} a N L hop m x order A e,
  well_framed a N L hop -> N = (L + m * hop)%nat -> s_pre_emph a = false ->
  lpc (fvec N x) (s_fs a) order (s_pre_emph a) (s_coeff a) (s_window a) = Ok (A, e) ->
  lpc (fvec N (fun t => x (N - 1 - t)%nat)) (s_fs a) order (s_pre_emph a) (s_coeff a) (s_window a) = Ok (rev A, rev e).
Proof. intros E a N L hop m x order A e H1 H2 H3. exact (lpc_reverse a N L hop m x H1 H2 H3 order A e). Qed.
Print Assumptions C125_lpc.
Theorem C125_lpcc : forall `{Env} a N L hop m x order lifter normalize M,
  well_framed a N L hop -> N = (L + m * hop)%nat -> s_pre_emph a = false ->
  lpcc (fvec N x) (s_fs a) order (s_pre_emph a) (s_coeff a) (s_window a) lifter normalize = Ok M ->
  lpcc (fvec N (fun t => x (N - 1 - t)%nat)) (s_fs a) order (s_pre_emph a) (s_coeff a) (s_window a) lifter normalize
  = Ok (rev M).
Proof. intros E a N L hop m x order lifter normalize M H1 H2 H3. exact (lpcc_reverse a N L hop m x H1 H2 H3 order lifter normalize M). Qed.
Print Assumptions C125_lpcc.

(** a case: 720 = 400 + 2 * 160 samples with the default window *)
Definition plain_sargs : sargs :=
  mkS 16000 false 0.97 None 24 512 0 None "constant" None "Oshaghnessy".
Lemma plain_framed : forall N, (400 <= N)%nat -> @well_framed exact_env plain_sargs N 400 160.
Proof. exact default_framed. Qed.
Example C125_spectrogram_example : forall x,
  @bark_spectrogram exact_env (fvec 720 (fun t => x (719 - t)%nat)) plain_sargs
  = rmap (fun PQ => (rev (fst PQ), rev (snd PQ))) (@bark_spectrogram exact_env (fvec 720 x) plain_sargs).
Proof. intros x. apply (@C125_spectrogram exact_env Bark plain_sargs 720 400 160 2 x); try reflexivity; [apply plain_framed; lia|simpl; lia]. Qed.
Example C125_example : forall x,
  @mfcc exact_env (fvec 720 (fun t => x (719 - t)%nat)) plain_sargs default_cargs
  = rmap (@rev _) (@mfcc exact_env (fvec 720 x) plain_sargs default_cargs).
Proof.
  intros x. apply (@C125_features exact_env Mfcc plain_sargs default_cargs 720 400 160 2 x);
    try reflexivity; [apply plain_framed; lia|simpl; lia].
Qed.

(** With pre-emphasis the statement is false: two frames of one sample. *)
Theorem C125_pre_emphasis_refuted : exists x,
  @well_framed exact_env (tiny 1) 2 1 1 /\ (Z.of_nat 1 <= s_nfft (tiny 1))%Z /\
  @mel_spectrogram exact_env (fvec 2 (fun t => x (2 - 1 - t)%nat)) (tiny 1)
  <> rmap (fun PQ => (rev (fst PQ), rev (snd PQ))) (@mel_spectrogram exact_env (fvec 2 x) (tiny 1)).
Proof.
  exists (fun t => if Nat.eqb t 0 then 1 else 0). split; [apply tiny_framed; reflexivity|]. split; [simpl; lia|].
  change (@mel_spectrogram exact_env) with (@spectrogram exact_env Mel). intros Heq.
  rewrite !(@spectrogram_fvec exact_env Mel (tiny 1) 2 1 1 1 (fun _ _ => 1)) in Heq
    by (auto using (@tiny_framed exact_env); simpl; lia).
  cbn [rmap fst snd] in Heq. apply Ok_inj in Heq. apply (f_equal (fun p => nth 0 (nth 0 (fst p) []) NaN)) in Heq.
  cbn [fst] in Heq. change (frame_count 2 1 1) with 2%nat in Heq. rewrite rev_nth in Heq by (rewrite fmat_length; lia).
  rewrite fmat_length in Heq. rewrite !fmat_nth, !fvec_nth in Heq by lia.
  change (half (s_nfft (tiny 1))) with 0%nat in Heq. change (Z.to_nat (s_nfft (tiny 1))) with 1%nat in Heq.
  change (spectro_coeff Mel (tiny 1)) with 1 in Heq. rewrite !(tiny_band 1) in Heq. inversion Heq as [H0].
  cbn in H0. lra.
Qed.
Print Assumptions C125_pre_emphasis_refuted.

(** ** C126: the hop only selects rows *)
(** Rows of two calls that differ in the hop are equal when their frames start at the same sample. *)
Theorem C126_same_start : forall `{Env} e sig a h c M M2 i i2, run e sig a c = Ok M -> run e sig (with_hop a h) c = Ok M2 ->
  no_normalisation c -> (i < List.length M)%nat -> (i2 < List.length M2)%nat ->
  (Z.of_nat i * hop_samples a = Z.of_nat i2 * hop_samples (with_hop a h))%Z ->
  nth i M [] = nth i2 M2 [].
Proof. exact @run_hop. Qed.
Print Assumptions C126_same_start.
(** So a hop k times as long keeps rows 0, k, 2k, ... and nothing else. *)
Theorem C126_every_kth : forall `{Env} e sig a h c M M2 k, run e sig a c = Ok M -> run e sig (with_hop a h) c = Ok M2 ->
  no_normalisation c -> (0 <= c_num_ceps c)%Z -> (0 < k)%nat -> (0 < hop_samples a)%Z ->
  (hop_samples (with_hop a h) = Z.of_nat k * hop_samples a)%Z ->
  List.length M2 = ((List.length M - 1) / k + 1)%nat /\
  forall i, (i < List.length M2)%nat -> nth i M2 [] = nth (k * i) M [].
Proof.
  intros E e sig a h c M M2 k H1 H2 Hn Hc Hk Hp Hh.
  pose proof (run_hop_count e sig a h c M M2 k H1 H2 Hn Hc Hk Hp Hh) as Hl. split; [exact Hl|].
  intros i Hi. symmetry. eapply run_hop; eauto.
  - rewrite Hl in Hi. assert (0 < List.length M)%nat.
    { destruct (List.length M) eqn:EM; [|lia]. exfalso.
      destruct (run_framed _ _ _ _ _ H1) as (fr & ws & F1 & _ & K1). specialize (K1 Hn).
      apply run_rows in H1 as (b & fr1 & ws1 & M0 & _ & _ & _ & _ & F1' & Hw & _). rewrite F1 in F1'. inversion F1'; subst. lia. }
    assert (i <= (List.length M - 1) / k)%nat by lia.
    pose proof (Nat.mul_div_le (List.length M - 1) k ltac:(lia)). nia.
  - rewrite Hh. rewrite Nat2Z.inj_mul. ring.
Qed.
Print Assumptions C126_every_kth.
(** a case: hop of 320 instead of 160 samples *)
Example C126_example : forall x, exists M M2,
  @mfcc exact_env (fvec 1000 x) default_sargs default_cargs = Ok M /\
  @mfcc exact_env (fvec 1000 x) (with_hop default_sargs 0.02) default_cargs = Ok M2 /\
  List.length M = 4%nat /\ List.length M2 = 2%nat /\ nth 1 M2 [] = nth 2 M [].
Proof.
  intros x.
  assert (W2 : @well_framed exact_env (with_hop default_sargs 0.02) 1000 400 320).
  { unfold well_framed, with_hop, window_of, default_sargs, default_window. cbn [s_window s_fs win_len win_hop win_type].
    split; [lra|]. split; [apply flen_exact; simpl; lra|]. split; [apply flen_exact; simpl; lra|]. split; [apply Nat.lt_0_succ|]. split; [lia|]. simpl; tauto. }
  destruct (valid_band_bank Mfcc default_sargs 24 default_band eq_refl ltac:(simpl; lia)) as (B & HB & Hp).
  destruct (@run_finite exact_env Mfcc default_sargs default_cargs 1000 400 160 24 B x) as [y Hy]; auto;
    try (simpl; lia); try (left; reflexivity); try exact I.
  { apply default_framed. lia. }
  { intros. apply log_compressible; auto. apply spec_band_nonneg; [simpl; lia|]. intros. apply Hp; [lia|]. simpl in *. lia. }
  destruct (@run_finite exact_env Mfcc (with_hop default_sargs 0.02) default_cargs 1000 400 320 24 B x) as [y2 Hy2]; auto;
    try (simpl; lia); try (left; reflexivity); try exact I.
  { intros. apply log_compressible; auto. apply spec_band_nonneg; [simpl; lia|]. intros. apply Hp; [lia|]. simpl in *. lia. }
  eexists _, _. split; [exact Hy|]. split; [exact Hy2|]. rewrite !fmat_length. split; [reflexivity|]. split; [reflexivity|].
  apply (@C126_every_kth exact_env Mfcc (fvec 1000 x) default_sargs 0.02 default_cargs _ _ 2 Hy Hy2);
    try (left; reflexivity); try (simpl; lia).
  - unfold hop_samples. change (flen (s_fs default_sargs) (win_hop (window_of default_sargs))) with (@flen exact_env 16000 0.010).
    rewrite (flen_exact 16000 0.010 160) by (simpl; lra). lia.
  - unfold hop_samples. change (flen (s_fs default_sargs) (win_hop (window_of default_sargs))) with (@flen exact_env 16000 0.010).
    change (flen (s_fs (with_hop default_sargs 0.02)) (win_hop (window_of (with_hop default_sargs 0.02)))) with (@flen exact_env 16000 0.02).
    rewrite (flen_exact 16000 0.010 160), (flen_exact 16000 0.02 320) by (simpl; lra). reflexivity.
Qed.

(** ** C127: one invalid sample *)
(** Every number of every row whose frame contains a NaN sample (among its first nfft samples) is
    NaN; with a normalisation every number of the whole result is NaN. *)
Theorem C127_row : forall `{Env} e sig a c b M i t, run e sig a c = Ok M -> extractor_bank e a = Ok b ->
  Forall (fun r => r <> []) b -> e <> Msrcc 0 -> sees a i t -> (i < List.length M)%nat ->
  (t < List.length sig)%nat -> nth t sig (Fin 0) = NaN ->
  all_nan (nth i M []).
Proof. intros E e sig a c b M i t H1 H2 H3 H4 H5 H6 H7 H8. exact (proj1 (run_nan_row e sig a c b M i t H1 H2 H3 H4 H5 H6 H7 H8)). Qed.
Print Assumptions C127_row.
Theorem C127_normalised : forall `{Env} e sig a c b M i t, run e sig a c = Ok M -> extractor_bank e a = Ok b ->
  Forall (fun r => r <> []) b -> e <> Msrcc 0 -> sees a i t -> (i < List.length M)%nat ->
  (t < List.length sig)%nat -> nth t sig (Fin 0) = NaN -> ~ no_normalisation c ->
  Forall all_nan M.
Proof. intros E e sig a c b M i t H1 H2 H3 H4 H5 H6 H7 H8. exact (proj2 (run_nan_row e sig a c b M i t H1 H2 H3 H4 H5 H6 H7 H8)). Qed.
Print Assumptions C127_normalised.
(** No sample value makes an extractor raise: whether a call succeeds depends on the length only. *)
Theorem C127_no_exception : forall `{Env} e sig a c N L hop b n, well_framed a N L hop -> List.length sig = N -> (1 <= s_nfft a)%Z ->
  extractor_bank e a = Ok b -> has_shape b n (S (half (s_nfft a))) -> (0 < n)%nat ->
  (1 <= c_num_ceps c <= s_nfilts a)%Z -> (1 <= c_dct_type c <= 4)%Z -> (c_dct_type c = 1%Z -> (2 <= n)%nat) ->
  (forall t, c_normalize c = Some t -> In t [""; "mvn"; "ms"; "vn"; "mn"]%string) ->
  exists M, run e sig a c = Ok M.
Proof. exact @run_total. Qed.
Print Assumptions C127_no_exception.
(** a case: two frames of one sample, the second sample NaN; mean subtraction *)
Example C127_example : exists M, @mfcc exact_env [Fin 1; NaN] (tiny 0) (mkC 1 2 false None (Some "ms"%string)) = Ok M /\
  List.length M = 2%nat /\ Forall all_nan M.
Proof.
  assert (Hf : @flen exact_env 1 1 = 1%Z) by (apply flen_exact; lra).
  assert (Hs : @sees exact_env (tiny 0) 1 1).
  { unfold sees, hop_samples. change (flen (s_fs (tiny 0)) (win_hop (window_of (tiny 0)))) with (@flen exact_env 1 1).
    change (flen (s_fs (tiny 0)) (win_len (window_of (tiny 0)))) with (@flen exact_env 1 1). rewrite Hf. simpl. lia. }
  destruct (@C127_no_exception exact_env Mfcc [Fin 1; NaN] (tiny 0) (mkC 1 2 false None (Some "ms"%string)) 2 1 1 [[f1]] 1)
    as [M HM]; try reflexivity; try (simpl; lia).
  { apply tiny_framed. reflexivity. }
  { split; [reflexivity|]. repeat constructor. }
  { cbn. intros t Ht. inversion Ht. auto. }
  assert (Hl : List.length M = 2%nat).
  { destruct (@run_shape exact_env _ _ _ _ _ HM ltac:(simpl; lia)) as (b & _ & Hz & _).
    change (flen (s_fs (tiny 0)) (win_hop (window_of (tiny 0)))) with (@flen exact_env 1 1) in Hz.
    change (flen (s_fs (tiny 0)) (win_len (window_of (tiny 0)))) with (@flen exact_env 1 1) in Hz. rewrite Hf in Hz.
    change (zlen [Fin 1; NaN]) with 2%Z in Hz. unfold zlen in Hz. change ((2 - 1) / 1 + 1)%Z with 2%Z in Hz. lia. }
  exists M. split; [exact HM|]. split; [exact Hl|].
  apply (@C127_normalised exact_env Mfcc [Fin 1; NaN] (tiny 0) (mkC 1 2 false None (Some "ms"%string)) [[f1]] M 1 1 HM); auto.
  - constructor; [discriminate|constructor].
  - discriminate.
  - lia.
  - intros [H|H]; discriminate.
Qed.

(** ** C128: band edges *)
(** The matrix of linear_filter_banks is the same for every band: entry (j, k) is a triangle in
    j, k, nfilts and nfft alone. *)
Theorem C128_linear_bank : forall n nfft fs low high scale, In scale scale_names -> usable_band fs low high -> (0 <= nfft)%Z ->
  exists c, linear_filter_banks (Z.of_nat n) nfft fs low high scale
  = Ok (fmat n (S (half nfft)) (fun j k => spec_scale scale n j * tent (INR k / INR (half nfft) * INR (n + 1) - INR j)), c).
Proof. exact lin_bank_any_band. Qed.
Print Assumptions C128_linear_bank.
(** So low_freq and high_freq have no effect on lfcc and linear_spectrogram. *)
Theorem C128_lfcc : forall `{Env} sig a c low high n, s_fbanks a = None -> In (s_scale a) scale_names -> s_nfilts a = Z.of_nat n ->
  (0 <= s_nfft a)%Z -> usable_band (s_fs a) (s_low a) (s_high a) -> usable_band (s_fs a) low high ->
  linear_spectrogram sig (with_band a low high) = linear_spectrogram sig a /\
  lfcc sig (with_band a low high) c = lfcc sig a c.
Proof. exact @lfcc_band. Qed.
Print Assumptions C128_lfcc.
(** a case: the telephone band 300-3400 Hz gives the same lfcc as the full band *)
Example C128_example : forall sig c,
  @lfcc exact_env sig (with_band default_sargs 300 (Some 3400)) c = @lfcc exact_env sig default_sargs c.
Proof.
  intros sig c. apply (@C128_lfcc exact_env sig default_sargs c 300 (Some 3400) 24); try reflexivity; try (simpl; lia); try (simpl; tauto).
  - exists 8000. split; [right; simpl; split; auto; lra|]. simpl. lra.
  - exists 3400. split; [left; split; auto; lra|]. simpl. lra.
Qed.
(** The mel bank does depend on the band. *)
Theorem C128_mel_band_matters : forall q q2, 1 < q -> 1 < q2 -> q <> q2 ->
  let h := 700 * (q * q - 1) in let h2 := 700 * (q2 * q2 - 1) in
  forall fs, h <= IZR fs / 2 -> h2 <= IZR fs / 2 ->
  exists B B2, mel_filter_banks 1 4 fs 0 (Some h) "constant" "Oshaghnessy" = Ok B /\
    mel_filter_banks 1 4 fs 0 (Some h2) "constant" "Oshaghnessy" = Ok B2 /\ fst B <> fst B2.
Proof.
  intros q q2 Hq Hq2 Hne h h2 fs H1 H2.
  assert (Hh : 0 < h) by (unfold h; nra). assert (Hh2 : 0 < h2) by (unfold h2; nra).
  assert (E1 : or_half (Some h) fs = h) by (unfold or_half; destruct (Req_EM_T h 0); [lra|auto]).
  assert (E2 : or_half (Some h2) fs = h2) by (unfold or_half; destruct (Req_EM_T h2 0); [lra|auto]).
  assert (So : spec_mel_scale "Oshaghnessy" oshaghnessy) by (left; auto).
  do 2 eexists. split; [|split].
  - apply (mel_bank_eq 1 4 fs 0 (Some h) "constant" "Oshaghnessy" oshaghnessy); rewrite ?E1; auto; try lra; try lia. simpl; tauto.
  - apply (mel_bank_eq 1 4 fs 0 (Some h2) "constant" "Oshaghnessy" oshaghnessy); rewrite ?E2; auto; try lra; try lia. simpl; tauto.
  - cbn [fst]. rewrite E1, E2. intros Heq. pose proof (fmat_inj _ _ _ _ Heq 0%nat 1%nat ltac:(lia) ltac:(cbn; lia)) as V.
    change (half 4) with 2%nat in V. unfold h, h2 in V. rewrite !mel_mid in V by auto.
    apply Hne. apply (f_equal (fun v => v * (2 * q * q2))) in V.
    replace ((q + 1) / (2 * q) * (2 * q * q2)) with (q * q2 + q2) in V by (field; lra).
    replace ((q2 + 1) / (2 * q2) * (2 * q * q2)) with (q * q2 + q) in V by (field; lra). lra.
Qed.
Print Assumptions C128_mel_band_matters.
Example C128_mel_example : exists B B2, mel_filter_banks 1 4 16000 0 (Some (700 * (2 * 2 - 1))) "constant" "Oshaghnessy" = Ok B /\
    mel_filter_banks 1 4 16000 0 (Some (700 * (3 * 3 - 1))) "constant" "Oshaghnessy" = Ok B2 /\ fst B <> fst B2.
Proof. apply C128_mel_band_matters; lra. Qed.
(** But once high_freq is given, the sampling rate has no effect on the mel and inverse mel banks. *)
Theorem C128_mel_sampling_rate : forall nfilts nfft fs fs2 low h scale approach, h <> 0 -> h <= IZR fs / 2 -> h <= IZR fs2 / 2 ->
  mel_filter_banks nfilts nfft fs low (Some h) scale approach = mel_filter_banks nfilts nfft fs2 low (Some h) scale approach /\
  inverse_mel_filter_banks nfilts nfft fs low (Some h) scale approach
  = inverse_mel_filter_banks nfilts nfft fs2 low (Some h) scale approach.
Proof. exact mel_bank_fs. Qed.
Print Assumptions C128_mel_sampling_rate.
Example C128_rate_example : mel_filter_banks 24 512 8000 0 (Some 4000) "constant" "Oshaghnessy"
  = mel_filter_banks 24 512 44100 0 (Some 4000) "constant" "Oshaghnessy".
Proof. apply (C128_mel_sampling_rate 24 512 8000 44100 0 4000); lra. Qed.

(** ** C129: silence counts as louder than a faint sound *)
Theorem C129_faint_below_silence : forall `{Env} e a c N L hop n B x, In e [Mfcc; Imfcc; Lfcc; Ngcc] ->
  well_framed a N L hop -> (1 <= s_nfft a)%Z -> (0 < n)%nat ->
  extractor_bank e a = Ok (fmat n (S (half (s_nfft a))) B) ->
  (forall i j, (i < frame_count N L hop)%nat -> (j < n)%nat ->
     0 < spec_band (half (s_nfft a)) (Z.to_nat (s_nfft a)) L (frame_of a (extractor_coeff e a) L hop x i) (B j)) ->
  (0 < c_num_ceps c <= s_nfilts a)%Z -> c_dct_type c = 2%Z -> c_use_energy c = false ->
  no_lifter c -> no_normalisation c ->
  exists g0, 0 < g0 /\ forall g, 0 < Rabs g < g0 ->
  exists y z, run e (fvec N (fun t => g * x t)) a c = Ok (fmat (frame_count N L hop) (Nat.min (Z.to_nat (c_num_ceps c)) n) y) /\
    run e (fvec N (fun _ => 0)) a c = Ok (fmat (frame_count N L hop) (Nat.min (Z.to_nat (c_num_ceps c)) n) z) /\
    forall i, (i < frame_count N L hop)%nat -> y i 0%nat < z i 0%nat.
Proof. exact @run_faint. Qed.
Print Assumptions C129_faint_below_silence.
Example C129_example : exists g0, 0 < g0 /\ forall g, 0 < Rabs g < g0 -> exists y z,
  @mfcc exact_env (fvec 2 (fun t => g * tiny_x 2 1 t)) (tiny 1) tiny_c = Ok (fmat 2 1 y) /\
  @mfcc exact_env (fvec 2 (fun _ => 0)) (tiny 1) tiny_c = Ok (fmat 2 1 z) /\ forall i, (i < 2)%nat -> y i 0%nat < z i 0%nat.
Proof.
  apply (@C129_faint_below_silence exact_env Mfcc (tiny 1) tiny_c 2 1 1 1 (fun _ _ => 1) (tiny_x 2 1)); auto;
    try (simpl; lia); try (apply or_introl; reflexivity).
  - apply tiny_framed. reflexivity.
  - intros i j Hi _. change (half (s_nfft (tiny 1))) with 0%nat. change (Z.to_nat (s_nfft (tiny 1))) with 1%nat.
    rewrite (tiny_band 1). change (frame_count 2 1 1) with 2%nat in Hi.
    destruct i as [|[|i]]; [| |lia]; cbn [spec_pre tiny_x]; replace (2 - 1) with 1 by ring; rewrite Rinv_1; lra.
Qed.

(** ** C130: distances between feature rows *)
(** The distance of two rows of cepstra never exceeds the distance of the compressed band
    energies, and equals it when all coefficients are kept. *)
Theorem C130_distance : forall `{Env} e a c N L hop n B x x2,
  well_framed a N L hop -> (1 <= s_nfft a)%Z -> (0 < n)%nat ->
  extractor_bank e a = Ok (fmat n (S (half (s_nfft a))) B) ->
  let band z i j := spec_band (half (s_nfft a)) (Z.to_nat (s_nfft a)) L (frame_of a (extractor_coeff e a) L hop z i) (B j) in
  (forall i j, (i < frame_count N L hop)%nat -> (j < n)%nat -> compressible e (band x i j) /\ compressible e (band x2 i j)) ->
  (0 <= c_num_ceps c <= s_nfilts a)%Z ->
  (1 <= c_dct_type c <= 4)%Z -> (c_dct_type c = 1%Z -> (2 <= n)%nat) ->
  c_use_energy c = false -> no_lifter c -> no_normalisation c ->
  let K := Nat.min (Z.to_nat (c_num_ceps c)) n in
  exists y y2, run e (fvec N x) a c = Ok (fmat (frame_count N L hop) K y) /\
    run e (fvec N x2) a c = Ok (fmat (frame_count N L hop) K y2) /\
    forall i i2, 
      let d := sqdist n (fun j => compression e (band x i j)) (fun j => compression e (band x2 i2 j)) in
      sqdist K (y i) (y2 i2) <= d /\ (Z.of_nat n <= c_num_ceps c -> sqdist K (y i) (y2 i2) = d)%Z.
Proof. exact @run_distance. Qed.
Print Assumptions C130_distance.
(** With all coefficients, two rows are equal exactly when all compressed band energies are. *)
Theorem C130_injective : forall `{Env} e a c N L hop n B x x2,
  well_framed a N L hop -> (1 <= s_nfft a)%Z -> (0 < n)%nat ->
  extractor_bank e a = Ok (fmat n (S (half (s_nfft a))) B) ->
  let band z i j := spec_band (half (s_nfft a)) (Z.to_nat (s_nfft a)) L (frame_of a (extractor_coeff e a) L hop z i) (B j) in
  (forall i j, (i < frame_count N L hop)%nat -> (j < n)%nat -> compressible e (band x i j) /\ compressible e (band x2 i j)) ->
  (Z.of_nat n <= c_num_ceps c <= s_nfilts a)%Z ->
  (1 <= c_dct_type c <= 4)%Z -> (c_dct_type c = 1%Z -> (2 <= n)%nat) ->
  c_use_energy c = false -> no_lifter c -> no_normalisation c ->
  exists M M2, run e (fvec N x) a c = Ok M /\ run e (fvec N x2) a c = Ok M2 /\
    forall i i2, (i < frame_count N L hop)%nat -> (i2 < frame_count N L hop)%nat ->
      nth i M [] = nth i2 M2 [] <-> forall j, (j < n)%nat -> compression e (band x i j) = compression e (band x2 i2 j).
Proof.
  intros E e a c N L hop n B x x2 Hw Hn Hn0 HB band Hc Hnc Ht H1 Hu Hl Hnm.
  destruct (run_distance e a c N L hop n B x x2 Hw Hn Hn0 HB Hc ltac:(lia) Ht H1 Hu Hl Hnm) as (y & y2 & Y1 & Y2 & D).
  do 2 eexists. split; [exact Y1|]. split; [exact Y2|]. intros i i2 Hi Hi2.
  destruct (D i i2) as [_ De]. specialize (De ltac:(lia)).
  pose proof (sqdist_zero n (fun j => compression e (band x i j)) (fun j => compression e (band x2 i2 j))) as Z2.
  cbv beta in Z2. unfold band in Z2. rewrite <- De in Z2. rewrite sqdist_zero in Z2. unfold band. rewrite <- Z2.
  rewrite !fmat_nth by auto. split.
  - intros Heq k Hk. apply (f_equal (fun r => nth k r NaN)) in Heq. rewrite !fvec_nth in Heq by auto. congruence.
  - intros Hk. apply fvec_ext. auto.
Qed.
Print Assumptions C130_injective.
(** a case: default mfcc with 24 coefficients of any two recordings *)
Example C130_example : forall x x2, exists M M2 (E1 E2 : nat -> nat -> R),
  @mfcc exact_env (fvec 1000 x) default_sargs (mkC 24 2 false None None) = Ok M /\
  @mfcc exact_env (fvec 1000 x2) default_sargs (mkC 24 2 false None None) = Ok M2 /\
  forall i i2, (i < 4)%nat -> (i2 < 4)%nat -> nth i M [] = nth i2 M2 [] <-> forall j, (j < 24)%nat -> E1 i j = E2 i2 j.
Proof.
  intros x x2. destruct (valid_band_bank Mfcc default_sargs 24 default_band eq_refl ltac:(simpl; lia)) as (B & HB & Hp).
  destruct (@C130_injective exact_env Mfcc default_sargs (mkC 24 2 false None None) 1000 400 160 24 B x x2) as (M & M2 & R1 & R2 & R3);
    auto; try (simpl; lia); try (left; reflexivity).
  - apply default_framed. lia.
  - intros i j Hi Hj. split; apply log_compressible; auto; apply spec_band_nonneg; try (simpl; lia); intros; apply Hp; auto; simpl in *; lia.
  - do 4 eexists. split; [exact R1|]. split; [exact R2|]. exact R3.
Qed.

(** ** C131: zero padding *)
(** With m times the Fourier points, a frame that fits keeps its magnitudes: bin k is found at bin m k. *)
Theorem C131_zero_padding : forall `{Env} s a N L hop n n' B B' x m,
  well_framed a N L hop -> (1 <= s_nfft a)%Z -> (0 < m)%nat -> (Z.of_nat L <= s_nfft a)%Z -> (0 < n)%nat -> (0 < n')%nat ->
  spectro_bank s a = Ok (fmat n (S (half (s_nfft a))) B) ->
  spectro_bank s (with_nfft a (Z.of_nat m * s_nfft a)) = Ok (fmat n' (S (half (Z.of_nat m * s_nfft a))) B') ->
  exists P Q P' Q',
    spectrogram s (fvec N x) a = Ok (fmat (frame_count N L hop) n P, fmat (frame_count N L hop) (S (half (s_nfft a))) Q) /\
    spectrogram s (fvec N x) (with_nfft a (Z.of_nat m * s_nfft a))
    = Ok (fmat (frame_count N L hop) n' P', fmat (frame_count N L hop) (S (half (Z.of_nat m * s_nfft a))) Q') /\
    forall i k, (i < frame_count N L hop)%nat -> (k <= half (s_nfft a))%nat ->
      (m * k <= half (Z.of_nat m * s_nfft a))%nat /\ Q' i (m * k)%nat = Q i k.
Proof. exact @spectrogram_pad. Qed.
Print Assumptions C131_zero_padding.
Example C131_example : forall x, exists P Q P' Q',
  @mel_spectrogram exact_env (fvec 1000 x) default_sargs = Ok (fmat 4 24 P, fmat 4 257 Q) /\
  @mel_spectrogram exact_env (fvec 1000 x) (with_nfft default_sargs 1024) = Ok (fmat 4 24 P', fmat 4 513 Q') /\
  forall i k, (i < 4)%nat -> (k <= 256)%nat -> Q' i (2 * k)%nat = Q i k.
Proof.
  intros x. destruct (valid_band_bank Mfcc default_sargs 24 default_band eq_refl ltac:(simpl; lia)) as (B & HB & _).
  destruct (@valid_band_bank exact_env Mfcc (with_nfft default_sargs 1024) 24 default_band eq_refl ltac:(simpl; lia)) as (B' & HB' & _).
  destruct (@C131_zero_padding exact_env Mel default_sargs 1000 400 160 24 24 B B' x 2) as (P & Q & P' & Q' & H1 & H2 & H3);
    auto; try (simpl; lia).
  - apply default_framed. lia.
  - exists P, Q, P', Q'. split; [exact H1|]. split; [exact H2|]. intros i k Hi Hk. apply H3; auto.
Qed.

(** ** C132: normalisation treats the rows as a bag *)
(** Permuting the rows before normalize_ceps permutes them afterwards: a row is mapped to the
    same values wherever it stands, and equal rows stay equal. *)
Theorem C132_rows_as_bag : forall m m2 r c t M, has_shape m r c -> Permutation m m2 -> normalize_ceps m t = Ok M ->
  exists M2, normalize_ceps m2 t = Ok M2 /\ Permutation M M2 /\
    forall i i2, (i < r)%nat -> (i2 < r)%nat -> nth i m [] = nth i2 m2 [] -> nth i M [] = nth i2 M2 [].
Proof.
  intros m m2 r c t M Hs Hp HM. destruct (normalize_perm m m2 r c t Hs Hp) as [(e & E1 & _)|(g & E1 & E2)]; [congruence|].
  rewrite HM in E1. inversion E1; subst M. exists (map g m2). split; [exact E2|]. split; [apply Permutation_map; auto|].
  intros i i2 Hi Hi2 Hn. destruct Hs as [Hs _]. pose proof (Permutation_length Hp).
  rewrite !nth_map with (d := []) by lia. rewrite Hn. reflexivity.
Qed.
Print Assumptions C132_rows_as_bag.
Example C132_example : forall u v w t M, normalize_ceps [[Fin u]; [Fin v]; [Fin w]] t = Ok M ->
  exists M2, normalize_ceps [[Fin w]; [Fin u]; [Fin v]] t = Ok M2 /\ nth 0 M [] = nth 1 M2 [].
Proof.
  intros u v w t M HM. destruct (fun p q => C132_rows_as_bag [[Fin u]; [Fin v]; [Fin w]] [[Fin w]; [Fin u]; [Fin v]] 3 1 t M p q HM) as (M2 & H1 & _ & H2).
  - split; [reflexivity|]. repeat constructor.
  - apply Permutation_sym. apply (Permutation_cons_append [[Fin u]; [Fin v]] [Fin w]).
  - exists M2. split; [exact H1|]. apply H2; [lia|lia|reflexivity].
Qed.
