(** * C169: only ratios to the sampling rate matter *)
From Coq Require Import Reals ZArith List String Bool Lia Lra.
From Flocq Require Import Core.
From Verif Require Import Base BaseFacts SpecBase SpecMat MatFacts SpecFilters SpecBanks SpecFeatures Preprocessing Converters MelBanks MelBanksFacts MelBanksMore
  Features Extractors Lpc Yin Dominant Butter Cqt SpFeats SpecUnits UnitsFacts PropertiesMelBanks.
Import ListNotations.
Local Open Scope R_scope.

(** C169. The same samples read with another sampling rate, with frequencies multiplied and durations divided by the
    same factor l.  All equalities are between results, exceptions included. *)

(** the linear bank is the same; its centre frequencies are multiplied by l *)
Theorem C169_linear_bank : forall l nfilts nfft fs fs2 lo lo2 h h2 s, faster l fs fs2 -> lo2 = l * lo -> freq_scaled l h h2 ->
  linear_filter_banks nfilts nfft fs2 lo2 h2 s = rmap (fun bc => (fst bc, map (times l) (snd bc))) (linear_filter_banks nfilts nfft fs lo h s).
Proof. exact bank_units. Qed.
Print Assumptions C169_linear_bank.
Example C169_linear_bank_example : exists c, linear_filter_banks 1 4 44100 0 None "constant" = Ok ([[Fin 0; Fin 1; Fin 0]], c).
Proof.
  destruct C17_example as (c & E). exists (map (times (44100 / 16000)) c).
  rewrite (C169_linear_bank (44100 / 16000) 1 4 16000 44100 0 0 None None "constant") by (try split; try lra; exact I). rewrite E. reflexivity.
Qed.

(** linear_spectrogram and lfcc return the same values; with a bank of the caller so do all spectrograms and cepstra *)
Theorem C169_spectrogram : forall (E : Env) l a a2, same_but_units l a a2 -> forall s sig, s = Linear \/ s_fbanks a <> None ->
  @spectrogram E s sig a2 = @spectrogram E s sig a.
Proof. exact @spectrogram_units. Qed.
Print Assumptions C169_spectrogram.
Theorem C169_cepstra : forall (E : Env) l a a2, same_but_units l a a2 -> forall e sig c, e = Lfcc \/ s_fbanks a <> None ->
  @run E e sig a2 c = @run E e sig a c.
Proof. exact @run_units. Qed.
Print Assumptions C169_cepstra.
Theorem C169_psrcc : forall (E : Env) l a a2, same_but_units l a a2 -> forall sig g c, s_fbanks a <> None ->
  @psrcc E sig a2 g c = @psrcc E sig a g c.
Proof. exact @psrcc_units. Qed.
Print Assumptions C169_psrcc.

(** 8 kHz with windows of 50 ms every 20 ms, 16 kHz with the default window *)
Definition slow_args (b : option (list (list F))) : sargs :=
  mkS 8000 true 0.97 (Some (mkWindow 0.05 0.02 "hamming")) 24 512 100 (Some 3500) "constant" b "Oshaghnessy".
Definition fast_args (b : option (list (list F))) : sargs :=
  mkS 16000 true 0.97 None 24 512 200 (Some 7000) "constant" b "Oshaghnessy".
Example C169_units_example : forall b, same_but_units 2 (slow_args b) (fast_args b).
Proof. intros b. repeat split; cbn; lra. Qed.
Example C169_spectrogram_example : forall (E : Env) sig, @linear_spectrogram E sig (fast_args None) = @linear_spectrogram E sig (slow_args None).
Proof. intros E sig. exact (@C169_spectrogram E 2 _ _ (C169_units_example None) Linear sig (or_introl eq_refl)). Qed.
Example C169_cepstra_example : forall (E : Env) sig c b, @lfcc E sig (fast_args None) c = @lfcc E sig (slow_args None) c /\
  @mfcc E sig (fast_args (Some b)) c = @mfcc E sig (slow_args (Some b)) c.
Proof.
  intros E sig c b. split.
  - exact (@C169_cepstra E 2 _ _ (C169_units_example None) Lfcc sig c (or_introl eq_refl)).
  - apply (@C169_cepstra E 2 _ _ (C169_units_example (Some b)) Mfcc sig c). right. discriminate.
Qed.
Example C169_psrcc_example : forall (E : Env) sig c b, @psrcc E sig (fast_args (Some b)) (1 / 2) c = @psrcc E sig (slow_args (Some b)) (1 / 2) c.
Proof. intros E sig c b. apply (@C169_psrcc E 2 _ _ (C169_units_example (Some b))). discriminate. Qed.

(** with the mel bank of the library this is false: the mel scale has a unit *)
Lemma mel_middle : forall fs h, spec_high None fs h -> 0 < h -> exists c,
  mel_filter_banks 1 4 fs 0 None "constant" "Oshaghnessy" = Ok (fmat 1 3 (fun j k => spec_bank oshaghnessy 0 h 1 2 "constant" j k), c) /\
  spec_bank oshaghnessy 0 h 1 2 "constant" 0 1 = h / 2 / (h - 700 * (sqrt (1 + h / 700) - 1)).
Proof.
  intros fs h Hh H0.
  assert (E2 : h = IZR fs / 2) by (destruct Hh as [[K _]|[_ K]]; [discriminate|exact K]).
  destruct (C17_mel_triangles 1 4 fs 0 None h "constant" "Oshaghnessy" oshaghnessy) as ((c & E) & _ & P0 & P2 & _);
    try lra; try lia; [left; auto|cbn; auto|exact Hh|].
  exists c. split; [exact E|].
  assert (S1 : 1 < 1 + h / 700) by lra.
  assert (Q : sqrt (1 + h / 700) * sqrt (1 + h / 700) = 1 + h / 700) by (apply sqrt_sqrt; lra).
  assert (Q1 : 1 < sqrt (1 + h / 700)) by (pose proof (sqrt_lt_1 1 (1 + h / 700) ltac:(lra) ltac:(lra) S1) as J; rewrite sqrt_1 in J; exact J).
  assert (P1 : spec_point oshaghnessy 0 h 1 1 = 700 * (sqrt (1 + h / 700) - 1)).
  { unfold spec_point, spec_level. cbn [oshaghnessy fwd bwd]. replace (INR (1 + 1)) with 2 by reflexivity. change (INR 1) with 1.
    replace (1 + 0 / 700) with 1 by lra. rewrite ln_1.
    assert (L10 : ln 10 <> 0) by (pose proof (ln_increasing 1 10 ltac:(lra) ltac:(lra)) as J; rewrite ln_1 in J; lra).
    unfold Rpower. replace (_ * ln 10) with (/ 2 * ln (1 + h / 700)) by (field; exact L10).
    change (exp (/ 2 * ln (1 + h / 700))) with (Rpower (1 + h / 700) (/ 2)). rewrite Rpower_sqrt by lra. reflexivity. }
  unfold spec_bank. rewrite P0. change (0 + 1)%nat with 1%nat. change (0 + 2)%nat with (1 + 1)%nat. rewrite P2, P1.
  unfold spec_scale, spec_col. cbn [String.eqb Ascii.eqb Bool.eqb]. replace (INR 1) with 1 by reflexivity. replace (INR 2) with 2 by reflexivity.
  set (s := sqrt (1 + h / 700)) in *. assert (H700 : h = 700 * (s * s - 1)) by lra.
  rewrite tri_right; [|nra|nra|split; nra]. rewrite Rmult_1_l. f_equal. lra.
Qed.
Theorem C169_mel_refuted : exists B c B2 c2, faster 2 4200 8400 /\ freq_scaled 2 None None /\
  mel_filter_banks 1 4 4200 0 None "constant" "Oshaghnessy" = Ok (B, c) /\
  mel_filter_banks 1 4 8400 (2 * 0) None "constant" "Oshaghnessy" = Ok (B2, c2) /\ B2 <> B.
Proof.
  destruct (mel_middle 4200 2100) as (c & E & V); [right; split; [auto|lra]|lra|].
  destruct (mel_middle 8400 4200) as (c2 & E2 & V2); [right; split; [auto|lra]|lra|].
  do 4 eexists. split; [split; lra|]. split; [exact I|]. split; [exact E|]. rewrite Rmult_0_r. split; [exact E2|]. intros K.
  pose proof (fmat_inj _ _ _ _ K 0%nat 1%nat ltac:(lia) ltac:(lia)) as J. cbv beta in J. rewrite V, V2 in J.
  replace (1 + 2100 / 700) with (2 * 2) in J by lra. rewrite sqrt_square in J by lra. replace (1 + 4200 / 700) with 7 in J by lra.
  assert (Q : sqrt 7 * sqrt 7 = 7) by (apply sqrt_sqrt; lra). pose proof (sqrt_pos 7) as P.
  assert (U : sqrt 7 < 2.7) by nra.
  replace (2100 / 2 / (2100 - 700 * (2 - 1))) with (3 / 4) in J by lra.
  assert (D : 4200 - 700 * (sqrt 7 - 1) > 2800) by lra.
  apply (f_equal (fun v => v * (4200 - 700 * (sqrt 7 - 1)))) in J. unfold Rdiv in J. rewrite Rmult_assoc, Rinv_l in J by lra. lra.
Qed.
Print Assumptions C169_mel_refuted.

(** linear prediction *)
Theorem C169_lpc : forall (E : Env) l fs fs2 sig order p c w w2, faster l fs fs2 -> window_scaled l w w2 ->
  @lpc E sig fs2 order p c w2 = @lpc E sig fs order p c w /\
  forall lift norm, @lpcc E sig fs2 order p c w2 lift norm = @lpcc E sig fs order p c w lift norm.
Proof. exact @lpc_units. Qed.
Print Assumptions C169_lpc.
Example C169_lpc_example : forall (E : Env) sig, @lpc E sig 16000 13 true 0.97 None = @lpc E sig 8000 13 true 0.97 (Some (mkWindow 0.05 0.02 "hamming")).
Proof. intros E sig. apply (@C169_lpc E 2); repeat split; cbn; lra. Qed.

(** YIN: pitches and argmins are multiplied by l, harmonic rates stay, times are divided by l *)
Theorem C169_yin : forall (E : Env) l fs fs2 sig wl wh lo hi th wl2 wh2 lo2 hi2, faster l fs fs2 ->
  wl = l * wl2 -> wh = l * wh2 -> lo2 = l * lo -> hi2 = l * hi ->
  @compute_yin E sig fs2 wl2 wh2 lo2 hi2 th =
  rmap (fun '(p, h, m, t) => (map (times l) p, h, map (times l) m, map (times (/ l)) t)) (@compute_yin E sig fs wl wh lo hi th).
Proof. exact @compute_yin_units. Qed.
Print Assumptions C169_yin.
Example C169_yin_example : forall sig P H A tm, @compute_yin exact_env sig 16000 0.03 0.015 50 3000 0.1 = Ok (P, H, A, tm) ->
  @compute_yin exact_env sig 8000 0.06 0.03 25 1500 0.1 = Ok (map (times (/ 2)) P, H, map (times (/ 2)) A, map (times (/ / 2)) tm).
Proof.
  intros sig P H A tm K. rewrite (@C169_yin exact_env (/ 2) 16000 8000 sig 0.03 0.015 50 3000 0.1 0.06 0.03 25 1500) by (try split; lra).
  rewrite K. reflexivity.
Qed.

(** dominant frequencies: multiplied by l before np.round(., 3); with the Butterworth filter for factors that commute with rounding *)
Theorem C169_dominant : forall (E : Env) l fs fs2 sig bf lower upper lower2 upper2 nfft wl wh wl2 wh2 wt,
  faster l fs fs2 -> wl = l * wl2 -> wh = l * wh2 ->
  (bf = true -> lower2 = l * lower /\ upper2 = l * upper /\ forall x, rnd (l * x) = l * rnd x) ->
  exists v : result (list F),
    (forall pos, @get_dominant_frequencies_of E sig fs bf lower upper nfft wl wh wt pos =
      rmap (fun d => (if pos : bool then filter (fun x => fgeb x f0) (map fround3 d) else map fround3 d)) v) /\
    (forall pos, @get_dominant_frequencies_of E sig fs2 bf lower2 upper2 nfft wl2 wh2 wt pos =
      rmap (fun d => (if pos : bool then filter (fun x => fgeb x f0) (map fround3 d) else map fround3 d)) (rmap (map (times l)) v)).
Proof. exact @dominant_units. Qed.
Print Assumptions C169_dominant.
Example C169_dominant_example : forall sig, exists v : result (list F),
  @get_dominant_frequencies_of exact_env sig 8000 true 50 3000 512 0.05 0.02 "hann" false = rmap (map fround3) v /\
  @get_dominant_frequencies_of exact_env sig 16000 true 100 6000 512 0.025 0.01 "hann" false = rmap (map fround3) (rmap (map (times 2)) v).
Proof.
  intros sig. destruct (@C169_dominant exact_env 2 8000 16000 sig true 50 3000 100 6000 512 0.05 0.02 0.025 0.01 "hann") as (v & A & B);
    [split; lra|lra|lra|intros _; repeat split; try lra; intros; reflexivity|].
  exists v. split; [exact (A false)|exact (B false)].
Qed.

(** the constant-Q transform and cqcc *)
Theorem C169_cqt : forall (E : Env) l a a2, same_but_units_q l a a2 -> q_fs a <> 0%Z ->
  (forall sig, @cqt_spectrogram E sig a2 = @cqt_spectrogram E sig a) /\
  (forall sig r c, @cqcc E sig a2 r c = @cqcc E sig a r c).
Proof. intros E l a a2 HU Nz. split; intros; [eapply cqt_units|eapply cqcc_units]; eassumption. Qed.
Print Assumptions C169_cqt.
Example C169_cqt_example : forall (E : Env) sig r c,
  @cqcc E sig (mkQ 8000 true 0.97 (Some (mkWindow 0.05 0.02 "hamming")) 512 0 None 7 24 0.005 60 1) r c = @cqcc E sig default_qargs r c.
Proof.
  intros E sig r c. apply (@C169_cqt E (/ 2) default_qargs); [|discriminate]. repeat split; cbn; lra.
Qed.

(** extract_feats *)
Theorem C169_spectral : forall l fs fs2, faster l fs fs2 -> forall sig nfft,
  extract_feats sig fs2 nfft = rmap (feats_units l) (extract_feats sig fs nfft).
Proof. exact extract_feats_units. Qed.
Print Assumptions C169_spectral.
Example C169_spectral_example : forall sig s, extract_feats sig 16000 512 = Ok s ->
  extract_feats sig 32000 512 = Ok (feats_units 2 s) /\ sf_kurtosis (feats_units 2 s) = fmul (Fin (/ 2 ^ 4)) (sf_kurtosis s).
Proof. intros sig s K. rewrite (C169_spectral 2 16000 32000) by (split; lra). rewrite K. split; reflexivity. Qed.
