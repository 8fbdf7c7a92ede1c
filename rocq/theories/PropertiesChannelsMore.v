(** * C179: Nx1 signals for the remaining extractors and for get_dominant_frequencies *)
From Coq Require Import Reals ZArith List String Bool Lia Lra.
From Verif Require Import Base SpecBase SpecMat MatFacts Features Lpc Rplp Pncc Cqt Dominant Butter SpecSpectral SpecChannels Channels
  SpecChannelsMore ChannelsMore ChannelsMoreFacts ExampleFeatures PropertiesDominant.
Import ListNotations.
Local Open Scope R_scope.

(** The docstrings ask for "a mono audio signal (Nx1)".  Given that shape, pre-emphasis does
    nothing: the result is that of the 1-D signal with pre_emph=False. *)
Theorem C179_lpcc : forall `{Env} x l fs order pe coeff w lifter norm, x <> [] ->
  lpcc_2d (column x l) fs order pe w lifter norm = lpcc x fs order false coeff w lifter norm.
Proof. exact @lpcc_column. Qed.
Print Assumptions C179_lpcc.
Theorem C179_psrcc : forall `{Env} x l a g c, x <> [] -> psrcc_2d (column x l) a g c = psrcc x (without_pre a) g c.
Proof. exact @psrcc_column. Qed.
Print Assumptions C179_psrcc.
Theorem C179_pncc : forall `{Env} x l a p c, x <> [] -> pncc_2d (column x l) a p c = pncc x (without_pre a) p c.
Proof. exact @pncc_column. Qed.
Print Assumptions C179_pncc.
Theorem C179_plp : forall `{Env} x l a order lifter norm, x <> [] ->
  rastaplp_2d (column x l) a order false lifter norm = plp x (without_pre a) order lifter norm /\
  rastaplp_2d (column x l) a order true lifter norm = rplp x (without_pre a) order lifter norm.
Proof. intros. split; apply rastaplp_column; auto. Qed.
Print Assumptions C179_plp.
Theorem C179_cqt : forall `{Env} x l a, x <> [] -> cqt_spectrogram_2d (column x l) a = cqt_spectrogram x (cq_without_pre a).
Proof. exact @cqt_column. Qed.
Print Assumptions C179_cqt.
Theorem C179_cqcc : forall `{Env} x l a r c, x <> [] -> cqcc_2d (column x l) a r c = cqcc x (cq_without_pre a) r c.
Proof. exact @cqcc_column. Qed.
Print Assumptions C179_cqcc.
Example C179_case : forall l,
  @rplp exact_env (map Fin [1; 1; 1]) (without_pre default_sargs) 13 None None
  = @rastaplp_2d exact_env (column (map Fin [1; 1; 1]) l) default_sargs 13 true None None /\ s_pre_emph default_sargs = true.
Proof. intros l. split; [symmetry; apply C179_plp; discriminate|reflexivity]. Qed.

(** Without the band-pass filter the dominant frequencies are those of the 1-D signal. *)
Theorem C179_dominant : forall `{Env} x l fs lower upper nfft wl wh wt p,
  get_dominant_frequencies_2d (column x l) fs false lower upper nfft wl wh wt p
  = get_dominant_frequencies x fs None nfft wl wh wt p.
Proof. exact @dominant_column. Qed.
Print Assumptions C179_dominant.
(** With it too, whatever the cut-off frequencies are: each row of one sample is filtered on its
    own, which only changes the volume. *)
Theorem C179_unfiltered : forall `{Env} N x l fs lower upper n wl wh wt L hop p, cut_config fs wl wh wt N L hop -> (1 <= n)%nat ->
  0 < cutoff_of fs lower < cutoff_of fs upper -> cutoff_of fs upper < 1 ->
  get_dominant_frequencies_2d (column (fvec N x) l) fs true lower upper (Z.of_nat n) wl wh wt p
  = get_dominant_frequencies (fvec N x) fs None (Z.of_nat n) wl wh wt p.
Proof. exact @dominant_column_butter. Qed.
Print Assumptions C179_unfiltered.
(** the default cut-off frequencies at 16 kHz *)
Example C179_unfiltered_case : forall x l,
  @get_dominant_frequencies_2d exact_env (column (fvec 1000 x) l) 16000 true 50 3000 512 0.025 0.010 "hamming" true
  = @get_dominant_frequencies exact_env (fvec 1000 x) 16000 None 512 0.025 0.010 "hamming" true.
Proof.
  intros x l. change 512%Z with (Z.of_nat 512). eapply C179_unfiltered; [apply default_cut; lia|lia| |]; unfold cutoff_of; cbn [rnd exact_env]; lra.
Qed.
(** That is not what the filter does to a 1-D signal: for every band centred below a quarter of the
    sampling rate some signal is reported differently. *)
Theorem C179_same_as_flat_refuted : forall fs lower upper, 0 < lower < upper -> lower + upper < IZR fs / 2 ->
  exists x, @get_dominant_frequencies_of exact_env (fvec 2 x) fs true lower upper 2 (2 / IZR fs) (1 / IZR fs) "hamming" false = Ok [Fin 0] /\
    forall l, @get_dominant_frequencies_2d exact_env (column (fvec 2 x) l) fs true lower upper 2 (2 / IZR fs) (1 / IZR fs) "hamming" false
      = Ok [Fin (- IZR fs / 2)].
Proof. exact butter_column_differs. Qed.
Print Assumptions C179_same_as_flat_refuted.
Example C179_same_as_flat_case : 0 < 50 < 3000 /\ 50 + 3000 < IZR 16000 / 2.
Proof. lra. Qed.
