(** * Property theorems: what the samples cannot change about a call, and what a call can raise
      (C195, C196) *)
From Coq Require Import Reals ZArith List String Bool Lia Lra.
From Flocq Require Import Core.Raux.
From Verif Require Import Base BaseFacts SpecBase SpecMat SpecFeatures MatFacts Preprocessing PreprocessingFacts Features Extractors
  Pncc Cqt Lpc Rplp Yin Dominant Butter SpFeats SpecOutcome OutcomeFacts ExceptionFacts OutcomeMore ExampleTools ExampleFeatures PropertiesFeatures PropertiesLpc PropertiesYin.
Import ListNotations.
Local Open Scope R_scope.

(** C195. Two recordings of the same length, with any samples, NaN and infinities included: both
    calls return tables of the same shape, or both raise the same exception. *)
Theorem C195_spectrogram : forall `{Env} s x y a, List.length x = List.length y ->
  same_outcome2 (spectrogram s x a) (spectrogram s y a).
Proof. exact @spectrogram_outcome. Qed.
Print Assumptions C195_spectrogram.
Theorem C195_features : forall `{Env} e x y a c, List.length x = List.length y ->
  same_outcome (run e x a c) (run e y a c).
Proof. exact @run_outcome. Qed.
Print Assumptions C195_features.
Theorem C195_psrcc : forall `{Env} x y a g c, List.length x = List.length y ->
  same_outcome (psrcc x a g c) (psrcc y a g c).
Proof. exact @psrcc_outcome. Qed.
Print Assumptions C195_psrcc.
Theorem C195_pncc : forall `{Env} x y a p c, List.length x = List.length y ->
  same_outcome (pncc x a p c) (pncc y a p c).
Proof. exact @pncc_outcome. Qed.
Print Assumptions C195_pncc.
Theorem C195_cqt : forall `{Env} x y a, List.length x = List.length y ->
  same_outcome (cqt_spectrogram x a) (cqt_spectrogram y a).
Proof. exact @cqt_outcome. Qed.
Print Assumptions C195_cqt.
Theorem C195_cqcc : forall `{Env} x y a r c, List.length x = List.length y ->
  same_outcome (cqcc x a r c) (cqcc y a r c).
Proof. exact @cqcc_outcome. Qed.
Print Assumptions C195_cqcc.
(** compute_yin returns as many values for every recording of one length, at the same times *)
Theorem C195_yin : forall `{Env} x y fs wlen whop low high th, List.length x = List.length y ->
  same_yin (compute_yin x fs wlen whop low high th) (compute_yin y fs wlen whop low high th).
Proof. exact @yin_outcome. Qed.
Print Assumptions C195_yin.
(** with only_positive_frequencies the number of values may differ, success may not *)
Theorem C195_dominant : forall `{Env} x y fs filter lower upper nfft wlen whop wtype only, List.length x = List.length y ->
  same_success (get_dominant_frequencies_of x fs filter lower upper nfft wlen whop wtype only)
               (get_dominant_frequencies_of y fs filter lower upper nfft wlen whop wtype only) /\
  same_count (get_dominant_frequencies_of x fs filter lower upper nfft wlen whop wtype false)
             (get_dominant_frequencies_of y fs filter lower upper nfft wlen whop wtype false).
Proof. exact @dominant_outcome. Qed.
Print Assumptions C195_dominant.
(** extract_feats: recordings of any two lengths *)
Theorem C195_statistics : forall x y fs nfft, same_success (extract_feats x fs nfft) (extract_feats y fs nfft).
Proof. exact feats_outcome. Qed.
Print Assumptions C195_statistics.
(** mfcc of a thousand samples, whatever they are, returns four rows of thirteen values *)
Example C195_example : forall x, List.length x = 1000%nat -> exists m,
  @mfcc exact_env x default_sargs default_cargs = Ok m /\ sizes m = [13; 13; 13; 13]%nat.
Proof.
  intros x Hx. destruct (C42_example (fun _ => 0)) as [y Hy].
  pose proof (@C195_features exact_env Mfcc (fvec 1000 (fun _ => 0)) x default_sargs default_cargs) as K.
  rewrite fvec_length, Hx in K. specialize (K eq_refl). cbn [run] in K. rewrite Hy in K.
  destruct (@mfcc exact_env x default_sargs default_cargs) as [m|e]; [|contradiction K].
  exists m. split; [reflexivity|]. cbn [same_outcome] in K. rewrite <- K. reflexivity.
Qed.
Example C195_example_nan : exists m,
  @mfcc exact_env (repeat NaN 1000) default_sargs default_cargs = Ok m /\ sizes m = [13; 13; 13; 13]%nat.
Proof. apply C195_example. apply repeat_length. Qed.
(** a window shorter than the longest period is refused for every recording, NaN included *)
Example C195_example_yin : @compute_yin exact_env (repeat NaN 1000) 16000 0.01 0.01 50 3000 0.1 = Raise ValueError.
Proof.
  pose proof (@C195_yin exact_env (fvec 1000 (fun _ => 0)) (repeat NaN 1000) 16000 0.01 0.01 50 3000 0.1) as K.
  rewrite fvec_length, repeat_length in K. specialize (K eq_refl). rewrite C58_example in K.
  destruct (@compute_yin _ _ _ _ _ _ _ _) as [[[[p h] a] t]|e]; [contradiction K|]. cbn [same_yin] in K. congruence.
Qed.
(** lpc is different: it returns for an impulse and raises for silence. *)
Theorem C195_lpc_refuted : ~ (forall x y : list F, List.length x = List.length y ->
  raises_only [] (@lpc exact_env x 16000 13 true 0.97 None) -> raises_only [] (@lpc exact_env y 16000 13 true 0.97 None)).
Proof.
  intros K. destruct C51_example as [(A & E & HA) HB].
  specialize (K (fvec 400 (fun t => if Nat.eqb t 3 then 1 else 0)) (fvec 400 (fun _ => 0)) ltac:(rewrite !fvec_length; reflexivity)).
  rewrite HA, HB in K. destruct (K I) as [B|[]]. exact B.
Qed.
Print Assumptions C195_lpc_refuted.

(** C196. With a hop of at least one sample every call returns, or raises ParameterError,
    ZeroDivisionError, ValueError, IndexError or KeyError, or one of the exceptions named here.
    In particular no call reads memory that is not the recording's. *)
Theorem C196_spectrogram : forall `{Env} s x a, (0 < hop_samples (s_fs a) (s_window a))%Z ->
  raises_only (bank_raises s) (spectrogram s x a).
Proof. exact @spectrogram_raises. Qed.
Print Assumptions C196_spectrogram.
Theorem C196_features : forall `{Env} e x a c, (0 < hop_samples (s_fs a) (s_window a))%Z ->
  raises_only (feature_raises e a) (run e x a c).
Proof. exact @run_raises. Qed.
Print Assumptions C196_features.
Theorem C196_psrcc : forall `{Env} x a g c, (0 < hop_samples (s_fs a) (s_window a))%Z ->
  raises_only [] (psrcc x a g c).
Proof. exact @psrcc_raises. Qed.
Print Assumptions C196_psrcc.
Theorem C196_pncc : forall `{Env} x a p c, (0 < hop_samples (s_fs a) (s_window a))%Z ->
  raises_only [] (pncc x a p c).
Proof. exact @pncc_raises. Qed.
Print Assumptions C196_pncc.
Theorem C196_cqt : forall `{Env} x a, (0 < hop_samples (q_fs a) (q_window a))%Z ->
  raises_only [] (cqt_spectrogram x a).
Proof. exact @cqt_raises. Qed.
Print Assumptions C196_cqt.
Theorem C196_cqcc : forall `{Env} x a r c, (0 < hop_samples (q_fs a) (q_window a))%Z ->
  raises_only [] (cqcc x a r c).
Proof. exact @cqcc_raises. Qed.
Print Assumptions C196_cqcc.
Theorem C196_lpc : forall `{Env} x fs order pre_emph coeff w, (0 < hop_samples fs w)%Z ->
  raises_only [LinAlgError] (lpc x fs order pre_emph coeff w).
Proof. exact @lpc_raises. Qed.
Print Assumptions C196_lpc.
Theorem C196_lpcc : forall `{Env} x fs order pre_emph coeff w lifter normalize, (0 < hop_samples fs w)%Z ->
  raises_only [LinAlgError] (lpcc x fs order pre_emph coeff w lifter normalize).
Proof. exact @lpcc_raises. Qed.
Print Assumptions C196_lpcc.
Theorem C196_plp : forall `{Env} x a order lifter normalize, (0 < hop_samples (s_fs a) (s_window a))%Z ->
  raises_only [LinAlgError; OverflowError] (plp x a order lifter normalize) /\
  raises_only [LinAlgError; OverflowError] (rplp x a order lifter normalize).
Proof. intros E x a order lifter normalize H. split; exact (rastaplp_raises x a order _ lifter normalize H). Qed.
Print Assumptions C196_plp.
(** compute_yin slices the recording, so that no hop is unsafe *)
Theorem C196_yin : forall `{Env} x fs wlen whop low high th, raises_only [] (compute_yin x fs wlen whop low high th).
Proof. exact @yin_raises. Qed.
Print Assumptions C196_yin.
Theorem C196_dominant : forall `{Env} x fs filter lower upper nfft wlen whop wtype only,
  (0 < Ztrunc (rnd (whop * IZR fs)))%Z ->
  raises_only [] (get_dominant_frequencies_of x fs filter lower upper nfft wlen whop wtype only).
Proof. exact @dominant_raises. Qed.
Print Assumptions C196_dominant.
Theorem C196_statistics : forall x fs nfft, raises_only [] (extract_feats x fs nfft).
Proof. exact feats_raises. Qed.
Print Assumptions C196_statistics.
(** the default configuration has a hop of 160 samples *)
Example C196_example : forall e x c, @run exact_env e x default_sargs c <> Raise OutOfBoundsRead /\
  @run exact_env Mfcc x default_sargs c <> Raise OverflowError.
Proof.
  intros e x c. assert (HH : (0 < @hop_samples exact_env 16000 None)%Z).
  { unfold hop_samples, default_window. cbn [win_hop rnd exact_env].
    replace (0.010 * 16000) with (IZR 160) by lra. rewrite Ztrunc_IZR. lia. }
  split; intros K.
  - pose proof (@C196_features exact_env e x default_sargs c HH) as Q. rewrite K in Q.
    destruct Q as [[]|Q]; destruct e; cbn in Q; repeat destruct Q as [Q|Q]; try discriminate Q; destruct Q.
  - pose proof (@C196_features exact_env Mfcc x default_sargs c HH) as Q. rewrite K in Q. destruct Q as [[]|[]].
Qed.
(** A negative hop, which the functions accept, does read foreign memory. *)
Theorem C196_negative_hop_refuted : forall `{Env} s x a B, spectro_bank s a = Ok B ->
  win_hop (window_of a) <= win_len (window_of a) -> (hop_samples (s_fs a) (s_window a) < 0)%Z ->
  (zlen x < Ztrunc (rnd (win_len (window_of a) * IZR (s_fs a))))%Z -> s_pre_emph a = false ->
  spectrogram s x a = Raise OutOfBoundsRead.
Proof.
  intros E s x a B HB H1 H2 H3 Hp. apply (spectrogram_foreign s x a B HB H1 H2); auto.
  apply Z.le_trans with (zlen x); [apply Zle_0_nat|apply Z.lt_le_incl; exact H3].
Qed.
Print Assumptions C196_negative_hop_refuted.
Example C196_example_negative_hop : forall v,
  @spectrogram exact_env Mel [v] (mkS 1000 false 0 (Some (mkWindow (2 / 1000) (-1 / 1000) "hamming")) 1 2 0 None "constant" (Some [[f1; f1]]) "Oshaghnessy")
  = Raise OutOfBoundsRead.
Proof.
  intros v. apply (@C196_negative_hop_refuted exact_env _ _ _ [[f1; f1]]); cbn [window_of s_window s_fs s_pre_emph win_hop win_len hop_samples rnd exact_env]; auto; [lra|..].
  - unfold hop_samples. cbn [win_hop rnd exact_env]. replace (-1 / 1000 * 1000) with (IZR (-1)) by lra. rewrite Ztrunc_IZR. lia.
  - replace (2 / 1000 * 1000) with (IZR 2) by lra. rewrite Ztrunc_IZR. cbn. lia.
Qed.
