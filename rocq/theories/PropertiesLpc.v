(** * Property theorems: linear prediction (C50-C53, C81-C83, lpc parts of C45, C48, C79) *)
From Coq Require Import Reals ZArith List String Bool Lia Lra.
From Verif Require Import Base BaseFacts SpecBase SpecMat SpecFeatures BigSum MatFacts Preprocessing PreprocessingFacts
  WindowFacts Features Extractors FeaturesFacts Lpc SpecLpc LpcTheory LpcMore LpcLaws ExampleTools ExampleFeatures ExampleLpc.
Import ListNotations.
Local Open Scope R_scope.

(** C50. The window name has no influence, whatever the other arguments are ... *)
Theorem C50_lpc : forall `{Env} sig fs order pre_emph coeff len hop t t',
  In t window_names -> In t' window_names ->
  lpc sig fs order pre_emph coeff (Some (mkWindow len hop t)) =
  lpc sig fs order pre_emph coeff (Some (mkWindow len hop t')).
Proof. exact @lpc_names. Qed.
Print Assumptions C50_lpc.
Theorem C50_lpcc : forall `{Env} sig fs order pre_emph coeff len hop t t' lifter normalize,
  In t window_names -> In t' window_names ->
  lpcc sig fs order pre_emph coeff (Some (mkWindow len hop t)) lifter normalize =
  lpcc sig fs order pre_emph coeff (Some (mkWindow len hop t')) lifter normalize.
Proof. exact @lpcc_names. Qed.
Print Assumptions C50_lpcc.
(** ... but it has to be one of the five names. *)
Theorem C50_unknown_name : forall `{Env} a N L hop x order t lifter normalize, well_framed a N L hop ->
  ~ In t window_names ->
  let w := Some (mkWindow (win_len (window_of a)) (win_hop (window_of a)) t) in
  lpc (fvec N x) (s_fs a) order (s_pre_emph a) (s_coeff a) w = Raise KeyError /\
  lpcc (fvec N x) (s_fs a) order (s_pre_emph a) (s_coeff a) w lifter normalize = Raise KeyError.
Proof.
  intros E a N L hop x order t li no Hw Ht w.
  assert (K : framed (fvec N x) (s_fs a) (s_pre_emph a) 0.97 w = Raise KeyError) by exact (framed_unknown a N L hop x 0.97 t Hw Ht).
  unfold lpc, lpcc. rewrite K. auto.
Qed.
Print Assumptions C50_unknown_name.
Example C50_example : forall x order,
  @lpc exact_env (fvec 1000 x) 16000 order true 0.97 (Some (mkWindow 0.025 0.010 "bartlett")) = Raise KeyError /\
  @lpc exact_env (fvec 1000 x) 16000 order true 0.97 (Some (mkWindow 0.025 0.010 "kaiser")) =
  @lpc exact_env (fvec 1000 x) 16000 order true 0.97 (Some (mkWindow 0.025 0.010 "hanning")).
Proof.
  intros x order. split.
  - apply (@C50_unknown_name exact_env default_sargs 1000 400 160 x order "bartlett" None None).
    + apply default_framed. lia.
    + cbn. intros K. repeat (destruct K as [K|K]; [discriminate|]). exact K.
  - apply C50_lpc; cbn; tauto.
Qed.

(** C51. For every finite signal whose frames all contain a non-zero sample, lpc of order p+1
    returns for each frame the unique predictor that solves the normal equations; it has the
    smallest residual energy of all predictors. *)
Theorem C51_lpc : forall `{Env} a N L hop p x, well_framed a N L hop -> (1 <= p)%nat ->
  let n := frame_count N L hop in
  (forall i, (i < n)%nat -> sounding L (plain_frame a hop x i)) ->
  exists A E,
    lpc (fvec N x) (s_fs a) (Z.of_nat (S p)) (s_pre_emph a) (s_coeff a) (s_window a)
    = Ok (fmat n (S p) A, fmat n 1 E) /\
    forall i, (i < n)%nat ->
      normal_equations L p (plain_frame a hop x i) (A i) /\
      (forall b, normal_equations L p (plain_frame a hop x i) b -> forall k, (k <= p)%nat -> b k = A i k) /\
      (forall b, b O = 1 ->
         residual_energy L p (plain_frame a hop x i) (A i) <= residual_energy L p (plain_frame a hop x i) b) /\
      residual_energy L p (plain_frame a hop x i) (A i)
      = bigsum (S p) (fun k => A i k * acf L (plain_frame a hop x i) k).
Proof.
  intros E a N L hop p x Hw Hp n Hs. destruct (lpc_sounding a N L hop p x Hw Hp Hs) as (A & HA & HC).
  exists A. eexists. split; [exact HC|]. intros i Hi. specialize (HA i Hi). specialize (Hs i Hi).
  split; [exact HA|]. split; [|split].
  - intros b Hb k Hk. apply (normal_unique L p (plain_frame a hop x i)); auto.
  - intros b Hb. apply normal_minimal; auto.
  - apply normal_energy. exact HA.
Qed.
Print Assumptions C51_lpc.
(** A gain leaves the predictors unchanged and multiplies the error values by its square. *)
Theorem C51_gain : forall `{Env} a N L hop p x g A E, well_framed a N L hop -> (1 <= p)%nat -> g <> 0 ->
  let call y := lpc (fvec N y) (s_fs a) (Z.of_nat (S p)) (s_pre_emph a) (s_coeff a) (s_window a) in
  let n := frame_count N L hop in
  call x = Ok (fmat n (S p) A, fmat n 1 E) ->
  call (fun t => g * x t) = Ok (fmat n (S p) A, fmat n 1 (fun i j => g ^ 2 * E i j)).
Proof. exact @lpc_gain. Qed.
Print Assumptions C51_gain.
Example C51_gain_example : exists A E,
  @lpc exact_env (fvec 1000 (fun _ => 1)) 16000 13 true 0.97 None = Ok (fmat 4 13 A, fmat 4 1 E) /\
  @lpc exact_env (fvec 1000 (fun _ => -2 * 1)) 16000 13 true 0.97 None = Ok (fmat 4 13 A, fmat 4 1 (fun i j => (-2) ^ 2 * E i j)).
Proof.
  assert (Hw : @well_framed exact_env default_sargs 1000 400 160) by (apply default_framed; lia).
  destruct (@C51_lpc exact_env default_sargs 1000 400 160 12 (fun _ => 1) Hw ltac:(lia)) as (A & E & HA & _).
  - intros i _. apply ones_sounding. lra.
  - exists A, E. split; [exact HA|]. apply (@C51_gain exact_env default_sargs 1000 400 160 12 (fun _ => 1) (-2)); auto; [lia|lra].
Qed.
(** A single silent frame makes the whole call fail. *)
Theorem C51_silent_frame : forall `{Env} a N L hop p x, well_framed a N L hop -> (1 <= p)%nat ->
  (exists i, (i < frame_count N L hop)%nat /\ ~ sounding L (plain_frame a hop x i)) ->
  lpc (fvec N x) (s_fs a) (Z.of_nat (S p)) (s_pre_emph a) (s_coeff a) (s_window a) = Raise LinAlgError /\
  forall lifter normalize,
  lpcc (fvec N x) (s_fs a) (Z.of_nat (S p)) (s_pre_emph a) (s_coeff a) (s_window a) lifter normalize
  = Raise LinAlgError.
Proof. exact @lpc_silent. Qed.
Print Assumptions C51_silent_frame.

(** a case: the default lpc of a unit impulse of 400 samples (one frame) and of silence *)
Example C51_example :
  (exists A E, @lpc exact_env (fvec 400 (fun t => if Nat.eqb t 3 then 1 else 0)) 16000 13 true 0.97 None
               = Ok (fmat 1 13 A, fmat 1 1 E)) /\
  @lpc exact_env (fvec 400 (fun _ => 0)) 16000 13 true 0.97 None = Raise LinAlgError.
Proof.
  assert (Hw : @well_framed exact_env default_sargs 400 400 160) by (apply default_framed; lia).
  split.
  - destruct (@C51_lpc exact_env default_sargs 400 400 160 12 (fun t => if Nat.eqb t 3 then 1 else 0) Hw ltac:(lia)) as (A & E & HA & _).
    + intros i Hi. change (frame_count 400 400 160) with 1%nat in Hi. exists 3%nat. split; [lia|].
      assert (i = O) as -> by lia. unfold plain_frame, spec_pre. cbn. lra.
    + exists A, E. exact HA.
  - apply (@C51_silent_frame exact_env default_sargs 400 400 160 12 (fun _ => 0) Hw ltac:(lia)).
    exists O. split; [cbn; lia|]. intros (t & _ & Ht). apply Ht. unfold plain_frame, spec_pre. cbn [default_sargs s_pre_emph].
    destruct (0 * 160 + t)%nat; [reflexivity|]. ring.
Qed.

(** C81. The predictors lpc returns are minimum phase: every complex root of
    a(0) z^p + ... + a(p) lies strictly inside the unit circle, so the synthesis filter is stable. *)
Theorem C81_stable : forall `{Env} a N L hop p x A E, well_framed a N L hop -> (1 <= p)%nat ->
  lpc (fvec N x) (s_fs a) (Z.of_nat (S p)) (s_pre_emph a) (s_coeff a) (s_window a)
  = Ok (fmat (frame_count N L hop) (S p) A, fmat (frame_count N L hop) 1 E) ->
  forall i re im, (i < frame_count N L hop)%nat -> poly_root p (A i) re im -> re ^ 2 + im ^ 2 < 1.
Proof. exact @lpc_stable. Qed.
Print Assumptions C81_stable.
Example C81_stable_example : exists A E,
  @lpc exact_env (fvec 1000 (fun _ => 1)) 16000 13 true 0.97 None = Ok (fmat 4 13 A, fmat 4 1 E) /\
  (forall i re im, (i < 4)%nat -> poly_root 12 (A i) re im -> re ^ 2 + im ^ 2 < 1) /\
  Forall (Forall finite) (fmat 4 13 A).
Proof.
  assert (Hw : @well_framed exact_env default_sargs 1000 400 160) by (apply default_framed; lia).
  destruct (@C51_lpc exact_env default_sargs 1000 400 160 12 (fun _ => 1) Hw ltac:(lia)) as (A & E & HA & _).
  - intros i _. apply ones_sounding. lra.
  - exists A, E. split; [exact HA|]. split; [exact (@C81_stable exact_env default_sargs 1000 400 160 12 (fun _ => 1) A E Hw ltac:(lia) HA)|].
    apply fmat_finite.
Qed.
Example C81_example : forall z, z ^ 2 + -1/2 * z + 0 = 0 -> poly_root 2 (fun k => nth k [1; -1/2; 0] 0) z 0.
Proof. intros z Hz. unfold poly_root. cbn. split; lra. Qed.

(** C82. lpc with order >= 2 returns either an exception or one row of [order] finite numbers and
    one finite error per frame -- for every input, also one with inf or NaN samples. *)
Theorem C82_lpc_finite : forall `{Env} sig fs order pre_emph coeff window A E, (2 <= order)%Z ->
  lpc sig fs order pre_emph coeff window = Ok (A, E) ->
  Forall (Forall finite) A /\ Forall (Forall finite) E /\ List.length A = List.length E /\
  Forall (fun row => zlen row = order) A /\ Forall (fun row => List.length row = 1%nat) E.
Proof. exact @lpc_finite. Qed.
Print Assumptions C82_lpc_finite.
Theorem C82_nonfinite_frame : forall frame order, (1 <= order)%Z -> frame <> [] -> ~ Forall finite frame ->
  lpc_helper frame order = Raise ValueError.
Proof. exact lpc_helper_nonfinite. Qed.
Print Assumptions C82_nonfinite_frame.
Theorem C82_lpcc_shape : forall `{Env} a order lifter normalize sig C, (2 <= order)%Z ->
  lpcc sig (s_fs a) order (s_pre_emph a) (s_coeff a) (s_window a) lifter normalize = Ok C ->
  exists fr ws, framed sig (s_fs a) (s_pre_emph a) 0.97 (s_window a) = Ok (fr, ws) /\
                has_shape C (List.length fr) (Z.to_nat order).
Proof.
  intros E a order li no sig C Ho H0. destruct (lpcc_rows a order li no sig C Ho H0) as (fr & ws & _ & Hf & _ & _ & _ & _ & Hs).
  eauto.
Qed.
Print Assumptions C82_lpcc_shape.
Example C82_shape_example : exists A E C fr ws,
  @lpc exact_env (fvec 1000 (fun _ => 1)) 16000 13 true 0.97 None = Ok (A, E) /\
  Forall (Forall finite) A /\ Forall (fun row => zlen row = 13%Z) A /\
  @lpcc exact_env (fvec 1000 (fun _ => 1)) 16000 13 true 0.97 None None None = Ok C /\
  @framed exact_env (fvec 1000 (fun _ => 1)) 16000 true 0.97 None = Ok (fr, ws) /\ has_shape C (List.length fr) 13.
Proof.
  assert (Hw : @well_framed exact_env default_sargs 1000 400 160) by (apply default_framed; lia).
  destruct (@C51_lpc exact_env default_sargs 1000 400 160 12 (fun _ => 1) Hw ltac:(lia)) as (A & E & HA & _); [intros i _; apply ones_sounding; lra|].
  destruct (@lpcc_sounding exact_env default_sargs 1000 400 160 12 (fun _ => 1) Hw ltac:(lia)) as (B & _ & HC); [intros i _; apply ones_sounding; lra|].
  destruct (@C82_lpc_finite exact_env _ _ 13 _ _ _ _ _ ltac:(lia) HA) as (F1 & _ & _ & F2 & _).
  destruct (@C82_lpcc_shape exact_env default_sargs 13 None None _ _ ltac:(lia) HC) as (fr & ws & F3 & F4).
  do 5 eexists. split; [exact HA|]. split; [exact F1|]. split; [exact F2|]. split; [exact HC|]. split; [exact F3|exact F4].
Qed.
Example C82_example : lpc_helper [Fin 1; PInf; Fin 2] 1 = Raise ValueError.
Proof.
  apply C82_nonfinite_frame; [lia|discriminate|]. intros H. inversion H; subst. inversion H3; subst.
  destruct H4 as [r Hr]. discriminate.
Qed.

(** C52. The error value is computed from the wrong end of the correlation: for a frame of
    L samples it is |R(0) + sum_k a_k R(k+1)| with R(k) of lag k-(L-1). *)
Theorem C52_error_value : forall `{Env} a N L hop p x, well_framed a N L hop -> (1 <= p)%nat ->
  let n := frame_count N L hop in
  (forall i, (i < n)%nat -> sounding L (plain_frame a hop x i)) ->
  exists A,
    lpc (fvec N x) (s_fs a) (Z.of_nat (S p)) (s_pre_emph a) (s_coeff a) (s_window a)
    = Ok (fmat n (S p) A, fmat n 1 (fun i _ => lpc_error L p (plain_frame a hop x i) (A i))).
Proof.
  intros E a N L hop p x Hw Hp n Hs. destruct (lpc_sounding a N L hop p x Hw Hp Hs) as (A & _ & HC). eauto.
Qed.
Print Assumptions C52_error_value.
Example C52_value_example : exists A,
  @lpc exact_env (fvec 1000 (fun _ => 1)) 16000 13 true 0.97 None
  = Ok (fmat 4 13 A, fmat 4 1 (fun i _ => lpc_error 400 12 (plain_frame default_sargs 160 (fun _ => 1) i) (A i))).
Proof.
  apply (@C52_error_value exact_env default_sargs 1000 400 160 12 (fun _ => 1)); [apply default_framed; lia|lia|].
  intros i _. apply ones_sounding. lra.
Qed.
(** It is not the prediction error: for every signal whose first frame ends in p+2 zeros (but is
    not silent) the reported error of that frame is 0, the residual energy is positive. *)
Theorem C52_is_prediction_error_refuted : forall `{Env} a N L hop p x m A E, well_framed a N L hop -> (1 <= p)%nat ->
  lpc (fvec N x) (s_fs a) (Z.of_nat (S p)) (s_pre_emph a) (s_coeff a) (s_window a)
  = Ok (fmat (frame_count N L hop) (S p) A, fmat (frame_count N L hop) 1 E) ->
  (m + p + 2 <= L)%nat -> (forall t, (m <= t < L)%nat -> plain_frame a hop x 0 t = 0) ->
  E O O = 0 /\ 0 < residual_energy L p (plain_frame a hop x 0) (A O).
Proof. exact @lpc_error_wrong. Qed.
Print Assumptions C52_is_prediction_error_refuted.
Example C52_example : exists A E,
  @lpc exact_env (fvec 400 (fun t => if Nat.eqb t 3 then 1 else 0)) 16000 13 true 0.97 None
  = Ok (fmat 1 13 A, fmat 1 1 E) /\ E O O = 0.
Proof.
  destruct C51_example as [(A & E & HA) _]. exists A, E. split; [exact HA|].
  apply (@C52_is_prediction_error_refuted exact_env default_sargs 400 400 160 12 (fun t => if Nat.eqb t 3 then 1 else 0) 5 A E).
  - apply default_framed; lia.
  - lia.
  - exact HA.
  - lia.
  - intros t Ht. unfold plain_frame, spec_pre. cbn [default_sargs s_pre_emph]. rewrite Nat.mul_0_l, Nat.add_0_l.
    destruct t as [|u]; [lia|]. destruct (Nat.eqb_spec (S u) 3); [lia|]. destruct (Nat.eqb_spec u 3); [lia|]. ring.
Qed.

(** C53. lpc2lpcc with n = len(a) (or one more, the extra value being 1). *)
Theorem C53_values : forall p a e n, (1 <= p)%nat -> (n = p \/ n = S p)%nat -> 0 <= e ->
  lpc2lpcc (fvec p a) (Fin e) (Z.of_nat n)
  = Ok (fvec n (fun m => if Nat.eqb m 0 then spec_log e else if Nat.ltb m p then coded_cepstrum a m else 1)).
Proof. exact lpc2lpcc_ok. Qed.
Print Assumptions C53_values.
Theorem C53_too_short : forall a e n, (n < zlen a)%Z -> lpc2lpcc a e n = Raise IndexError.
Proof. exact lpc2lpcc_short. Qed.
Print Assumptions C53_too_short.
Theorem C53_too_long : forall a e n, a <> [] -> (zlen a + 1 < n)%Z -> lpc2lpcc a e n = Raise IndexError.
Proof. exact lpc2lpcc_long. Qed.
Print Assumptions C53_too_long.
Example C53_lengths_example : lpc2lpcc [Fin 1; Fin 2; Fin 5] (Fin 1) 2 = Raise IndexError /\
  lpc2lpcc [Fin 1; Fin 2; Fin 5] (Fin 1) 5 = Raise IndexError.
Proof. split; [apply C53_too_short|apply C53_too_long; [discriminate|]]; reflexivity. Qed.
(** The recursion of the references, c_m = a_m + sum_{k=1}^{m-1} (k/m) c_k a_{m-k}
    ([spec_cepstrum]), is what is computed at m = 1; at m = 2 it is only if a_1 is 0 or 1. *)
Theorem C53_recursion : forall a,
  (forall m, (1 <= m)%nat -> spec_cepstrum a m
     = a m + bigsum (m - 1) (fun k => INR (S k) / INR m * spec_cepstrum a (S k) * a (m - S k)%nat)) /\
  coded_cepstrum a 1 = spec_cepstrum a 1 /\
  (coded_cepstrum a 2 = spec_cepstrum a 2 <-> a 1%nat = 0 \/ a 1%nat = 1).
Proof. intros a. split; [exact (spec_cepstrum_rec a)|]. split; [apply cepstrum_1|apply cepstrum_2]. Qed.
Print Assumptions C53_recursion.
Theorem C53_is_cepstral_recursion_refuted : exists a e, 0 <= e /\
  lpc2lpcc (fvec 3 a) (Fin e) 3
  <> Ok (fvec 3 (fun m => if Nat.eqb m 0 then spec_log e else spec_cepstrum a m)).
Proof.
  exists (fun k => nth k [1; 2; 0] 0), 1. split; [lra|]. intros K.
  rewrite (C53_values 3 _ 1 3) in K by (try lia; lra). apply Ok_inj in K.
  pose proof (fvec_inj _ _ _ K 2%nat ltac:(lia)) as E. cbn [Nat.eqb Nat.ltb Nat.leb] in E.
  apply cepstrum_2 in E. cbn in E. lra.
Qed.
Print Assumptions C53_is_cepstral_recursion_refuted.
Example C53_example : lpc2lpcc (fvec 3 (fun k => nth k [1; 2; 5] 0)) (Fin 1) 3 = Ok [Fin (ln 1); Fin 2; Fin 6].
Proof.
  rewrite (C53_values 3 _ 1 3) by (try lia; lra). cbn [fvec seq map Nat.eqb Nat.ltb Nat.leb]. unfold spec_log, coded_cepstrum.
  destruct (Req_EM_T 1 0); [lra|]. cbn. do 2 f_equal. f_equal; [f_equal; ring|]. f_equal. f_equal. lra.
Qed.

(** C83. lpcc of a frame: coefficient 0 is the logarithm of the error value; a gain g adds
    2 ln|g| to it and leaves the other coefficients unchanged (no error value being 0). *)
Theorem C83_lpcc : forall `{Env} a N L hop p x, well_framed a N L hop -> (1 <= p)%nat ->
  let n := frame_count N L hop in
  (forall i, (i < n)%nat -> sounding L (plain_frame a hop x i)) ->
  exists A, (forall i, (i < n)%nat -> normal_equations L p (plain_frame a hop x i) (A i)) /\
    lpcc (fvec N x) (s_fs a) (Z.of_nat (S p)) (s_pre_emph a) (s_coeff a) (s_window a) None None
    = Ok (fmat n (S p) (fun i m => if Nat.eqb m 0 then spec_log (lpc_error L p (plain_frame a hop x i) (A i))
                                   else coded_cepstrum (A i) m)).
Proof. exact @lpcc_sounding. Qed.
Print Assumptions C83_lpcc.
Theorem C83_lpcc_gain : forall `{Env} a N L hop p x g C, well_framed a N L hop -> (1 <= p)%nat -> g <> 0 ->
  let call y := lpcc (fvec N y) (s_fs a) (Z.of_nat (S p)) (s_pre_emph a) (s_coeff a) (s_window a) None None in
  let n := frame_count N L hop in
  call x = Ok (fmat n (S p) C) -> (forall i, (i < n)%nat -> C i O <> ln spec_eps) ->
  call (fun t => g * x t)
  = Ok (fmat n (S p) (fun i m => if Nat.eqb m 0 then C i m + 2 * ln (Rabs g) else C i m)).
Proof. exact @lpcc_gain. Qed.
Print Assumptions C83_lpcc_gain.
(** a case: frames of two samples of a constant signal have the error value 5/2 *)
Example C83_gain_example : exists C,
  @lpcc exact_env (fvec 5 (fun _ => 1)) 1 2 false 0 (Some (mkWindow 2 1 "hamming")) None None = Ok (fmat 4 2 C) /\
  C 3%nat O = ln (5 / 2) /\
  @lpcc exact_env (fvec 5 (fun _ => 3 * 1)) 1 2 false 0 (Some (mkWindow 2 1 "hamming")) None None
   = Ok (fmat 4 2 (fun i m => if Nat.eqb m 0 then C i m + 2 * ln (Rabs 3) else C i m)).
Proof.
  assert (Hw : @well_framed exact_env lp_tiny 5 2 1) by (apply lp_tiny_framed; lia).
  destruct (@C83_lpcc exact_env lp_tiny 5 2 1 1 (fun _ => 1) Hw ltac:(lia)) as (A & HN & HA).
  - intros i _. exists O. split; [lia|]. unfold plain_frame, spec_pre. cbn. lra.
  - assert (V : forall i, (i < 4)%nat -> spec_log (lpc_error 2 1 (plain_frame lp_tiny 1 (fun _ => 1) i) (A i)) = ln (5 / 2)).
    { intros i Hi. rewrite lp_tiny_error by (apply HN; exact Hi). unfold spec_log. destruct (Req_EM_T (5 / 2) 0); [lra|reflexivity]. }
    eexists. split; [exact HA|]. split; [exact (V 3%nat ltac:(lia))|].
    apply (@C83_lpcc_gain exact_env lp_tiny 5 2 1 1 (fun _ => 1) 3 _ Hw ltac:(lia) ltac:(lra) HA).
    intros i Hi. cbn [Nat.eqb]. rewrite V by exact Hi. apply Rgt_not_eq. apply ln_increasing; unfold spec_eps; lra.
Qed.
(** a case: the default lpcc of a unit impulse *)
Example C83_example : exists C,
  @lpcc exact_env (fvec 400 (fun t => if Nat.eqb t 3 then 1 else 0)) 16000 13 true 0.97 None None None = Ok (fmat 1 13 C).
Proof.
  destruct (@C83_lpcc exact_env default_sargs 400 400 160 12 (fun t => if Nat.eqb t 3 then 1 else 0)) as (A & _ & HA).
  - apply default_framed; lia.
  - lia.
  - intros i Hi. change (frame_count 400 400 160) with 1%nat in Hi. exists 3%nat. split; [lia|].
    assert (i = O) as -> by lia. unfold plain_frame, spec_pre. cbn. lra.
  - eexists. exact HA.
Qed.

(** C48. pre_emph_coeff has no influence on lpc and lpcc. *)
Theorem C48_lpc : forall `{Env} sig fs order pre_emph k k' window,
  lpc sig fs order pre_emph k window = lpc sig fs order pre_emph k' window.
Proof. reflexivity. Qed.
Print Assumptions C48_lpc.
Theorem C48_lpcc : forall `{Env} sig fs order pre_emph k k' window lifter normalize,
  lpcc sig fs order pre_emph k window lifter normalize = lpcc sig fs order pre_emph k' window lifter normalize.
Proof. reflexivity. Qed.
Print Assumptions C48_lpcc.

(** C45. A row of lpc and lpcc depends only on the samples of its frame (and the one before). *)
Theorem C45_lpc_row_locality : forall `{Env} a order sig sig2 A E A2 E2 i,
  let L := flen (s_fs a) (win_len (window_of a)) in
  let hop := flen (s_fs a) (win_hop (window_of a)) in
  let call s := lpc s (s_fs a) order (s_pre_emph a) (s_coeff a) (s_window a) in
  call sig = Ok (A, E) -> call sig2 = Ok (A2, E2) ->
  (i < List.length A)%nat -> (i < List.length A2)%nat ->
  (forall j, (-1 <= j < L)%Z -> (0 <= j \/ s_pre_emph a = true)%Z -> (0 <= Z.of_nat i * hop + j)%Z ->
     nth (Z.to_nat (Z.of_nat i * hop + j)) sig NaN = nth (Z.to_nat (Z.of_nat i * hop + j)) sig2 NaN) ->
  nth i A [] = nth i A2 [] /\ nth i E [] = nth i E2 [].
Proof. intros Env a order sig sig2 A E A2 E2 i L hop call H1 H2 I1 I2 Hag. eapply lpc_row_eq; eauto. tauto. Qed.
Print Assumptions C45_lpc_row_locality.
Theorem C45_lpcc_row_locality : forall `{Env} a order lifter sig sig2 C C2 i,
  let L := flen (s_fs a) (win_len (window_of a)) in
  let hop := flen (s_fs a) (win_hop (window_of a)) in
  let call s := lpcc s (s_fs a) order (s_pre_emph a) (s_coeff a) (s_window a) lifter None in
  (2 <= order)%Z -> call sig = Ok C -> call sig2 = Ok C2 ->
  (i < List.length C)%nat -> (i < List.length C2)%nat ->
  (forall j, (-1 <= j < L)%Z -> (0 <= j \/ s_pre_emph a = true)%Z -> (0 <= Z.of_nat i * hop + j)%Z ->
     nth (Z.to_nat (Z.of_nat i * hop + j)) sig NaN = nth (Z.to_nat (Z.of_nat i * hop + j)) sig2 NaN) ->
  nth i C [] = nth i C2 [].
Proof. intros Env a order li sig sig2 C C2 i L hop call Ho H1 H2 I1 I2 Hag. eapply lpcc_row_eq; eauto. tauto. Qed.
Print Assumptions C45_lpcc_row_locality.
(** a case: two signals that differ in their first 100 samples have the same rows from the second on *)
Example C45_lpc_example : exists A E A2 E2 C C2,
  @lpc exact_env (fvec 1000 (fun _ => 1)) 16000 13 true 0.97 None = Ok (A, E) /\
  @lpc exact_env (fvec 1000 bent) 16000 13 true 0.97 None = Ok (A2, E2) /\
  (nth 1 A [] = nth 1 A2 [] /\ nth 1 E [] = nth 1 E2 []) /\
  @lpcc exact_env (fvec 1000 (fun _ => 1)) 16000 13 true 0.97 None None None = Ok C /\
  @lpcc exact_env (fvec 1000 bent) 16000 13 true 0.97 None None None = Ok C2 /\ nth 1 C [] = nth 1 C2 [].
Proof.
  assert (Hw : @well_framed exact_env default_sargs 1000 400 160) by (apply default_framed; lia).
  destruct (@C51_lpc exact_env default_sargs 1000 400 160 12 (fun _ => 1) Hw ltac:(lia)) as (A & E & HA & _); [intros i _; apply ones_sounding; lra|].
  destruct (@C51_lpc exact_env default_sargs 1000 400 160 12 bent Hw ltac:(lia)) as (A2 & E2 & HA2 & _); [intros i _; apply bent_sounding|].
  destruct (@C83_lpcc exact_env default_sargs 1000 400 160 12 (fun _ => 1) Hw ltac:(lia)) as (B & _ & HC); [intros i _; apply ones_sounding; lra|].
  destruct (@C83_lpcc exact_env default_sargs 1000 400 160 12 bent Hw ltac:(lia)) as (B2 & _ & HC2); [intros i _; apply bent_sounding|].
  destruct Hw as (_ & EL & EH & _).
  assert (H : forall j, (-1 <= j < 400)%Z -> nth (Z.to_nat (Z.of_nat 1 * Z.of_nat 160 + j)) (fvec 1000 (fun _ => 1)) NaN = nth (Z.to_nat (Z.of_nat 1 * Z.of_nat 160 + j)) (fvec 1000 bent) NaN).
  { intros j Hj. rewrite !fvec_nth by lia. unfold bent. destruct (Nat.ltb_spec (Z.to_nat (Z.of_nat 1 * Z.of_nat 160 + j)) 100); [lia|reflexivity]. }
  do 6 eexists. split; [exact HA|]. split; [exact HA2|]. split.
  - apply (@C45_lpc_row_locality exact_env default_sargs 13 (fvec 1000 (fun _ => 1)) (fvec 1000 bent)); auto; try (rewrite fmat_length; cbn; lia).
    intros j Hj _ _. rewrite EL in Hj. rewrite EH. apply H. exact Hj.
  - split; [exact HC|]. split; [exact HC2|].
    apply (@C45_lpcc_row_locality exact_env default_sargs 13 None (fvec 1000 (fun _ => 1)) (fvec 1000 bent)); auto; try lia; try (rewrite fmat_length; cbn; lia).
    intros j Hj _ _. rewrite EL in Hj. rewrite EH. apply H. exact Hj.
Qed.

(** C79. Dropping the first hop samples drops the first row (with pre-emphasis, the new first row
    excepted). *)
Theorem C79_lpc_shift : forall `{Env} a order sig A E A2 E2 i,
  let hop := flen (s_fs a) (win_hop (window_of a)) in
  let call s := lpc s (s_fs a) order (s_pre_emph a) (s_coeff a) (s_window a) in
  (0 <= hop)%Z -> call sig = Ok (A, E) -> call (skipn (Z.to_nat hop) sig) = Ok (A2, E2) ->
  (s_pre_emph a = true -> (0 < i)%nat) -> (S i < List.length A)%nat -> (i < List.length A2)%nat ->
  nth (S i) A [] = nth i A2 [] /\ nth (S i) E [] = nth i E2 [].
Proof.
  intros Env a order sig A E A2 E2 i hop call Hh H1 H2 Hp Hi Hi2.
  eapply (lpc_row_eq a order sig (skipn (Z.to_nat hop) sig)); eauto; fold hop.
  - intros Q. specialize (Hp Q). nia.
  - intros j Hj Hj2 Hpos.
    assert (0 <= Z.of_nat i * hop + j)%Z.
    { destruct Hj2 as [?|Q]; [nia|]. specialize (Hp Q).
      destruct (Z.eq_dec hop 0) as [Z0|Z0]; [rewrite Z0 in *; lia|nia]. }
    rewrite skipn_nth_add. f_equal. rewrite Nat2Z.inj_succ. rewrite <- Z2Nat.inj_add by lia. f_equal. lia.
Qed.
Print Assumptions C79_lpc_shift.
Example C79_lpc_example : exists A E A2 E2,
  @lpc exact_env (fvec 1000 bent) 16000 13 true 0.97 None = Ok (A, E) /\
  @lpc exact_env (skipn 160 (fvec 1000 bent)) 16000 13 true 0.97 None = Ok (A2, E2) /\
  nth 2 A [] = nth 1 A2 [] /\ nth 2 E [] = nth 1 E2 [].
Proof.
  assert (Hw : @well_framed exact_env default_sargs 1000 400 160) by (apply default_framed; lia).
  assert (Hw2 : @well_framed exact_env default_sargs 840 400 160) by (apply default_framed; lia).
  assert (Hs : skipn 160 (fvec 1000 bent) = fvec 840 (fun _ => 1)).
  { rewrite fvec_skipn by lia. apply fvec_ext. intros i _. unfold bent. destruct (Nat.ltb_spec (160 + i) 100); [lia|reflexivity]. }
  destruct (@C51_lpc exact_env default_sargs 1000 400 160 12 bent Hw ltac:(lia)) as (A & E & HA & _); [intros i _; apply bent_sounding|].
  destruct (@C51_lpc exact_env default_sargs 840 400 160 12 (fun _ => 1) Hw2 ltac:(lia)) as (A2 & E2 & HA2 & _); [intros i _; apply ones_sounding; lra|].
  rewrite <- Hs in HA2. destruct Hw as (_ & _ & EH & _).
  do 4 eexists. split; [exact HA|]. split; [exact HA2|].
  apply (@C79_lpc_shift exact_env default_sargs 13 (fvec 1000 bent)); auto; try rewrite EH; try rewrite fmat_length; try (cbn; lia).
  rewrite Nat2Z.id. exact HA2.
Qed.
