(** * Property theorems: linear prediction with successive orders (C176) *)
From Coq Require Import Reals ZArith List String Bool Lia Lra.
From Verif Require Import Base BaseFacts SpecBase SpecMat SpecFeatures BigSum MatFacts Preprocessing PreprocessingFacts
  WindowFacts Features Extractors FeaturesFacts Lpc SpecLpc LpcTheory LpcMore LpcLaws ExampleTools ExampleFeatures ExampleLpc
  SpecLevinson LevinsonFacts PredictorFacts PropertiesLpc.
Import ListNotations.
Local Open Scope R_scope.

(** C176. The predictors of order p+2 follow from those of order p+1 by one reflection, whose coefficient is
    the last coefficient of the longer predictor and smaller than 1; the residual energy shrinks by 1 - k^2. *)
Theorem C176_levinson : forall (Env1 : Env) a N L hop p x A E A2 E2, well_framed a N L hop -> (1 <= p)%nat ->
  lpc (fvec N x) (s_fs a) (Z.of_nat (S p)) (s_pre_emph a) (s_coeff a) (s_window a)
  = Ok (fmat (frame_count N L hop) (S p) A, fmat (frame_count N L hop) 1 E) ->
  lpc (fvec N x) (s_fs a) (Z.of_nat (S (S p))) (s_pre_emph a) (s_coeff a) (s_window a)
  = Ok (fmat (frame_count N L hop) (S (S p)) A2, fmat (frame_count N L hop) 1 E2) ->
  forall i, (i < frame_count N L hop)%nat -> let k := A2 i (S p) in
    Rabs k < 1 /\ (forall j, (1 <= j <= p)%nat -> A2 i j = A i j + k * A i (S p - j)%nat) /\
    residual_energy L (S p) (plain_frame a hop x i) (A2 i) = (1 - k ^ 2) * residual_energy L p (plain_frame a hop x i) (A i).
Proof. exact lpc_two_orders. Qed.
Print Assumptions C176_levinson.
Example C176_levinson_example : exists A E A2 E2,
  @lpc exact_env (fvec 1000 (fun _ => 1)) 16000 13 true 0.97 None = Ok (fmat 4 13 A, fmat 4 1 E) /\
  @lpc exact_env (fvec 1000 (fun _ => 1)) 16000 14 true 0.97 None = Ok (fmat 4 14 A2, fmat 4 1 E2) /\
  forall i, (i < 4)%nat -> Rabs (A2 i 13%nat) < 1 /\ A2 i 1%nat = A i 1%nat + A2 i 13%nat * A i 12%nat.
Proof.
  assert (Hw : @well_framed exact_env default_sargs 1000 400 160) by (apply default_framed; lia).
  destruct (@C51_lpc exact_env default_sargs 1000 400 160 12 (fun _ => 1) Hw ltac:(lia)) as (A & E & HA & _); [intros i _; apply ones_sounding; lra|].
  destruct (@C51_lpc exact_env default_sargs 1000 400 160 13 (fun _ => 1) Hw ltac:(lia)) as (A2 & E2 & HA2 & _); [intros i _; apply ones_sounding; lra|].
  exists A, E, A2, E2. split; [exact HA|]. split; [exact HA2|]. intros i Hi.
  destruct (C176_levinson exact_env default_sargs 1000 400 160 12 (fun _ => 1) A E A2 E2 Hw ltac:(lia) HA HA2 i Hi) as (K & B & _).
  split; [exact K|]. apply (B 1%nat). lia.
Qed.

(** No coefficient exceeds the binomial coefficient of its place, whatever was recorded. *)
Theorem C176_binomial : forall (Env1 : Env) a N L hop p x A E, well_framed a N L hop -> (1 <= p)%nat ->
  lpc (fvec N x) (s_fs a) (Z.of_nat (S p)) (s_pre_emph a) (s_coeff a) (s_window a)
  = Ok (fmat (frame_count N L hop) (S p) A, fmat (frame_count N L hop) 1 E) ->
  forall i k, (i < frame_count N L hop)%nat -> (k <= p)%nat -> Rabs (A i k) <= INR (binom p k).
Proof.
  intros Env1 a N L hop p x A E Hw Hp H i k Hi Hk. destruct (lpc_ok_sounding a N L hop p x A E Hw Hp H i Hi) as (Hs & Hn & _).
  exact (normal_binomial L p _ _ Hs Hn k Hk).
Qed.
Print Assumptions C176_binomial.
(** The cepstral coefficients lpcc returns (without lifter and normalisation) stay below 2^p, the first column excepted. *)
Theorem C176_lpcc : forall (Env1 : Env) a N L hop p x C, well_framed a N L hop -> (1 <= p)%nat ->
  lpcc (fvec N x) (s_fs a) (Z.of_nat (S p)) (s_pre_emph a) (s_coeff a) (s_window a) None None
  = Ok (fmat (frame_count N L hop) (S p) C) ->
  forall i m, (i < frame_count N L hop)%nat -> (1 <= m <= p)%nat -> Rabs (C i m) <= 2 ^ p - 1.
Proof.
  intros Env1 a N L hop p x C Hw Hp H i m Hi Hm.
  assert (Hs : forall j, (j < frame_count N L hop)%nat -> sounding L (plain_frame a hop x j)).
  { intros j Hj. destruct (sounding_dec L (plain_frame a hop x j)) as [S1|S1]; [exact S1|exfalso].
    destruct (lpc_silent a N L hop p x Hw Hp) as [_ K]; [eauto|]. rewrite K in H. discriminate. }
  destruct (lpcc_sounding a N L hop p x Hw Hp Hs) as (A & HA & HC). rewrite HC in H. apply Ok_inj in H.
  rewrite <- (fmat_inj _ _ _ _ H i m Hi ltac:(lia)). destruct (Nat.eqb_spec m 0); [lia|].
  apply coded_bound; [|exact Hm]. intros j Hj. apply (normal_binomial L p (plain_frame a hop x i)); auto.
Qed.
Print Assumptions C176_lpcc.
Example C176_binomial_example : exists A E C,
  @lpc exact_env (fvec 1000 (fun _ => 1)) 16000 13 true 0.97 None = Ok (fmat 4 13 A, fmat 4 1 E) /\
  @lpcc exact_env (fvec 1000 (fun _ => 1)) 16000 13 true 0.97 None None None = Ok (fmat 4 13 C) /\
  (forall i, (i < 4)%nat -> Rabs (A i 1%nat) <= 12 /\ Rabs (A i 6%nat) <= 924) /\
  (forall i m, (i < 4)%nat -> (1 <= m <= 12)%nat -> Rabs (C i m) <= 4095).
Proof.
  assert (Hw : @well_framed exact_env default_sargs 1000 400 160) by (apply default_framed; lia).
  destruct (@C51_lpc exact_env default_sargs 1000 400 160 12 (fun _ => 1) Hw ltac:(lia)) as (A & E & HA & _); [intros i _; apply ones_sounding; lra|].
  destruct (@lpcc_sounding exact_env default_sargs 1000 400 160 12 (fun _ => 1) Hw ltac:(lia)) as (B & _ & HC); [intros i _; apply ones_sounding; lra|].
  exists A, E. eexists. split; [exact HA|]. split; [exact HC|]. split.
  - intros i Hi. split.
    + apply Rle_trans with (INR (binom 12 1)); [exact (C176_binomial exact_env default_sargs 1000 400 160 12 _ A E Hw ltac:(lia) HA i 1%nat Hi ltac:(lia))|].
      change (binom 12 1) with 12%nat. rewrite INR_IZR_INZ. cbn. lra.
    + apply Rle_trans with (INR (binom 12 6)); [exact (C176_binomial exact_env default_sargs 1000 400 160 12 _ A E Hw ltac:(lia) HA i 6%nat Hi ltac:(lia))|].
      change (binom 12 6) with 924%nat. rewrite INR_IZR_INZ. cbn. lra.
  - intros i m Hi Hm. apply Rle_trans with (2 ^ 12 - 1); [|lra].
    exact (C176_lpcc exact_env default_sargs 1000 400 160 12 (fun _ => 1) _ Hw ltac:(lia) HC i m Hi Hm).
Qed.

(** A longer predictor never leaves more energy, and never none. *)
Theorem C176_energy : forall (Env1 : Env) a N L hop p q x A E A2 E2, well_framed a N L hop -> (1 <= p <= q)%nat ->
  lpc (fvec N x) (s_fs a) (Z.of_nat (S p)) (s_pre_emph a) (s_coeff a) (s_window a)
  = Ok (fmat (frame_count N L hop) (S p) A, fmat (frame_count N L hop) 1 E) ->
  lpc (fvec N x) (s_fs a) (Z.of_nat (S q)) (s_pre_emph a) (s_coeff a) (s_window a)
  = Ok (fmat (frame_count N L hop) (S q) A2, fmat (frame_count N L hop) 1 E2) ->
  forall i, (i < frame_count N L hop)%nat ->
    0 < residual_energy L q (plain_frame a hop x i) (A2 i) <= residual_energy L p (plain_frame a hop x i) (A i).
Proof.
  intros Env1 a N L hop p q x A E A2 E2 Hw Hp H1 H2 i Hi.
  destruct (lpc_ok_sounding a N L hop p x A E Hw ltac:(lia) H1 i Hi) as (Hs & N1 & _). destruct (lpc_ok_sounding a N L hop q x A2 E2 Hw ltac:(lia) H2 i Hi) as (_ & N2 & _).
  split; [apply normal_positive; assumption|apply (normal_decreasing L _ Hs p q); auto; lia].
Qed.
Print Assumptions C176_energy.
Example C176_energy_example : exists A E A2 E2,
  @lpc exact_env (fvec 1000 (fun _ => 1)) 16000 5 true 0.97 None = Ok (fmat 4 5 A, fmat 4 1 E) /\
  @lpc exact_env (fvec 1000 (fun _ => 1)) 16000 13 true 0.97 None = Ok (fmat 4 13 A2, fmat 4 1 E2) /\
  forall i, (i < 4)%nat -> 0 < residual_energy 400 12 (plain_frame default_sargs 160 (fun _ => 1) i) (A2 i)
    <= residual_energy 400 4 (plain_frame default_sargs 160 (fun _ => 1) i) (A i).
Proof.
  assert (Hw : @well_framed exact_env default_sargs 1000 400 160) by (apply default_framed; lia).
  destruct (@C51_lpc exact_env default_sargs 1000 400 160 4 (fun _ => 1) Hw ltac:(lia)) as (A & E & HA & _); [intros i _; apply ones_sounding; lra|].
  destruct (@C51_lpc exact_env default_sargs 1000 400 160 12 (fun _ => 1) Hw ltac:(lia)) as (A2 & E2 & HA2 & _); [intros i _; apply ones_sounding; lra|].
  exists A, E, A2, E2. split; [exact HA|]. split; [exact HA2|].
  exact (C176_energy exact_env default_sargs 1000 400 160 4 12 (fun _ => 1) A E A2 E2 Hw ltac:(lia) HA HA2).
Qed.
