(** * Property theorems: how far predictors can be off (C177) *)
From Coq Require Import Reals ZArith List String Bool Lia Lra.
From Verif Require Import Base BaseFacts SpecBase SpecMat SpecFeatures BigSum MatFacts Preprocessing PreprocessingFacts
  WindowFacts Features Extractors FeaturesFacts Rounded SpecRounded RoundedFacts RoundedLaws SpecNoise Lpc SpecLpc LpcTheory LpcMore LpcLaws ExampleTools ExampleFeatures ExampleLpc
  SpecLevinson LevinsonFacts PredictorFacts PropertiesLpc.
Import ListNotations.
Local Open Scope R_scope.

(** C177. How well a frame determines its predictor is given by its energy floor: some positive one exists
    for each frame lpc accepts, and the smallest value of its power spectrum (with at least L+p points) is one. *)
Theorem C177_floor : forall (Env1 : Env) a N L hop p x A E, well_framed a N L hop -> (1 <= p)%nat ->
  lpc (fvec N x) (s_fs a) (Z.of_nat (S p)) (s_pre_emph a) (s_coeff a) (s_window a)
  = Ok (fmat (frame_count N L hop) (S p) A, fmat (frame_count N L hop) 1 E) ->
  forall i, (i < frame_count N L hop)%nat -> let f := plain_frame a hop x i in
    (exists s, 0 < s /\ energy_floor L p f s) /\
    (forall m s, (L + p <= m)%nat -> spectrum_floor m L f s -> energy_floor L p f s).
Proof.
  intros Env1 a N L hop p x A E Hw Hp H i Hi f. destruct (lpc_ok_sounding a N L hop p x A E Hw Hp H i Hi) as (Hs & _). split.
  - apply floor_exists, Hs.
  - intros m s Hm. destruct Hw as (_ & _ & _ & _ & HL & _). apply floor_spectrum; lia.
Qed.
Print Assumptions C177_floor.

(** Numbers b, with b(0) = 1, that miss the normal equations by little are close to the predictor lpc
    stands for, and leave little more energy than it does. *)
Theorem C177_defect : forall (Env1 : Env) a N L hop p x A E, well_framed a N L hop -> (1 <= p)%nat ->
  lpc (fvec N x) (s_fs a) (Z.of_nat (S p)) (s_pre_emph a) (s_coeff a) (s_window a)
  = Ok (fmat (frame_count N L hop) (S p) A, fmat (frame_count N L hop) 1 E) ->
  forall i b s, (i < frame_count N L hop)%nat -> b O = 1 -> 0 < s -> let f := plain_frame a hop x i in energy_floor L p f s ->
  let D := bigsum p (fun k => defect L p f b (S k) ^ 2) in
  bigsum (S p) (fun k => (b k - A i k) ^ 2) <= D / s ^ 2 /\ residual_energy L p f b <= residual_energy L p f (A i) + D / s.
Proof.
  intros Env1 a N L hop p x A E Hw Hp H i b s Hi Hb S0 f HS. destruct (lpc_ok_sounding a N L hop p x A E Hw Hp H i Hi) as (_ & Hn & _).
  exact (defect_near L p f (A i) b s Hn Hb S0 HS).
Qed.
Print Assumptions C177_defect.

(** So any computation is: one that uses samples g off by at most d, adds up the products of each
    autocorrelation in any order with a relative error of u per operation, and solves the system it then has
    up to tau in each equation (which can be checked afterwards). *)
Theorem C177_computed : forall (Env1 : Env) a N L hop p x A E, well_framed a N L hop -> (1 <= p)%nat ->
  lpc (fvec N x) (s_fs a) (Z.of_nat (S p)) (s_pre_emph a) (s_coeff a) (s_window a)
  = Ok (fmat (frame_count N L hop) (S p) A, fmat (frame_count N L hop) 1 E) ->
  forall (Env2 : Env) u i M d s g prog b tau, (i < frame_count N L hop)%nat -> accurate u 0 (@rnd Env2) -> 0 <= d ->
  let f := plain_frame a hop x i in
  (forall t, (t < L)%nat -> Rabs (f t) <= M) -> (forall t, (t < L)%nat -> Rabs (g t - f t) <= d) ->
  (forall k, (k <= p)%nat -> dot_program g (L - k) (prog k)) -> b O = 1 ->
  (forall k, (1 <= k <= p)%nat ->
     Rabs (bigsum (S p) (fun j => @lin_run Env2 (fun t => g (t + dist k j)%nat) (prog (dist k j)) * b j)) <= tau) ->
  0 < s -> energy_floor L p f s ->
  let q := tau + (rounding_loss u L (M + d) + change_loss L M d) * bigsum (S p) (fun j => Rabs (b j)) in
  bigsum (S p) (fun k => (b k - A i k) ^ 2) <= INR p * (q / s) ^ 2 /\
  residual_energy L p f b <= residual_energy L p f (A i) + INR p * q ^ 2 / s.
Proof. exact lpc_computed. Qed.
Print Assumptions C177_computed.

(** Two recordings that differ by at most d have predictors that differ by at most a multiple of d. *)
Theorem C177_noise : forall (Env1 : Env) a N L hop p x y A E A2 E2 M d, well_framed a N L hop -> (1 <= p)%nat ->
  let call z := lpc (fvec N z) (s_fs a) (Z.of_nat (S p)) (s_pre_emph a) (s_coeff a) (s_window a) in let n := frame_count N L hop in
  call x = Ok (fmat n (S p) A, fmat n 1 E) -> call y = Ok (fmat n (S p) A2, fmat n 1 E2) ->
  (forall t, (t < N)%nat -> Rabs (x t) <= M) -> apart N d x y ->
  forall i s, (i < n)%nat -> 0 < s -> energy_floor L p (plain_frame a hop x i) s ->
  let e := emphasis (s_pre_emph a) in
  bigsum (S p) (fun k => (A2 i k - A i k) ^ 2) <= INR p * (change_loss L (e * M) (e * d) * 2 ^ p / s) ^ 2.
Proof. exact lpc_change. Qed.
Print Assumptions C177_noise.

(** a case for these: the impulse of two samples, order 2; its spectrum is flat, and its predictor (1, 0) *)
Definition pulse (t : nat) : R := if Nat.eqb t 0 then 1 else 0.
Lemma pulse_frame : forall i t, plain_frame lp_tiny 1 pulse i t = pulse (i + t).
Proof. intros i t. unfold plain_frame, spec_pre. cbn [lp_tiny s_pre_emph]. rewrite Nat.mul_1_r. reflexivity. Qed.
Lemma pulse_spectrum : spectrum_floor 3 2 (plain_frame lp_tiny 1 pulse 0) 1.
Proof.
  intros k _. unfold spec_re, spec_im. change (Nat.min 2 3) with 2%nat. change (bigsum 2) with (fun g => 0 + g O + g 1%nat). cbv beta. rewrite !pulse_frame. unfold pulse.
  cbn [Nat.add Nat.mul Nat.eqb]. replace (2 * PI * INR 0 / INR 3) with 0 by (cbn [INR]; field; lra). rewrite cos_0, sin_0. lra.
Qed.
Lemma pulse_ok : exists A E, @lpc exact_env (fvec 2 pulse) 1 2 false 0 (Some (mkWindow 2 1 "hamming")) = Ok (fmat 1 2 A, fmat 1 1 E).
Proof.
  destruct (@C51_lpc exact_env lp_tiny 2 2 1 1 pulse (lp_tiny_framed 2 ltac:(lia)) ltac:(lia)) as (A & E & HA & _); [|exists A, E; exact HA].
  intros i Hi. change (frame_count 2 2 1) with 1%nat in Hi. assert (i = O) as -> by lia. exists O. split; [lia|]. rewrite pulse_frame. unfold pulse. cbn. lra.
Qed.
Example C177_floor_example : energy_floor 2 1 (plain_frame lp_tiny 1 pulse 0) 1.
Proof.
  destruct pulse_ok as (A & E & H). destruct (C177_floor exact_env lp_tiny 2 2 1 1 pulse A E (lp_tiny_framed 2 ltac:(lia)) ltac:(lia) H O ltac:(cbn; lia)) as (_ & K).
  apply (K 3%nat); [lia|exact pulse_spectrum].
Qed.
Example C177_computed_example : exists A E,
  @lpc exact_env (fvec 2 pulse) 1 2 false 0 (Some (mkWindow 2 1 "hamming")) = Ok (fmat 1 2 A, fmat 1 1 E) /\
  forall z, let r k := @lin_run binary53 (fun t => pulse (t + k)) (dot_left pulse (2 - k)) in
    (z - A O 1%nat) ^ 2 <= (Rabs (r 1%nat + r O * z) + ((1 + / 2 ^ 53) ^ 2 - 1) * 2 * (1 + Rabs z)) ^ 2.
Proof.
  destruct pulse_ok as (A & E & H). exists A, E. split; [exact H|]. intros z r.
  set (b := fun k => match k with O => 1 | _ => z end).
  destruct (C177_computed exact_env lp_tiny 2 2 1 1 pulse A E (lp_tiny_framed 2 ltac:(lia)) ltac:(lia) H binary53 (/ 2 ^ 53) O 1 0 1 pulse (fun k => dot_left pulse (2 - k)) b (Rabs (r 1%nat + r O * z)))
    as (B & _); try lra.
  - cbn; lia.
  - exact rnd53_accurate.
  - intros t _. rewrite pulse_frame. unfold pulse. destruct (Nat.eqb (0 + t) 0); rewrite ?Rabs_R0, ?Rabs_R1; lra.
  - intros t _. rewrite pulse_frame. cbn [Nat.add]. replace (pulse t - pulse t) with 0 by ring. rewrite Rabs_R0. lra.
  - intros k _. apply dot_left_program.
  - reflexivity.
  - intros k Hk. assert (k = 1)%nat as -> by lia. right. f_equal. cbn [bigsum]. unfold b, r. change (dist 1 0) with 1%nat. change (dist 1 1) with O. ring.
  - exact C177_floor_example.
  - eapply Rle_trans; [|eapply Rle_trans; [exact B|]].
    + apply (bigsum_ge_term 2 (fun k => (b k - A O k) ^ 2) 1%nat); [intros; apply pow2_ge_0|lia].
    + right. unfold rounding_loss, change_loss, b. cbn [bigsum]. rewrite Rabs_R1. cbn [INR]. field.
Qed.
(** another recording within 1/10 of it *)
Definition pulse2 (t : nat) : R := if Nat.eqb t 0 then 1 else / 10.
Example C177_noise_example : exists A E A2 E2,
  @lpc exact_env (fvec 2 pulse) 1 2 false 0 (Some (mkWindow 2 1 "hamming")) = Ok (fmat 1 2 A, fmat 1 1 E) /\
  @lpc exact_env (fvec 2 pulse2) 1 2 false 0 (Some (mkWindow 2 1 "hamming")) = Ok (fmat 1 2 A2, fmat 1 1 E2) /\
  (A2 O 1%nat - A O 1%nat) ^ 2 <= 0.84 ^ 2.
Proof.
  destruct pulse_ok as (A & E & H).
  destruct (@C51_lpc exact_env lp_tiny 2 2 1 1 pulse2 (lp_tiny_framed 2 ltac:(lia)) ltac:(lia)) as (A2 & E2 & H2 & _).
  { intros i Hi. change (frame_count 2 2 1) with 1%nat in Hi. assert (i = O) as -> by lia. exists O. split; [lia|]. unfold plain_frame, spec_pre, pulse2. cbn. lra. }
  exists A, E, A2, E2. split; [exact H|]. split; [exact H2|].
  pose proof (C177_noise exact_env lp_tiny 2 2 1 1 pulse pulse2 A E A2 E2 1 (/ 10) (lp_tiny_framed 2 ltac:(lia)) ltac:(lia) H H2) as B.
  eapply Rle_trans; [apply (bigsum_ge_term 2 (fun k => (A2 O k - A O k) ^ 2) 1%nat); [intros; apply pow2_ge_0|lia]|].
  eapply Rle_trans; [apply (B) with (s := 1)|].
  - intros t _. unfold pulse. destruct (Nat.eqb t 0); rewrite ?Rabs_R0, ?Rabs_R1; lra.
  - intros t _. unfold pulse, pulse2. destruct (Nat.eqb t 0); [replace (1 - 1) with 0 by ring; rewrite Rabs_R0|rewrite Rminus_0_r, Rabs_pos_eq]; lra.
  - cbn; lia.
  - lra.
  - exact C177_floor_example.
  - unfold change_loss, emphasis. cbn [lp_tiny s_pre_emph INR]. lra.
Qed.
Example C177_defect_example : exists A E,
  @lpc exact_env (fvec 2 pulse) 1 2 false 0 (Some (mkWindow 2 1 "hamming")) = Ok (fmat 1 2 A, fmat 1 1 E) /\ (1 / 8 - A O 1%nat) ^ 2 <= (1 / 8) ^ 2.
Proof.
  destruct pulse_ok as (A & E & H). exists A, E. split; [exact H|].
  set (b := fun k : nat => match k with O => 1 | _ => 1 / 8 end).
  destruct (C177_defect exact_env lp_tiny 2 2 1 1 pulse A E (lp_tiny_framed 2 ltac:(lia)) ltac:(lia) H O b 1 ltac:(cbn; lia) eq_refl ltac:(lra) C177_floor_example) as (B & _).
  eapply Rle_trans; [apply (bigsum_ge_term 2 (fun k => (b k - A O k) ^ 2) 1%nat); [intros; apply pow2_ge_0|lia]|]. eapply Rle_trans; [exact B|].
  right. unfold defect. cbn [bigsum]. change (dist 1 0) with 1%nat. change (dist 1 1) with O. unfold acf. cbn [Nat.sub bigsum]. rewrite !pulse_frame. unfold pulse, b. cbn. field.
Qed.

(** Near every recording lpc accepts, all recordings are accepted, and their predictors are as close as desired ... *)
Theorem C177_continuous : forall (Env1 : Env) a N L hop p x A E eps, well_framed a N L hop -> (1 <= p)%nat -> 0 < eps ->
  let call z := lpc (fvec N z) (s_fs a) (Z.of_nat (S p)) (s_pre_emph a) (s_coeff a) (s_window a) in let n := frame_count N L hop in
  call x = Ok (fmat n (S p) A, fmat n 1 E) ->
  exists d, 0 < d /\ forall y, apart N d x y ->
    exists A2 E2, call y = Ok (fmat n (S p) A2, fmat n 1 E2) /\ forall i k, (i < n)%nat -> (k <= p)%nat -> Rabs (A2 i k - A i k) < eps.
Proof. exact lpc_continuous. Qed.
Print Assumptions C177_continuous.
Example C177_continuous_example : exists A E d,
  @lpc exact_env (fvec 1000 (fun _ => 1)) 16000 13 true 0.97 None = Ok (fmat 4 13 A, fmat 4 1 E) /\ 0 < d /\
  forall y, apart 1000 d (fun _ => 1) y -> exists A2 E2, @lpc exact_env (fvec 1000 y) 16000 13 true 0.97 None = Ok (fmat 4 13 A2, fmat 4 1 E2) /\
    forall i k, (i < 4)%nat -> (k <= 12)%nat -> Rabs (A2 i k - A i k) < 0.001.
Proof.
  assert (Hw : @well_framed exact_env default_sargs 1000 400 160) by (apply default_framed; lia).
  destruct (@C51_lpc exact_env default_sargs 1000 400 160 12 (fun _ => 1) Hw ltac:(lia)) as (A & E & HA & _); [intros i _; apply ones_sounding; lra|].
  destruct (C177_continuous exact_env default_sargs 1000 400 160 12 (fun _ => 1) A E 0.001 Hw ltac:(lia) ltac:(lra) HA) as (d & D0 & K).
  exists A, E, d. split; [exact HA|]. split; [exact D0|exact K].
Qed.
(** ... but no distance works for all recordings: the predictors of any two recordings are also those of two
    recordings closer together than any given distance. *)
Theorem C177_uniform_refuted : forall (Env1 : Env) a N L hop p x y A E A2 E2 d, well_framed a N L hop -> (1 <= p)%nat -> 0 < d ->
  let call z := lpc (fvec N z) (s_fs a) (Z.of_nat (S p)) (s_pre_emph a) (s_coeff a) (s_window a) in let n := frame_count N L hop in
  call x = Ok (fmat n (S p) A, fmat n 1 E) -> call y = Ok (fmat n (S p) A2, fmat n 1 E2) ->
  exists x' y' E' E2', apart N d x' y' /\ call x' = Ok (fmat n (S p) A, fmat n 1 E') /\ call y' = Ok (fmat n (S p) A2, fmat n 1 E2').
Proof.
  intros Env1 a N L hop p x y A E A2 E2 d Hw Hp D0 call n H1 H2. set (S0 := bigsum N (fun t => Rabs (y t - x t))).
  assert (P0 : 0 <= S0) by (apply bigsum_nonneg; intros; apply Rabs_pos). set (g := d / (S0 + 1)). assert (G0 : 0 < g) by (apply Rdiv_lt_0_compat; lra).
  exists (fun t => g * x t), (fun t => g * y t). do 2 eexists. split; [|split].
  - intros t Ht. replace (g * y t - g * x t) with (g * (y t - x t)) by ring. rewrite Rabs_mult, Rabs_pos_eq by lra.
    pose proof (bigsum_ge_term N (fun t => Rabs (y t - x t)) t ltac:(intros; apply Rabs_pos) Ht) as T. fold S0 in T. cbv beta in T.
    apply Rle_trans with (g * (S0 + 1)); [apply Rmult_le_compat_l; lra|]. unfold g. right. field. lra.
  - apply (C51_gain a N L hop p x g A E Hw Hp); [lra|exact H1].
  - apply (C51_gain a N L hop p y g A2 E2 Hw Hp); [lra|exact H2].
Qed.
Print Assumptions C177_uniform_refuted.
(** a case: within any distance there are two recordings whose predictors differ by 1 *)
Definition zigzag (t : nat) : R := if Nat.eqb t 0 then 1 else -1.
Example C177_uniform_example : forall d, 0 < d -> exists x y A E A2 E2, apart 2 d x y /\
  @lpc exact_env (fvec 2 x) 1 2 false 0 (Some (mkWindow 2 1 "hamming")) = Ok (fmat 1 2 A, fmat 1 1 E) /\
  @lpc exact_env (fvec 2 y) 1 2 false 0 (Some (mkWindow 2 1 "hamming")) = Ok (fmat 1 2 A2, fmat 1 1 E2) /\ A2 O 1%nat - A O 1%nat = 1.
Proof.
  intros d D0. assert (Hw := lp_tiny_framed 2 ltac:(lia)).
  assert (V : forall x, x O = 1 -> x 1%nat <> 0 -> exists A E, @lpc exact_env (fvec 2 x) 1 2 false 0 (Some (mkWindow 2 1 "hamming")) = Ok (fmat 1 2 A, fmat 1 1 E) /\ (1 + x 1%nat ^ 2) * A O 1%nat = - x 1%nat).
  { intros x X0 X1. destruct (@C51_lpc exact_env lp_tiny 2 2 1 1 x Hw ltac:(lia)) as (A & E & HA & K).
    - intros i Hi. change (frame_count 2 2 1) with 1%nat in Hi. assert (i = O) as -> by lia. exists O. split; [lia|]. unfold plain_frame, spec_pre. cbn. lra.
    - exists A, E. split; [exact HA|]. destruct (K O ltac:(cbn; lia)) as ((N0 & N1) & _). specialize (N1 1%nat ltac:(lia)). unfold acf, plain_frame, spec_pre in N1. cbn in N1. rewrite N0, X0 in N1. lra. }
  destruct (V (fun _ => 1) eq_refl ltac:(lra)) as (A & E & H1 & V1). destruct (V zigzag eq_refl ltac:(unfold zigzag; cbn; lra)) as (A2 & E2 & H2 & V2).
  destruct (C177_uniform_refuted exact_env lp_tiny 2 2 1 1 (fun _ => 1) zigzag A E A2 E2 d Hw ltac:(lia) D0 H1 H2) as (x & y & E3 & E4 & K1 & K2 & K3).
  exists x, y, A, E3, A2, E4. split; [exact K1|]. split; [exact K2|]. split; [exact K3|]. unfold zigzag in V2. cbn in V1, V2. lra.
Qed.
