(** * Properties of plp and rplp: bounds, similar recordings, changes of level *)
From Coq Require Import Reals ZArith List String Bool Lia Lra.
From Verif Require Import Base BaseFacts SpecBase SpecMat SpecFilters SpecBanks SpecFeatures SpecRplp BigSum MatFacts Preprocessing PreprocessingFacts
  Features Extractors FeaturesFacts SpecLpc LpcTheory LpcLaws Rplp RplpNames RplpFacts RplpLaws SpecNoise ExampleRplp PlpNearFacts PlpLevelFacts.
Import ListNotations.
Local Open Scope R_scope.

(** C189. Coefficients 1 to p of plp and of rplp stay within 2^p - 1, whatever the recording. *)
Theorem C189_plp_bounded : forall `{Env} a N L hop n B x p lifter normalize C,
  well_framed a N L hop -> (1 <= s_nfft a)%Z -> (0 < n)%nat -> spectro_bank Bark a = Ok (fmat n (S (half (s_nfft a))) B) ->
  (1 <= p)%nat -> (Z.of_nat (S p) <= s_nfilts a)%Z -> no_post lifter normalize ->
  (forall i, (i < frame_count N L hop)%nat -> heard a n (channel_energy a L hop B x i)) ->
  plp (fvec N x) a (Z.of_nat (S p)) lifter normalize = Ok (fmat (frame_count N L hop) (S p) C) ->
  forall i m, (i < frame_count N L hop)%nat -> (1 <= m <= p)%nat -> Rabs (C i m) <= 2 ^ p - 1.
Proof. intros E a N L hop n B x p li no C Hw Hn Hn0 HB Hp Ho Hno Hh EC. exact (bounded_main a N L hop n B Hw Hn Hn0 HB x p false li no C Hp Ho Hno I Hh EC). Qed.
Print Assumptions C189_plp_bounded.
Theorem C189_rplp_bounded : forall `{Env} a N L hop n B x p lifter normalize C,
  well_framed a N L hop -> (1 <= s_nfft a)%Z -> (5 <= n)%nat -> spectro_bank Bark a = Ok (fmat n (S (half (s_nfft a))) B) ->
  (1 <= p)%nat -> (Z.of_nat (S p) <= s_nfilts a)%Z -> no_post lifter normalize ->
  (forall i j, (i < frame_count N L hop)%nat -> (j < n)%nat -> 0 < channel_energy a L hop B x i j) ->
  rplp (fvec N x) a (Z.of_nat (S p)) lifter normalize = Ok (fmat (frame_count N L hop) (S p) C) ->
  forall i m, (i < frame_count N L hop)%nat -> (1 <= m <= p)%nat -> Rabs (C i m) <= 2 ^ p - 1.
Proof.
  intros E a N L hop n B x p li no C Hw Hn Hn0 HB Hp Ho Hno He EC. refine (bounded_main a N L hop n B Hw Hn ltac:(lia) HB x p true li no C Hp Ho Hno (conj Hn0 He) _ EC).
  intros i Hi. apply rplp_heard; auto; lia.
Qed.
Print Assumptions C189_rplp_bounded.

(** Similar recordings give similar coefficients. *)
Theorem C189_plp_near : forall `{Env} a N L hop n B x p lifter normalize eps,
  well_framed a N L hop -> (1 <= s_nfft a)%Z -> (0 < n)%nat -> spectro_bank Bark a = Ok (fmat n (S (half (s_nfft a))) B) ->
  (forall j k, (j < n)%nat -> (k <= half (s_nfft a))%nat -> 0 <= B j k) ->
  (1 <= p)%nat -> (Z.of_nat (S p) <= s_nfilts a)%Z -> no_post lifter normalize ->
  (forall i, (i < frame_count N L hop)%nat -> heard a n (channel_energy a L hop B x i)) -> 0 < eps ->
  exists C d, plp (fvec N x) a (Z.of_nat (S p)) lifter normalize = Ok (fmat (frame_count N L hop) (S p) C) /\ 0 < d /\
    forall y, apart N d x y -> exists C2, plp (fvec N y) a (Z.of_nat (S p)) lifter normalize = Ok (fmat (frame_count N L hop) (S p) C2) /\
      forall i m, (i < frame_count N L hop)%nat -> (1 <= m <= p)%nat -> Rabs (C2 i m - C i m) < eps.
Proof. intros E a N L hop n B x p li no eps Hw Hn Hn0 HB HP Hp Ho Hno Hh He. exact (near_main a N L hop n B Hw Hn Hn0 HB HP x p false li no eps Hp Ho Hno I Hh He). Qed.
Print Assumptions C189_plp_near.
Theorem C189_rplp_near : forall `{Env} a N L hop n B x p lifter normalize eps,
  well_framed a N L hop -> (1 <= s_nfft a)%Z -> (5 <= n)%nat -> spectro_bank Bark a = Ok (fmat n (S (half (s_nfft a))) B) ->
  (forall j k, (j < n)%nat -> (k <= half (s_nfft a))%nat -> 0 <= B j k) ->
  (1 <= p)%nat -> (Z.of_nat (S p) <= s_nfilts a)%Z -> no_post lifter normalize ->
  (forall i j, (i < frame_count N L hop)%nat -> (j < n)%nat -> 0 < channel_energy a L hop B x i j) -> 0 < eps ->
  exists C d, rplp (fvec N x) a (Z.of_nat (S p)) lifter normalize = Ok (fmat (frame_count N L hop) (S p) C) /\ 0 < d /\
    forall y, apart N d x y -> exists C2, rplp (fvec N y) a (Z.of_nat (S p)) lifter normalize = Ok (fmat (frame_count N L hop) (S p) C2) /\
      forall i m, (i < frame_count N L hop)%nat -> (1 <= m <= p)%nat -> Rabs (C2 i m - C i m) < eps.
Proof.
  intros E a N L hop n B x p li no eps Hw Hn Hn0 HB HP Hp Ho Hno He Heps. refine (near_main a N L hop n B Hw Hn ltac:(lia) HB HP x p true li no eps Hp Ho Hno (conj Hn0 He) _ Heps).
  intros i Hi. apply rplp_heard; auto; lia.
Qed.
Print Assumptions C189_rplp_near.

(** Turned down far enough, a recording gives the coefficients of the predictor for the energies raised to 4/3;
    turned up far enough, those for the energies raised to -4/3 (channels without energy stay without). *)
Theorem C189_plp_faint : forall `{Env} a N L hop n B x p lifter normalize,
  well_framed a N L hop -> (1 <= s_nfft a)%Z -> (0 < n)%nat -> spectro_bank Bark a = Ok (fmat n (S (half (s_nfft a))) B) ->
  (forall j k, (j < n)%nat -> (k <= half (s_nfft a))%nat -> 0 <= B j k) ->
  (1 <= p)%nat -> (Z.of_nat (S p) <= s_nfilts a)%Z -> no_post lifter normalize ->
  (forall i, (i < frame_count N L hop)%nat -> heard a n (channel_energy a L hop B x i)) ->
  let z := Z.to_nat (s_nfft a) in
  let limit i := spec_inverse z n (fun j => spec_root (4 / 3) (channel_energy a L hop B x i j)) in
  exists A, (forall i, (i < frame_count N L hop)%nat -> A i 0%nat = 1 /\ forall b, b 0%nat = 1 -> residual_energy z p (limit i) (A i) <= residual_energy z p (limit i) b) /\
    forall eps, 0 < eps -> exists g0, 0 < g0 /\ forall g, 0 < Rabs g <= g0 ->
      exists C, plp (fvec N (fun t => g * x t)) a (Z.of_nat (S p)) lifter normalize = Ok (fmat (frame_count N L hop) (S p) C) /\
        forall i m, (i < frame_count N L hop)%nat -> (1 <= m <= p)%nat -> Rabs (C i m - coded_cepstrum (A i) m) < eps.
Proof.
  intros E a N L hop n B x p li no Hw Hn Hn0 HB HP Hp Ho Hno Hh z limit. destruct (faint_main a N L hop n B Hw Hn Hn0 HB HP x p li no Hp Ho Hno Hh) as (A & HA & HE).
  exists A. split; [|exact HE]. intros i Hi. split; [apply (HA i Hi)|]. intros b Hb. apply normal_minimal; [apply HA; exact Hi|exact Hb].
Qed.
Print Assumptions C189_plp_faint.
Theorem C189_plp_loud : forall `{Env} a N L hop n B x p lifter normalize,
  well_framed a N L hop -> (1 <= s_nfft a)%Z -> (0 < n)%nat -> spectro_bank Bark a = Ok (fmat n (S (half (s_nfft a))) B) ->
  (forall j k, (j < n)%nat -> (k <= half (s_nfft a))%nat -> 0 <= B j k) ->
  (1 <= p)%nat -> (Z.of_nat (S p) <= s_nfilts a)%Z -> no_post lifter normalize ->
  (forall i, (i < frame_count N L hop)%nat -> heard a n (channel_energy a L hop B x i)) ->
  let z := Z.to_nat (s_nfft a) in
  let limit i := spec_inverse z n (fun j => spec_root (- (4 / 3)) (channel_energy a L hop B x i j)) in
  exists A, (forall i, (i < frame_count N L hop)%nat -> A i 0%nat = 1 /\ forall b, b 0%nat = 1 -> residual_energy z p (limit i) (A i) <= residual_energy z p (limit i) b) /\
    forall eps, 0 < eps -> exists g0, 0 < g0 /\ forall g, g0 <= Rabs g ->
      exists C, plp (fvec N (fun t => g * x t)) a (Z.of_nat (S p)) lifter normalize = Ok (fmat (frame_count N L hop) (S p) C) /\
        forall i m, (i < frame_count N L hop)%nat -> (1 <= m <= p)%nat -> Rabs (C i m - coded_cepstrum (A i) m) < eps.
Proof.
  intros E a N L hop n B x p li no Hw Hn Hn0 HB HP Hp Ho Hno Hh z limit. destruct (loud_main a N L hop n B Hw Hn Hn0 HB HP x p li no Hp Ho Hno Hh) as (A & HA & HE).
  exists A. split; [|exact HE]. intros i Hi. split; [apply (HA i Hi)|]. intros b Hb. apply normal_minimal; [apply HA; exact Hi|exact Hb].
Qed.
Print Assumptions C189_plp_loud.

(** refuted: "apart from coefficient 0, plp does not depend on the level."  Five channels, the last hears eight times
    as much: the first coefficient is below -0.7 for all faint copies and above -0.4 for all loud ones. *)
Theorem C189_level_refuted : exists g0 g1, 0 < g0 /\ 0 < g1 /\ forall g h, 0 < g <= g0 -> g1 <= h -> exists C C2,
  @plp exact_env (fvec 1 (fun _ => g)) (plp_tiny eight_h) 2 None None = Ok (fmat 1 2 C) /\ @plp exact_env (fvec 1 (fun _ => h)) (plp_tiny eight_h) 2 None None = Ok (fmat 1 2 C2) /\
  C 0%nat 1%nat < - (7 / 10) /\ - (4 / 10) < C2 0%nat 1%nat.
Proof. exact level_apart. Qed.
Print Assumptions C189_level_refuted.

(** three samples, five channels of which the last hears twice as much *)
Definition near_h (j : nat) : R := if Nat.eqb j 4 then 2 else 1.
Definition near_x (t : nat) : R := INR (S t).
Lemma near_h_pos : forall j, 0 < near_h j. Proof. intros j. unfold near_h. destruct (Nat.eqb j 4); lra. Qed.
Lemma near_energy : forall i j, 0 < channel_energy (plp_tiny near_h) 1 1 (plp_tiny_bank near_h) near_x i j.
Proof. intros i j. rewrite plp_tiny_energy. apply Rmult_lt_0_compat; [apply near_h_pos|]. apply pow_lt. unfold near_x. apply lt_0_INR. lia. Qed.
Lemma near_heard : forall i, heard (plp_tiny near_h) 5 (channel_energy (plp_tiny near_h) 1 1 (plp_tiny_bank near_h) near_x i).
Proof. intros i. exists 0%nat. split; [lia|]. split; [cbn; lia|]. apply Rgt_not_eq, near_energy. Qed.
Lemma near_bank : forall j k, 0 <= plp_tiny_bank near_h j k.
Proof. intros j k. unfold plp_tiny_bank. pose proof (near_h_pos j). destruct (Nat.eqb k 0); lra. Qed.
Lemma near_frames : frame_count 3 1 1 = 3%nat. Proof. reflexivity. Qed.

Example C189_plp_example : exists C d, @plp exact_env (fvec 3 near_x) (plp_tiny near_h) 3 None None = Ok (fmat 3 3 C) /\ (forall i m, (i < 3)%nat -> (1 <= m <= 2)%nat -> Rabs (C i m) <= 3) /\ 0 < d /\
  forall y, apart 3 d near_x y -> exists C2, @plp exact_env (fvec 3 y) (plp_tiny near_h) 3 None None = Ok (fmat 3 3 C2) /\ forall i m, (i < 3)%nat -> (1 <= m <= 2)%nat -> Rabs (C2 i m - C i m) < 1 / 1000.
Proof.
  destruct (@C189_plp_near exact_env (plp_tiny near_h) 3 1 1 5 (plp_tiny_bank near_h) near_x 2 None None (1 / 1000)) as (C & d & EC & D0 & HD);
    [apply plp_tiny_framed; lia|cbn; lia|lia|apply plp_tiny_B|intros; apply near_bank|lia|cbn; lia|split; left; reflexivity|intros; apply near_heard|lra|].
  exists C, d. split; [exact EC|]. split; [|split; [exact D0|exact HD]].
  intros i m Hi Hm. replace 3 with (2 ^ 2 - 1) by ring. apply (@C189_plp_bounded exact_env (plp_tiny near_h) 3 1 1 5 (plp_tiny_bank near_h) near_x 2 None None C);
    [apply plp_tiny_framed; lia|cbn; lia|lia|apply plp_tiny_B|lia|cbn; lia|split; left; reflexivity|intros; apply near_heard|exact EC|exact Hi|exact Hm].
Qed.
Example C189_rplp_example : exists C d, @rplp exact_env (fvec 3 near_x) (plp_tiny near_h) 3 None None = Ok (fmat 3 3 C) /\ (forall i m, (i < 3)%nat -> (1 <= m <= 2)%nat -> Rabs (C i m) <= 3) /\ 0 < d /\
  forall y, apart 3 d near_x y -> exists C2, @rplp exact_env (fvec 3 y) (plp_tiny near_h) 3 None None = Ok (fmat 3 3 C2) /\ forall i m, (i < 3)%nat -> (1 <= m <= 2)%nat -> Rabs (C2 i m - C i m) < 1 / 1000.
Proof.
  destruct (@C189_rplp_near exact_env (plp_tiny near_h) 3 1 1 5 (plp_tiny_bank near_h) near_x 2 None None (1 / 1000)) as (C & d & EC & D0 & HD);
    [apply plp_tiny_framed; lia|cbn; lia|lia|apply plp_tiny_B|intros; apply near_bank|lia|cbn; lia|split; left; reflexivity|intros; apply near_energy|lra|].
  exists C, d. split; [exact EC|]. split; [|split; [exact D0|exact HD]].
  intros i m Hi Hm. replace 3 with (2 ^ 2 - 1) by ring. apply (@C189_rplp_bounded exact_env (plp_tiny near_h) 3 1 1 5 (plp_tiny_bank near_h) near_x 2 None None C);
    [apply plp_tiny_framed; lia|cbn; lia|lia|apply plp_tiny_B|lia|cbn; lia|split; left; reflexivity|intros; apply near_energy|exact EC|exact Hi|exact Hm].
Qed.
(** two copies that are both faint enough agree to within a thousandth, and so do two that are both loud enough *)
Example C189_level_example : exists g0 g1, 0 < g0 /\ 0 < g1 /\ forall g h, (0 < g <= g0 /\ 0 < h <= g0) \/ (g1 <= g /\ g1 <= h) ->
  exists C C2, @plp exact_env (fvec 3 (fun t => g * near_x t)) (plp_tiny near_h) 3 None None = Ok (fmat 3 3 C) /\ @plp exact_env (fvec 3 (fun t => h * near_x t)) (plp_tiny near_h) 3 None None = Ok (fmat 3 3 C2) /\
    forall i m, (i < 3)%nat -> (1 <= m <= 2)%nat -> Rabs (C2 i m - C i m) < 1 / 1000.
Proof.
  destruct (@C189_plp_faint exact_env (plp_tiny near_h) 3 1 1 5 (plp_tiny_bank near_h) near_x 2 None None) as (A & _ & HA);
    [apply plp_tiny_framed; lia|cbn; lia|lia|apply plp_tiny_B|intros; apply near_bank|lia|cbn; lia|split; left; reflexivity|intros; apply near_heard|].
  destruct (@C189_plp_loud exact_env (plp_tiny near_h) 3 1 1 5 (plp_tiny_bank near_h) near_x 2 None None) as (A2 & _ & HA2);
    [apply plp_tiny_framed; lia|cbn; lia|lia|apply plp_tiny_B|intros; apply near_bank|lia|cbn; lia|split; left; reflexivity|intros; apply near_heard|].
  destruct (HA (1 / 2000) ltac:(lra)) as (g0 & G0 & HG0). destruct (HA2 (1 / 2000) ltac:(lra)) as (g1 & G1 & HG1). exists g0, g1. split; [exact G0|]. split; [exact G1|].
  assert (T : forall c c2 v, Rabs (c - v) < 1 / 2000 -> Rabs (c2 - v) < 1 / 2000 -> Rabs (c2 - c) < 1 / 1000) by (intros c c2 v; unfold Rabs; repeat destruct (Rcase_abs _); lra).
  intros g h [(H1 & H2)|(H1 & H2)].
  - destruct (HG0 g) as (C & EC & HC); [rewrite Rabs_pos_eq; lra|]. destruct (HG0 h) as (C2 & EC2 & HC2); [rewrite Rabs_pos_eq; lra|].
    exists C, C2. split; [exact EC|]. split; [exact EC2|]. intros i m Hi Hm. exact (T _ _ _ (HC i m Hi Hm) (HC2 i m Hi Hm)).
  - destruct (HG1 g) as (C & EC & HC); [rewrite Rabs_pos_eq; lra|]. destruct (HG1 h) as (C2 & EC2 & HC2); [rewrite Rabs_pos_eq; lra|].
    exists C, C2. split; [exact EC|]. split; [exact EC2|]. intros i m Hi Hm. exact (T _ _ _ (HC i m Hi Hm) (HC2 i m Hi Hm)).
Qed.
