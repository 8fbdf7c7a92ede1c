(** * Properties of plp and rplp *)
From Coq Require Import Reals ZArith List String Bool Lia Lra.
From Verif Require Import Base BaseFacts SpecBase SpecMat SpecFilters SpecBanks SpecFeatures SpecRplp BigSum MatFacts Preprocessing PreprocessingFacts
  Features Extractors FeaturesFacts SpecLpc LpcTheory LpcLaws Rplp RplpNames RplpFacts RplpLaws RplpSilence ExampleRplp.
Import ListNotations.
Local Open Scope R_scope.

(** C47. The number of cepstra is checked first. *)
Theorem C47_nfilts_plp : forall `{Env} sig a order lifter normalize, (s_nfilts a < order)%Z ->
  plp sig a order lifter normalize = Raise (ParameterError msg_nfilts).
Proof. intros. unfold plp, rastaplp. rewrite (proj2 (Z.ltb_lt _ _)) by auto. auto. Qed.
Print Assumptions C47_nfilts_plp.
Theorem C47_nfilts_rplp : forall `{Env} sig a order lifter normalize, (s_nfilts a < order)%Z ->
  rplp sig a order lifter normalize = Raise (ParameterError msg_nfilts).
Proof. intros. unfold rplp, rastaplp. rewrite (proj2 (Z.ltb_lt _ _)) by auto. auto. Qed.
Print Assumptions C47_nfilts_rplp.
Example C47_rplp_example : @rplp exact_env [] default_plp 25 None None = Raise (ParameterError msg_nfilts).
Proof. apply C47_nfilts_rplp. simpl. lia. Qed.
Example C47_plp_example : @plp exact_env [] default_plp 25 None (Some "no such norm"%string) = Raise (ParameterError msg_nfilts).
Proof. apply C47_nfilts_plp. simpl. lia. Qed.

(** C107. The values of plp: linear prediction of the modulus of the inverse DFT of the
    loudnesses.  The predictor of every frame is the least-squares one; coefficient 0 is the
    log of the reported error, the others are the (coded) cepstrum. *)
Theorem C107_plp_values : forall `{Env} a N L hop n B x p lifter normalize,
  well_framed a N L hop -> (1 <= s_nfft a)%Z -> (0 < n)%nat ->
  spectro_bank Bark a = Ok (fmat n (S (half (s_nfft a))) B) ->
  (1 <= p)%nat -> (Z.of_nat (S p) <= s_nfilts a)%Z -> no_post lifter normalize ->
  (forall i, (i < frame_count N L hop)%nat -> heard a n (channel_energy a L hop B x i)) ->
  exists A,
    (forall i, (i < frame_count N L hop)%nat -> A i 0%nat = 1 /\
       forall b, b 0%nat = 1 ->
         residual_energy (Z.to_nat (s_nfft a)) p (plp_sequence a false L hop n B x i) (A i)
         <= residual_energy (Z.to_nat (s_nfft a)) p (plp_sequence a false L hop n B x i) b) /\
    plp (fvec N x) a (Z.of_nat (S p)) lifter normalize
    = Ok (fmat (frame_count N L hop) (S p)
            (fun i m => if Nat.eqb m 0
                        then spec_log (lpc_error (Z.to_nat (s_nfft a)) p (plp_sequence a false L hop n B x i) (A i))
                        else coded_cepstrum (A i) m)).
Proof.
  intros E a N L hop n B x p li no Hw Hn Hn0 HB Hp Ho Hno Hh.
  destruct (rastaplp_value a N L hop n B Hw Hn Hn0 HB x p false li no) as (A & HA & EA); auto; [exact I|].
  exists A. split; [|exact EA]. intros i Hi. split; [apply (HA i Hi)|]. intros b Hb. apply normal_minimal; auto.
Qed.
Print Assumptions C107_plp_values.
Theorem C107_rplp_values : forall `{Env} a N L hop n B x p lifter normalize,
  well_framed a N L hop -> (1 <= s_nfft a)%Z -> (5 <= n)%nat ->
  spectro_bank Bark a = Ok (fmat n (S (half (s_nfft a))) B) ->
  (1 <= p)%nat -> (Z.of_nat (S p) <= s_nfilts a)%Z -> no_post lifter normalize ->
  (forall i j, (i < frame_count N L hop)%nat -> (j < n)%nat -> 0 < channel_energy a L hop B x i j) ->
  exists A,
    (forall i, (i < frame_count N L hop)%nat -> A i 0%nat = 1 /\
       forall b, b 0%nat = 1 ->
         residual_energy (Z.to_nat (s_nfft a)) p (plp_sequence a true L hop n B x i) (A i)
         <= residual_energy (Z.to_nat (s_nfft a)) p (plp_sequence a true L hop n B x i) b) /\
    rplp (fvec N x) a (Z.of_nat (S p)) lifter normalize
    = Ok (fmat (frame_count N L hop) (S p)
            (fun i m => if Nat.eqb m 0
                        then spec_log (lpc_error (Z.to_nat (s_nfft a)) p (plp_sequence a true L hop n B x i) (A i))
                        else coded_cepstrum (A i) m)).
Proof.
  intros E a N L hop n B x p li no Hw Hn Hn0 HB Hp Ho Hno Hh.
  destruct (rastaplp_value a N L hop n B Hw Hn ltac:(lia) HB x p true li no) as (A & HA & EA); auto; [split; auto|intros; apply rplp_heard; auto; lia|].
  exists A. split; [|exact EA]. intros i Hi. split; [apply (HA i Hi)|]. intros b Hb. apply normal_minimal; auto.
Qed.
Print Assumptions C107_rplp_values.
Example C107_example : exists y, @rplp exact_env (fvec 3 (fun t => INR t + 1)) (plp_tiny (fun j => INR j + 1)) 4 None None = Ok (fmat 3 4 y).
Proof.
  destruct (@C107_rplp_values exact_env (plp_tiny (fun j => INR j + 1)) 3 1 1 5 (plp_tiny_bank (fun j => INR j + 1)) (fun t => INR t + 1) 3 None None)
    as (A & _ & E); [apply plp_tiny_framed; lia|simpl; lia|lia|reflexivity|lia|simpl; lia|split; auto| |eexists; exact E].
  intros i j Hi Hj. rewrite plp_tiny_energy. pose proof (pos_INR i). pose proof (pos_INR j). apply Rmult_lt_0_compat; [lra|]. apply pow_lt. lra.
Qed.

(** C108. plp does not change when the polarity of the signal or the order of the filters is
    reversed: the whole result, exceptions included. *)
Theorem C108_polarity : forall `{Env} a N L hop n B x order lifter normalize,
  well_framed a N L hop -> (1 <= s_nfft a)%Z -> (0 < n)%nat ->
  spectro_bank Bark a = Ok (fmat n (S (half (s_nfft a))) B) ->
  plp (fvec N (fun t => - x t)) a order lifter normalize = plp (fvec N x) a order lifter normalize /\
  rplp (fvec N (fun t => - x t)) a order lifter normalize = rplp (fvec N x) a order lifter normalize.
Proof. intros. split; eapply plp_polarity; eauto. Qed.
Print Assumptions C108_polarity.
Theorem C108_filter_order : forall `{Env} a N L hop n B x order lifter normalize,
  well_framed a N L hop -> (1 <= s_nfft a)%Z -> (0 < n)%nat -> (n <= Z.to_nat (s_nfft a))%nat ->
  let b := fmat n (S (half (s_nfft a))) B in
  plp (fvec N x) (with_fbanks a (rev b)) order lifter normalize = plp (fvec N x) (with_fbanks a b) order lifter normalize.
Proof. exact @plp_mirror. Qed.
Print Assumptions C108_filter_order.
Example C108_example : forall x,
  @plp exact_env (fvec 1000 (fun t => - x t)) default_plp 13 None None = @plp exact_env (fvec 1000 x) default_plp 13 None None.
Proof.
  intros x. destruct default_plp_bank as (B & HB). eapply (@C108_polarity exact_env default_plp 1000 400 160 24 B); [apply default_plp_framed; lia|simpl; lia|lia|exact HB].
Qed.
Example C108_mirror_example : forall x B, let b := fmat 24 257 B in
  @plp exact_env (fvec 1000 x) (with_fbanks default_plp (rev b)) 13 None None = @plp exact_env (fvec 1000 x) (with_fbanks default_plp b) 13 None None.
Proof. intros x B b. apply (@C108_filter_order exact_env default_plp 1000 400 160 24 B); [apply default_plp_framed; lia|simpl; lia|lia|simpl; lia]. Qed.

(** C109. rplp does not depend on the level of a signal with energy in every channel. *)
Theorem C109_gain : forall `{Env} a N L hop n B x g order lifter normalize,
  well_framed a N L hop -> (1 <= s_nfft a)%Z -> (5 <= n)%nat ->
  spectro_bank Bark a = Ok (fmat n (S (half (s_nfft a))) B) ->
  (order <= s_nfilts a)%Z -> g <> 0 ->
  (forall i j, (i < frame_count N L hop)%nat -> (j < n)%nat -> 0 < channel_energy a L hop B x i j) ->
  rplp (fvec N (fun t => g * x t)) a order lifter normalize = rplp (fvec N x) a order lifter normalize.
Proof. intros E a N L hop n B x g order li no Hw Hn H5 HB Ho Hg Hp. apply (rplp_gain a N L hop n B); auto. lia. Qed.
Print Assumptions C109_gain.
Example C109_example : @rplp exact_env (fvec 3 (fun t => 7 * (INR t + 1))) (plp_tiny (fun j => INR j + 1)) 4 (Some 3) (Some "mvn"%string)
  = @rplp exact_env (fvec 3 (fun t => INR t + 1)) (plp_tiny (fun j => INR j + 1)) 4 (Some 3) (Some "mvn"%string).
Proof.
  apply (@C109_gain exact_env (plp_tiny (fun j => INR j + 1)) 3 1 1 5 (plp_tiny_bank (fun j => INR j + 1)) (fun t => INR t + 1) 7);
    [apply plp_tiny_framed; lia|simpl; lia|lia|reflexivity|simpl; lia|lra|].
  intros i j Hi Hj. rewrite plp_tiny_energy. pose proof (pos_INR i). pose proof (pos_INR j). apply Rmult_lt_0_compat; [lra|]. apply pow_lt. lra.
Qed.

(** C110. A frame without energy in any channel makes plp raise LinAlgError. *)
Theorem C110_plp_silence : forall `{Env} a N L hop n B x p lifter normalize,
  well_framed a N L hop -> (1 <= s_nfft a)%Z -> (0 < n)%nat ->
  spectro_bank Bark a = Ok (fmat n (S (half (s_nfft a))) B) ->
  (1 <= p)%nat -> (Z.of_nat (S p) <= s_nfilts a)%Z ->
  (exists i, (i < frame_count N L hop)%nat /\ forall j, (j < n)%nat -> channel_energy a L hop B x i j = 0) ->
  plp (fvec N x) a (Z.of_nat (S p)) lifter normalize = Raise LinAlgError.
Proof. intros E a N L hop n B x p li no Hw Hn Hn0 HB Hp Ho Hs. apply (plp_silent a N L hop n B); auto. Qed.
Print Assumptions C110_plp_silence.
(** One channel without energy in one frame is enough to make rplp raise ValueError (unless it is
    one of the last two). *)
Theorem C110_rplp_empty_channel : forall `{Env} a N L hop n B x order lifter normalize,
  well_framed a N L hop -> (1 <= s_nfft a)%Z -> (5 <= n <= Z.to_nat (s_nfft a))%nat ->
  spectro_bank Bark a = Ok (fmat n (S (half (s_nfft a))) B) -> (2 <= order <= s_nfilts a)%Z ->
  (exists i j, (i < frame_count N L hop)%nat /\ (j + 2 < n)%nat /\ channel_energy a L hop B x i j = 0) ->
  rplp (fvec N x) a order lifter normalize = Raise ValueError.
Proof. exact @rplp_empty_channel. Qed.
Print Assumptions C110_rplp_empty_channel.
Example C110_example : @plp exact_env (fvec 1000 (fun _ => 0)) default_plp 13 None None = Raise LinAlgError /\
  @rplp exact_env (fvec 1000 (fun _ => 0)) default_plp 13 None None = Raise ValueError.
Proof.
  destruct default_plp_bank as (B & HB). split.
  - apply (@C110_plp_silence exact_env default_plp 1000 400 160 24 B _ 12); [apply default_plp_framed; lia|simpl; lia|lia|exact HB|lia|simpl; lia|].
    exists 0%nat. split; [apply frame_count_pos|]. intros. apply default_plp_silent.
  - apply (@C110_rplp_empty_channel exact_env default_plp 1000 400 160 24 B); [apply default_plp_framed; lia|simpl; lia|simpl; lia|exact HB|simpl; lia|].
    exists 0%nat, 3%nat. split; [apply frame_count_pos|]. split; [lia|]. apply default_plp_silent.
Qed.

(** C111. A row of plp and of rplp depends on its own frame only: rplp does not filter along time. *)
Theorem C111_plp_rows : forall `{Env} a N N2 L hop n B x y order lifter M M2 i i2,
  well_framed a N L hop -> well_framed a N2 L hop -> (1 <= s_nfft a)%Z -> (0 < n)%nat ->
  spectro_bank Bark a = Ok (fmat n (S (half (s_nfft a))) B) -> (2 <= order)%Z ->
  plp (fvec N x) a order lifter None = Ok M -> plp (fvec N2 y) a order lifter None = Ok M2 ->
  (i < frame_count N L hop)%nat -> (i2 < frame_count N2 L hop)%nat ->
  (s_pre_emph a = true -> (i * hop = 0 <-> i2 * hop = 0)%nat) ->
  (forall t, (t < L)%nat -> x (i * hop + t)%nat = y (i2 * hop + t)%nat) ->
  (s_pre_emph a = true -> (0 < i * hop)%nat -> x (i * hop - 1)%nat = y (i2 * hop - 1)%nat) ->
  nth i M [] = nth i2 M2 [].
Proof. intros. eapply rastaplp_row_eq; [exact H0|exact H1|..]; eauto; exact I. Qed.
Print Assumptions C111_plp_rows.
Theorem C111_rplp_rows : forall `{Env} a N N2 L hop n B x y order lifter M M2 i i2,
  well_framed a N L hop -> well_framed a N2 L hop -> (1 <= s_nfft a)%Z -> (5 <= n)%nat ->
  spectro_bank Bark a = Ok (fmat n (S (half (s_nfft a))) B) -> (2 <= order)%Z ->
  (forall k j, (k < frame_count N L hop)%nat -> (j < n)%nat -> 0 < channel_energy a L hop B x k j) ->
  (forall k j, (k < frame_count N2 L hop)%nat -> (j < n)%nat -> 0 < channel_energy a L hop B y k j) ->
  rplp (fvec N x) a order lifter None = Ok M -> rplp (fvec N2 y) a order lifter None = Ok M2 ->
  (i < frame_count N L hop)%nat -> (i2 < frame_count N2 L hop)%nat ->
  (s_pre_emph a = true -> (i * hop = 0 <-> i2 * hop = 0)%nat) ->
  (forall t, (t < L)%nat -> x (i * hop + t)%nat = y (i2 * hop + t)%nat) ->
  (s_pre_emph a = true -> (0 < i * hop)%nat -> x (i * hop - 1)%nat = y (i2 * hop - 1)%nat) ->
  nth i M [] = nth i2 M2 [].
Proof.
  intros. assert (0 < n)%nat by lia. eapply rastaplp_row_eq with (r := true); [exact H0|exact H1|exact H2|eassumption|exact H4|exact H5| | |exact H8|exact H9|..]; auto; split; auto.
Qed.
Print Assumptions C111_rplp_rows.
Example C111_example : exists M M2,
  @rplp exact_env (fvec 3 (fun t => INR t + 1)) (plp_tiny (fun j => INR j + 1)) 4 None None = Ok M /\
  @rplp exact_env (fvec 2 (fun t => INR t + 2)) (plp_tiny (fun j => INR j + 1)) 4 None None = Ok M2 /\ nth 2 M [] = nth 1 M2 [].
Proof.
  assert (P : forall N c k j, 0 < c -> (k < N)%nat -> 0 < channel_energy (plp_tiny (fun j => INR j + 1)) 1 1 (plp_tiny_bank (fun j => INR j + 1)) (fun t => INR t + c) k j).
  { intros N c k j Hc _. rewrite plp_tiny_energy. pose proof (pos_INR k). pose proof (pos_INR j). apply Rmult_lt_0_compat; [lra|]. apply pow_lt. lra. }
  assert (V : forall N c, (1 <= N)%nat -> 0 < c -> exists M, @rplp exact_env (fvec N (fun t => INR t + c)) (plp_tiny (fun j => INR j + 1)) 4 None None = Ok M).
  { intros N c HN Hc. destruct (@C107_rplp_values exact_env (plp_tiny (fun j => INR j + 1)) N 1 1 5 (plp_tiny_bank (fun j => INR j + 1)) (fun t => INR t + c) 3 None None)
    as (A & _ & E); [apply plp_tiny_framed; lia|simpl; lia|lia|reflexivity|lia|simpl; lia|split; auto|intros; eapply P; eauto|eexists; exact E]. }
  destruct (V 3%nat 1) as (M & E1); [lia|lra|]. destruct (V 2%nat 2) as (M2 & E2); [lia|lra|]. exists M, M2. split; auto. split; auto.
  apply (@C111_rplp_rows exact_env (plp_tiny (fun j => INR j + 1)) 3 2 1 1 5 (plp_tiny_bank (fun j => INR j + 1)) (fun t => INR t + 1) (fun t => INR t + 2) 4 None M M2 2 1);
    auto; try (apply plp_tiny_framed; lia); try (simpl; lia); try (intros; eapply P; eauto; lra); try (cbn; lia); try discriminate.
  intros t Ht. replace t with 0%nat by lia. simpl. lra.
Qed.

(** C112. Whatever the signal (inf and NaN included), when plp or rplp returns at all there is one
    row per frame with [order] entries, and without lifter and normalisation all are finite. *)
Theorem C112_plp_shape : forall `{Env} sig a order lifter normalize M, (2 <= order)%Z ->
  plp sig a order lifter normalize = Ok M \/ rplp sig a order lifter normalize = Ok M ->
  zlen M = ((zlen sig - flen (s_fs a) (win_len (window_of a))) / flen (s_fs a) (win_hop (window_of a)) + 1)%Z /\
  Forall (fun row => zlen row = order) M /\ (no_post lifter normalize -> Forall (Forall finite) M).
Proof. intros E sig a order li no M Ho [HM|HM]; eapply rastaplp_shape; eauto. Qed.
Print Assumptions C112_plp_shape.
Example C112_example : exists M, @rplp exact_env (fvec 3 (fun t => INR t + 1)) (plp_tiny (fun j => INR j + 1)) 4 None None = Ok M /\ zlen M = 3%Z.
Proof.
  destruct C107_example as (y & E). eexists. split; [exact E|]. unfold zlen. rewrite fmat_length. reflexivity.
Qed.

(** C113. A frame that excites one channel only has the same plp coefficients (all but the first)
    whatever that channel, the level, the frame, the signal and the filter bank. *)
Theorem C113_one_channel : forall `{Env} a1 a2 N1 N2 L1 L2 hop1 hop2 n1 n2 B1 B2 x1 x2 p M1 M2 i1 i2 j1 j2,
  well_framed a1 N1 L1 hop1 -> well_framed a2 N2 L2 hop2 -> (1 <= s_nfft a1)%Z -> s_nfft a2 = s_nfft a1 ->
  spectro_bank Bark a1 = Ok (fmat n1 (S (half (s_nfft a1))) B1) -> spectro_bank Bark a2 = Ok (fmat n2 (S (half (s_nfft a2))) B2) ->
  (1 <= p)%nat ->
  plp (fvec N1 x1) a1 (Z.of_nat (S p)) None None = Ok M1 -> plp (fvec N2 x2) a2 (Z.of_nat (S p)) None None = Ok M2 ->
  (i1 < frame_count N1 L1 hop1)%nat -> (i2 < frame_count N2 L2 hop2)%nat ->
  (j1 < Z.to_nat (s_nfft a1))%nat -> (j2 < Z.to_nat (s_nfft a1))%nat ->
  one_channel n1 (channel_energy a1 L1 hop1 B1 x1 i1) j1 -> one_channel n2 (channel_energy a2 L2 hop2 B2 x2 i2) j2 ->
  forall m, (1 <= m <= p)%nat -> nth m (nth i1 M1 []) NaN = nth m (nth i2 M2 []) NaN.
Proof. exact @plp_one_channel. Qed.
Print Assumptions C113_one_channel.
Example C113_example : forall j1 j2, (j1 < 5)%nat -> (j2 < 5)%nat ->
  let a j := plp_tiny (fun k => if Nat.eqb k j then 1 else 0) in exists M1 M2,
  @plp exact_env (fvec 1 (fun _ => 1)) (a j1) 3 None None = Ok M1 /\ @plp exact_env (fvec 1 (fun _ => 9)) (a j2) 3 None None = Ok M2 /\
  nth 1 (nth 0 M1 []) NaN = nth 1 (nth 0 M2 []) NaN /\ nth 2 (nth 0 M1 []) NaN = nth 2 (nth 0 M2 []) NaN.
Proof.
  intros j1 j2 H1 H2 a.
  assert (O : forall j c, (j < 5)%nat -> c <> 0 -> one_channel 5 (channel_energy (a j) 1 1 (plp_tiny_bank (fun k => if Nat.eqb k j then 1 else 0)) (fun _ => c) 0) j).
  { intros j c Hj Hc. split; auto. split.
    - unfold a. rewrite plp_tiny_energy, Nat.eqb_refl. rewrite Rmult_1_l. apply pow_nonzero. auto.
    - intros k Hk Hkj. unfold a. rewrite plp_tiny_energy. destruct (Nat.eqb_spec k j); [lia|ring]. }
  assert (V : forall j c, (j < 5)%nat -> c <> 0 -> exists M, @plp exact_env (fvec 1 (fun _ => c)) (a j) 3 None None = Ok M).
  { intros j c Hj Hc. destruct (@C107_plp_values exact_env (a j) 1 1 1 5 (plp_tiny_bank (fun k => if Nat.eqb k j then 1 else 0)) (fun _ => c) 2 None None)
    as (A & _ & E); [apply plp_tiny_framed; lia|simpl; lia|lia|reflexivity|lia|simpl; lia|split; auto| |eexists; exact E].
    intros i Hi. change (frame_count 1 1 1) with 1%nat in Hi. assert (i = 0%nat) as -> by lia. destruct (O j c Hj Hc) as (_ & G & _). exists j. split; auto. }
  destruct (V j1 1) as (M1 & E1); [auto|lra|]. destruct (V j2 9) as (M2 & E2); [auto|lra|]. exists M1, M2. split; auto. split; auto.
  assert (G : forall m, (1 <= m <= 2)%nat -> nth m (nth 0 M1 []) NaN = nth m (nth 0 M2 []) NaN); [|split; apply G; lia].
  intros m Hm. eapply (@C113_one_channel exact_env (a j1) (a j2) 1 1 1 1 1 1 5 5) with (p := 2%nat) (j1 := j1) (j2 := j2) (x1 := fun _ => 1) (x2 := fun _ => 9);
    try (apply plp_tiny_framed; lia); try reflexivity; try exact E1; try exact E2; try (apply O; auto; lra); auto; try (simpl; lia).
Qed.

(** C114, refuted.  "rplp removes a fixed colouration of the channels (the purpose of RASTA)."
    Scaling the fifth of five filters by 32 moves coefficient 1 from 0 to a negative value. *)
Theorem C114_colouration_refuted : exists M M2 c c2,
  @rplp exact_env (fvec 1 (fun _ => 1)) (plp_tiny (fun _ => 1)) 2 None None = Ok M /\
  @rplp exact_env (fvec 1 (fun _ => 1)) (plp_tiny (fun j => if Nat.eqb j 4 then 32 else 1)) 2 None None = Ok M2 /\
  nth 1 (nth 0 M []) NaN = Fin c /\ nth 1 (nth 0 M2 []) NaN = Fin c2 /\ c = 0 /\ c2 < 0.
Proof. exact colouration. Qed.
Print Assumptions C114_colouration_refuted.
