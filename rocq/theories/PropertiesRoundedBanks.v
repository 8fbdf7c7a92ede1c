(** * Properties of the mel and linear filter banks in floating point *)
From Coq Require Import Reals ZArith List String Lia Lra.
From Flocq Require Import Core.
From Verif Require Import Base SpecBase SpecFilters SpecBanks MelBanksFacts Binary64 Rounded SpecRounded RoundedFacts RoundedWindows RoundedBanks RoundedBanksFacts
  RoundedBanksError RoundedMel.
Import ListNotations.
Local Open Scope string_scope.
Local Open Scope R_scope.

(** ** C143: entries are between 0 and 1, or NaN in one case *)
(** Whatever the band (also low > high), the number of filters and columns and the scale: the three
    points of a filter are in order, and an entry is a number between 0 and 1, zero outside the filter
    and largest at its centre -- unless the column sits on a filter whose centre and upper point are
    the same number; then it is NaN. *)
Theorem C143_linear : forall (E : Env) low high n h scale j k, grid (@rnd E) -> @rnd E high = high -> (j < n)%nat ->
  let p := @linear_point_of E low high n in let f := @linspace_of E low high h k in
  let entry := @linear_entry_of E low high n h scale j k in
  p j <= p (j + 1)%nat <= p (j + 2)%nat /\
  (f = p (j + 1)%nat /\ p (j + 1)%nat = p (j + 2)%nat -> entry = NaN) /\
  (~ (f = p (j + 1)%nat /\ p (j + 1)%nat = p (j + 2)%nat) -> exists v, entry = Fin v /\ 0 <= v <= 1 /\
     (f <= p j -> f <> p (j + 1)%nat -> v = 0) /\ (p (j + 2)%nat <= f -> v = 0) /\
     (f = p (j + 1)%nat -> v = @rnd E (@factor_of E scale n j))).
Proof.
  intros E low high n h scale j k Hg Hh Hj p f entry.
  destruct (bank_entry_value Hg p low high n h scale j k Hj Hh) as (H1 & H2 & H3).
  - intros i. apply (g_idem Hg).
  - intros. apply (point_mono Hg). assumption.
  - fold f in H2, H3. unfold entry, linear_entry_of. fold p. split; [exact H1|]. split.
    + intros H. rewrite (H2 H). reflexivity.
    + intros H. destruct (H3 H) as (v & -> & Hv & A & B & C & _). exists v. cbn [fabs]. rewrite Rabs_pos_eq by lra. auto.
Qed.
Print Assumptions C143_linear.

(** The same for the mel bank, for every library log10 and every library power function that does not decrease. *)
Theorem C143_mel : forall (E : Env) log10f pow10f approach a b low high n h scale j k,
  grid (@rnd E) -> @rnd E high = high -> (j < n)%nat ->
  mel_constants approach = Some (a, b) -> (forall x y, x <= y -> pow10f x <= pow10f y) ->
  let p := @mel_point_of E log10f pow10f a b low high n in let f := @linspace_of E low high h k in
  let entry := @mel_entry_of E log10f pow10f a b low high n h scale j k in
  p j <= p (j + 1)%nat <= p (j + 2)%nat /\
  (f = p (j + 1)%nat /\ p (j + 1)%nat = p (j + 2)%nat -> entry = NaN) /\
  (~ (f = p (j + 1)%nat /\ p (j + 1)%nat = p (j + 2)%nat) -> exists v, entry = Fin v /\ 0 <= v <= 1 /\
     (f <= p j -> f <> p (j + 1)%nat -> v = 0) /\ (p (j + 2)%nat <= f -> v = 0) /\
     (f = p (j + 1)%nat -> v = @rnd E (@factor_of E scale n j))).
Proof.
  intros E log10f pow10f approach a b low high n h scale j k Hg Hh Hj Hc HP p f entry.
  assert (Hab : 0 < a /\ 0 < b).
  { unfold mel_constants in Hc. destruct (String.eqb approach "Oshaghnessy"); [injection Hc as <- <-; lra|].
    destruct (String.eqb approach "Lindsay"); [injection Hc as <- <-; lra|discriminate]. }
  destruct (bank_entry_value Hg p low high n h scale j k Hj Hh) as (H1 & H2 & H3).
  - intros i. apply (g_idem Hg).
  - intros. apply (mel_point_mono Hg); tauto.
  - split; [exact H1|]. split; [exact H2|]. intros H. destruct (H3 H) as (v & Ev & Hv & A & B & C & _). exists v. auto.
Qed.
Print Assumptions C143_mel.

(** In binary64 the NaN really occurs: with the band from 1 to the next number and seven filters or
    more, the first entry of the linear bank is NaN, for every number of columns and every scale. *)
Theorem C143_finite_refuted : forall n h scale, (7 <= n)%nat ->
  1 < 1 + / 2 ^ 52 /\ rnd64 1 = 1 /\ rnd64 (1 + / 2 ^ 52) = 1 + / 2 ^ 52 /\
  @linear_entry_of binary64 1 (1 + / 2 ^ 52) n h scale 0 0 = NaN.
Proof. intros n h scale Hn. split; [lra|]. split; [exact rnd64_1|]. apply narrow_nan, Hn. Qed.
Print Assumptions C143_finite_refuted.

(** the hypotheses hold in binary64, and with a correctly rounded power function *)
Example C143_case : grid rnd64 /\ rnd64 4000 = 4000 /\
  mel_constants "Lindsay" = Some (2410, 625) /\ (forall x y, x <= y -> rnd64 (Rpower 10 x) <= rnd64 (Rpower 10 y)).
Proof.
  split; [exact rnd64_grid|]. split; [apply (rnd64_int 4000); lia|]. split; [reflexivity|].
  intros x y H. apply rnd64_monotone. unfold Rpower. pose proof ln10_pos.
  destruct H as [H|H]; [apply Rlt_le, exp_increasing, Rmult_lt_compat_r; assumption|rewrite H; lra].
Qed.

(** ** C144: distance from the bank in exact arithmetic *)
(** [d] is the distance of neighbouring points and [e] a bound for the errors of points and columns.
    If 4 e < d then every entry is a number and off by about 4 e / d. *)
Theorem C144_linear : forall (E : Env) u eta low high H n h scale j k, grid (@rnd E) -> accurate u eta (@rnd E) ->
  @rnd E low = low -> @rnd E high = high -> low < high -> Rabs low <= H -> Rabs high <= H ->
  In scale scale_names -> (j < n)%nat -> (k <= h)%nat ->
  let d := (high - low) / INR (n + 1) in
  let e := ((1 + u) ^ 4 - 1) * (3 * H) + (1 + u) ^ 4 * ((INR (Nat.max (n + 1) h) + 3) * eta) in
  4 * e < d ->
  exists v, @linear_entry_of E low high n h scale j k = Fin v /\ 0 <= v <= 1 /\
    Rabs (v - spec_bank lin_scale low high n h scale j k) <= (4 * e + 4 * eta) / d + 5 * u + 3 * eta.
Proof. intros E u eta low high H n h scale j k Hg Ha. exact (linear_error u eta Hg Ha low high H n h scale j k). Qed.
Print Assumptions C144_linear.

(** in numbers, for binary64 *)
Theorem C144_binary64 : forall low high n h scale j k, rnd64 low = low -> rnd64 high = high -> 0 <= low < high -> 1 <= high ->
  INR (n + 1) <= 2 ^ 30 -> INR h <= 2 ^ 30 -> In scale scale_names -> (j < n)%nat -> (k <= h)%nat ->
  let b := high / 2 ^ 47 / ((high - low) / INR (n + 1)) in b <= 1 ->
  exists v, @linear_entry_of binary64 low high n h scale j k = Fin v /\ 0 <= v <= 1 /\
    Rabs (v - spec_bank lin_scale low high n h scale j k) <= b + / 2 ^ 50.
Proof. exact linear_error64. Qed.
Print Assumptions C144_binary64.

(** a case: 24 filters up to 4 kHz are off by less than 2^-42 *)
Example C144_case : forall scale j k, In scale scale_names -> (j < 24)%nat -> (k <= 256)%nat ->
  exists v, @linear_entry_of binary64 0 4000 24 256 scale j k = Fin v /\
    Rabs (v - spec_bank lin_scale 0 4000 24 256 scale j k) <= / 2 ^ 42.
Proof.
  intros scale j k Hs Hj Hk.
  assert (I1 : INR 256 = 256) by (rewrite INR_IZR_INZ; reflexivity).
  assert (I2 : INR (24 + 1) = 25) by (rewrite INR_IZR_INZ; reflexivity).
  destruct (linear_error64 0 4000 24 256 scale j k) as (v & Ev & _ & Er); auto; try lra.
  - apply (rnd64_int 0). lia.
  - apply (rnd64_int 4000). lia.
  - rewrite I2. lra.
  - exists v. split; [exact Ev|]. eapply Rle_trans; [exact Er|]. rewrite I2. lra.
Qed.

(** The mel bank with 53 bits, frequencies up to 100 kHz and library functions that are within 8 units
    of rounding; [d] is a lower bound for the distances of neighbouring points in Hz. *)
Theorem C144_mel : forall (E : Env) log10f pow10f approach a b s low high n h scale j k d,
  grid (@rnd E) -> accurate (/ 2 ^ 53) 0 (@rnd E) ->
  log10_within (/ 2 ^ 50) log10f -> pow10_within (/ 2 ^ 50) pow10f ->
  (forall x y, 1 <= x -> x <= y -> log10f x <= log10f y) ->
  mel_constants approach = Some (a, b) -> spec_mel_scale approach s ->
  @rnd E low = low -> @rnd E high = high -> 0 <= low -> low < high -> high <= 100000 ->
  In scale scale_names -> (j < n)%nat -> (k <= h)%nat ->
  (forall i, (i <= n)%nat -> d <= spec_point s low high n (i + 1) - spec_point s low high n i) -> d <= high - low ->
  let e := (b + high) / 2 ^ 45 in 4 * e < d ->
  exists v, @mel_entry_of E log10f pow10f a b low high n h scale j k = Fin v /\ 0 <= v <= 1 /\
    Rabs (v - spec_bank s low high n h scale j k) <= 4 * e / d + 5 / 2 ^ 53.
Proof.
  intros E log10f pow10f approach a b s low high n h scale j k d Hg Ha HL HP Hm Hc Hs.
  destruct (constants_scale approach a b s Hc Hs) as (-> & H1 & H2). intros.
  apply (mel_numbers log10f pow10f Hg Ha HL HP Hm); assumption.
Qed.
Print Assumptions C144_mel.

(** a case: one filter from 0 to 6300 Hz with correctly rounded library functions *)
Example C144_mel_case : forall k, (k <= 256)%nat ->
  exists v, @mel_entry_of binary53 (fun x => rnd53 (ln x / ln 10)) (fun x => rnd53 (Rpower 10 x)) 2595 700 0 6300 1 256 "constant" 0 k = Fin v /\
    Rabs (v - spec_bank oshaghnessy 0 6300 1 256 "constant" 0 k) <= / 2 ^ 40.
Proof.
  intros k Hk. pose proof ln10_pos as L.
  assert (P : forall i, spec_point oshaghnessy 0 6300 1 i = 700 * (Rpower 10 (INR i / 2) - 1)).
  { intros i. unfold spec_point, spec_level. cbn [oshaghnessy fwd bwd]. replace (1 + 0 / 700) with 1 by lra. replace (1 + 6300 / 700) with 10 by lra.
    rewrite ln_1. replace (ln 10 / ln 10) with 1 by (field; lra). do 3 f_equal. cbn [INR Nat.add]. field. lra. }
  assert (R0 : Rpower 10 (0 / 2) = 1) by (replace (0 / 2) with 0 by lra; apply Rpower_O; lra).
  assert (R2 : Rpower 10 (2 / 2) = 10) by (replace (2 / 2) with 1 by lra; apply Rpower_1; lra).
  assert (R1 : 3 <= Rpower 10 (1 / 2) <= 4).
  { replace (1 / 2) with (/ 2) by lra. rewrite Rpower_sqrt by lra. split.
    - rewrite <- (sqrt_square 3) by lra. apply sqrt_le_1; lra.
    - rewrite <- (sqrt_square 4) by lra. apply sqrt_le_1; lra. }
  destruct (C144_mel binary53 (fun x => rnd53 (ln x / ln 10)) (fun x => rnd53 (Rpower 10 x)) "Oshaghnessy" 2595 700 oshaghnessy 0 6300 1 256 "constant" 0 k 1000)
    as (v & Ev & _ & Er); try lra; try lia.
  - exact rnd53_grid.
  - exact rnd53_accurate.
  - exact log10_53.
  - exact pow10_53.
  - exact log10_53_mono.
  - reflexivity.
  - left. split; reflexivity.
  - apply (int53 0). lia.
  - apply (int53 6300). lia.
  - cbn. auto.
  - intros i Hi. rewrite !P. destruct i as [|[|i]]; [| |lia]; cbn [Nat.add INR]; replace (1 + 1) with 2 by lra; try rewrite R0; try rewrite R2; lra.
  - exists v. split; [exact Ev|]. eapply Rle_trans; [exact Er|]. lra.
Qed.

(** In exact arithmetic the floating-point model gives the bank of C17. *)
Theorem C144_exact : forall low high n h scale j k, 0 <= low < high -> In scale scale_names -> (j < n)%nat -> (k <= h)%nat ->
  @linear_entry_of exact_env low high n h scale j k = Fin (spec_bank lin_scale low high n h scale j k) /\
  forall approach a b s, mel_constants approach = Some (a, b) -> spec_mel_scale approach s ->
    @mel_entry_of exact_env (fun x => ln x / ln 10) (Rpower 10) a b low high n h scale j k = Fin (spec_bank s low high n h scale j k).
Proof.
  intros low high n h scale j k Hlh Hs Hj Hk. split; [apply linear_exact; auto; lra|].
  intros approach a b s Hc Hsp. exact (mel_exact approach a b s low high n h scale j k Hc Hsp Hlh Hs Hj Hk).
Qed.
Print Assumptions C144_exact.

(** ** C145: hz2mel and mel2hz undo each other up to an absolute error *)
Theorem C145_roundtrip : forall (E : Env) u v log10f pow10f approach a b f, grid (@rnd E) -> accurate u 0 (@rnd E) -> u < 1 ->
  log10_within v log10f -> pow10_within v pow10f -> v <= 1 -> mel_constants approach = Some (a, b) -> 0 <= f ->
  let t := (1 + v) * (1 + u) ^ 2 - 1 in
  Rabs (@mel2hz_of E pow10f a b (@hz2mel_of E log10f a b f) - f)
  <= ((1 + u) ^ 4 * (1 + v) * exp (t * ln ((1 + u) ^ 2 * (1 + f / b))) - 1) * (b + f).
Proof.
  intros E u v log10f pow10f approach a b f Hg Ha Hu HL HP Hv Hc Hf.
  assert (Hab : 0 < a /\ 0 < b).
  { unfold mel_constants in Hc. destruct (String.eqb approach "Oshaghnessy"); [injection Hc as <- <-; lra|].
    destruct (String.eqb approach "Lindsay"); [injection Hc as <- <-; lra|discriminate]. }
  apply (roundtrip_error u v log10f pow10f Hg Ha Hu HL HP Hv); tauto.
Qed.
Print Assumptions C145_roundtrip.

(** in numbers: 53 bits, library functions within 8 units of rounding, up to 100 kHz *)
Theorem C145_numbers : forall (E : Env) log10f pow10f approach a b f, grid (@rnd E) -> accurate (/ 2 ^ 53) 0 (@rnd E) ->
  log10_within (/ 2 ^ 50) log10f -> pow10_within (/ 2 ^ 50) pow10f -> mel_constants approach = Some (a, b) -> 0 <= f <= 100000 ->
  Rabs (@mel2hz_of E pow10f a b (@hz2mel_of E log10f a b f) - f) <= (b + f) / 2 ^ 46.
Proof.
  intros E log10f pow10f approach a b f Hg Ha HL HP Hc Hf.
  assert (Hab : 0 < a /\ 625 <= b).
  { unfold mel_constants in Hc. destruct (String.eqb approach "Oshaghnessy"); [injection Hc as <- <-; lra|].
    destruct (String.eqb approach "Lindsay"); [injection Hc as <- <-; lra|discriminate]. }
  apply (roundtrip_numbers log10f pow10f Hg Ha HL HP); tauto.
Qed.
Print Assumptions C145_numbers.

(** There is no relative bound: in binary64 a frequency up to b / 2^54 comes back as 0. *)
Theorem C145_relative_refuted : forall log10f pow10f approach a b f, log10f 1 = 0 -> pow10f 0 = 1 ->
  mel_constants approach = Some (a, b) -> 0 < f <= b / 2 ^ 54 ->
  @mel2hz_of binary64 pow10f a b (@hz2mel_of binary64 log10f a b f) = 0.
Proof.
  intros log10f pow10f approach a b f HL HP Hc Hf. apply tiny_lost; auto; [|lra].
  unfold mel_constants in Hc. destruct (String.eqb approach "Oshaghnessy"); [injection Hc as <- <-; lra|].
  destruct (String.eqb approach "Lindsay"); [injection Hc as <- <-; lra|discriminate].
Qed.
Print Assumptions C145_relative_refuted.

(** cases: 1 kHz with correctly rounded library functions; a frequency that is lost *)
Example C145_case :
  Rabs (@mel2hz_of binary53 (fun x => rnd53 (Rpower 10 x)) 2595 700
          (@hz2mel_of binary53 (fun x => rnd53 (ln x / ln 10)) 2595 700 1000) - 1000) <= / 2 ^ 35 /\
  @mel2hz_of binary64 (fun x => rnd64 (Rpower 10 x)) 2595 700
          (@hz2mel_of binary64 (fun x => rnd64 (ln x / ln 10)) 2595 700 (/ 2 ^ 45)) = 0.
Proof.
  split.
  - eapply Rle_trans; [apply (C145_numbers binary53 _ _ "Oshaghnessy")|]; try lra.
    + exact rnd53_grid.
    + exact rnd53_accurate.
    + exact log10_53.
    + exact pow10_53.
    + reflexivity.
  - apply (C145_relative_refuted _ _ "Oshaghnessy"); [| |reflexivity|lra].
    + rewrite ln_1. unfold Rdiv. rewrite Rmult_0_l. exact rnd64_0.
    + rewrite Rpower_O by lra. exact rnd64_1.
Qed.
