(** * Property theorems: Bark filter bank (C20, C27-C29) *)
From Coq Require Import Reals ZArith List String Bool Lia Lra.
From Flocq Require Import Core.Raux.
From Verif Require Import Base BaseFacts SpecBase SpecMat SpecFilters SpecBanks BigSum MatFacts
  Preprocessing Converters ConvertersFacts Filters FiltersFacts MelBanks MelBanksFacts MelBanksMore BarkBank
  BarkFacts BarkMore Binary64.
Import ListNotations.
Local Open Scope R_scope.

(** C20 (bark part). The low message exactly for low < 0, otherwise the high message exactly
    for high > fs/2, whatever the rounding. *)
Theorem C20_bark : forall (E : Env) nfilts nfft fs low high h scale approach,
  spec_high high fs h ->
  (@bark_filter_banks E nfilts nfft fs low high scale approach
     = Raise (ParameterError "minimal frequency cannot be less than zero.") <-> low < 0) /\
  (@bark_filter_banks E nfilts nfft fs low high scale approach
     = Raise (ParameterError "maximum frequency cannot be greater than half sampling frequency.")
   <-> 0 <= low /\ IZR fs / 2 < h).
Proof. intros. apply bark_validation; auto. Qed.
Print Assumptions C20_bark.
(** a case: 9 kHz at 16 kHz sampling *)
Example C20_bark_example :
  @bark_filter_banks exact_env 24 512 16000 0 (Some 9000) "constant" "Wang"
  = Raise (ParameterError "maximum frequency cannot be greater than half sampling frequency.").
Proof. apply (C20_bark _ _ _ _ _ _ 9000); [left; split; [auto|lra]|lra]. Qed.

(** C27. The masking curve. *)
Theorem C27_masking_curve : exists g : R -> R,
  (forall fb fc, Fm (Fin fb) (Fin fc) = Fin (g (fb - fc))) /\
  (forall d, d < -1.3 \/ 2.5 < d -> g d = 0) /\
  (forall d, -1.3 <= d <= 2.5 -> 0.01 <= g d <= 1) /\
  (forall d, -0.5 <= d <= 0.5 -> g d = 1) /\
  (forall d e, d <= e -> e <= 0.5 -> g d <= g e) /\
  (forall d e, d <= e -> -0.5 <= d -> g e <= g d) /\
  (* the two flanks: 25 dB per bark below, 10 dB per bark above *)
  (forall d, -1.3 <= d <= -0.5 -> g d = Rpower 10 (2.5 * (d + 0.5))) /\
  (forall d, 0.5 <= d <= 2.5 -> g d = Rpower 10 (0.5 - d)).
Proof.
  exists spec_Fm. repeat split.
  - apply Fm_eq.
  - apply spec_Fm_outside.
  - apply spec_Fm_inside; auto.
  - apply spec_Fm_inside; auto.
  - apply spec_Fm_plateau.
  - apply spec_Fm_left.
  - apply spec_Fm_right.
  - intros d H. unfold spec_Fm. destruct (Rlt_dec d (-1.3)); [lra|]. destruct (Rle_dec d (-0.5)); [auto|lra].
  - intros d H. destruct (Req_dec d 0.5) as [->|].
    + rewrite spec_Fm_plateau by lra. replace (0.5 - 0.5) with 0 by lra. rewrite Rpower10_0. auto.
    + unfold spec_Fm. destruct (Rlt_dec d (-1.3)); [lra|]. destruct (Rle_dec d (-0.5)); [lra|].
      destruct (Rlt_dec d 0.5); [lra|]. destruct (Rle_dec d 2.5); [auto|lra].
Qed.
Print Assumptions C27_masking_curve.
(** a case on the upper flank: two and a half bark above the centre the gain is 1/100 *)
Example C27_example : Fm (Fin 12.5) (Fin 10) = Fin 0.01.
Proof.
  rewrite Fm_eq. replace (12.5 - 10) with 2.5 by lra. f_equal. unfold spec_Fm.
  destruct (Rlt_dec 2.5 (-1.3)); [lra|]. destruct (Rle_dec 2.5 (-0.5)); [lra|].
  destruct (Rlt_dec 2.5 0.5); [lra|]. destruct (Rle_dec 2.5 2.5); [|lra].
  replace (0.5 - 2.5) with (-2) by lra. apply Rpower10_m2.
Qed.

(** C28. Contents of the bank, for every sane rounding (binary64 is one, see
    [C28_roundings]). *)
Theorem C28_bank : forall (E : Env) n nfft fs low high h scale approach s,
  sane_rounding (@rnd E) -> spec_bark_scale approach s -> In scale scale_names -> spec_high high fs h ->
  (2 <= n)%nat -> (0 <= nfft < 9007199254740992)%Z -> (0 < fs)%Z -> 0 <= low -> low < h -> h <= IZR fs / 2 ->
  exists lo hi entry,
    lo = Zfloor (@rnd E (IZR (nfft + 1) * (low / IZR fs))) /\
    hi = Zfloor (@rnd E (IZR (nfft + 1) * (h / IZR fs))) /\
    @bark_filter_banks E (Z.of_nat n) nfft fs low high scale approach
      = Ok (fmat n (S (half nfft)) entry, fvec n (spec_bark_centre s low h n)) /\
    (0 <= lo)%Z /\ (hi <= Z.of_nat (S (half nfft)))%Z /\
    (forall j k, (lo <= Z.of_nat k < hi)%Z -> entry j k = spec_scale scale n j *
       spec_Fm (fwd s (INR k * IZR fs / IZR (nfft + 1)) - spec_bark_centre s low h n j)) /\
    (forall j k, (Z.of_nat k < lo \/ hi <= Z.of_nat k)%Z -> entry j k = 0) /\
    (forall j k, (j < n)%nat -> 0 <= entry j k <= 1) /\
    spec_bark_centre s low h n 0 = fwd s low /\ spec_bark_centre s low h n (n - 1) = fwd s h /\
    (forall j, spec_bark_centre s low h n j < spec_bark_centre s low h n (S j)).
Proof.
  intros E n nfft fs low high h scale a s Hr Hs Hsc Hh Hn Hnf Hfs Hl Hlh Hhf.
  destruct (sane_bins rnd nfft fs low h Hr Hnf Hfs Hl Hhf) as [B1 B2].
  set (lo := Zfloor (rnd (IZR (nfft + 1) * (low / IZR fs)))) in *.
  set (hi := Zfloor (rnd (IZR (nfft + 1) * (h / IZR fs)))) in *.
  exists lo, hi. eexists. split; [reflexivity|]. split; [reflexivity|].
  assert (Hn0 : INR (n - 1) <> 0) by (apply not_0_INR; lia).
  assert (Hn1 : 0 < INR (n - 1)) by (apply lt_0_INR; lia).
  split; [apply (bark_bank_eq n nfft fs low high h scale a s lo hi); auto; lia|].
  split; [auto|]. split; [auto|]. cbv beta.
  split; [|split; [|split; [|split; [|split]]]].
  - intros j k Hk. destruct (Z.leb_spec lo (Z.of_nat k)); [|lia].
    destruct (Z.ltb_spec (Z.of_nat k) hi); [|lia]. reflexivity.
  - intros j k Hk. destruct (Z.leb_spec lo (Z.of_nat k)); destruct (Z.ltb_spec (Z.of_nat k) hi); auto; lia.
  - intros j k Hj. destruct (_ && _)%bool; [|lra].
    pose proof (spec_scale_range scale n j Hj).
    pose proof (spec_Fm_range (fwd s (INR k * IZR fs / IZR (nfft + 1)) - spec_bark_centre s low h n j)).
    split; [apply Rmult_le_pos; lra|]. replace 1 with (1 * 1) by ring. apply Rmult_le_compat; lra.
  - unfold spec_bark_centre, spec_col. simpl. ring.
  - unfold spec_bark_centre, spec_col. field; auto.
  - intros j. unfold spec_bark_centre, spec_col. rewrite S_INR.
    destruct (bark_scale_maps a s Hs) as (_ & _ & _ & Hm). pose proof (Hm low h Hlh).
    assert (0 < (fwd s h - fwd s low) / INR (n - 1)) by (apply Rdiv_lt_0_compat; lra). lra.
Qed.
Print Assumptions C28_bank.

(** the rounding hypothesis holds of exact arithmetic and of IEEE double precision *)
Theorem C28_roundings : sane_rounding (@rnd exact_env) /\ sane_rounding (@rnd binary64).
Proof. exact (conj exact_sane binary64_sane). Qed.
Print Assumptions C28_roundings.

(** a case: two filters over 0..1.2 kHz on two columns *)
Example C28_example : exists c,
  @bark_filter_banks exact_env 2 2 2400 0 None "constant" "Wang"
  = Ok ([[Fin 1; Fin 0]; [Fin 0; Fin 0]], c).
Proof.
  assert (HB : spec_bark_scale "Wang" wang).
  { right; right. split; auto. simpl. intros [H|[H|[H|[H|[H|[]]]]]]; discriminate. }
  destruct (C28_bank exact_env 2 2 2400 0 None 1200 "constant" "Wang" wang exact_sane HB)
    as (lo & hi & e & E1 & E2 & E3 & _ & _ & E4 & E5 & _); try lra; try lia.
  - simpl; auto.
  - right. split; [|lra]. left. reflexivity.
  - simpl in E1, E2. replace (3 * (0 / 2400)) with 0 in E1 by lra. rewrite (Zfloor_IZR 0) in E1.
    replace (3 * (1200 / 2400)) with 1.5 in E2 by lra.
    assert (F2 : Zfloor 1.5 = 1%Z) by (apply Zfloor_imp; simpl; lra). rewrite F2 in E2. subst lo hi.
    eexists. change 2%Z with (Z.of_nat 2) at 1. rewrite E3. do 2 f_equal.
    change (half 2) with 1%nat. unfold fmat, fvec. cbn [seq map].
    rewrite (E4 0%nat 0%nat), (E5 0%nat 1%nat), (E4 1%nat 0%nat), (E5 1%nat 1%nat) by (simpl; lia).
    assert (P : forall x y, x = 1 -> y = 0 -> [[Fin x; Fin 0]; [Fin y; Fin 0]] = [[Fin 1; Fin 0]; [Fin 0; Fin 0]])
      by (intros; subst; auto).
    apply P; clear P.
    + unfold spec_bark_centre, spec_col. cbn -[arcsinh IZR Rdiv]. 
      replace (0 * 2400 / (3)) with 0 by lra. replace (0 / 600) with 0 by lra.
      rewrite arcsinh_0. rewrite spec_Fm_plateau by lra. unfold spec_scale. cbn [String.eqb Ascii.eqb Bool.eqb]. lra.
    + unfold spec_bark_centre, spec_col. cbn -[arcsinh IZR Rdiv].
      replace (0 * 2400 / (3)) with 0 by lra. replace (0 / 600) with 0 by lra.
      rewrite arcsinh_0. replace (1200 / 600) with 2 by lra.
      assert (H : 1 < arcsinh 2).
      { assert (exp (arcsinh 2) <= exp 1 -> False).
        { intros He. unfold arcsinh in He. rewrite exp_ln in He.
          - pose proof exp_le_3. assert (2 < sqrt (2 ^ 2 + 1)).
            { rewrite <- (sqrt_square 2) at 1 by lra. apply sqrt_lt_1; lra. } lra.
          - pose proof (sqrt_pos (2 ^ 2 + 1)). lra. }
        destruct (Rlt_dec 1 (arcsinh 2)); auto. exfalso. apply H. apply Rnot_lt_le in n.
        destruct n as [n|n]; [left; apply exp_increasing; auto | rewrite n; lra]. }
      rewrite spec_Fm_outside by lra. lra.
Qed.

(** C29. The failures of the other approaches, and the single filter. *)
Theorem C29_zwicker : forall (E : Env) nfilts nfft fs high h scale,
  (1 <= nfilts)%Z -> spec_high high fs h -> h <= IZR fs / 2 ->
  @bark_filter_banks E nfilts nfft fs 0 high scale "Zwicker" = Raise ValueError.
Proof.
  intros E nfilts nfft fs high h scale Hn Hh H. apply bark_Zwicker_fails; auto.
  rewrite (spec_high_or _ _ _ Hh). auto.
Qed.
Print Assumptions C29_zwicker.

Theorem C29_terhardt : forall (E : Env) nfilts scale, sane_rounding (@rnd E) -> (2 <= nfilts)%Z ->
  @bark_filter_banks E nfilts 512 16000 0 None scale "Terhardt" = Raise IndexError.
Proof. exact bark_Terhardt_fails. Qed.
Print Assumptions C29_terhardt.

Theorem C29_single_filter : forall (E : Env) nfft fs low high h scale approach s,
  spec_bark_scale approach s -> In scale scale_names -> spec_high high fs h ->
  (0 <= nfft)%Z -> (0 < fs)%Z -> 0 <= low -> h <= IZR fs / 2 ->
  @bark_filter_banks E 1 nfft fs low high scale approach
  = Ok ([fvec (S (half nfft)) (fun _ => 0)], [Fin (fwd s low)]).
Proof. intros. eapply bark_single; eassumption. Qed.
Print Assumptions C29_single_filter.
Example C29_single_example : @bark_filter_banks binary64 1 512 16000 100 None "constant" "Tjomov" = Ok ([fvec 257 (fun _ => 0)], [Fin (fwd tjomov 100)]).
Proof.
  apply (C29_single_filter binary64 512 16000 100 None 8000 "constant" "Tjomov" tjomov); try lra; try lia; [left; auto|cbn; auto|right; split; [auto|lra]].
Qed.

(** cases: the default call with each of the two names, in double precision *)
Example C29_example :
  @bark_filter_banks binary64 24 512 16000 0 None "constant" "Zwicker" = Raise ValueError /\
  @bark_filter_banks binary64 24 512 16000 0 None "constant" "Terhardt" = Raise IndexError.
Proof.
  split.
  - apply (C29_zwicker _ _ _ _ _ 8000); [lia| |lra]. right. split; [|lra]. auto.
  - apply C29_terhardt; [exact binary64_sane|lia].
Qed.
