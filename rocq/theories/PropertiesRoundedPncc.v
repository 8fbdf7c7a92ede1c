(** * Properties of the recursions of pncc.py in floating point (C141, C142) *)
From Coq Require Import Reals ZArith List Lia Lra.
From Flocq Require Import Core.
From Verif Require Import Base BaseFacts SpecBase SpecMat SpecFeatures BigSum MatFacts Preprocessing PreprocessingFacts Features FeaturesFacts Binary64 Rounded SpecRounded RoundedFacts
  SpecPncc Pncc PnccFacts RoundedPncc RoundedPnccFacts ExamplePncc PnccJump.
Local Open Scope R_scope.

(** ** C141: the recursions do not accumulate errors *)
(** The asymmetric filter does not amplify: inputs that differ by at most d everywhere give outputs
    that differ by at most d, however many frames there are and whichever branches are taken. *)
Theorem C141_lowpass_stable : forall n c x x' la lb d, (0 < n)%nat -> 0 <= la <= 1 -> 0 <= lb <= 1 ->
  (forall m l, (m < n)%nat -> (l < c)%nat -> Rabs (x m l - x' m l) <= d) ->
  exists y y', asymmetric_lowpass_filtering (fmat n c x) la lb = Ok (fmat n c y) /\
    asymmetric_lowpass_filtering (fmat n c x') la lb = Ok (fmat n c y') /\
    forall m l, (m < n)%nat -> (l < c)%nat -> Rabs (y m l - y' m l) <= d.
Proof.
  intros n c x x' la lb d Hn Ha Hb Hx. do 2 eexists. do 2 (split; [apply asym_fmat; exact Hn|]).
  intros m l Hm Hl. cbv beta. pose proof (Hx 0%nat l Hn Hl) as H0. apply asymR_lip; auto.
  - unfold asym_init. destruct (Nat.eqb n 1); [|rewrite Rminus_0_r, Rabs_R0; pose proof (Rabs_pos (x 0%nat l - x' 0%nat l)); lra].
    rewrite <- Rmult_minus_distr_l, Rabs_mult, (Rabs_pos_eq 0.9) by lra. pose proof (Rabs_pos (x 0%nat l - x' 0%nat l)). lra.
  - intros j Hj. apply Hx; [lia|exact Hl].
Qed.
Print Assumptions C141_lowpass_stable.
(** Computed with rounding, it stays within a distance of its exact value that does not depend on the
    number of frames; a comparison that comes out the other way because of rounding does no harm. *)
Theorem C141_lowpass_rounded : forall (E : Env) u eta n c x la lb k B, accurate u eta (@rnd E) -> (0 < n)%nat ->
  0 <= la <= k -> 0 <= lb <= k -> k + ((1 + u) ^ 3 - 1) < 1 ->
  (forall m l, (m < n)%nat -> (l < c)%nat -> 0 <= x m l <= B) ->
  exists y, asymmetric_lowpass_filtering (fmat n c x) la lb = Ok (fmat n c y) /\
    forall m l, (m < n)%nat -> (l < c)%nat ->
      Rabs (@asym_of E n la lb (fun i => x i l) m - y m l)
      <= (((1 + u) ^ 3 - 1) * B + ((1 + u) * (2 * eta + (1 + u) * eta * B) + eta)) / (1 - k - ((1 + u) ^ 3 - 1)).
Proof.
  intros E u eta n c x la lb k B Ha Hn Hla Hlb Hk Hx. eexists. split; [apply asym_fmat; exact Hn|].
  intros m l Hm Hl. cbv beta. apply (asym_error u eta Ha n la lb k (fun i => x i l) B m); auto.
  intros i Hi. apply Hx; [lia|exact Hl].
Qed.
Print Assumptions C141_lowpass_rounded.
(** In binary64 with coefficients up to 0.9995 (the defaults are 0.999 and 0.5): at most 2^-39 of the
    largest input plus 2^-1061. *)
Theorem C141_lowpass_binary64 : forall n c x la lb B, (0 < n)%nat -> 0 <= la <= 0.9995 -> 0 <= lb <= 0.9995 ->
  (forall m l, (m < n)%nat -> (l < c)%nat -> 0 <= x m l <= B) ->
  exists y, asymmetric_lowpass_filtering (fmat n c x) la lb = Ok (fmat n c y) /\
    forall m l, (m < n)%nat -> (l < c)%nat ->
      Rabs (@asym_of binary64 n la lb (fun i => x i l) m - y m l) <= / 2 ^ 39 * B + 2 ^ 14 * bpow radix2 (-1075).
Proof.
  intros n c x la lb B Hn Hla Hlb Hx.
  assert (Eu : / 2 ^ 53 = 1 / 9007199254740992) by (rewrite (pow_IZR 2 53); change (2 ^ Z.of_nat 53)%Z with 9007199254740992%Z; lra).
  assert (E39 : / 2 ^ 39 = 16384 * / 2 ^ 53) by (rewrite Eu, (pow_IZR 2 39); change (2 ^ Z.of_nat 39)%Z with 549755813888%Z; lra).
  assert (E14 : 2 ^ 14 = 16384) by (rewrite (pow_IZR 2 14); reflexivity).
  rewrite E39, E14. clear E39 E14.
  set (u := / 2 ^ 53) in *. set (eta := bpow radix2 (-1075)).
  assert (Het : 0 <= eta <= u / 100).
  { unfold eta. split; [apply bpow_ge_0|]. apply Rle_trans with (bpow radix2 (-60)); [apply bpow_le; lia|].
    rewrite Eu. change (bpow radix2 (-60)) with (/ IZR (2 ^ 60)). change (2 ^ 60)%Z with 1152921504606846976%Z. lra. }
  assert (HG : (1 + u) ^ 3 - 1 <= 4 * u). { cbn [pow]. assert (u <= 1 / 1000) by lra. nra. }
  destruct (C141_lowpass_rounded binary64 u eta n c x la lb 0.9995 B rnd64_accurate Hn Hla Hlb) as (y & Ey & Hy); [lra|exact Hx|].
  exists y. split; [exact Ey|]. intros m l Hm Hl. eapply Rle_trans; [apply (Hy m l Hm Hl)|].
  assert (HB : 0 <= B) by (pose proof (Hx m l Hm Hl); lra).
  set (G := (1 + u) ^ 3 - 1) in *.
  assert (Hn1 : G * B + ((1 + u) * (2 * eta + (1 + u) * eta * B) + eta) <= 5 * (u * B) + 5 * eta).
  { assert (G * B <= 4 * u * B) by (apply Rmult_le_compat_r; lra).
    assert (Hee : 0 <= eta * B) by (apply Rmult_le_pos; lra).
    assert (eta * B <= u / 100 * B) by (apply Rmult_le_compat_r; lra).
    assert ((1 + u) * eta * B <= 2 * (eta * B)) by (rewrite Rmult_assoc; apply Rmult_le_compat_r; lra).
    assert ((1 + u) * (2 * eta + (1 + u) * eta * B) <= 1.5 * (2 * eta + 2 * (eta * B))).
    { apply Rmult_le_compat; try lra. apply Rplus_le_le_0_compat; [lra|]. rewrite Rmult_assoc. apply Rmult_le_pos; lra. }
    lra. }
  assert (Hd : 0.0004 <= 1 - 0.9995 - G) by lra.
  apply Rmult_le_reg_r with (1 - 0.9995 - G); [lra|]. unfold Rdiv. rewrite Rmult_assoc, Rinv_l, Rmult_1_r by lra.
  eapply Rle_trans; [exact Hn1|]. assert (0 <= u * B) by (apply Rmult_le_pos; lra).
  apply Rle_trans with ((16384 * u * B + 16384 * eta) * 0.0004); [lra|]. apply Rmult_le_compat_l; lra.
Qed.
Print Assumptions C141_lowpass_binary64.
(** Neither the filter nor the whole noise suppression produces a negative number, whatever the input
    of the suppression. *)
Theorem C141_lowpass_nonneg : forall (E : Env) n la lb x m, monotone (@rnd E) -> @rnd E 0 = 0 -> 0 <= la <= 1 -> 0 <= lb <= 1 ->
  (forall i, (i <= m)%nat -> 0 <= x i) -> 0 <= @asym_of E n la lb x m.
Proof. intros E n la lb x m Hm H0. exact (asym_nonneg Hm H0 n la lb x m). Qed.
Print Assumptions C141_lowpass_nonneg.
Theorem C141_suppressed_nonneg : forall (E : Env) n t x m, monotone (@rnd E) -> @rnd E 0 = 0 -> @rnd E 1 = 1 -> 0 <= t ->
  0 <= @suppressed_of E n t x m.
Proof. intros E n t x m Hm H0. exact (suppressed_nonneg Hm H0 n t x m). Qed.
Print Assumptions C141_suppressed_nonneg.
(** Mean power normalisation: entry m is right up to a factor (1+-u) for each of about 2m + L + 6
    roundings, as long as nothing underflows. *)
Theorem C141_mean_power : forall (E : Env) u n c T lam L k, accurate u 0 (@rnd E) -> u < 1 ->
  (0 < n)%nat -> (1 <= L <= c)%nat -> 0 < lam <= 1 -> 0 <= k -> (forall m l, 0 <= T m l) ->
  exists y, mean_power_normalization (fmat n c T) lam (Z.of_nat L) k = Ok (fmat n c y) /\
    forall m l, (m < n)%nat -> (l < c)%nat ->
      (1 - u) ^ 2 / (1 + u) ^ (2 * m + L + 4) * y m l <= @normalised_of E lam L k T m l
      <= (1 + u) ^ 2 / (1 - u) ^ (2 * m + L + 4) * y m l.
Proof.
  intros E u n c T lam L k Ha Hu Hn HL Hl Hk HT.
  set (nu := fix nu (m : nat) : R := match m with O => 0.0001 | S i => lam * nu i + (1 - lam) * (bigsum L (T (S i)) / INR L) end).
  destruct (mean_power_finite n c T lam L k Hn HL Hl Hk) as (y & mu & Ey & M0 & MS & Hy); [intros; apply HT|].
  exists y. split; [exact Ey|]. intros m l Hm Hlc. destruct (Hy m l Hm) as (_ & -> & _).
  assert (Emu : forall i, (i < n)%nat -> mu i = nu i).
  { intros i. induction i as [|i IH]; intros Hi; [rewrite M0; reflexivity|]. rewrite MS by exact Hi. rewrite IH by lia. reflexivity. }
  rewrite (Emu m Hm). apply normalised_bounds; auto; try lia.
Qed.
Print Assumptions C141_mean_power.
(** a case: two frames 1, 0 in one channel; with rounding the second entry is within the bound *)
Example C141_case : exists y, asymmetric_lowpass_filtering (fmat 2 1 (fun m _ => if Nat.eqb m 0 then 1 else 0)) 0.999 0.5 = Ok (fmat 2 1 y) /\
  y 1%nat 0%nat = 0.0005 /\
  Rabs (@asym_of binary64 2 0.999 0.5 (fun m => if Nat.eqb m 0 then 1 else 0) 1 - 0.0005) <= / 2 ^ 39 * 1 + 2 ^ 14 * bpow radix2 (-1075).
Proof.
  destruct (C141_lowpass_binary64 2 1 (fun m _ => if Nat.eqb m 0 then 1 else 0) 0.999 0.5 1) as (y & Ey & Hy); try lra; [lia| |].
  - intros m l _ _. destruct (Nat.eqb m 0); lra.
  - exists y. split; [exact Ey|]. rewrite asym_fmat in Ey by lia. apply Ok_inj in Ey.
    assert (V : y 1%nat 0%nat = 0.0005).
    { rewrite <- (fmat_inj 2 1 _ _ Ey 1%nat 0%nat) by lia. unfold asym_init. cbn [asymR Nat.eqb].
      unfold asym_step. destruct (Rle_dec 0 1); [|lra]. destruct (Rle_dec _ 0); lra. }
    split; [exact V|]. specialize (Hy 1%nat 0%nat ltac:(lia) ltac:(lia)). rewrite V in Hy. exact Hy.
Qed.

(** ** C142: temporal masking jumps *)
(** Masking is not continuous: however small d is there are two inputs of two frames that differ by at
    most d and whose masked values differ by lam_t - myu_t (0.65 for the defaults) times the peak. *)
Theorem C142_masking_refuted : forall lam mu d, 0 <= mu < lam -> lam < 1 -> 0 < d ->
  exists x x' y y', (forall m, 0 <= x m 0%nat <= 1 /\ 0 <= x' m 0%nat <= 1 /\ Rabs (x m 0%nat - x' m 0%nat) <= d) /\
    temporal_masking (fmat 2 1 x) lam mu = Ok (fmat 2 1 y) /\ temporal_masking (fmat 2 1 x') lam mu = Ok (fmat 2 1 y') /\
    y 1%nat 0%nat - y' 1%nat 0%nat = lam - mu.
Proof.
  intros lam mu d Hm Hl Hd. set (e := Rmin d lam).
  assert (He : 0 < e <= d /\ e <= lam) by (unfold e, Rmin; destruct (Rle_dec d lam); lra).
  exists (fun m _ => if Nat.eqb m 0 then 1 else lam), (fun m _ => if Nat.eqb m 0 then 1 else lam - e). do 2 eexists.
  split; [|split; [apply mask_fmat; lia|split; [apply mask_fmat; lia|]]].
  - intros m. destruct (Nat.eqb m 0); [replace (1 - 1) with 0 by ring; rewrite Rabs_R0; lra|].
    replace (lam - (lam - e)) with e by ring. rewrite Rabs_pos_eq; lra.
  - cbn [maskR peakR Nat.eqb]. destruct (Rle_dec (lam * 1) lam); [|lra]. destruct (Rle_dec (lam * 1) (lam - e)); lra.
Qed.
Print Assumptions C142_masking_refuted.
(** The same for the noise suppression with its fixed coefficients. *)
Theorem C142_suppression_refuted : forall d, 0 < d ->
  exists x x' y y', (forall m, 0 <= x m 0%nat <= 1 /\ 0 <= x' m 0%nat <= 1 /\ Rabs (x m 0%nat - x' m 0%nat) <= d) /\
    noise_suppression (fmat 2 1 x) 0 = Ok (fmat 2 1 y) /\ noise_suppression (fmat 2 1 x') 0 = Ok (fmat 2 1 y') /\
    y 1%nat 0%nat - y' 1%nat 0%nat = 0.64935.
Proof.
  intros d Hd. set (e := Rmin d 0.5).
  assert (He : 0 < e <= d /\ e <= 0.5) by (unfold e, Rmin; destruct (Rle_dec d 0.5); lra).
  exists (fun m _ => if Nat.eqb m 0 then 1 else 0.851), (fun m _ => if Nat.eqb m 0 then 1 else 0.851 - e). do 2 eexists.
  split; [|split; [apply noise_fmat; lia|split; [apply noise_fmat; lia|]]].
  - intros m. destruct (Nat.eqb m 0); [replace (1 - 1) with 0 by ring; rewrite Rabs_R0; lra|].
    replace (0.851 - (0.851 - e)) with e by ring. rewrite Rabs_pos_eq; lra.
  - assert (K : forall v, 0.35 <= v -> let z := fun m => if Nat.eqb m 0 then 1 else v in
      leR 2 z 0 = 0.001 /\ leR 2 z 1 = 0.999 * 0.001 + 0.001 * v /\ q0R 2 0 z 0 = 0.999 /\ q0R 2 0 z 1 = 0.999 * v - 0.999 * 0.001).
    { intros v Hv z.
      assert (L0 : leR 2 z 0 = 0.001).
      { unfold leR, asym_init, z. cbn [asymR Nat.eqb]. unfold asym_step. destruct (Rle_dec 0 1); lra. }
      assert (L1 : leR 2 z 1 = 0.999 * 0.001 + 0.001 * v).
      { unfold leR in *. cbn [asymR] in *. rewrite L0. unfold asym_step, z. cbn [Nat.eqb]. destruct (Rle_dec 0.001 v); lra. }
      split; [exact L0|]. split; [exact L1|]. unfold q0R. rewrite L0, L1. unfold z. cbn [Nat.eqb].
      destruct (Rlt_dec (1 - 0.001) 0); [lra|]. destruct (Rlt_dec (v - _) 0); lra. }
    cbv beta. unfold noiseR.
    destruct (K 0.851 ltac:(lra)) as (_ & A1 & A2 & A3). destruct (K (0.851 - e) ltac:(lra)) as (_ & B1 & B2 & B3). cbv zeta in *.
    rewrite A1, B1. cbn [maskR peakR]. rewrite A2, A3, B2, B3. cbn [Nat.eqb].
    destruct (Rle_dec (2 * (0.999 * 0.001 + 0.001 * 0.851)) 0.851); [|lra].
    destruct (Rle_dec (2 * (0.999 * 0.001 + 0.001 * (0.851 - e))) (0.851 - e)); [|lra].
    destruct (Rle_dec (0.85 * 0.999) (0.999 * 0.851 - 0.999 * 0.001)); [|lra].
    destruct (Rle_dec (0.85 * 0.999) (0.999 * (0.851 - e) - 0.999 * 0.001)); lra.
Qed.
Print Assumptions C142_suppression_refuted.
(** And for the features themselves: there is a fixed c > 0 such that arbitrarily close signals have
    coefficients that differ by c.  ([pncc_tiny]: frames of one sample, two filters of weight 1.) *)
Theorem C142_pncc_refuted : exists c, 0 < c /\ forall d, 0 < d ->
  exists x x' y y', (forall t, Rabs (x t - x' t) <= d /\ 0 < x t <= 1 /\ 0 < x' t <= 1) /\
    @pncc exact_env (fvec 4 x) pncc_tiny 2 pncc_tiny_c = Ok (fmat 4 2 y) /\
    @pncc exact_env (fvec 4 x') pncc_tiny 2 pncc_tiny_c = Ok (fmat 4 2 y') /\
    c <= y 3%nat 0%nat - y' 3%nat 0%nat.
Proof. exact pncc_jumps. Qed.
Print Assumptions C142_pncc_refuted.
(** Away from the switching point rounding does little harm: if the input is further than
    D = (u B + eta) / (1 - lam_t - u) from lam_t times the exact peak, the masked value computed with
    rounding is within D of the exact one. *)
Theorem C142_away_from_ties : forall (E : Env) u eta n c x lam mu B, accurate u eta (@rnd E) -> (0 < n)%nat -> 0 <= mu <= lam -> lam + u < 1 ->
  (forall m l, (m < n)%nat -> (l < c)%nat -> 0 <= x m l <= B) ->
  let D := (u * B + eta) / (1 - lam - u) in
  exists y, temporal_masking (fmat n c x) lam mu = Ok (fmat n c y) /\
    forall m l p, (S m < n)%nat -> (l < c)%nat -> is_decayed_peak lam (fun i => x i l) m p -> D < Rabs (x (S m) l - lam * p) ->
      Rabs (@mask_of E lam mu (fun i => x i l) (S m) - y (S m) l) <= D.
Proof.
  intros E u eta n c x lam mu B Ha Hn Hm Hl Hx D. eexists. split; [apply mask_fmat; exact Hn|].
  intros m l p Hmn Hlc Hp Hg. cbv beta. unfold D.
  apply (mask_error u eta Ha lam mu (fun i => x i l) B m Hm Hl).
  - intros i Hi. apply Hx; [lia|exact Hlc].
  - fold D. replace (peakR lam (fun i => x i l) m) with p; [exact Hg|].
    destruct (peak_is lam (fun i => x i l) m ltac:(lra)) as [(i & Hi & Ei) Hmax]. destruct Hp as [(j & Hj & Ej) Hmax'].
    apply Rle_antisym; [rewrite Ej; apply Hmax; exact Hj|rewrite Ei; apply Hmax'; exact Hi].
Qed.
Print Assumptions C142_away_from_ties.
(** a case: frames 1, 1/2 with the defaults: half is well below 0.85, the result is 0.2 up to rounding *)
Example C142_case : exists y, temporal_masking (fmat 2 1 (fun m _ => if Nat.eqb m 0 then 1 else 0.5)) 0.85 0.2 = Ok (fmat 2 1 y) /\
  y 1%nat 0%nat = 0.2 /\ Rabs (@mask_of binary53 0.85 0.2 (fun m => if Nat.eqb m 0 then 1 else 0.5) 1 - 0.2) <= / 2 ^ 50.
Proof.
  assert (Eu : / 2 ^ 53 = 1 / 9007199254740992) by (rewrite (pow_IZR 2 53); change (2 ^ Z.of_nat 53)%Z with 9007199254740992%Z; lra).
  assert (E50 : / 2 ^ 50 = 8 * / 2 ^ 53) by (rewrite Eu, (pow_IZR 2 50); change (2 ^ Z.of_nat 50)%Z with 1125899906842624%Z; lra).
  destruct (C142_away_from_ties binary53 (/ 2 ^ 53) 0 2 1 (fun m _ => if Nat.eqb m 0 then 1 else 0.5) 0.85 0.2 1) as (y & Ey & Hy);
    try lra; [exact rnd53_accurate|lia|intros m l _ _; destruct (Nat.eqb m 0); lra|].
  assert (V : y 1%nat 0%nat = 0.2).
  { rewrite mask_fmat in Ey by lia. apply Ok_inj in Ey. rewrite <- (fmat_inj 2 1 _ _ Ey 1%nat 0%nat) by lia.
    cbn [maskR peakR Nat.eqb]. destruct (Rle_dec (0.85 * 1) 0.5); lra. }
  exists y. split; [exact Ey|]. split; [exact V|].
  specialize (Hy 0%nat 0%nat 1 ltac:(lia) ltac:(lia)). rewrite V in Hy.
  assert (HD : (/ 2 ^ 53 * 1 + 0) / (1 - 0.85 - / 2 ^ 53) <= / 2 ^ 50).
  { apply Rmult_le_reg_r with (1 - 0.85 - / 2 ^ 53); [lra|]. unfold Rdiv. rewrite Rmult_assoc, Rinv_l, Rmult_1_r by lra. rewrite E50. lra. }
  eapply Rle_trans; [apply Hy|exact HD].
  - split; [exists 0%nat; split; [lia|cbn; ring]|]. intros i Hi. assert (i = 0%nat) by lia. subst i. cbn. lra.
  - eapply Rle_lt_trans; [exact HD|]. cbn [Nat.eqb]. rewrite Rabs_left by lra. lra.
Qed.
