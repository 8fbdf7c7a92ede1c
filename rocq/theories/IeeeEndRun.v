(** * IEEE binary64 cepstra compared with the result of the API in exact arithmetic *)
From Coq Require Import Reals ZArith List String Bool Lia Lra Psatz.
From Flocq Require Import Core IEEE754.BinarySingleNaN.
From Coquelicot Require Rcomplements.
From Verif Require Import Base SpecBase BigSum Preprocessing SpecMat SpecFilters SpecBanks SpecFeatures DctFacts Features Extractors FeaturesFacts FeaturesMore
  Binary64 Binary64Facts Rounded RoundedCeps SpecRounded RoundedFacts SpecRoundedCeps SpecRoundedDominant RoundedLaws RoundedCepsLaws RoundedCepsEnd
  Ieee SpecIeee SpecIeeeEnd IeeeFacts IeeeLaws IeeeEnd.
Import ListNotations.
Local Open Scope R_scope.

Lemma log_bound_nonneg : forall v r s bins, 0 <= v <= / 2 -> 0 < r <= / 2 -> 0 <= s <= / 2 -> 0 <= float_log_bound v r s bins.
Proof.
  intros v r s bins Hv Hr Hs. unfold float_log_bound, band_log_bound.
  assert (L : forall t, 0 <= t <= / 2 -> 0 <= - ln (1 - t)).
  { intros t Ht. rewrite <- ln_Rinv by lra. rewrite <- ln_1. apply Rcomplements.ln_le; [lra|]. pose proof (one_plus_inv t ltac:(lra)). lra. }
  pose proof (L (/ 2 ^ 53) ltac:(lra)) as L1. pose proof (L v Hv). pose proof (L r ltac:(lra)). pose proof (L s Hs). pose proof (L (/ 2 ^ 100) ltac:(lra)).
  pose proof (Rmult_le_pos _ _ (pos_INR (bins + 3)) L1). lra.
Qed.
Lemma two_tails : bpow radix2 (-1033) + bpow radix2 (-1033) <= bpow radix2 (-1030).
Proof. change (-1030)%Z with (3 + -1033)%Z. rewrite bpow_plus. change (bpow radix2 3) with 8. pose proof (bpow_gt_0 radix2 (-1033)). lra. Qed.

Section Cepstra.
Context (h : f64 -> f64 -> f64) (g : R -> R -> R) (v r s : R) (D nfft bins n N : nat) (re im : nat -> lin) (fre fim : nat -> flin) (x : nat -> f64)
  (W : nat -> nat -> R) (bank : nat -> flin) (e : nat -> R).
Hypothesis Himpl : implements2 h g.
Hypothesis Hsane : hypot_sane g.
Hypothesis Hclose : hypot_close v g.
Hypothesis Hr : 0 < r <= / 2.
Hypothesis Hs : 0 <= s <= / 2.
Hypothesis Hn1 : (1 <= nfft)%nat.
Hypothesis Hn2 : (Z.of_nat nfft <= 2 ^ 40)%Z.
Hypothesis Hbins : INR bins <= 2 ^ 40.
Hypothesis Hx : forall i, (i < N)%nat -> fin (x i) /\ Rabs (val (x i)) <= bpow radix2 400.
Hypothesis Hre : forall k, (k < bins)%nat -> float_program N (re k) (fre k) /\ float_program N (im k) (fim k).
Hypothesis HD : forall k, (k < bins)%nat -> (lin_depth2 (re k) <= D)%nat /\ (lin_depth2 (im k) <= D)%nat.
Hypothesis Hbank : forall j, (j < n)%nat -> program bins (bank j) /\ dot_program (W j) bins (reals (bank j)) /\ (forall q, 0 <= W j q <= 1).
Let xr (i : nat) : R := val (x i).
Let ew (j : nat) : R := bigsum bins (fun k => W j k * (lin_exact xr (re k) ^ 2 + lin_exact xr (im k) ^ 2) / INR nfft).
Hypothesis He : forall j, (j < n)%nat -> bpow radix2 (-900) <= e j /\ Rabs (ew j - e j) <= s * e j /\ float_noise D nfft bins xr re im (W j) <= r ^ 2 * ew j.
Let lam : R := float_log_bound v r s bins.

Lemma lam0 : 0 <= lam.
Proof. destruct Hclose as [Hv _]. apply log_bound_nonneg; assumption. Qed.
Lemma energy_facts : forall j, (j < n)%nat ->
  let e' := @band_energy binary64 nfft (@bin_magnitude binary64 g (fun q => reals (fre q)) (fun q => reals (fim q)) xr) (fun j => reals (bank j)) j in
  0 < e' /\ bpow radix2 (-910) <= e' /\ Rabs (ln e' - ln (e j)) <= lam.
Proof.
  intros j Hj. destruct (He j Hj) as (E1 & E2 & E3). destruct (Hbank j Hj) as (B1 & B2 & B3).
  exact (band_float v r s D nfft bins g re im fre fim N xr (W j) (fun j => reals (bank j)) j (e j) Hclose Hr Hs Hn1 Hn2 Hbins Hre HD B3 B2 E2 E1 E3).
Qed.
Lemma float_programs : forall q, (q < bins)%nat -> program N (fre q) /\ program N (fim q).
Proof. intros q Hq. destruct (Hre q Hq) as [(A & _) (B & _)]. split; assumption. Qed.

Lemma log_float : forall lnf gl wl Y dct fdct k, implements1 (fun z => 0 < z) lnf gl -> ln_close wl gl -> float_program n (dct k) (fdct k) ->
  (forall j, (j < n)%nat -> Rabs (ln (e j)) <= Y) -> 0 <= Y ->
  let z := log_cepstrum64 lnf h fre fim nfft bank fdct x k in
  fin z /\ Rabs (val z - lin_exact (fun j => ln (e j)) (dct k))
    <= gain (dct k) * ((1 + / 2 ^ 53) ^ lin_depth2 (dct k) * ((1 + wl) * (Y + lam)) - Y) + bpow radix2 (-1030).
Proof.
  intros lnf gl wl Y dct fdct k Hl (Hwl & Hln) Hd HY HY0 z. pose proof lam0 as L0. pose proof tiny_pos as Ht.
  assert (Hgl : forall t, 0 < t -> Rabs (gl t) <= 4 * Rabs (ln t) + 1).
  { intros t H0. specialize (Hln t H0). replace (gl t) with (ln t + (gl t - ln t)) by ring. eapply Rle_trans; [apply Rabs_triang|].
    pose proof (Rabs_pos (ln t)). pose proof (Rmult_le_compat_r _ _ _ H (proj2 Hwl)). assert (tiny <= 1) by (change 1 with (bpow radix2 0); apply bpow_le; lia). lra. }
  destruct (log_cepstrum_ieee h g lnf gl fre fim bank fdct x N bins nfft n k Himpl Hsane Hl Hgl Hn1 ltac:(lia) Hx float_programs) as [F V].
  - intros j Hj. destruct (Hbank j Hj) as (B1 & B2 & B3). split; [exact B1|]. apply (dot_additive (W j) bins); [apply B3|exact B2].
  - apply Hd.
  - fold z in F, V. split; [exact F|]. rewrite V. unfold log_cepstrum. fold xr.
    eapply Rle_trans; [apply (float_on_inputs n (dct k) (fdct k) (fun j => ln (e j)) _ Y ((1 + wl) * lam + wl * Y + tiny) Hd)|].
    + pose proof (Rmult_le_pos _ _ (proj1 Hwl) HY0). pose proof (Rmult_le_pos _ _ (proj1 Hwl) L0). lra.
    + exact HY0.
    + intros j Hj. split; [auto|]. destruct (energy_facts j Hj) as (P & _ & Q). unfold log_band. set (t := @band_energy binary64 _ _ _ _) in *.
      unfold zeroed. destruct (Req_EM_T t 0) as [Z|_]; [lra|]. specialize (Hln t P). specialize (HY j Hj).
      assert (Hg : Rabs (ln t) <= Y + lam).
      { replace (ln t) with (ln (e j) + (ln t - ln (e j))) by ring. eapply Rle_trans; [apply Rabs_triang|]. lra. }
      replace (gl t - ln (e j)) with ((gl t - ln t) + (ln t - ln (e j))) by ring.
      eapply Rle_trans; [apply Rabs_triang|]. pose proof (Rmult_le_compat_l _ _ _ (proj1 Hwl) Hg). lra.
    + fold u64. destruct (float_powers n (dct k) (fdct k) Hd) as (P & _ & G). pose proof (small_tail _ _ P G). pose proof two_tails.
      set (p := (1 + u64) ^ lin_depth2 (dct k)) in *. set (a := gain (dct k)) in *.
      replace (a * (p * (Y + ((1 + wl) * lam + wl * Y + tiny)) - Y)) with (a * (p * ((1 + wl) * (Y + lam)) - Y) + p * a * tiny) by ring. lra.
Qed.

Lemma root_float : forall p powf gp wp Y dct fdct k, Rabs p <= 1 -> implements1 (fun z => 0 < z) powf gp -> pow_close wp p gp -> float_program n (dct k) (fdct k) ->
  (forall j, (j < n)%nat -> Rpower (e j) p <= Y) -> 0 <= Y ->
  let z := root_cepstrum64 powf h fre fim nfft bank fdct x k in
  fin z /\ Rabs (val z - lin_exact (fun j => Rpower (e j) p) (dct k))
    <= gain (dct k) * ((1 + / 2 ^ 53) ^ lin_depth2 (dct k) * ((1 + wp) * exp (Rabs p * lam)) - 1) * Y + bpow radix2 (-1030).
Proof.
  intros p powf gp wp Y dct fdct k Hp1 Hl (Hwp & Hpw) Hd HY HY0 z. pose proof lam0 as L0. pose proof tiny_pos as Ht.
  assert (B9 : 1 <= bpow radix2 929) by (change 1 with (bpow radix2 0); apply bpow_le; lia).
  assert (Hgp : forall t, bpow radix2 (-910) <= t -> Rabs t <= bpow radix2 929 -> Rabs (gp t) <= bpow radix2 980).
  { intros t H0 H1. pose proof (bpow_gt_0 radix2 (-910)) as P0. assert (T : 0 < t) by lra. rewrite Rabs_pos_eq in H1 by lra.
    assert (Q : Rpower t p <= bpow radix2 929).
    { assert (B : forall q, Rabs q <= 1 -> q * ln (bpow radix2 929) <= ln (bpow radix2 929)).
      { intros q Hq. assert (0 <= ln (bpow radix2 929)) by (rewrite <- ln_1; apply Rcomplements.ln_le; lra). apply Rcomplements.Rabs_le_between in Hq.
        rewrite <- (Rmult_1_l (ln (bpow radix2 929))) at 2. apply Rmult_le_compat_r; lra. }
      rewrite <- (exp_ln (bpow radix2 929)) by lra. unfold Rpower.
      assert (K : p * ln t <= ln (bpow radix2 929)).
      { assert (L1 : ln t <= ln (bpow radix2 929)) by (apply Rcomplements.ln_le; lra).
        assert (L2 : - ln (bpow radix2 929) <= ln t).
        { rewrite <- ln_Rinv, <- bpow_opp by lra. apply Rcomplements.ln_le; [apply bpow_gt_0|]. eapply Rle_trans; [|exact H0]. apply bpow_le. lia. }
        apply Rle_trans with (Rabs p * ln (bpow radix2 929)).
        - eapply Rle_trans; [apply Rle_abs|]. rewrite Rabs_mult. apply Rmult_le_compat_l; [apply Rabs_pos|]. apply Rabs_le. lra.
        - apply B. rewrite Rabs_Rabsolu. exact Hp1. }
      destruct K as [K|K]; [left; apply exp_increasing; exact K|right; rewrite K; reflexivity]. }
    specialize (Hpw t T). replace (gp t) with (Rpower t p + (gp t - Rpower t p)) by ring. eapply Rle_trans; [apply Rabs_triang|].
    assert (Q0 : 0 < Rpower t p) by apply exp_pos. rewrite (Rabs_pos_eq (Rpower t p)) by lra. pose proof (Rmult_le_compat_r _ _ _ (Rlt_le _ _ Q0) (proj2 Hwp)).
    assert (tiny <= 1) by (change 1 with (bpow radix2 0); apply bpow_le; lia).
    apply Rle_trans with (bpow radix2 (2 + 929)); [|apply bpow_le; lia]. rewrite bpow_plus. change (bpow radix2 2) with 4. lra. }
  destruct (root_cepstrum_ieee (fun t => bpow radix2 (-910) <= t) h g powf gp fre fim bank fdct x N bins nfft n k Himpl Hsane) as [F V]; [|exact Hgp|exact Hn1|lia|exact Hx|exact float_programs| | | |].
  - intros t H1 H2. apply Hl; [exact H1|]. pose proof (bpow_gt_0 radix2 (-910)). lra.
  - intros j Hj. apply Hbank, Hj.
  - apply Hd.
  - intros j Hj. apply energy_facts, Hj.
  - fold z in F, V. split; [exact F|]. rewrite V. unfold root_cepstrum. fold xr.
    set (G := exp (Rabs p * lam)).
    assert (HG : 1 <= G).
    { unfold G. rewrite <- exp_0. pose proof (Rmult_le_pos _ _ (Rabs_pos p) L0) as [K|<-]; [left; apply exp_increasing, K|lra]. }
    assert (H0 : 0 <= ((1 + wp) * G - 1) * Y).
    { apply Rmult_le_pos; [|exact HY0]. nra. }
    eapply Rle_trans; [apply (float_on_inputs n (dct k) (fdct k) (fun j => Rpower (e j) p) _ Y (((1 + wp) * G - 1) * Y + tiny) Hd ltac:(lra) HY0)|].
    + intros j Hj. pose proof (HY j Hj) as HYj.
      assert (Hpos : 0 < Rpower (e j) p) by apply exp_pos.
      split; [rewrite Rabs_pos_eq; lra|]. destruct (energy_facts j Hj) as (P & _ & Q). unfold root_band. set (t := @band_energy binary64 _ _ _ _) in *.
      specialize (Hpw t P). set (R0 := Rpower (e j) p) in *.
      assert (HR : Rabs (p * (ln t - ln (e j))) <= Rabs p * lam).
      { rewrite Rabs_mult. apply Rmult_le_compat_l; [apply Rabs_pos|exact Q]. }
      assert (HE : Rpower t p = R0 * exp (p * (ln t - ln (e j)))).
      { unfold R0, Rpower. rewrite <- exp_plus. f_equal. ring. }
      set (d := p * (ln t - ln (e j))) in *.
      assert (Hd' : / G <= exp d <= G).
      { apply Rcomplements.Rabs_le_between in HR. unfold G. rewrite <- exp_Ropp. split.
        - destruct (proj1 HR) as [K|<-]; [left; apply exp_increasing; lra|lra].
        - destruct (proj2 HR) as [K| ->]; [left; apply exp_increasing; lra|lra]. }
      assert (HiG : 2 - G <= / G).
      { apply (Rmult_le_reg_r G); [lra|]. rewrite Rinv_l by lra. nra. }
      assert (HRg : Rabs (Rpower t p - R0) <= (G - 1) * R0).
      { rewrite HE. replace (R0 * exp d - R0) with (R0 * (exp d - 1)) by ring. rewrite Rabs_mult, (Rabs_pos_eq R0) by lra.
        rewrite Rmult_comm. apply Rmult_le_compat_r; [lra|]. apply Rabs_le. lra. }
      assert (HRp : Rpower t p <= G * R0).
      { rewrite HE, Rmult_comm. apply Rmult_le_compat_r; lra. }
      replace (gp t - R0) with ((gp t - Rpower t p) + (Rpower t p - R0)) by ring.
      eapply Rle_trans; [apply Rabs_triang|].
      pose proof (Rmult_le_compat_l _ _ _ (proj1 Hwp) HRp) as K.
      apply Rle_trans with (((1 + wp) * G - 1) * R0 + tiny); [lra|]. apply Rplus_le_compat_r. apply Rmult_le_compat_l; [nra|exact HYj].
    + fold u64. destruct (float_powers n (dct k) (fdct k) Hd) as (P & _ & Ga). pose proof (small_tail _ _ P Ga). pose proof two_tails.
      set (q := (1 + u64) ^ lin_depth2 (dct k)) in *. set (a := gain (dct k)) in *.
      replace (a * (q * (Y + (((1 + wp) * G - 1) * Y + tiny)) - Y)) with (a * (q * ((1 + wp) * G) - 1) * Y + q * a * tiny) by ring. lra.
Qed.
End Cepstra.

Lemma half_bins : forall nfft, (1 <= nfft)%Z -> (nfft <= 2 ^ 40)%Z -> INR (S (half nfft)) <= 2 ^ 40.
Proof.
  intros nfft H1 H2. rewrite INR_IZR_INZ. replace (2 ^ 40) with (IZR (2 ^ 40)) by (cbn; lra). apply IZR_le. unfold half.
  rewrite Nat2Z.inj_succ, ?Nat2Z.inj_div, Z2Nat.id by (try apply Z.div_pos; lia). assert (nfft / 2 <= 2 ^ 39)%Z by (apply Z.div_le_upper_bound; lia). lia.
Qed.

Lemma run_log_float : forall (E : Env) e a c N L hop n B (x : nat -> f64), In e [Mfcc; Imfcc; Lfcc; Ngcc] ->
  @well_framed E a N L hop -> (1 <= s_nfft a <= 2 ^ 40)%Z -> (0 < n)%nat ->
  @extractor_bank E e a = Ok (fmat n (S (half (s_nfft a))) B) -> (forall j k, 0 <= B j k) ->
  (0 <= c_num_ceps c <= s_nfilts a)%Z -> (1 <= c_dct_type c <= 4)%Z -> (c_dct_type c = 1%Z -> (2 <= n)%nat) ->
  c_use_energy c = false -> no_lifter c -> no_normalisation c ->
  (forall t, (t < N)%nat -> fin (x t) /\ Rabs (val (x t)) <= bpow radix2 400) ->
  let xr t := val (x t) in
  let K := Nat.min (Z.to_nat (c_num_ceps c)) n in let nf := Z.to_nat (s_nfft a) in let bins := S (half (s_nfft a)) in
  let f i z := frame_of a (extractor_coeff e a) L hop z i in
  let band i b := spec_band (half (s_nfft a)) nf L (f i xr) b in
  exists y, @run E e (fvec N xr) a c = Ok (fmat (frame_count N L hop) K y) /\
    forall h g lnf gl v wl r s D re im fre fim W bank dct fdct i k Y,
      implements2 h g -> hypot_sane g -> hypot_close v g -> implements1 (fun z => 0 < z) lnf gl -> ln_close wl gl -> 0 < r <= / 2 -> 0 <= s <= / 2 ->
      (i < frame_count N L hop)%nat -> (k < K)%nat ->
      frame_programs nf L (f i) bins re im ->
      (forall q, (q < bins)%nat -> float_program N (re q) (fre q) /\ float_program N (im q) (fim q)) ->
      (forall q, (q < bins)%nat -> (lin_depth2 (re q) <= D)%nat /\ (lin_depth2 (im q) <= D)%nat) ->
      (forall j, (j < n)%nat -> program bins (bank j) /\ dot_program (W j) bins (reals (bank j)) /\ (forall q, 0 <= W j q <= 1)) ->
      float_program n (dct k) (fdct k) -> (forall z, lin_exact z (dct k) = spec_dct (c_dct_type c) n z k) ->
      (forall j, (j < n)%nat -> bpow radix2 (-900) <= band i (B j) /\ Rabs (band i (W j) - band i (B j)) <= s * band i (B j) /\
         float_noise D nf bins xr re im (W j) <= r ^ 2 * band i (W j) /\ Rabs (ln (band i (B j))) <= Y) ->
      let z := log_cepstrum64 lnf h fre fim nf bank fdct x k in
      fin z /\ Rabs (val z - y i k)
        <= gain (dct k) * ((1 + / 2 ^ 53) ^ lin_depth2 (dct k) * ((1 + wl) * (Y + float_log_bound v r s bins)) - Y) + bpow radix2 (-1030).
Proof.
  intros E e a c N L hop n B x Hin Hw Hnf Hn HB HB0 Hc Ht Ht1 Hue Hl Hnm Hx xr K nf bins f band.
  assert (Hcomp : forall z, compression e z = spec_log z) by (simpl in Hin; intuition subst; reflexivity).
  assert (Hcb : forall z, 0 <= z -> compressible e z) by (simpl in Hin; intuition subst; assumption).
  eexists. split.
  - apply (run_fvec e a c N L hop n B xr); auto; try lia.
    + intros i j _ _. apply Hcb. apply spec_band_nonneg; [lia|]. intros. apply HB0.
    + rewrite Hue. discriminate.
  - intros h g lnf gl v wl r s D re im fre fim W bank dct fdct i k Y Hi1 Hs1 Hcl Hi2 Hln Hr Hs Hi Hk Hp Hre HD Hb Hd Hdct Hband z.
    rewrite Hue. cbn [andb]. cbv beta zeta.
    assert (Hsp : forall b, bigsum bins (fun q => b q * (lin_exact xr (re q) ^ 2 + lin_exact xr (im q) ^ 2) / INR nf) = band i b).
    { intros b. apply (spec_band_programs (half (s_nfft a)) nf L (f i) re im xr b Hp). }
    assert (HY : 0 <= Y). { destruct (Hband 0%nat Hn) as (_ & _ & _ & H). pose proof (Rabs_pos (ln (band i (B 0%nat)))). lra. }
    rewrite (spec_dct_ext (c_dct_type c) n _ (fun j => ln (band i (B j)))).
    2:{ intros j Hj. rewrite Hcomp. fold nf. fold (f i xr). fold (band i (B j)). unfold spec_log.
        destruct (Hband j Hj) as (P & _). pose proof (bpow_gt_0 radix2 (-900)). destruct (Req_EM_T (band i (B j)) 0); [lra|reflexivity]. }
    rewrite <- Hdct.
    refine (log_float h g v r s D nf bins n N re im fre fim x W bank (fun j => band i (B j)) Hi1 Hs1 Hcl Hr Hs _ _ _ Hx Hre HD Hb _ lnf gl wl Y dct fdct k Hi2 Hln Hd _ HY).
    + unfold nf. lia.
    + unfold nf. lia.
    + apply half_bins; lia.
    + intros j Hj. destruct (Hband j Hj) as (A1 & A2 & A3 & _). fold xr. rewrite Hsp. auto.
    + intros j Hj. apply Hband, Hj.
Qed.

Lemma run_root_float : forall (E : Env) e p a c N L hop n B (x : nat -> f64), root_exponent e p -> Rabs p <= 1 ->
  @well_framed E a N L hop -> (1 <= s_nfft a <= 2 ^ 40)%Z -> (0 < n)%nat ->
  @extractor_bank E e a = Ok (fmat n (S (half (s_nfft a))) B) -> (forall j k, 0 <= B j k) ->
  (0 <= c_num_ceps c <= s_nfilts a)%Z -> (1 <= c_dct_type c <= 4)%Z -> (c_dct_type c = 1%Z -> (2 <= n)%nat) ->
  c_use_energy c = false -> no_lifter c -> no_normalisation c ->
  (forall t, (t < N)%nat -> fin (x t) /\ Rabs (val (x t)) <= bpow radix2 400) ->
  let xr t := val (x t) in
  let K := Nat.min (Z.to_nat (c_num_ceps c)) n in let nf := Z.to_nat (s_nfft a) in let bins := S (half (s_nfft a)) in
  let f i z := frame_of a (extractor_coeff e a) L hop z i in
  let band i b := spec_band (half (s_nfft a)) nf L (f i xr) b in
  (forall i j, (i < frame_count N L hop)%nat -> (j < n)%nat -> 0 < band i (B j)) ->
  exists y, @run E e (fvec N xr) a c = Ok (fmat (frame_count N L hop) K y) /\
    forall h g powf gp v wp r s D re im fre fim W bank dct fdct i k Y,
      implements2 h g -> hypot_sane g -> hypot_close v g -> implements1 (fun z => 0 < z) powf gp -> pow_close wp p gp -> 0 < r <= / 2 -> 0 <= s <= / 2 ->
      (i < frame_count N L hop)%nat -> (k < K)%nat ->
      frame_programs nf L (f i) bins re im ->
      (forall q, (q < bins)%nat -> float_program N (re q) (fre q) /\ float_program N (im q) (fim q)) ->
      (forall q, (q < bins)%nat -> (lin_depth2 (re q) <= D)%nat /\ (lin_depth2 (im q) <= D)%nat) ->
      (forall j, (j < n)%nat -> program bins (bank j) /\ dot_program (W j) bins (reals (bank j)) /\ (forall q, 0 <= W j q <= 1)) ->
      float_program n (dct k) (fdct k) -> (forall z, lin_exact z (dct k) = spec_dct (c_dct_type c) n z k) ->
      (forall j, (j < n)%nat -> bpow radix2 (-900) <= band i (B j) /\ Rabs (band i (W j) - band i (B j)) <= s * band i (B j) /\
         float_noise D nf bins xr re im (W j) <= r ^ 2 * band i (W j) /\ Rpower (band i (B j)) p <= Y) ->
      let z := root_cepstrum64 powf h fre fim nf bank fdct x k in
      fin z /\ Rabs (val z - y i k)
        <= gain (dct k) * ((1 + / 2 ^ 53) ^ lin_depth2 (dct k) * ((1 + wp) * exp (Rabs p * float_log_bound v r s bins)) - 1) * Y + bpow radix2 (-1030).
Proof.
  intros E e p a c N L hop n B x Hin Hp1 Hw Hnf Hn HB HB0 Hc Ht Ht1 Hue Hl Hnm Hx xr K nf bins f band Hpos.
  assert (Hcomp : forall z, 0 < z -> compression e z = Rpower z p).
  { intros z Hz. destruct Hin as [[-> ->]|[-> Hp]]; cbn [compression]; [|destruct (Req_EM_T p 0); [contradiction|]];
      unfold spec_root; destruct (Req_EM_T z 0); try lra; reflexivity. }
  assert (Hcb : forall z, 0 < z -> compressible e z).
  { intros z Hz. destruct Hin as [[-> ->]|[-> Hp]]; cbn [compressible]; lra. }
  eexists. split.
  - apply (run_fvec e a c N L hop n B xr); auto; try lia.
    + intros i j Hi Hj. apply Hcb. apply (Hpos i j Hi Hj).
    + rewrite Hue. discriminate.
  - intros h g powf gp v wp r s D re im fre fim W bank dct fdct i k Y Hi1 Hs1 Hcl Hi2 Hpw Hr Hs Hi Hk Hp Hre HD Hb Hd Hdct Hband z.
    rewrite Hue. cbn [andb]. cbv beta zeta.
    assert (Hsp : forall b, bigsum bins (fun q => b q * (lin_exact xr (re q) ^ 2 + lin_exact xr (im q) ^ 2) / INR nf) = band i b).
    { intros b. apply (spec_band_programs (half (s_nfft a)) nf L (f i) re im xr b Hp). }
    assert (HY : 0 <= Y).
    { destruct (Hband 0%nat Hn) as (_ & _ & _ & H). assert (0 < Rpower (band i (B 0%nat)) p) by apply exp_pos. lra. }
    rewrite (spec_dct_ext (c_dct_type c) n _ (fun j => Rpower (band i (B j)) p)).
    2:{ intros j Hj. apply Hcomp. apply (Hpos i j Hi Hj). }
    rewrite <- Hdct.
    refine (root_float h g v r s D nf bins n N re im fre fim x W bank (fun j => band i (B j)) Hi1 Hs1 Hcl Hr Hs _ _ _ Hx Hre HD Hb _ p powf gp wp Y dct fdct k Hp1 Hi2 Hpw Hd _ HY).
    + unfold nf. lia.
    + unfold nf. lia.
    + apply half_bins; lia.
    + intros j Hj. destruct (Hband j Hj) as (A1 & A2 & A3 & _). fold xr. rewrite Hsp. auto.
    + intros j Hj. apply Hband, Hj.
Qed.
