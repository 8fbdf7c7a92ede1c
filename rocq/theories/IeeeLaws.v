(** * IEEE binary64 evaluation of the cepstral functions: no overflow, and overflow *)
From Coq Require Import Reals ZArith List Bool Lia Lra Psatz.
From Flocq Require Import Core IEEE754.BinarySingleNaN.
From Coquelicot Require Rcomplements.
From Verif Require Import Base Binary64 Rounded RoundedCeps SpecRounded RoundedFacts RoundedWindows RoundedBanksError SpecRoundedCeps SpecRoundedDominant RoundedLaws
  RoundedDominantLaws Ieee SpecIeee IeeeFacts.
Local Open Scope R_scope.

(** ** logarithm *)
Lemma val_positive : forall v : f64, fin v -> 0 < val v -> bpow radix2 (-1074) <= val v.
Proof.
  intros v Hf Hv. assert (S : is_finite_strict v = true).
  { destruct v; cbn in *; try reflexivity; try discriminate; unfold val in Hv; cbn in Hv; lra. }
  pose proof (@abs_B2R_ge_emin 53 1024 v S) as K. change (SpecFloat.emin 53 1024) with (-1074)%Z in K. fold (val v) in K. rewrite Rabs_pos_eq in K by lra. exact K.
Qed.
Lemma ln_bound : forall v, bpow radix2 (-1074) <= v <= bpow radix2 929 -> Rabs (ln v) <= 1074.
Proof.
  intros v [H1 H2].
  assert (L : forall k, ln (bpow radix2 k) = IZR k * ln 2).
  { intros k. rewrite bpow_powerRZ. change (IZR radix2) with 2. rewrite powerRZ_Rpower by lra. unfold Rpower. apply ln_exp. }
  assert (L2 : 0 < ln 2 < 1).
  { split; [rewrite <- ln_1; apply ln_increasing; lra|]. rewrite <- (ln_exp 1). apply ln_increasing; [lra|]. pose proof exp_ineq1 1. assert (1 <> 0) by lra. specialize (H H0). lra. }
  pose proof (bpow_gt_0 radix2 (-1074)). apply Rabs_le. split.
  - apply Rle_trans with (ln (bpow radix2 (-1074))); [rewrite L; lra|]. apply Rcomplements.ln_le; lra.
  - apply Rle_trans with (ln (bpow radix2 929)); [apply Rcomplements.ln_le; lra|]. rewrite L. lra.
Qed.
Lemma zeroed_val : forall v r, fin v -> val v = r -> fin (zeroed64 v) /\ val (zeroed64 v) = zeroed r.
Proof.
  intros v r Hf Hv. unfold zeroed. assert (E : rnd64 (IZR 1 * bpow radix2 (-52)) = / 2 ^ 52).
  { rewrite Rmult_1_l, rnd64_bpow by lia. cbn. lra. }
  destruct v as [s|s| |s m e B]; try discriminate.
  - assert (r = 0) by (rewrite <- Hv; reflexivity). subst r. rewrite H. destruct (Req_EM_T 0 0); [|lra]. cbn [zeroed64].
    destruct (of_Z_ok 1 (-52)) as [A B]; [rewrite E, Rabs_pos_eq by lra; apply Rlt_trans with 1; [lra|change 1 with (bpow radix2 0); apply bpow_lt; lia]|].
    split; [exact A|]. rewrite B. exact E.
  - cbn [zeroed64]. destruct (Req_EM_T r 0) as [H0|H0]; [|split; assumption]. exfalso.
    pose proof (@abs_B2R_ge_emin 53 1024 (B754_finite s m e B) eq_refl) as K. fold (val (B754_finite s m e B)) in K. rewrite Hv, H0, Rabs_R0 in K.
    pose proof (bpow_gt_0 radix2 (SpecFloat.emin 53 1024)). lra.
Qed.

Lemma log_cepstrum_ieee : forall h g lnf gl re im bank dct x N bins nfft n k,
  implements2 h g -> hypot_sane g -> implements1 (fun v => 0 < v) lnf gl -> (forall v, 0 < v -> Rabs (gl v) <= 4 * Rabs (ln v) + 1) ->
  (1 <= nfft)%nat -> (Z.of_nat nfft < 2 ^ 53)%Z ->
  (forall i, (i < N)%nat -> fin (x i) /\ Rabs (val (x i)) <= bpow radix2 400) ->
  (forall q, (q < bins)%nat -> program N (re q) /\ program N (im q)) ->
  (forall j, (j < n)%nat -> program bins (bank j) /\ additive (reals (bank j))) -> program n (dct k) ->
  let y := log_cepstrum64 lnf h re im nfft bank dct x k in
  fin y /\ val y = @log_cepstrum binary64 gl g (fun q => reals (re q)) (fun q => reals (im q)) nfft (fun j => reals (bank j)) (fun q => reals (dct q)) (fun i => val (x i)) k.
Proof.
  intros h g lnf gl re im bank dct x N bins nfft n k Hi Hs Hl Hlb H1 H2 Hx Hre Hb Hd y.
  set (fl := fun j => lnf (zeroed64 (band64 nfft (magnitude64 h re im x) bank j))).
  set (rl := @log_band binary64 gl nfft (@bin_magnitude binary64 g (fun q => reals (re q)) (fun q => reals (im q)) (fun i => val (x i))) (fun j => reals (bank j))).
  assert (A : forall j, (j < n)%nat -> (fin (fl j) /\ val (fl j) = rl j) /\ Rabs (rl j) <= bpow radix2 13).
  { intros j Hj. destruct (Hb j Hj) as [P Q].
    destruct (band_val h g re im bank x N bins nfft Hi Hs H1 H2 Hx Hre j P) as (F1 & V1 & B1).
    pose proof (band_nonneg h g re im bank x N bins nfft Hi Hs H1 H2 Hx Hre j P Q) as P0.
    set (e := @band_energy binary64 _ _ _ _) in *. destruct (zeroed_val _ e F1 V1) as [F2 V2].
    assert (Z0 : 0 < zeroed e <= bpow radix2 929).
    { unfold zeroed. destruct (Req_EM_T e 0) as [K|K].
      - split; [lra|]. apply Rle_trans with 1; [lra|]. change 1 with (bpow radix2 0). apply bpow_le. lia.
      - rewrite Rabs_pos_eq in B1 by exact P0. split; lra. }
    assert (L : Rabs (gl (zeroed e)) <= bpow radix2 13).
    { eapply Rle_trans; [apply Hlb; lra|]. assert (K : bpow radix2 (-1074) <= zeroed e) by (rewrite <- V2; apply val_positive; [exact F2|rewrite V2; lra]).
      pose proof (ln_bound (zeroed e) (conj K (proj2 Z0))). change (bpow radix2 13) with (IZR 8192). lra. }
    change (rl j) with (gl (zeroed e)). split; [|exact L]. rewrite <- V2. apply Hl; [exact F2|rewrite V2; lra|].
    rewrite V2. eapply Rle_lt_trans; [exact L|]. apply bpow_lt. lia. }
  change y with (flin_run fl (dct k)). apply (program_val n fl rl 13 (dct k)); try assumption; [lia|intros j Hj; apply A; exact Hj|intros j Hj; apply A; exact Hj].
Qed.

Lemma root_cepstrum_ieee : forall (D : R -> Prop) h g powf gp re im bank dct x N bins nfft n k,
  implements2 h g -> hypot_sane g -> implements1 D powf gp -> (forall v, D v -> Rabs v <= bpow radix2 929 -> Rabs (gp v) <= bpow radix2 980) ->
  (1 <= nfft)%nat -> (Z.of_nat nfft < 2 ^ 53)%Z ->
  (forall i, (i < N)%nat -> fin (x i) /\ Rabs (val (x i)) <= bpow radix2 400) ->
  (forall q, (q < bins)%nat -> program N (re q) /\ program N (im q)) ->
  (forall j, (j < n)%nat -> program bins (bank j)) -> program n (dct k) ->
  let re' q := reals (re q) in let im' q := reals (im q) in let bank' j := reals (bank j) in let x' i := val (x i) in
  (forall j, (j < n)%nat -> D (@band_energy binary64 nfft (@bin_magnitude binary64 g re' im' x') bank' j)) ->
  let y := root_cepstrum64 powf h re im nfft bank dct x k in
  fin y /\ val y = @root_cepstrum binary64 gp g re' im' nfft bank' (fun q => reals (dct q)) x' k.
Proof.
  intros D h g powf gp re im bank dct x N bins nfft n k Hi Hs Hl Hlb H1 H2 Hx Hre Hb Hd re' im' bank' x' HD y.
  set (fl := fun j => powf (band64 nfft (magnitude64 h re im x) bank j)).
  set (rl := @root_band binary64 gp nfft (@bin_magnitude binary64 g re' im' x') bank').
  assert (A : forall j, (j < n)%nat -> (fin (fl j) /\ val (fl j) = rl j) /\ Rabs (rl j) <= bpow radix2 980).
  { intros j Hj. destruct (band_val h g re im bank x N bins nfft Hi Hs H1 H2 Hx Hre j (Hb j Hj)) as (F1 & V1 & B1).
    specialize (HD j Hj). unfold re', im', bank', x' in *. set (e := @band_energy binary64 _ _ _ _) in *.
    assert (L : Rabs (gp e) <= bpow radix2 980) by (apply Hlb; assumption).
    change (rl j) with (gp e). split; [|exact L]. rewrite <- V1. apply Hl; [exact F1|rewrite V1; exact HD|].
    rewrite V1. eapply Rle_lt_trans; [exact L|]. apply bpow_lt. lia. }
  change y with (flin_run fl (dct k)). apply (program_val n fl rl 980 (dct k)); try assumption; [lia|intros j Hj; apply A; exact Hj|intros j Hj; apply A; exact Hj].
Qed.

(** ** overflow *)
Lemma inf_of : forall v : f64, B2SF v = SpecFloat.S754_infinity false -> v = B754_infinity false.
Proof. intros [s|s| |s m e B] H; cbn in H; try discriminate. injection H as ->. reflexivity. Qed.
Lemma square_overflow : forall m : f64, fin m -> bpow radix2 512 <= Rabs (val m) -> mul64 m m = B754_infinity false.
Proof.
  intros m Hf Hm. apply inf_of. pose proof (@Bmult_correct 53 1024 prec_ok emax_ok mode_NE m m) as K.
  change (round radix2 (SpecFloat.fexp 53 1024) (round_mode mode_NE) (B2R m * B2R m)) with (rnd64 (val m * val m)) in K.
  rewrite Rlt_bool_false in K.
  - rewrite xorb_nilpotent in K. exact K.
  - apply Rle_trans with (rnd64 (val m * val m)); [|apply Rle_abs]. rewrite <- (rnd64_bpow 1024) by lia. apply rnd64_monotone.
    change 1024%Z with (512 + 512)%Z. rewrite bpow_plus. replace (val m * val m) with (Rabs (val m) * Rabs (val m)).
    2:{ rewrite <- Rabs_mult. apply Rabs_pos_eq. nra. }
    pose proof (bpow_ge_0 radix2 512). apply Rmult_le_compat; assumption.
Qed.

(** ** non-finite values *)
Lemma add_strict : strict2 add64.
Proof. intros [s|s| |s m e B] [s'|s'| |s' m' e' B'] H; try (split; reflexivity); exfalso; revert H; unfold fin; cbn; try (intro; discriminate); destruct s; try destruct s'; cbn; intro; discriminate. Qed.
Lemma sub_strict : strict2 sub64.
Proof. intros [s|s| |s m e B] [s'|s'| |s' m' e' B'] H; try (split; reflexivity); exfalso; revert H; unfold fin; cbn; try (intro; discriminate); destruct s; try destruct s'; cbn; intro; discriminate. Qed.
Lemma mul_strict : strict2 mul64.
Proof. intros [s|s| |s m e B] [s'|s'| |s' m' e' B'] H; try (split; reflexivity); exfalso; revert H; unfold fin; cbn; intro; discriminate. Qed.
Lemma fma_strict : forall c a b, fin (fma64 c a b) -> fin a /\ fin b.
Proof.
  intros [s|s| |s m e B] [s'|s'| |s' m' e' B'] [s''|s''| |s'' m'' e'' B''] H; try (split; reflexivity); exfalso; revert H; unfold fin; cbn; try (intro; discriminate);
    destruct s; try destruct s'; try destruct s''; cbn; intro; discriminate.
Qed.
Lemma run_strict : forall x p, fin (flin_run x p) -> forall i, loads i p -> fin (x i).
Proof.
  intros x. induction p as [j| |p IHp q IHq|p IHp q IHq|c p IHp|c p IHp q IHq]; cbn [flin_run loads]; intros H i Hi.
  - subst j. exact H.
  - contradiction.
  - destruct (add_strict _ _ H). destruct Hi; auto.
  - destruct (sub_strict _ _ H). destruct Hi; auto.
  - destruct (mul_strict _ _ H). auto.
  - destruct (fma_strict _ _ _ H). destruct Hi; auto.
Qed.
Lemma power_strict : forall nfft m q, fin (power64 nfft m q) -> fin (m q) /\ Rabs (val (m q)) < bpow radix2 512.
Proof.
  intros nfft m q H. destruct (mul_strict _ _ H) as [_ H2]. destruct (mul_strict _ _ H2) as [H3 _]. split; [exact H3|].
  apply Rnot_le_lt. intros K. rewrite square_overflow in H2 by assumption. discriminate.
Qed.
Lemma zeroed_strict : strict1 zeroed64.
Proof. intros [s|s| |s m e B] H; try reflexivity; discriminate. Qed.

Lemma log_cepstrum_strict : forall h lnf re im nfft bank dct x k, strict1 lnf -> fin (log_cepstrum64 lnf h re im nfft bank dct x k) ->
  forall j q, loads j (dct k) -> loads q (bank j) ->
  fin (magnitude64 h re im x q) /\ Rabs (val (magnitude64 h re im x q)) < bpow radix2 512.
Proof.
  intros h lnf re im nfft bank dct x k Hl H j q Hj Hq. apply (power_strict nfft).
  apply (run_strict _ (dct k) H j) in Hj. apply Hl, zeroed_strict in Hj. exact (run_strict _ (bank j) Hj q Hq).
Qed.
Lemma root_cepstrum_strict : forall h powf re im nfft bank dct x k, strict1 powf -> fin (root_cepstrum64 powf h re im nfft bank dct x k) ->
  forall j q, loads j (dct k) -> loads q (bank j) ->
  fin (magnitude64 h re im x q) /\ Rabs (val (magnitude64 h re im x q)) < bpow radix2 512.
Proof.
  intros h powf re im nfft bank dct x k Hl H j q Hj Hq. apply (power_strict nfft).
  apply (run_strict _ (dct k) H j) in Hj. apply Hl in Hj. exact (run_strict _ (bank j) Hj q Hq).
Qed.
Lemma magnitude_strict : forall h re im x q i, strict2 h -> fin (magnitude64 h re im x q) -> loads i (re q) \/ loads i (im q) -> fin (x i).
Proof. intros h re im x q i Hh H Hi. destruct (Hh _ _ H) as [A B]. destruct Hi; [apply (run_strict x (re q) A)|apply (run_strict x (im q) B)]; assumption. Qed.
