(** * Proofs of the properties of the band-pass filter *)
From Coq Require Import Reals ZArith String List Bool Lia Lra Permutation.
From Flocq Require Import Core.
From Coquelicot Require Import Complex.
From Verif Require Import Base BaseFacts SpecBase SpecMat BigSum MatFacts SpecSpectral Dominant DominantFacts Butter ButterFacts
  ButterResponse ButterGain SpecButter Binary64 SpecRounded RoundedFacts RoundedWindows SpecBanks BarkMore.
Import ListNotations.
Local Open Scope R_scope.

Notation nm N w1 w2 := (coeff (num N w1 w2)).
Notation dn N w1 w2 := (coeff (np_poly (proots N w1 w2))).
Lemma band_iir : forall N w1 w2 x y, (1 <= N)%nat -> iir_response (2 * N) (nm N w1 w2) (dn N w1 w2) x y -> responds (band_pass N w1 w2) x y.
Proof.
  intros N w1 w2 x y HN H M. unfold band_pass. rewrite design_eq. cbn [fst snd]. apply lfilter_fvec; auto. lia.
Qed.
Lemma responds_unique : forall f x y z, responds f x y -> responds f x z -> forall t, y t = z t.
Proof.
  intros f x y z H1 H2 t. pose proof (H1 (S t)) as E. rewrite (H2 (S t)) in E.
  assert (nth t (fvec (S t) y) NaN = nth t (fvec (S t) z) NaN) as Q by (rewrite E; reflexivity).
  rewrite !fvec_nth in Q by lia. injection Q. auto.
Qed.
Lemma band_exists : forall N w1 w2 x, (1 <= N)%nat -> exists y, iir_response (2 * N) (nm N w1 w2) (dn N w1 w2) x y /\ responds (band_pass N w1 w2) x y.
Proof.
  intros N w1 w2 x HN. destruct (iir_exists (2 * N) (nm N w1 w2) (dn N w1 w2) x) as (y & Hy). exists y. split; auto. apply band_iir; auto.
Qed.
Lemma band_is_iir : forall N w1 w2 x y, (1 <= N)%nat -> responds (band_pass N w1 w2) x y -> iir_response (2 * N) (nm N w1 w2) (dn N w1 w2) x y.
Proof.
  intros N w1 w2 x y HN H. destruct (band_exists N w1 w2 x HN) as (z & Hz & Rz).
  assert (E : forall t, z t = y t) by (eapply responds_unique; eauto). intros n. specialize (Hz n). rewrite <- E.
  rewrite <- Hz. f_equal. apply bigsum_ext. intros j Hj. unfold past. destruct (Nat.leb (S j) n); [rewrite E|]; reflexivity.
Qed.

Lemma band_bounded : forall N w1 w2, (1 <= N)%nat -> 0 < w1 < w2 -> w2 < 1 -> exists G, 0 <= G /\
  forall x B, (forall t, Rabs (x t) <= B) -> exists y, responds (band_pass N w1 w2) x y /\ forall t, Rabs (y t) <= G * B.
Proof.
  intros N w1 w2 HN (W1 & W2) W3.
  destruct (iir_bounded (2 * N) (num N w1 w2) (proots N w1 w2) (num_length N w1 w2) (proots_length N w1 w2) (num_real N w1 w2)
    (proots_conj N w1 w2) (proots_inside N w1 w2 (conj W1 (conj W2 W3)))) as (G & G0 & HG).
  exists G. split; auto. intros x B Hx. destruct (band_exists N w1 w2 x HN) as (y & Hy & Ry). exists y. split; auto. eapply HG; eauto.
Qed.
Lemma band_fades : forall N w1 w2 x y, (1 <= N)%nat -> 0 < w1 < w2 -> w2 < 1 -> responds (band_pass N w1 w2) x y -> Un_cv x 0 -> Un_cv y 0.
Proof.
  intros N w1 w2 x y HN (W1 & W2) W3 Hy Hx. apply band_is_iir in Hy; auto.
  exact (iir_fades (2 * N) (num N w1 w2) (proots N w1 w2) (num_length N w1 w2) (proots_length N w1 w2) (num_real N w1 w2)
    (proots_conj N w1 w2) (proots_inside N w1 w2 (conj W1 (conj W2 W3))) x y Hy Hx).
Qed.
Lemma iir_minus : forall d b a x y x' y', iir_response d b a x y -> iir_response d b a x' y' ->
  iir_response d b a (fun t => x t - x' t) (fun t => y t - y' t).
Proof.
  intros d b a x y x' y' H H' n. specialize (H n). specialize (H' n).
  assert (P : forall f g j, past (fun t => f t - g t) n j = past f n j - past g n j).
  { intros. unfold past. destruct (Nat.leb j n); ring. }
  rewrite (bigsum_ext _ _ (fun j => a (S j) * past y n (S j) - a (S j) * past y' n (S j))) by (intros; rewrite P; ring).
  rewrite (bigsum_ext (S d) _ (fun j => b j * past x n j - b j * past x' n j)) by (intros; rewrite P; ring).
  rewrite !bigsum_minus, <- H, <- H'. ring.
Qed.
Lemma band_minus : forall N w1 w2 x y x' y', (1 <= N)%nat -> responds (band_pass N w1 w2) x y -> responds (band_pass N w1 w2) x' y' ->
  responds (band_pass N w1 w2) (fun t => x t - x' t) (fun t => y t - y' t).
Proof. intros N w1 w2 x y x' y' HN H H'. apply band_is_iir in H, H'; auto. apply band_iir; auto. apply iir_minus; auto. Qed.

Section Edges.
Context (w1 w2 om : R).
Hypothesis W : 0 < w1 < w2.
Hypothesis W3 : w2 < 1.
Hypothesis O : 0 < om < PI.
Let e1 := tan (PI * w1 / 2).
Let e2 := tan (PI * w2 / 2).
Let t := tan (om / 2).
Let nu := (t ^ 2 - e1 * e2) / ((e2 - e1) * t).
Let P0 : 0 < PI := PI_RGT_0.
Lemma e_pos : 0 < e1 /\ e1 < e2 /\ 0 < t.
Proof.
  unfold e1, e2, t. split; [apply tan_gt_0; nra|]. split; [apply tan_increasing; nra|]. apply tan_gt_0; lra.
Qed.
Lemma even_12 : forall x, 0 <= x ^ 12.
Proof. intros. replace (x ^ 12) with ((x ^ 6) ^ 2) by ring. apply pow2_ge_0. Qed.
Lemma gain_value : forall g, 0 <= g -> g ^ 2 * (gD w1 w2 om ^ 12 + gE w1 w2 om ^ 12) = gE w1 w2 om ^ 12 -> g = butterworth 6 w1 w2 om.
Proof.
  intros g G0 H. pose proof e_pos as (A & B & C). unfold butterworth. fold e1 e2 t. change (2 * 6)%nat with 12%nat. fold nu.
  assert (S0 : 0 < sin (om / 2)) by (apply sin_gt_0; lra). assert (C0 : 0 < cos (om / 2)) by (apply cos_gt_0; lra).
  assert (T : sin (om / 2) = t * cos (om / 2)) by (unfold t, tan; field; lra).
  assert (E : gE w1 w2 om = 64 * (e2 - e1) * t * cos (om / 2) ^ 2).
  { unfold gE, bw, t2, t1. fold e1 e2. rewrite T. ring. }
  assert (D : gD w1 w2 om = - (64 * (t ^ 2 - e1 * e2) * cos (om / 2) ^ 2)).
  { unfold gD. rewrite wo_sq by (split; [|split]; lra). unfold t1, t2. fold e1 e2. rewrite T. ring. }
  assert (Dnu : gD w1 w2 om = - (nu * gE w1 w2 om)).
  { rewrite D, E. unfold nu. field. split; lra. }
  assert (E0 : 0 < gE w1 w2 om).
  { rewrite E. apply Rmult_lt_0_compat; [|apply pow_lt; auto]. apply Rmult_lt_0_compat; lra. }
  rewrite Dnu in H. set (e := gE w1 w2 om) in *.
  assert (Q : g ^ 2 * (1 + nu ^ 12) = 1).
  { apply Rmult_eq_reg_r with (e ^ 12); [|apply pow_nonzero; lra]. rewrite Rmult_1_l. rewrite <- H at 2. ring. }
  pose proof (even_12 nu) as N0.
  assert (0 < sqrt (1 + nu ^ 12)) by (apply sqrt_lt_R0; lra).
  apply Rmult_eq_reg_r with (sqrt (1 + nu ^ 12)); [|lra]. rewrite Rinv_l by lra.
  apply Rsqr_inj; [apply Rmult_le_pos; lra|lra|]. rewrite Rsqr_mult, Rsqr_sqrt by lra. unfold Rsqr. lra.
Qed.
Lemma nu_band : (nu ^ 12 <= 1 <-> PI * w1 <= om <= PI * w2) /\ ((om = PI * w1 \/ om = PI * w2) -> nu ^ 12 = 1).
Proof.
  pose proof e_pos as (A & B & C). set (q := (e2 - e1) * t). assert (Q0 : 0 < q) by (apply Rmult_lt_0_compat; lra).
  assert (N : nu * q = t ^ 2 - e1 * e2) by (unfold nu; fold q; field; lra).
  assert (F1 : nu <= 1 <-> t <= e2).
  { assert (K : (1 - nu) * q = (e2 - t) * (t + e1)) by (unfold q in *; lra).
    split; intros H.
    - assert (0 <= (e2 - t) * (t + e1)) by (rewrite <- K; apply Rmult_le_pos; lra). destruct (Rle_lt_dec t e2); [auto|]. nra.
    - assert (0 <= (1 - nu) * q) by (rewrite K; apply Rmult_le_pos; lra). destruct (Rle_lt_dec nu 1); [auto|]. nra. }
  assert (F2 : -1 <= nu <-> e1 <= t).
  { assert (K : (1 + nu) * q = (t - e1) * (t + e2)) by (unfold q in *; lra).
    split; intros H.
    - assert (0 <= (t - e1) * (t + e2)) by (rewrite <- K; apply Rmult_le_pos; lra). destruct (Rle_lt_dec e1 t); [auto|]. nra.
    - assert (0 <= (1 + nu) * q) by (rewrite K; apply Rmult_le_pos; lra). destruct (Rle_lt_dec (-1) nu); [auto|]. nra. }
  assert (M : forall x y, 0 < x < PI -> 0 < y < PI -> (tan (x / 2) <= tan (y / 2) <-> x <= y)).
  { intros x y X Y. split; intros H.
    - destruct (Rle_lt_dec x y); [auto|]. assert (tan (y / 2) < tan (x / 2)) by (apply tan_increasing; lra). lra.
    - destruct H as [H| ->]; [|lra]. left. apply tan_increasing; lra. }
  assert (B1 : 0 < PI * w1 < PI) by (split; nra). assert (B2 : 0 < PI * w2 < PI) by (split; nra).
  assert (P12 : nu ^ 12 <= 1 <-> -1 <= nu <= 1).
  { split; intros H.
    - destruct (Rle_lt_dec (Rabs nu) 1) as [L|L]; [apply Rabs_le_inv in L; auto|exfalso].
      assert (1 < Rabs nu ^ 12) by (apply Rlt_pow_R1; [auto|lia]). rewrite RPow_abs in H0. rewrite Rabs_pos_eq in H0 by apply even_12. lra.
    - assert (Rabs nu <= 1) by (apply Rabs_le; lra). rewrite <- (Rabs_pos_eq (nu ^ 12)) by apply even_12. rewrite <- RPow_abs.
      rewrite <- (pow1 12). apply pow_incr. split; [apply Rabs_pos|auto]. }
  split.
  - rewrite P12, F1, F2. rewrite <- (M om (PI * w2)), <- (M (PI * w1) om) by auto. reflexivity.
  - intros H. assert (K : nu = -1 \/ nu = 1).
    { destruct H as [H|H].
      - left. apply Rmult_eq_reg_r with q; [|lra]. rewrite N. unfold q. assert (t = e1) as -> by (unfold t, e1; rewrite H; reflexivity). ring.
      - right. apply Rmult_eq_reg_r with q; [|lra]. rewrite N. unfold q. assert (t = e2) as -> by (unfold t, e2; rewrite H; reflexivity). ring. }
    destruct K as [-> | ->]; ring.
Qed.
Lemma gain_edges : (/ sqrt 2 <= butterworth 6 w1 w2 om <-> PI * w1 <= om <= PI * w2) /\
  ((om = PI * w1 \/ om = PI * w2) -> butterworth 6 w1 w2 om = / sqrt 2) /\ 0 < butterworth 6 w1 w2 om <= 1.
Proof.
  destruct nu_band as (N1 & N2). unfold butterworth. fold e1 e2 t. change (2 * 6)%nat with 12%nat. fold nu.
  pose proof (even_12 nu) as N0. assert (S2 : 0 < sqrt 2) by (apply sqrt_lt_R0; lra).
  assert (S1 : 1 <= sqrt (1 + nu ^ 12)) by (rewrite <- sqrt_1 at 1; apply sqrt_le_1; lra).
  split; [|split; [|split]].
  - rewrite <- N1. split; intros H.
    + assert (sqrt (1 + nu ^ 12) <= sqrt 2).
      { destruct (Rle_lt_dec (sqrt (1 + nu ^ 12)) (sqrt 2)) as [|L]; [auto|]. apply Rinv_lt_contravar in L; [lra|apply Rmult_lt_0_compat; lra]. }
      assert (1 + nu ^ 12 <= 2); [|lra]. apply sqrt_le_0; [lra|lra|exact H0].
    + apply Rinv_le_contravar; [lra|]. apply sqrt_le_1; lra.
  - intros H. rewrite (N2 H). replace (1 + 1) with 2 by lra. reflexivity.
  - apply Rinv_0_lt_compat. lra.
  - apply Rmult_le_reg_r with (sqrt (1 + nu ^ 12)); [lra|]. rewrite Rinv_l; lra.
Qed.
End Edges.

Lemma band_tone : forall w1 w2 A ph om x y, 0 < w1 < w2 -> w2 < 1 -> 0 < om < PI ->
  (forall t, x t = A * cos (om * INR t + ph)) -> responds (band_pass 6 w1 w2) x y ->
  exists ps, Un_cv (fun t => y t - A * butterworth 6 w1 w2 om * cos (om * INR t + ps)) 0.
Proof.
  intros w1 w2 A ph om x y W W3 O Hx Hy. apply band_is_iir in Hy; [|lia].
  destruct (butter_tone w1 w2 A ph om x y) as (g & ps & G0 & G1 & G2); auto; try lra.
  exists ps. rewrite <- (gain_value w1 w2 om W W3 O g G0 G1). exact G2.
Qed.
Lemma band_ends : forall w1 w2 A x y, 0 < w1 < w2 -> w2 < 1 ->
  (forall t, x t = A) \/ (forall t, x t = A * (-1) ^ t) -> responds (band_pass 6 w1 w2) x y -> Un_cv y 0.
Proof.
  intros w1 w2 A x y W W3 Hx Hy. apply band_is_iir in Hy; [|lia]. pose proof PI_RGT_0 as P0.
  assert (K : exists om, 0 <= om <= PI /\ (sin (om / 2) = 0 \/ cos (om / 2) = 0) /\ forall t, x t = A * cos (om * INR t + 0)).
  { destruct Hx as [Hx|Hx].
    - exists 0. split; [lra|]. split; [left; replace (0 / 2) with 0 by field; apply sin_0|].
      intros t. rewrite Hx. replace (0 * INR t + 0) with 0 by ring. rewrite cos_0. ring.
    - exists PI. split; [lra|]. split; [right; apply cos_PI2|]. intros t. rewrite Hx. f_equal. rewrite Rplus_0_r.
      induction t; [cbn; rewrite Rmult_0_r, cos_0; reflexivity|]. rewrite S_INR, Rmult_plus_distr_l, Rmult_1_r, neg_cos. cbn [pow]. rewrite IHt. ring. }
  destruct K as (om & O & Z & Hx').
  destruct (butter_tone w1 w2 A 0 om x y) as (g & ps & G0 & G1 & G2); auto; [split; [|split]; lra|].
  assert (E0 : gE w1 w2 om = 0) by (unfold gE; destruct Z as [-> | ->]; ring).
  assert (D0 : gD w1 w2 om ^ 12 <> 0).
  { apply pow_nonzero. unfold gD. pose proof (sin2_cos2 (om / 2)) as Q. unfold Rsqr in Q.
    assert (WO : 0 < wo w1 w2) by (apply wo_pos; split; [|split]; lra). assert (0 < wo w1 w2 * wo w1 w2) by nra.
    destruct Z as [Z|Z]; rewrite Z in *; nra. }
  rewrite E0 in G1. assert (g = 0).
  { replace (0 ^ 12) with 0 in G1 by ring. rewrite Rplus_0_r in G1. apply Rmult_integral in G1 as [G1|G1]; [|tauto].
    destruct (Req_dec g 0); [auto|]. exfalso. apply (pow_nonzero g 2); auto. }
  eapply Un_cv_ext; [|exact G2]. intros t. cbv beta. rewrite H. ring.
Qed.
Lemma band_offset : forall w1 w2 x y c z, 0 < w1 < w2 -> w2 < 1 ->
  responds (band_pass 6 w1 w2) x y -> responds (band_pass 6 w1 w2) (fun t => x t + c) z -> Un_cv (fun t => z t - y t) 0.
Proof.
  intros w1 w2 x y c z W W3 Hy Hz. apply (band_ends w1 w2 c (fun t => x t + c - x t)); auto.
  - left. intros t. ring.
  - apply (band_minus 6 w1 w2 (fun t => x t + c) z x y); auto. lia.
Qed.

(** ** which cut-off frequencies are accepted *)
Lemma cutoff_low : forall (E : Env) fs f, sane_rounding (@rnd E) -> (0 < fs)%Z -> f <= 0 -> cutoff_of fs f <= 0.
Proof.
  intros E fs f S Hfs Hf. pose proof (sane_zero _ S) as Z. destruct S as [M _]. unfold cutoff_of. apply IZR_lt in Hfs.
  assert (A : rnd (f * 2) <= 0) by (rewrite <- Z; apply M; lra).
  rewrite <- Z. apply M. apply Rmult_le_reg_r with (IZR fs); auto. unfold Rdiv. rewrite Rmult_assoc, Rinv_l by lra. lra.
Qed.
Lemma cutoff_high : forall (E : Env) fs f, sane_rounding (@rnd E) -> (0 < fs <= 2 ^ 52)%Z -> IZR fs / 2 <= f -> 1 <= cutoff_of fs f.
Proof.
  intros E fs f S Hfs Hf. destruct S as [M X]. unfold cutoff_of. assert (0 < IZR fs) by (apply IZR_lt; lia).
  assert (F : rnd (IZR fs) = IZR fs).
  { pose proof (X (2 * fs)%Z) as Q. rewrite mult_IZR in Q. replace (2 * IZR fs / 2) with (IZR fs) in Q by field. apply Q. lia. }
  assert (O : rnd 1 = 1).
  { pose proof (X 2%Z) as Q. replace (2 / 2) with 1 in Q by field. apply Q. lia. }
  assert (A : IZR fs <= rnd (f * 2)) by (rewrite <- F; apply M; lra).
  rewrite <- O at 1. apply M. apply Rmult_le_reg_r with (IZR fs); auto. unfold Rdiv. rewrite Rmult_assoc, Rinv_l by lra. lra.
Qed.
Lemma design_refused : forall (E : Env) fs lower upper, sane_rounding (@rnd E) -> (0 < fs <= 2 ^ 52)%Z ->
  lower <= 0 \/ upper <= 0 \/ IZR fs / 2 <= lower \/ IZR fs / 2 <= upper -> butter_design fs lower upper = Raise ValueError.
Proof.
  intros E fs lower upper S Hfs H. unfold butter_design. replace (fs =? 0)%Z with false by (symmetry; apply Z.eqb_neq; lia). cbv zeta.
  destruct H as [H|[H|[H|H]]].
  - rewrite (Rleb_true (cutoff_of fs lower) 0) by (apply cutoff_low; auto; lia). reflexivity.
  - rewrite (Rleb_true (cutoff_of fs upper) 0) by (apply cutoff_low; auto; lia). rewrite orb_true_r. reflexivity.
  - rewrite (Rleb_true 1 (cutoff_of fs lower)) by (apply cutoff_high; auto; lia). rewrite !orb_true_r. reflexivity.
  - rewrite (Rleb_true 1 (cutoff_of fs upper)) by (apply cutoff_high; auto; lia). rewrite !orb_true_r. reflexivity.
Qed.
Lemma design_accepted : forall fs lower upper, 0 < lower < IZR fs / 2 -> 0 < upper < IZR fs / 2 ->
  @butter_design exact_env fs lower upper = Ok (butter_band 6 (2 * lower / IZR fs) (2 * upper / IZR fs)).
Proof.
  intros fs lower upper L U. assert (F : 0 < IZR fs) by lra. unfold butter_design, cutoff_of. cbn [rnd exact_env].
  replace (fs =? 0)%Z with false by (symmetry; apply Z.eqb_neq; intros ->; lra). cbv zeta.
  assert (K : forall f, 0 < f < IZR fs / 2 -> 0 < f * 2 / IZR fs < 1).
  { intros f Hf. split; [apply Rdiv_lt_0_compat; lra|]. apply Rmult_lt_reg_r with (IZR fs); auto. unfold Rdiv. rewrite Rmult_assoc, Rinv_l by lra. lra. }
  pose proof (K _ L). pose proof (K _ U). rewrite !Rleb_false by lra. cbn [orb]. do 2 f_equal; field; lra.
Qed.
Lemma of_refused : forall (E : Env) sig fs lower upper nfft wl wh wt p, sane_rounding (@rnd E) -> (0 < fs <= 2 ^ 52)%Z ->
  lower <= 0 \/ upper <= 0 \/ IZR fs / 2 <= lower \/ IZR fs / 2 <= upper ->
  get_dominant_frequencies_of sig fs true lower upper nfft wl wh wt p = Raise ValueError.
Proof. intros. unfold get_dominant_frequencies_of. rewrite design_refused by auto. reflexivity. Qed.

Lemma of_accepted : forall N x fs lower upper nfft wl wh wt p, 0 < lower < IZR fs / 2 -> 0 < upper < IZR fs / 2 ->
  exists y, responds (band_pass 6 (2 * lower / IZR fs) (2 * upper / IZR fs)) x y /\
  @get_dominant_frequencies_of exact_env (fvec N x) fs true lower upper nfft wl wh wt p
  = @get_dominant_frequencies exact_env (fvec N y) fs None nfft wl wh wt p.
Proof.
  intros N x fs lower upper nfft wl wh wt p L U. destruct (band_exists 6 (2 * lower / IZR fs) (2 * upper / IZR fs) x) as (y & _ & Hy); [lia|].
  exists y. split; [exact Hy|]. unfold get_dominant_frequencies_of. rewrite design_accepted by auto. cbn [rbind].
  unfold get_dominant_frequencies. rewrite <- (Hy N). unfold band_pass. destruct (butter_band _ _ _). reflexivity.
Qed.
Lemma default_cutoffs : forall fs, (6001 <= fs <= 2 ^ 52)%Z ->
  0 < @cutoff_of binary64 fs 50 < @cutoff_of binary64 fs 3000 /\ @cutoff_of binary64 fs 3000 < 1.
Proof.
  intros fs Hfs. unfold cutoff_of. change (@rnd binary64) with rnd64.
  replace (50 * 2) with (IZR 100) by lra. replace (3000 * 2) with (IZR 6000) by lra. rewrite !rnd64_int by lia.
  destruct rnd64_accurate as (U0 & E0 & A). set (e := bpow radix2 (-1075)) in *.
  assert (E1 : e <= / 2 ^ 60).
  { unfold e. replace (/ 2 ^ 60) with (bpow radix2 (-60)); [apply bpow_le; lia|]. cbn. lra. }
  clearbody e. assert (F1 : 6001 <= IZR fs) by (apply IZR_le; lia).
  assert (F2 : IZR fs <= 2 ^ 52) by (replace (2 ^ 52) with (IZR (2 ^ 52)) by (cbn; lra); apply IZR_le; lia).
  set (q := / IZR fs). assert (Q : q * IZR fs = 1) by (unfold q; field; lra).
  assert (Q0 : 0 < q) by (apply Rinv_0_lt_compat; lra).
  assert (Q1 : q * 6001 <= 1) by nra. assert (Q2 : / 2 ^ 52 <= q) by (unfold q; apply Rinv_le_contravar; lra).
  unfold Rdiv. fold q. pose proof (A (100 * q)) as A1. pose proof (A (6000 * q)) as A2.
  rewrite (Rabs_pos_eq (100 * q)) in A1 by lra. rewrite (Rabs_pos_eq (6000 * q)) in A2 by lra.
  apply Rabs_le_inv in A1, A2. clearbody q.
  assert (P1 : / 2 ^ 53 * q <= / 1000000 * q) by (apply Rmult_le_compat_r; lra).
  assert (P2 : / 2 ^ 60 <= / 200 * / 2 ^ 52) by lra.
  split; [split|]; lra.
Qed.
Lemma default_accepted : forall fs, (6001 <= fs <= 2 ^ 52)%Z -> @butter_design binary64 fs 50 3000
  = Ok (butter_band 6 (@cutoff_of binary64 fs 50) (@cutoff_of binary64 fs 3000)).
Proof.
  intros fs Hfs. pose proof (default_cutoffs fs Hfs). unfold butter_design.
  replace (fs =? 0)%Z with false by (symmetry; apply Z.eqb_neq; lia). cbv zeta. rewrite !Rleb_false by lra. reflexivity.
Qed.
