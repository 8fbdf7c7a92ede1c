(** * Proofs: Nx1 signals for the remaining extractors and get_dominant_frequencies *)
From Coq Require Import Reals ZArith List String Bool Lia Lra.
From Flocq Require Import Core.Raux Core.Round_NE Core.Generic_fmt.
From Coquelicot Require Import Complex.
From Verif Require Import Base BaseFacts SpecBase SpecMat SpecFeatures BigSum MatFacts Preprocessing PreprocessingFacts SpecSpectral Features Lpc
  Rplp Pncc Cqt Dominant DominantFacts Butter ButterFacts ButterResponse ButterGain ButterLaws SpecChannels Channels ChannelsFacts
  SpecChannelsMore ChannelsMore.
Import ListNotations.
Local Open Scope R_scope.

Lemma lpcc_column : forall `{Env} x l fs order pe co w lifter norm, x <> [] ->
  lpcc_2d (SpecChannels.column x l) fs order pe w lifter norm = lpcc x fs order false co w lifter norm.
Proof. intros. unfold lpcc_2d, lpcc. rewrite framed_column by auto. reflexivity. Qed.
Lemma psrcc_column : forall `{Env} x l a g c, x <> [] ->
  psrcc_2d (SpecChannels.column x l) a g c = psrcc x (without_pre a) g c.
Proof. intros. unfold psrcc_2d, psrcc. rewrite framed_column by auto. reflexivity. Qed.
Lemma pncc_column : forall `{Env} x l a p c, x <> [] ->
  pncc_2d (SpecChannels.column x l) a p c = pncc x (without_pre a) p c.
Proof. intros. unfold pncc_2d, pncc. rewrite framed_column by auto. reflexivity. Qed.
Lemma rastaplp_column : forall `{Env} x l a order ra lifter norm, x <> [] ->
  rastaplp_2d (SpecChannels.column x l) a order ra lifter norm = rastaplp x (without_pre a) order ra lifter norm.
Proof. intros. unfold rastaplp_2d, rastaplp. rewrite framed_column by auto. reflexivity. Qed.
Lemma cqt_column : forall `{Env} x l a, x <> [] ->
  cqt_spectrogram_2d (SpecChannels.column x l) a = cqt_spectrogram x (cq_without_pre a).
Proof. intros. unfold cqt_spectrogram_2d, cqt_spectrogram. rewrite framed_column by auto. reflexivity. Qed.
Lemma cqcc_column : forall `{Env} x l a r c, x <> [] ->
  cqcc_2d (SpecChannels.column x l) a r c = cqcc x (cq_without_pre a) r c.
Proof. intros. unfold cqcc_2d, cqcc. rewrite cqt_column by auto. reflexivity. Qed.

(** one sample through the filter *)
Lemma lfilter_one : forall d b a v, (1 <= d)%nat -> lfilter (fvec (S d) b) (fvec (S d) a) [Fin v] = [Fin (b O * v)].
Proof.
  intros d b a v Hd. destruct (iir_exists d b a (fun _ => v)) as (y & Hy).
  pose proof (lfilter_fvec d b a (fun _ => v) y 1 Hd Hy) as E.
  change [Fin v] with (fvec 1 (fun _ => v)). rewrite E. unfold fvec. cbn [seq map]. do 2 f_equal.
  specialize (Hy O). rewrite bigsum_zero in Hy by (intros j Hj; unfold past; cbn; ring).
  rewrite Rplus_0_r in Hy. rewrite Hy. rewrite bigsum_S_l. rewrite bigsum_zero by (intros j Hj; unfold past; cbn; ring).
  unfold past. cbn [Nat.leb Nat.sub]. ring.
Qed.
Lemma filter_column : forall d b a N x l, (1 <= d)%nat ->
  lfilter_2d (fvec (S d) b, fvec (S d) a) (SpecChannels.column (fvec N x) l) = SpecChannels.column (fvec N (fun t => b O * x t)) COrder.
Proof.
  intros d b a N x l Hd. unfold lfilter_2d, SpecChannels.column. cbn [rows2 cols2 fst snd]. f_equal. unfold fvec at 3 4. rewrite !map_map.
  apply map_ext. intros t. apply lfilter_one. auto.
Qed.
Lemma dominant_column : forall `{Env} x l fs lower upper nfft wl wh wt p,
  get_dominant_frequencies_2d (SpecChannels.column x l) fs false lower upper nfft wl wh wt p
  = get_dominant_frequencies x fs None nfft wl wh wt p.
Proof. intros. unfold get_dominant_frequencies_2d, get_dominant_frequencies. cbn [rbind]. rewrite framing_column. reflexivity. Qed.

Lemma first_coefficient : forall N w1 w2, 0 < w1 /\ w1 < w2 /\ w2 < 1 -> coeff (num N w1 w2) 0 = gain N w1 w2 /\ gain N w1 w2 <> 0.
Proof.
  intros N w1 w2 W. split.
  - unfold num, coeff. destruct (poly_head (zroots N)) as (t & ->). cbn [map nth]. unfold Cmult, RtoC. cbn [fst snd]. ring.
  - intros E. pose proof (gain_dist N w1 w2 W) as G. rewrite E in G. rewrite Cmult_0_l in G. apply RtoC_inj in G.
    pose proof (bw_pos w1 w2 W). assert (0 < bw w1 w2 ^ N * 4 ^ N) by (apply Rmult_lt_0_compat; apply pow_lt; lra). lra.
Qed.
Lemma dominant_column_butter : forall `{Env} N x l fs lower upper n wl wh wt L hop p, cut_config fs wl wh wt N L hop -> (1 <= n)%nat ->
  0 < cutoff_of fs lower < cutoff_of fs upper -> cutoff_of fs upper < 1 ->
  get_dominant_frequencies_2d (SpecChannels.column (fvec N x) l) fs true lower upper (Z.of_nat n) wl wh wt p
  = get_dominant_frequencies (fvec N x) fs None (Z.of_nat n) wl wh wt p.
Proof.
  intros E N x l fs lower upper n wl wh wt L hop p HC Hn W1 W2.
  assert (D : butter_design fs lower upper = Ok (butter_band 6 (cutoff_of fs lower) (cutoff_of fs upper))).
  { unfold butter_design. replace (fs =? 0)%Z with false by (symmetry; apply Z.eqb_neq; destruct HC; lia). cbv zeta.
    rewrite !Rleb_false by lra. reflexivity. }
  unfold get_dominant_frequencies_2d. rewrite D. cbn [rbind]. rewrite design_eq. rewrite filter_column by lia.
  destruct (first_coefficient 6 (cutoff_of fs lower) (cutoff_of fs upper)) as (G & G0); [lra|].
  rewrite framing_column. rewrite G.
  rewrite <- (dominant_gain N x fs wl wh wt L hop n (gain 6 (cutoff_of fs lower) (cutoff_of fs upper)) p) by auto. reflexivity.
Qed.

(** the second coefficient of a polynomial given by its roots *)
Definition csum (l : list C) : C := fold_right Cplus (RtoC 0) l.
Lemma csum_app : forall l m, csum (l ++ m) = Cplus (csum l) (csum m).
Proof.
  intros l m. induction l as [|c l IHl]; [symmetry; apply Cplus_0_l|].
  change (csum ((c :: l) ++ m)) with (Cplus c (csum (l ++ m))). rewrite IHl. change (csum (c :: l)) with (Cplus c (csum l)). apply Cplus_assoc.
Qed.
Lemma poly_second : forall l, nth 1 (np_poly l) (RtoC 0) = Copp (csum l).
Proof.
  intros l. induction l as [|r l IH] using rev_ind; [cbn; apply injective_projections; cbn; ring|].
  rewrite poly_snoc, csum_app. destruct (poly_head l) as (t & E). rewrite E in *. unfold poly_step.
  assert (Q : Copp (Cplus (csum l) (csum [r])) = Cminus (Copp (csum l)) r).
  { change (csum [r]) with (Cplus r (RtoC 0)). ring. }
  rewrite Q, <- IH. destruct t as [|u t]; cbn [app combine map nth fst snd]; ring.
Qed.
Lemma fst_csum_pos : forall l, (forall c, In c l -> 0 < fst c) -> l <> [] -> 0 < fst (csum l).
Proof.
  intros l H Hl. assert (G : forall m : list C, (forall c, In c m -> 0 < fst c) -> 0 <= fst (csum m)).
  { induction m as [|c m IH]; intros Hm; cbn [csum fold_right fst]; [cbn; lra|]. fold (csum m).
    assert (0 < fst c) by (apply Hm; left; auto). assert (0 <= fst (csum m)) by (apply IH; intros; apply Hm; right; auto).
    unfold Cplus. cbn [fst]. lra. }
  destruct l as [|c l]; [contradiction|]. cbn [csum fold_right]. fold (csum l). unfold Cplus. cbn [fst].
  assert (0 < fst c) by (apply H; left; auto). assert (0 <= fst (csum l)) by (apply G; intros; apply H; right; auto). lra.
Qed.
(** the two poles from one pole of the prototype *)
Lemma pair_bilinear : forall (s t q : C) (wo : R), Cplus s t = q -> Cmult s t = RtoC (wo * wo) -> fst s < 0 -> fst t < 0 -> fst q < 0 ->
  0 < wo < 4 -> 0 < fst (Cplus (bilinear s) (bilinear t)).
Proof.
  intros s t q wo Hs Hp Ls Lt Lq W. pose proof (four_minus s Ls) as Ns. pose proof (four_minus t Lt) as Nt.
  assert (Q : Cmult (Cplus (bilinear s) (bilinear t)) (Cminus (RtoC (16 + wo * wo)) (Cmult (RtoC 4) q)) = RtoC (32 - 2 * (wo * wo))).
  { replace (Cminus (RtoC (16 + wo * wo)) (Cmult (RtoC 4) q)) with (Cmult (Cminus (RtoC 4) s) (Cminus (RtoC 4) t)).
    - unfold bilinear. transitivity (Cminus (Cmult (RtoC 2) (RtoC 16)) (Cmult (RtoC 2) (Cmult s t))).
      + assert (RtoC 16 = Cmult (RtoC 4) (RtoC 4)) as -> by (rewrite <- RtoC_mult; f_equal; ring).
        assert (RtoC 2 = Cplus (RtoC 1) (RtoC 1)) as -> by (rewrite <- RtoC_plus; f_equal; ring).
        field. split; auto.
      + rewrite Hp. unfold Cmult, Cminus, Cplus, Copp, RtoC. cbn [fst snd]. f_equal; ring.
    - rewrite <- Hs. rewrite RtoC_plus, <- Hp.
      assert (RtoC 16 = Cmult (RtoC 4) (RtoC 4)) as -> by (rewrite <- RtoC_mult; f_equal; ring). ring. }
  destruct (Cplus (bilinear s) (bilinear t)) as [u v]. destruct q as [a b]. cbn [fst snd] in *.
  unfold Cmult, Cminus, Cplus, Copp, RtoC in Q. cbn [fst snd] in Q. injection Q as Q1 Q2.
  set (A := 16 + wo * wo - 4 * a) in *. set (B := 4 * b) in *.
  assert (A0 : 0 < A) by (unfold A; nra).
  assert (Q1' : u * A + v * B = 32 - 2 * (wo * wo)) by (rewrite <- Q1; unfold A, B; ring).
  assert (Q2' : v * A = u * B) by (apply Rminus_diag_uniq; rewrite <- Q2; unfold A, B; ring).
  assert (wo * wo < 16) by nra. clearbody A B.
  assert (u * (A * A + B * B) = (32 - 2 * (wo * wo)) * A) by (rewrite <- Q1'; rewrite Rmult_plus_distr_r; replace (v * B * A) with (v * A * B) by ring; rewrite Q2'; ring).
  assert (0 < (32 - 2 * (wo * wo)) * A) by (apply Rmult_lt_0_compat; lra).
  destruct (Rlt_dec 0 u); auto. exfalso. assert (u * (A * A + B * B) <= 0); [|lra].
  assert (0 <= A * A + B * B) by nra. assert (0 <= - u * (A * A + B * B)) by (apply Rmult_le_pos; lra). lra.
Qed.
Lemma second_coefficients : forall N w1 w2, 0 < w1 /\ w1 < w2 /\ w2 < 1 -> (1 <= N)%nat -> wo w1 w2 < 4 ->
  coeff (num N w1 w2) 1 = 0 /\ coeff (np_poly (proots N w1 w2)) 1 < 0.
Proof.
  intros N w1 w2 W HN Hw. split.
  - unfold coeff, num. rewrite (nth_indep _ (RtoC 0) (Cmult (RtoC (gain N w1 w2)) (RtoC 0))) by (rewrite map_length, poly_length, zroots_eq, app_length, !repeat_length; lia).
    rewrite map_nth, poly_second, zroots_eq, csum_app.
    assert (R : forall c n, csum (repeat c n) = Cmult (RtoC (INR n)) c).
    { intros c. induction n as [|n IHn]; [cbn; ring|]. rewrite S_INR. cbn [repeat csum fold_right]. fold (csum (repeat c n)). rewrite IHn, RtoC_plus. ring. }
    rewrite !R. unfold Cmult, Cplus, Copp, RtoC. cbn [fst snd]. ring.
  - unfold coeff. rewrite poly_second. unfold Copp. cbn [fst]. assert (0 < fst (csum (proots N w1 w2))); [|lra].
    unfold proots, bp. rewrite lp2bp_pairs, map_app, csum_app, !map_map.
    set (f := fun z => bilinear (fst (bp_pair (wo w1 w2) (bw w1 w2) z))). set (g := fun z => bilinear (snd (bp_pair (wo w1 w2) (bw w1 w2) z))).
    assert (K : forall l, Cplus (csum (map f l)) (csum (map g l)) = csum (map (fun z => Cplus (f z) (g z)) l)).
    { induction l as [|z l IHl]; cbn [map csum fold_right]; [ring|]. fold (csum (map f l)) (csum (map g l)) (csum (map (fun z => Cplus (f z) (g z)) l)). rewrite <- IHl. ring. }
    rewrite K. apply fst_csum_pos.
    + intros c Hc. apply in_map_iff in Hc as (p & <- & Hp). pose proof (buttap_left N p Hp) as Lp. pose proof (bw_pos w1 w2 W) as B0. pose proof (wo_pos w1 w2 W) as W0.
      assert (Lq : fst (Cmult p (RtoC (bw w1 w2))) < 0) by (unfold Cmult, RtoC; cbn [fst snd]; nra).
      unfold f, g. eapply pair_bilinear; [apply pair_sum|apply pair_prod| | |exact Lq|lra].
      * eapply left_root; [apply pair_sum|apply pair_prod|auto|auto].
      * eapply left_root; [rewrite Cplus_comm; apply pair_sum|rewrite Cmult_comm; apply pair_prod|auto|auto].
    + intros E. apply map_eq_nil in E. apply (f_equal (@List.length C)) in E. unfold buttap in E. rewrite map_length, seq_length in E. cbn in E. lia.
Qed.
(** the geometric centre of the band is below a quarter of the sampling rate *)
Lemma wo_small : forall w1 w2, 0 < w1 /\ w1 < w2 /\ w2 < 1 -> w1 + w2 < 1 -> wo w1 w2 < 4.
Proof.
  intros w1 w2 W S. pose proof PI_RGT_0 as P. unfold wo. rewrite <- (sqrt_Rsqr 4) by lra. unfold t1, t2.
  assert (T : tan (PI * w1 / 2) * tan (PI * w2 / 2) < 1).
  { set (u := PI * w1 / 2). set (v := PI * w2 / 2).
    assert (0 < PI * w1) by (apply Rmult_lt_0_compat; lra). assert (PI * w1 < PI * w2) by (apply Rmult_lt_compat_l; lra).
    assert (PI * (w1 + w2) < PI * 1) by (apply Rmult_lt_compat_l; lra).
    assert (0 < cos u) by (apply cos_gt_0; unfold u; lra). assert (0 < cos v) by (apply cos_gt_0; unfold v; lra).
    assert (0 < cos (u + v)) by (apply cos_gt_0; unfold u, v; lra). rewrite cos_plus in *.
    unfold tan. apply Rmult_lt_reg_r with (cos u * cos v); [apply Rmult_lt_0_compat; auto|].
    replace (sin u / cos u * (sin v / cos v) * (cos u * cos v)) with (sin u * sin v) by (field; split; lra). lra. }
  pose proof (t_pos w1 w2 W) as (T1 & T2). unfold t1, t2 in T1, T2.
  apply sqrt_lt_1; unfold Rsqr; [|lra|nra]. apply Rmult_le_pos; lra.
Qed.

(** two samples: bin 1 wins exactly when they have opposite signs *)
Lemma power_two : forall f, spec_power 2 2 f 0 = (f 0%nat + f 1%nat) ^ 2 / 2 /\ spec_power 2 2 f 1 = (f 0%nat - f 1%nat) ^ 2 / 2.
Proof.
  intros f. unfold spec_power, spec_sq, spec_re, spec_im. change (Nat.min 2 2) with 2%nat.
  cbn [bigsum Nat.mul Nat.add]. change (INR 2) with 2. change (INR 1) with 1. change (INR 0) with 0.
  replace (2 * PI * 0 / 2) with 0 by field. replace (2 * PI * 1 / 2) with PI by field. rewrite cos_0, sin_0, cos_PI, sin_PI. split; field.
Qed.
Lemma hamming_two : forall t, (t < 2)%nat -> spec_window "hamming" 2 t = 8 / 100.
Proof.
  intros t Ht. unfold spec_window, spec_hamming, spec_theta. cbn [Nat.leb String.eqb Ascii.eqb Bool.eqb].
  change (INR (2 - 1)) with 1. destruct t as [|[|t]]; [| |lia].
  - change (INR 0) with 0. replace (2 * PI * 0 / 1) with 0 by field. rewrite cos_0. lra.
  - change (INR 1) with 1. replace (2 * PI * 1 / 1) with (2 * PI) by field. rewrite cos_2PI. lra.
Qed.
Lemma two_cut : forall fs, (0 < fs)%Z -> @cut_config exact_env fs (2 / IZR fs) (1 / IZR fs) "hamming" 2 2 1.
Proof.
  intros fs Hfs. apply IZR_lt in Hfs. assert (0 < / IZR fs) by (apply Rinv_0_lt_compat; auto).
  split; [apply lt_IZR; auto|]. split; [unfold Rdiv; lra|].
  unfold flen. cbn [rnd exact_env]. replace (2 / IZR fs * IZR fs) with (IZR 2) by (field; lra). replace (1 / IZR fs * IZR fs) with (IZR 1) by (field; lra).
  rewrite !Ztrunc_IZR. split; [reflexivity|]. split; [reflexivity|]. split; [lia|]. split; [lia|]. unfold window_names. simpl. tauto.
Qed.
Lemma two_dominant : forall fs x, (0 < fs)%Z ->
  @get_dominant_frequencies exact_env (fvec 2 x) fs None 2 (2 / IZR fs) (1 / IZR fs) "hamming" false
  = Ok [Fin (if Rltb (x 0%nat * x 1%nat) 0 then - IZR fs / 2 else 0)].
Proof.
  intros fs x Hfs. destruct (get_dominant_raw (H := exact_env) 2 x fs _ _ _ _ _ 2 (two_cut fs Hfs) ltac:(lia)) as (k & Hk & E).
  change (Z.of_nat 2) with 2%Z in E. rewrite E. clear E. change (frame_count 2 2 1) with 1%nat in *. unfold fvec. cbn [seq map]. do 3 f_equal.
  specialize (Hk O ltac:(lia)). change (S (2 / 2)) with 2%nat in Hk. destruct Hk as (K1 & K2 & K3).
  destruct (power_two (spec_frame "hamming" 2 1 x 0)) as (P0 & P1). set (p := spec_power _ _ _) in *. clearbody p.
  unfold spec_frame in P0, P1. cbn [Nat.mul Nat.add] in P0, P1. rewrite !hamming_two in P0, P1 by lia.
  assert (D : p 1%nat - p 0%nat = - (128 / 10000) * (x 0%nat * x 1%nat)) by (rewrite P0, P1; field).
  unfold freq3, signed_bin. change (S (2 / 2)) with 2%nat. change (INR 2) with 2.
  destruct (Rlt_dec (x 0%nat * x 1%nat) 0) as [H|H]; [rewrite Rltb_true by auto|rewrite Rltb_false by lra].
  - assert (k O = 1%nat) as ->.
    { destruct (k O) as [|[|k0]]; [|reflexivity|lia]. exfalso. specialize (K2 1%nat ltac:(lia)). lra. }
    cbn [Nat.mul Nat.add Nat.ltb Nat.leb]. change (INR 1) with 1.
    replace ((1 - 2) * IZR fs / 2 * 1000) with (IZR (- (500 * fs))) by (rewrite opp_IZR, mult_IZR; field).
    rewrite (@Zrnd_IZR ZnearestE _), opp_IZR, mult_IZR. field.
  - assert (k O = 0%nat) as ->.
    { destruct (k O) as [|[|k0]]; [reflexivity| |lia]. exfalso. specialize (K3 0%nat ltac:(lia)). lra. }
    cbn [Nat.mul Nat.add Nat.ltb Nat.leb]. change (INR 0) with 0. replace (0 * IZR fs / 2 * 1000) with (IZR 0) by field. rewrite (@Zrnd_IZR ZnearestE _). lra.
Qed.
Lemma iir_first_two : forall d b a x y, (1 <= d)%nat -> iir_response d b a x y ->
  y 0%nat = b 0%nat * x 0%nat /\ y 1%nat = b 0%nat * x 1%nat + b 1%nat * x 0%nat - a 1%nat * y 0%nat.
Proof.
  intros d b a x y Hd Hy. destruct d as [|d]; [lia|]. pose proof (Hy 0%nat) as Y0. pose proof (Hy 1%nat) as Y1. clear Hy.
  rewrite bigsum_zero in Y0 by (intros j Hj; unfold past; cbn [Nat.leb]; ring).
  rewrite bigsum_S_l in Y0. rewrite (bigsum_zero (S d)) in Y0 by (intros j Hj; unfold past; cbn [Nat.leb]; ring).
  rewrite !bigsum_S_l in Y1. rewrite !(bigsum_zero d) in Y1 by (intros j Hj; unfold past; cbn [Nat.leb]; ring).
  unfold past in Y0, Y1. cbn [Nat.leb Nat.sub] in Y0, Y1. lra.
Qed.
Lemma butter_column_differs : forall fs lower upper, 0 < lower < upper -> lower + upper < IZR fs / 2 ->
  exists x, @get_dominant_frequencies_of exact_env (fvec 2 x) fs true lower upper 2 (2 / IZR fs) (1 / IZR fs) "hamming" false = Ok [Fin 0] /\
    forall l, @get_dominant_frequencies_2d exact_env (SpecChannels.column (fvec 2 x) l) fs true lower upper 2 (2 / IZR fs) (1 / IZR fs) "hamming" false
      = Ok [Fin (- IZR fs / 2)].
Proof.
  intros fs lower upper Hl Hu. assert (Hfs : (0 < fs)%Z) by (apply lt_IZR; lra). pose proof (IZR_lt _ _ Hfs) as F0.
  set (w1 := 2 * lower / IZR fs). set (w2 := 2 * upper / IZR fs).
  assert (Fi : 0 < / IZR fs) by (apply Rinv_0_lt_compat; auto).
  assert (W : 0 < w1 /\ w1 < w2 /\ w2 < 1 /\ w1 + w2 < 1).
  { unfold w1, w2, Rdiv. assert (lower * / IZR fs < upper * / IZR fs) by (apply Rmult_lt_compat_r; lra).
    assert (0 < lower * / IZR fs) by (apply Rmult_lt_0_compat; lra).
    assert ((lower + upper) * / IZR fs < IZR fs / 2 * / IZR fs) by (apply Rmult_lt_compat_r; lra).
    replace (IZR fs / 2 * / IZR fs) with (/ 2) in * by (field; lra). repeat split; lra. }
  assert (W' : 0 < w1 /\ w1 < w2 /\ w2 < 1) by tauto.
  destruct (second_coefficients 6 w1 w2 W' ltac:(lia) (wo_small w1 w2 W' ltac:(tauto))) as (B1 & A1).
  destruct (first_coefficient 6 w1 w2 W') as (B0 & G0). set (a1 := coeff (np_poly (proots 6 w1 w2)) 1) in *. set (b0 := gain 6 w1 w2) in *.
  exists (fun t => match t with O => 1 | _ => a1 / 2 end). set (x := fun t : nat => match t with O => 1 | _ => a1 / 2 end). split.
  - unfold get_dominant_frequencies_of. rewrite design_accepted by lra. fold w1 w2. cbn [rbind]. unfold get_dominant_frequencies at 1.
    rewrite design_eq. destruct (iir_exists (2 * 6) (coeff (num 6 w1 w2)) (coeff (np_poly (proots 6 w1 w2))) x) as (y & Hy).
    rewrite (lfilter_fvec (2 * 6) _ _ x y) by (auto; lia).
    pose proof (two_dominant fs y Hfs) as T. unfold get_dominant_frequencies in T. rewrite T. do 3 f_equal.
    destruct (iir_first_two (2 * 6) _ _ x y ltac:(lia) Hy) as (Y0 & Y1). rewrite B0 in Y0. rewrite B0, B1 in Y1. fold a1 in Y1. unfold x in Y0, Y1.
    assert (E0 : y 0%nat = b0) by lra. rewrite E0 in *. assert (E1 : y 1%nat = b0 * (- a1 / 2)) by lra. rewrite E1.
    assert (0 < b0 * b0) by nra. rewrite Rltb_false by nra. reflexivity.
  - intros l. pose proof (dominant_column_butter (H := exact_env) 2 x l fs lower upper 2 (2 / IZR fs) (1 / IZR fs) "hamming" 2 1 false (two_cut fs Hfs) ltac:(lia)) as D.
    change (Z.of_nat 2) with 2%Z in D. rewrite D.
    + rewrite two_dominant by auto. do 3 f_equal. unfold x. rewrite Rltb_true by lra. reflexivity.
    + unfold cutoff_of. cbn [rnd exact_env]. replace (lower * 2 / IZR fs) with w1 by (unfold w1; field; lra).
      replace (upper * 2 / IZR fs) with w2 by (unfold w2; field; lra). tauto.
    + unfold cutoff_of. cbn [rnd exact_env]. replace (upper * 2 / IZR fs) with w2 by (unfold w2; field; lra). tauto.
Qed.
