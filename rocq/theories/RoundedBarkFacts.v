(** * Facts: bfcc and the option use_energy in floating point *)
From Coq Require Import Reals ZArith List String Bool Lia Lra Psatz Permutation.
From Coquelicot Require Rcomplements.
From Verif Require Import Base SpecBase BigSum Preprocessing PreprocessingFacts WindowFacts SpecMat SpecFilters SpecBanks SpecFeatures Fourier CqtFacts Features Extractors FeaturesFacts FeaturesMore DctFacts
  Rounded SpecRounded RoundedFacts RoundedLaws RoundedCeps SpecRoundedCeps RoundedCepsLaws RoundedCepsEnd SpecFft FftFacts FftEnd
  RoundedBark SpecRoundedBark SpecRoundedNormal.
Import ListNotations.
Local Open Scope R_scope.

(** ** positive numbers whose logarithms are close *)
Definition lnear (l a b : R) : Prop := 0 < a /\ 0 < b /\ Rabs (ln b - ln a) <= l.
Lemma lnear_le : forall l l' a b, lnear l a b -> l <= l' -> lnear l' a b.
Proof. intros l l' a b (A & B & C) H. split; [exact A|]. split; [exact B|lra]. Qed.
Lemma lnear_mult : forall l m a b c d, lnear l a b -> lnear m c d -> lnear (l + m) (a * c) (b * d).
Proof.
  intros l m a b c d (A & B & C) (A' & B' & C'). split; [apply Rmult_lt_0_compat; assumption|].
  split; [apply Rmult_lt_0_compat; assumption|]. rewrite !ln_mult by assumption.
  apply Rcomplements.Rabs_le_between in C, C'. apply Rcomplements.Rabs_le_between. lra.
Qed.
Lemma lnear_inv : forall l a b, lnear l a b -> lnear l (/ a) (/ b).
Proof.
  intros l a b (A & B & C). split; [apply Rinv_0_lt_compat, A|]. split; [apply Rinv_0_lt_compat, B|]. rewrite !ln_Rinv by assumption.
  apply Rcomplements.Rabs_le_between in C. apply Rcomplements.Rabs_le_between. lra.
Qed.
Lemma lnear_bounds : forall l a b, lnear l a b <-> 0 < a /\ 0 < b /\ a <= exp l * b /\ b <= exp l * a.
Proof.
  intros l a b. split; intros (A & B & C).
  - split; [exact A|]. split; [exact B|]. apply Rcomplements.Rabs_le_between in C.
    assert (L : forall s t, s <= t -> exp s <= exp t) by (intros s t [H | H]; [left; apply exp_increasing, H|right; f_equal; exact H]).
    pose proof (L (ln a) (l + ln b) ltac:(lra)) as P. pose proof (L (ln b) (l + ln a) ltac:(lra)) as Q.
    rewrite exp_plus, !exp_ln in P, Q by assumption. split; assumption.
  - destruct C as [C D]. split; [exact A|]. split; [exact B|]. pose proof (exp_pos l) as P.
    apply Rcomplements.ln_le in C; [|exact A]. apply Rcomplements.ln_le in D; [|exact B].
    rewrite ln_mult, ln_exp in C by assumption. rewrite ln_mult, ln_exp in D by assumption.
    apply Rcomplements.Rabs_le_between. lra.
Qed.
Lemma lnear_plus : forall l a b c d, lnear l a b -> lnear l c d -> lnear l (a + c) (b + d).
Proof.
  intros l a b c d H1 H2. apply lnear_bounds in H1, H2. apply lnear_bounds.
  destruct H1 as (A & B & C & D), H2 as (A' & B' & C' & D'). repeat split; lra.
Qed.
Lemma lnear_pow : forall l a b k, lnear l a b -> lnear (INR k * l) (a ^ k) (b ^ k).
Proof.
  intros l a b k (A & B & C). split; [apply pow_lt, A|]. split; [apply pow_lt, B|].
  rewrite !ln_pow by assumption. rewrite <- Rmult_minus_distr_l, Rabs_mult, (Rabs_pos_eq (INR k)) by apply pos_INR.
  apply Rmult_le_compat_l; [apply pos_INR|exact C].
Qed.
(** what a relative error does *)
Lemma lnear_relative : forall v a b, 0 <= v < 1 -> 0 < a -> Rabs (b - a) <= v * a -> lnear (- ln (1 - v)) a b.
Proof.
  intros v a b Hv Ha Hb. apply Rcomplements.Rabs_le_between in Hb.
  destruct (ln_factor b a (1 - v) (1 + v) Ha ltac:(lra) ltac:(lra) (one_plus_inv v Hv) ltac:(lra)) as [P Q].
  split; [exact Ha|]. split; [exact P|exact Q].
Qed.
Lemma lnear_trans : forall l m a b c, lnear l a b -> lnear m b c -> lnear (l + m) a c.
Proof.
  intros l m a b c (A & B & C) (A' & B' & C'). split; [exact A|]. split; [exact B'|].
  apply Rcomplements.Rabs_le_between in C, C'. apply Rcomplements.Rabs_le_between. lra.
Qed.
Lemma log_nonneg : forall t, 0 <= t < 1 -> 0 <= - ln (1 - t).
Proof.
  intros t Ht. rewrite <- ln_Rinv by lra. rewrite <- ln_1. apply Rcomplements.ln_le; [lra|].
  pose proof (one_plus_inv t Ht). lra.
Qed.

Section Loudness.
Context (E : Env) (u v : R) (pw : nat -> R -> R) (root : R -> R).
Hypothesis Ha : accurate u 0 (@rnd E).
Hypothesis Hu1 : u < 1.
Hypothesis Hp : @powers_within E v pw root.
Let ru := - ln (1 - u).
Let rv := - ln (1 - v).

Lemma hu : 0 <= u < 1.
Proof. split; [exact (proj1 Ha)|exact Hu1]. Qed.
Lemma ru_nonneg : 0 <= ru.
Proof. apply log_nonneg, hu. Qed.
Lemma hv : 0 <= v < 1.
Proof. destruct Hp as (H & _ & (H0 & _)). lra. Qed.
Lemma rv_nonneg : 0 <= rv.
Proof. apply log_nonneg, hv. Qed.
Lemma lnear_rnd : forall l a b, lnear l a b -> lnear (l + ru) a (@rnd E b).
Proof.
  intros l a b H. apply (lnear_trans l ru a b); [exact H|]. apply lnear_relative; [exact hu|apply H|].
  destruct Ha as (_ & _ & K). specialize (K b). rewrite Rplus_0_r, (Rabs_pos_eq b) in K by (left; apply H). exact K.
Qed.
Lemma lnear_refl : forall a, 0 < a -> lnear 0 a a.
Proof. intros a H. split; [exact H|]. split; [exact H|]. replace (ln a - ln a) with 0 by ring. rewrite Rabs_R0. lra. Qed.
Lemma lnear_pw : forall l a b k, lnear l a b -> lnear (INR k * l + rv) (a ^ k) (pw k b).
Proof.
  intros l a b k H. apply (lnear_trans _ _ _ (b ^ k)); [apply lnear_pow, H|].
  assert (Hb : 0 < b) by apply H. apply lnear_relative; [exact hv|apply pow_lt, Hb|].
  destruct Hp as (_ & K & _). destruct (K k) as (_ & K'). specialize (K' b Hb). rewrite Rpower_pow in K' by exact Hb. exact K'.
Qed.
Lemma loud_term_near : forall l w b c p, 0 <= l -> 0 < c -> lnear l w b -> lnear (2 * l + 4 * ru) (w ^ 2 + c * 10 ^ p) (@loud_term E b c p).
Proof.
  intros l w b c p Hl Hc H. pose proof ru_nonneg. unfold loud_term.
  apply (lnear_le (2 * l + 3 * ru + ru)); [|lra]. apply lnear_rnd. apply lnear_plus.
  - apply (lnear_le (l + l + ru)); [|lra]. apply lnear_rnd. replace (w ^ 2) with (w * w) by ring. apply lnear_mult; exact H.
  - apply (lnear_le (ru + ru + ru)); [|lra]. apply lnear_rnd. apply lnear_mult.
    + apply (lnear_le (0 + ru)); [|lra]. apply lnear_rnd, lnear_refl, Hc.
    + apply (lnear_le (0 + ru)); [|lra]. apply lnear_rnd, lnear_refl, pow_lt. lra.
Qed.
Lemma rnd_third : Rabs (@rnd E (1 / 3) - 1 / 3) <= u / 3.
Proof. destruct Ha as (_ & _ & K). specialize (K (1 / 3)). rewrite Rplus_0_r, (Rabs_pos_eq (1 / 3)) in K by lra. lra. Qed.

Lemma loudness_near : forall l w b Y, lnear l w b -> Rabs (ln (spec_loudness w)) <= Y ->
  0 < spec_loudness w /\ lnear (loud_log_bound u v l Y) (spec_loudness w) (@loudness_float E pw root b).
Proof.
  intros l w b Y H HY. pose proof ru_nonneg as R1. pose proof rv_nonneg as R2.
  assert (Hl : 0 <= l) by (eapply Rle_trans; [apply Rabs_pos|apply H]).
  set (e := (w ^ 2 + 56.8 * 10 ^ 6) * w ^ 4 / ((w ^ 2 + 6.3 * 10 ^ 6) * (w ^ 2 + 0.38 * 10 ^ 9) * (w ^ 6 + 9.58 * 10 ^ 26))).
  set (g := @rnd E (@rnd E (@loud_term E b 56.8 6 * pw 4%nat b)
             / @rnd E (@rnd E (@loud_term E b 6.3 6 * @loud_term E b 0.38 9) * @loud_term E (pw 3%nat b) 9.58 26))).
  assert (K : lnear (16 * l + 20 * ru + 3 * rv) e g).
  { pose proof (lnear_pw l w b 4 H) as W4. pose proof (lnear_pw l w b 3 H) as W3.
    replace (INR 4) with 4 in W4 by (cbn; lra). replace (INR 3) with 3 in W3 by (cbn; lra).
    pose proof (loud_term_near l w b 56.8 6 Hl ltac:(lra) H) as T1. pose proof (loud_term_near l w b 6.3 6 Hl ltac:(lra) H) as T2.
    pose proof (loud_term_near l w b 0.38 9 Hl ltac:(lra) H) as T3.
    assert (Hl3 : 0 <= 3 * l + rv) by lra. pose proof (loud_term_near (3 * l + rv) _ _ 9.58 26 Hl3 ltac:(lra) W3) as T4. replace ((w ^ 3) ^ 2) with (w ^ 6) in T4 by ring.
    pose proof (lnear_rnd _ _ _ (lnear_mult _ _ _ _ _ _ T1 W4)) as N.
    pose proof (lnear_rnd _ _ _ (lnear_mult _ _ _ _ _ _ (lnear_rnd _ _ _ (lnear_mult _ _ _ _ _ _ T2 T3)) T4)) as D.
    pose proof (lnear_rnd _ _ _ (lnear_mult _ _ _ _ _ _ N (lnear_inv _ _ _ D))) as Q.
    unfold e, g, Rdiv. eapply lnear_le; [exact Q|]. lra. }
  destruct K as (He & Hg & K).
  assert (Es : spec_loudness w = Rpower e (1 / 3)).
  { unfold spec_loudness, spec_root. fold e. destruct (Req_EM_T e 0); [lra|reflexivity]. }
  rewrite Es in *. assert (P : 0 < Rpower e (1 / 3)) by apply exp_pos. split; [exact P|].
  unfold Rpower in HY at 1. rewrite ln_exp in HY.
  destruct Hp as (Hv1 & _ & (Hv0 & Hroot)). specialize (Hroot g Hg).
  assert (Q : lnear ((1 + u) / 3 * (16 * l + 20 * ru + 3 * rv) + u * Y) (Rpower e (1 / 3)) (Rpower g (@rnd E (1 / 3)))).
  { split; [exact P|]. split; [apply exp_pos|]. unfold Rpower. rewrite !ln_exp. set (q := @rnd E (1 / 3)) in *.
    replace (q * ln g - 1 / 3 * ln e) with (q * (ln g - ln e) + (q - 1 / 3) * ln e) by ring.
    eapply Rle_trans; [apply Rabs_triang|]. rewrite !Rabs_mult. pose proof rnd_third as T. fold q in T.
    assert (Q1 : Rabs q <= (1 + u) / 3).
    { replace q with (q - 1 / 3 + 1 / 3) by ring. eapply Rle_trans; [apply Rabs_triang|]. rewrite (Rabs_pos_eq (1 / 3)) by lra. lra. }
    assert (Q2 : Rabs (ln e) <= 3 * Y). { rewrite Rabs_mult, (Rabs_pos_eq (1 / 3)) in HY by lra. lra. }
    apply Rplus_le_compat.
    - apply Rmult_le_compat; try apply Rabs_pos; assumption.
    - eapply Rle_trans; [apply Rmult_le_compat; [apply Rabs_pos|apply Rabs_pos|exact T|exact Q2]|]. lra. }
  pose proof (lnear_relative v (Rpower g (@rnd E (1 / 3))) (root g) hv ltac:(apply exp_pos) Hroot) as S.
  eapply lnear_le; [exact (lnear_trans _ _ _ _ _ Q S)|]. unfold loud_log_bound. fold ru rv. lra.
Qed.
End Loudness.

(** ** logarithms of nearly right numbers *)
Lemma log_near : forall wl lnf l Y a b, ln_within wl lnf -> lnear l a b -> Rabs (ln a) <= Y ->
  Rabs (lnf (zeroed b) - ln a) <= (1 + wl) * l + wl * Y.
Proof.
  intros wl lnf l Y a b (Hwl & Hl) (A & B & C) HY. unfold zeroed. destruct (Req_EM_T b 0) as [Z|_]; [lra|].
  specialize (Hl b B).
  assert (Hg : Rabs (ln b) <= Y + l). { replace (ln b) with (ln a + (ln b - ln a)) by ring. eapply Rle_trans; [apply Rabs_triang|]. lra. }
  replace (lnf b - ln a) with ((lnf b - ln b) + (ln b - ln a)) by ring.
  eapply Rle_trans; [apply Rabs_triang|]. pose proof (Rmult_le_compat_l _ _ _ Hwl Hg). lra.
Qed.
Lemma spec_total_programs : forall h nf L f re im x, frame_programs nf L f (S h) re im ->
  bigsum (S h) (fun k => 1 * (lin_exact x (re k) ^ 2 + lin_exact x (im k) ^ 2) / INR nf) = spec_total h nf L (f x).
Proof.
  intros h nf L f re im x Hp. unfold spec_total. apply bigsum_ext. intros k Hk. destruct (Hp x k Hk) as [-> ->].
  unfold spec_power, spec_sq, Rdiv. ring.
Qed.

(** ** the column of the energies *)
Lemma energy_actual : forall (E : Env) e a c N L hop n B x,
  @well_framed E a N L hop -> (1 <= s_nfft a)%Z -> (0 < n)%nat ->
  @extractor_bank E e a = Ok (fmat n (S (half (s_nfft a))) B) ->
  let nf := Z.to_nat (s_nfft a) in let bins := S (half (s_nfft a)) in
  let f i z := frame_of a (extractor_coeff e a) L hop z i in
  (forall i j, (i < frame_count N L hop)%nat -> (j < n)%nat -> compressible e (spec_band (half (s_nfft a)) nf L (f i x) (B j))) ->
  (0 < c_num_ceps c <= s_nfilts a)%Z -> (1 <= c_dct_type c <= 4)%Z -> (c_dct_type c = 1%Z -> (2 <= n)%nat) ->
  c_use_energy c = true -> no_lifter c -> no_normalisation c ->
  let total i := spec_total (half (s_nfft a)) nf L (f i x) in
  exists y, @run E e (fvec N x) a c = Ok (fmat (frame_count N L hop) (Nat.min (Z.to_nat (c_num_ceps c)) n) y) /\
    forall (E' : Env) u v r wl hyp lnf re im s i Y,
      accurate u 0 (@rnd E') -> u < 1 -> hypot_within v hyp -> ln_within wl lnf -> 0 < r < 1 ->
      (i < frame_count N L hop)%nat -> frame_programs nf L (f i) bins re im -> dot_program (fun _ => 1) bins s ->
      0 < total i -> actual_noise E' nf bins x re im (fun _ => 1) <= r ^ 2 * total i -> Rabs (ln (total i)) <= Y ->
      Rabs (@energy_float E' lnf hyp (fun q => @lin_stored E' (re q)) (fun q => @lin_stored E' (im q)) nf s x - y i 0%nat)
      <= (1 + wl) * band_log_bound u v r bins + wl * Y.
Proof.
  intros E e a c N L hop n B x Hw Hnf Hn HB nf bins f Hcomp Hc Ht Ht1 Hue Hl Hnm total.
  eexists. split.
  - apply (run_fvec e a c N L hop n B x); auto; lia.
  - intros E' u v r wl hyp lnf re im s i Y Ha Hu1 Hh Hln Hr Hi Hp Hs Hpos Hnoise HY.
    rewrite Hue. cbn [andb Nat.eqb]. cbv beta zeta. fold nf. fold (f i x). fold (total i).
    unfold spec_log. destruct (Req_EM_T (total i) 0); [lra|].
    pose proof (spec_total_programs (half (s_nfft a)) nf L (f i) re im x Hp) as T. fold bins in T. fold (total i) in T.
    destruct (band_actual E' u v r nf bins hyp re im x (fun _ => 1) (fun _ => s) 0 Ha Hu1 Hh Hr ltac:(intros; lra) Hs) as [P Q].
    + rewrite T. exact Hpos.
    + rewrite T. exact Hnoise.
    + rewrite T in Q. unfold energy_float. apply log_near; auto. split; [exact Hpos|]. split; [exact P|exact Q].
Qed.
Lemma energy_error : forall (E : Env) e a c N L hop n B x,
  @well_framed E a N L hop -> (1 <= s_nfft a)%Z -> (0 < n)%nat ->
  @extractor_bank E e a = Ok (fmat n (S (half (s_nfft a))) B) ->
  let nf := Z.to_nat (s_nfft a) in let bins := S (half (s_nfft a)) in
  let f i z := frame_of a (extractor_coeff e a) L hop z i in
  (forall i j, (i < frame_count N L hop)%nat -> (j < n)%nat -> compressible e (spec_band (half (s_nfft a)) nf L (f i x) (B j))) ->
  (0 < c_num_ceps c <= s_nfilts a)%Z -> (1 <= c_dct_type c <= 4)%Z -> (c_dct_type c = 1%Z -> (2 <= n)%nat) ->
  c_use_energy c = true -> no_lifter c -> no_normalisation c ->
  let total i := spec_total (half (s_nfft a)) nf L (f i x) in
  exists y, @run E e (fvec N x) a c = Ok (fmat (frame_count N L hop) (Nat.min (Z.to_nat (c_num_ceps c)) n) y) /\
    forall (E' : Env) u v r wl D hyp lnf re im s i Y,
      accurate u 0 (@rnd E') -> u < 1 -> hypot_within v hyp -> ln_within wl lnf -> 0 < r < 1 ->
      (i < frame_count N L hop)%nat -> frame_programs nf L (f i) bins re im ->
      (forall q, (q < bins)%nat -> (lin_depth2 (re q) <= D)%nat /\ (lin_depth2 (im q) <= D)%nat) ->
      dot_program (fun _ => 1) bins s ->
      0 < total i -> noise u D nf bins x re im (fun _ => 1) <= r ^ 2 * total i -> Rabs (ln (total i)) <= Y ->
      Rabs (@energy_float E' lnf hyp (fun q => @lin_stored E' (re q)) (fun q => @lin_stored E' (im q)) nf s x - y i 0%nat)
      <= (1 + wl) * band_log_bound u v r bins + wl * Y.
Proof.
  intros E e a c N L hop n B x Hw Hnf Hn HB nf bins f Hcomp Hc Ht Ht1 Hue Hl Hnm total.
  destruct (energy_actual E e a c N L hop n B x Hw Hnf Hn HB Hcomp Hc Ht Ht1 Hue Hl Hnm) as (y & Hy & H). exists y. split; [exact Hy|].
  intros E' u v r wl D hyp lnf re im s i Y Ha Hu1 Hh Hln Hr Hi Hp HD Hs Hpos Hnoise HY.
  apply (H E' u v r wl hyp lnf re im s i Y); auto.
  eapply Rle_trans; [apply (actual_noise_le E' u D); auto; intros; lra|exact Hnoise].
Qed.
Lemma fft_bins : forall a rs, (1 <= s_nfft a)%Z -> fft_size rs = Z.to_nat (s_nfft a) -> (S (half (s_nfft a)) <= fft_size rs)%nat.
Proof. intros a rs H ->. unfold half. pose proof (Z.div_lt (s_nfft a) 2). pose proof (Z.div_pos (s_nfft a) 2). lia. Qed.
Lemma energy_fft : forall (E : Env) e a c N L hop n B x,
  @well_framed E a N L hop -> (1 <= s_nfft a)%Z -> (0 < n)%nat ->
  @extractor_bank E e a = Ok (fmat n (S (half (s_nfft a))) B) ->
  let nf := Z.to_nat (s_nfft a) in let bins := S (half (s_nfft a)) in
  let co := extractor_coeff e a in let wt := win_type (window_of a) in
  let f i := frame_of a co L hop x i in
  (forall i j, (i < frame_count N L hop)%nat -> (j < n)%nat -> compressible e (spec_band (half (s_nfft a)) nf L (f i) (B j))) ->
  (0 < c_num_ceps c <= s_nfilts a)%Z -> (1 <= c_dct_type c <= 4)%Z -> (c_dct_type c = 1%Z -> (2 <= n)%nat) ->
  c_use_energy c = true -> no_lifter c -> no_normalisation c ->
  let total i := spec_total (half (s_nfft a)) nf L (f i) in
  exists y, @run E e (fvec N x) a c = Ok (fmat (frame_count N L hop) (Nat.min (Z.to_nat (c_num_ceps c)) n) y) /\
    forall (E' : Env) u v r wl hyp lnf rs re im s i Y,
      accurate u 0 (@rnd E') -> u < 1 -> hypot_within v hyp -> ln_within wl lnf -> 0 < r < 1 ->
      (i < frame_count N L hop)%nat ->
      fft rs (leaf (s_pre_emph a) co wt L hop i) (fun _ => Zero) re im -> fft_size rs = nf ->
      dot_program (fun _ => 1) bins s ->
      0 < total i -> fft_noise u rs (frame_size (s_pre_emph a) co wt L hop i nf x) <= r ^ 2 * total i -> Rabs (ln (total i)) <= Y ->
      Rabs (@energy_float E' lnf hyp (fun q => @lin_stored E' (re q)) (fun q => @lin_stored E' (im q)) nf s x - y i 0%nat)
      <= (1 + wl) * band_log_bound u v r bins + wl * Y.
Proof.
  intros E e a c N L hop n B x Hw Hnf Hn HB nf bins co wt f Hcomp Hc Ht Ht1 Hue Hl Hnm total.
  destruct (energy_actual E e a c N L hop n B x Hw Hnf Hn HB Hcomp Hc Ht Ht1 Hue Hl Hnm) as (y & Hy & H). exists y. split; [exact Hy|].
  intros E' u v r wl hyp lnf rs re im s i Y Ha Hu1 Hh Hln Hr Hi Hf Hsz Hs Hpos Hnoise HY.
  pose proof (fft_bins a rs Hnf Hsz) as Hbins.
  apply (H E' u v r wl hyp lnf re im s i Y); auto.
  - fold nf. rewrite <- Hsz. apply fft_frame_programs; assumption.
  - eapply Rle_trans; [|exact Hnoise]. fold nf bins. rewrite <- Hsz, <- (Rmult_1_l (fft_noise _ _ _)).
    apply (fft_actual_noise E' u rs); auto. intros; lra.
Qed.

(** ** bfcc *)
Lemma bark_actual : forall (E : Env) a c N L hop n B x,
  @well_framed E a N L hop -> (1 <= s_nfft a)%Z -> (0 < n)%nat ->
  @extractor_bank E Bfcc a = Ok (fmat n (S (half (s_nfft a))) B) -> (forall j k, 0 <= B j k) ->
  (0 <= c_num_ceps c <= s_nfilts a)%Z -> (1 <= c_dct_type c <= 4)%Z -> (c_dct_type c = 1%Z -> (2 <= n)%nat) ->
  c_use_energy c = false -> no_lifter c -> no_normalisation c ->
  let K := Nat.min (Z.to_nat (c_num_ceps c)) n in let nf := Z.to_nat (s_nfft a) in let bins := S (half (s_nfft a)) in
  let f i z := frame_of a (extractor_coeff Bfcc a) L hop z i in
  let band i j := spec_band (half (s_nfft a)) nf L (f i x) (B j) in
  exists y, @run E Bfcc (fvec N x) a c = Ok (fmat (frame_count N L hop) K y) /\
    forall (E' : Env) u v r wl wp hyp lnf pw root re im bank dct i k Y,
      accurate u 0 (@rnd E') -> u < 1 -> hypot_within v hyp -> ln_within wl lnf -> @powers_within E' wp pw root -> 0 < r < 1 ->
      (i < frame_count N L hop)%nat -> (k < K)%nat ->
      frame_programs nf L (f i) bins re im ->
      (forall j, (j < n)%nat -> dot_program (B j) bins (bank j)) ->
      reads n (dct k) -> (forall z, lin_exact z (dct k) = spec_dct (c_dct_type c) n z k) ->
      (forall j, (j < n)%nat -> 0 < band i j /\ actual_noise E' nf bins x re im (B j) <= r ^ 2 * band i j /\
         Rabs (ln (spec_loudness (band i j))) <= Y) ->
      Rabs (@loud_cepstrum E' lnf pw root hyp (fun q => @lin_stored E' (re q)) (fun q => @lin_stored E' (im q)) nf bank
              (fun q => @lin_stored E' (dct q)) x k - y i k)
      <= gain (dct k) * ((1 + u) ^ lin_depth2 (dct k) * ((1 + wl) * (Y + loud_log_bound u wp (band_log_bound u v r bins) Y)) - Y).
Proof.
  intros E a c N L hop n B x Hw Hnf Hn HB HB0 Hc Ht Ht1 Hue Hl Hnm K nf bins f band.
  eexists. split.
  - apply (run_fvec Bfcc a c N L hop n B x); auto; try lia.
    + intros i j _ _. exact I.
    + rewrite Hue. discriminate.
  - intros E' u v r wl wp hyp lnf pw root re im bank dct i k Y Ha Hu1 Hh Hln Hpw Hr Hi Hk Hp Hb Hrd Hdct Hband.
    rewrite Hue. cbn [andb]. cbv beta zeta.
    assert (Hsp : forall j, bigsum bins (fun q => B j q * (lin_exact x (re q) ^ 2 + lin_exact x (im q) ^ 2) / INR nf) = band i j).
    { intros j. apply (spec_band_programs (half (s_nfft a)) nf L (f i) re im x (B j) Hp). }
    set (lam := band_log_bound u v r bins). set (LB := loud_log_bound u wp lam Y).
    assert (N1 : forall j, (j < n)%nat -> 0 < spec_loudness (band i j) /\ lnear LB (spec_loudness (band i j))
      (@loudness_float E' pw root (@band_energy E' nf (@bin_magnitude E' hyp (fun q => @lin_stored E' (re q)) (fun q => @lin_stored E' (im q)) x) bank j))).
    { intros j Hj. destruct (Hband j Hj) as (P & Q & T).
      destruct (band_actual E' u v r nf bins hyp re im x (B j) bank j Ha Hu1 Hh Hr (HB0 j) (Hb j Hj)) as [P' Q'].
      - rewrite Hsp. exact P.
      - rewrite Hsp. exact Q.
      - rewrite Hsp in Q'. apply (loudness_near E' u wp pw root Ha Hu1 Hpw lam); [|exact T]. split; [exact P|]. split; [exact P'|exact Q']. }
    assert (HY : 0 <= Y). { destruct (Hband 0%nat Hn) as (_ & _ & H). eapply Rle_trans; [apply Rabs_pos|exact H]. }
    assert (HLB : 0 <= LB). { destruct (N1 0%nat Hn) as (_ & (_ & _ & H)). eapply Rle_trans; [apply Rabs_pos|exact H]. }
    rewrite (spec_dct_ext (c_dct_type c) n _ (fun j => ln (spec_loudness (band i j)))).
    2:{ intros j Hj. cbn [compression]. fold nf. fold (f i x). fold (band i j). unfold spec_log at 1.
        destruct (N1 j Hj) as (P & _). destruct (Req_EM_T (spec_loudness (band i j)) 0); [lra|reflexivity]. }
    rewrite <- Hdct. unfold loud_cepstrum.
    eapply Rle_trans; [apply (program_on_inputs E' u n (dct k) (fun j => ln (spec_loudness (band i j))) _ Y ((1 + wl) * LB + wl * Y) Ha Hrd)|].
    + destruct Hln as (Hwl & _). pose proof (Rmult_le_pos _ _ Hwl HY). pose proof (Rmult_le_pos _ _ Hwl HLB). lra.
    + exact HY.
    + intros j Hj. destruct (Hband j Hj) as (_ & _ & T). split; [exact T|]. unfold loud_band. apply log_near; auto. apply N1, Hj.
    + right. ring.
Qed.
Lemma bark_error : forall (E : Env) a c N L hop n B x,
  @well_framed E a N L hop -> (1 <= s_nfft a)%Z -> (0 < n)%nat ->
  @extractor_bank E Bfcc a = Ok (fmat n (S (half (s_nfft a))) B) -> (forall j k, 0 <= B j k) ->
  (0 <= c_num_ceps c <= s_nfilts a)%Z -> (1 <= c_dct_type c <= 4)%Z -> (c_dct_type c = 1%Z -> (2 <= n)%nat) ->
  c_use_energy c = false -> no_lifter c -> no_normalisation c ->
  let K := Nat.min (Z.to_nat (c_num_ceps c)) n in let nf := Z.to_nat (s_nfft a) in let bins := S (half (s_nfft a)) in
  let f i z := frame_of a (extractor_coeff Bfcc a) L hop z i in
  let band i j := spec_band (half (s_nfft a)) nf L (f i x) (B j) in
  exists y, @run E Bfcc (fvec N x) a c = Ok (fmat (frame_count N L hop) K y) /\
    forall (E' : Env) u v r wl wp D hyp lnf pw root re im bank dct i k Y,
      accurate u 0 (@rnd E') -> u < 1 -> hypot_within v hyp -> ln_within wl lnf -> @powers_within E' wp pw root -> 0 < r < 1 ->
      (i < frame_count N L hop)%nat -> (k < K)%nat ->
      frame_programs nf L (f i) bins re im ->
      (forall q, (q < bins)%nat -> (lin_depth2 (re q) <= D)%nat /\ (lin_depth2 (im q) <= D)%nat) ->
      (forall j, (j < n)%nat -> dot_program (B j) bins (bank j)) ->
      reads n (dct k) -> (forall z, lin_exact z (dct k) = spec_dct (c_dct_type c) n z k) ->
      (forall j, (j < n)%nat -> 0 < band i j /\ noise u D nf bins x re im (B j) <= r ^ 2 * band i j /\
         Rabs (ln (spec_loudness (band i j))) <= Y) ->
      Rabs (@loud_cepstrum E' lnf pw root hyp (fun q => @lin_stored E' (re q)) (fun q => @lin_stored E' (im q)) nf bank
              (fun q => @lin_stored E' (dct q)) x k - y i k)
      <= gain (dct k) * ((1 + u) ^ lin_depth2 (dct k) * ((1 + wl) * (Y + loud_log_bound u wp (band_log_bound u v r bins) Y)) - Y).
Proof.
  intros E a c N L hop n B x Hw Hnf Hn HB HB0 Hc Ht Ht1 Hue Hl Hnm K nf bins f band.
  destruct (bark_actual E a c N L hop n B x Hw Hnf Hn HB HB0 Hc Ht Ht1 Hue Hl Hnm) as (y & Hy & H). exists y. split; [exact Hy|].
  intros E' u v r wl wp D hyp lnf pw root re im bank dct i k Y Ha Hu1 Hh Hln Hpw Hr Hi Hk Hp HD Hb Hrd Hdct Hband.
  apply (H E' u v r wl wp hyp lnf pw root re im bank dct i k Y); auto. intros j Hj. destruct (Hband j Hj) as (P & Q & T).
  split; [exact P|]. split; [|exact T]. eapply Rle_trans; [apply (actual_noise_le E' u D)|exact Q]; auto.
Qed.
Lemma bark_fft : forall (E : Env) a c N L hop n B b x,
  @well_framed E a N L hop -> (1 <= s_nfft a)%Z -> (0 < n)%nat ->
  @extractor_bank E Bfcc a = Ok (fmat n (S (half (s_nfft a))) B) -> (forall j k, 0 <= B j k <= b) ->
  (0 <= c_num_ceps c <= s_nfilts a)%Z -> (1 <= c_dct_type c <= 4)%Z -> (c_dct_type c = 1%Z -> (2 <= n)%nat) ->
  c_use_energy c = false -> no_lifter c -> no_normalisation c ->
  let K := Nat.min (Z.to_nat (c_num_ceps c)) n in let nf := Z.to_nat (s_nfft a) in let bins := S (half (s_nfft a)) in
  let co := extractor_coeff Bfcc a in let wt := win_type (window_of a) in
  let band i j := spec_band (half (s_nfft a)) nf L (frame_of a co L hop x i) (B j) in
  exists y, @run E Bfcc (fvec N x) a c = Ok (fmat (frame_count N L hop) K y) /\
    forall (E' : Env) u v r wl wp hyp lnf pw root rs re im bank dct i k Y,
      accurate u 0 (@rnd E') -> u < 1 -> hypot_within v hyp -> ln_within wl lnf -> @powers_within E' wp pw root -> 0 < r < 1 ->
      (i < frame_count N L hop)%nat -> (k < K)%nat ->
      fft rs (leaf (s_pre_emph a) co wt L hop i) (fun _ => Zero) re im -> fft_size rs = nf ->
      (forall j, (j < n)%nat -> dot_program (B j) bins (bank j)) ->
      reads n (dct k) -> (forall z, lin_exact z (dct k) = spec_dct (c_dct_type c) n z k) ->
      (forall j, (j < n)%nat -> 0 < band i j /\ b * fft_noise u rs (frame_size (s_pre_emph a) co wt L hop i nf x) <= r ^ 2 * band i j /\
         Rabs (ln (spec_loudness (band i j))) <= Y) ->
      Rabs (@loud_cepstrum E' lnf pw root hyp (fun q => @lin_stored E' (re q)) (fun q => @lin_stored E' (im q)) nf bank
              (fun q => @lin_stored E' (dct q)) x k - y i k)
      <= gain (dct k) * ((1 + u) ^ lin_depth2 (dct k) * ((1 + wl) * (Y + loud_log_bound u wp (band_log_bound u v r bins) Y)) - Y).
Proof.
  intros E a c N L hop n B b x Hw Hnf Hn HB HB0 Hc Ht Ht1 Hue Hl Hnm K nf bins co wt band.
  destruct (bark_actual E a c N L hop n B x Hw Hnf Hn HB (fun j k => proj1 (HB0 j k)) Hc Ht Ht1 Hue Hl Hnm) as (y & Hy & H). exists y. split; [exact Hy|].
  intros E' u v r wl wp hyp lnf pw root rs re im bank dct i k Y Ha Hu1 Hh Hln Hpw Hr Hi Hk Hf Hsz Hb Hrd Hdct Hband.
  pose proof (fft_bins a rs Hnf Hsz) as Hbins.
  apply (H E' u v r wl wp hyp lnf pw root re im bank dct i k Y); auto.
  - fold nf. rewrite <- Hsz. apply fft_frame_programs; assumption.
  - intros j Hj. destruct (Hband j Hj) as (P & Q & T). split; [exact P|]. split; [|exact T].
    eapply Rle_trans; [|exact Q]. fold nf bins. rewrite <- Hsz. apply (fft_actual_noise E' u rs); auto.
Qed.
(** in exact arithmetic the programs compute the specified numbers *)
Lemma loudness_exact : forall pw w, 0 < w -> (forall k z, pw k z = z ^ k) ->
  @loudness_float exact_env pw (spec_root (1 / 3)) w = spec_loudness w.
Proof.
  intros pw w Hw Hpw. unfold loudness_float, loud_term, spec_loudness. cbn [rnd exact_env]. rewrite !Hpw. f_equal.
  f_equal; ring.
Qed.
