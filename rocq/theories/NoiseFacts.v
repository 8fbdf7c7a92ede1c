(** * How much the spectrograms and cepstra of two similar recordings differ *)
From Coq Require Import Reals ZArith List String Bool Lia Lra Psatz.
From Coquelicot Require Import Complex.
From Coquelicot Require Rcomplements.
From Verif Require Import Base BaseFacts SpecBase BigSum Preprocessing SpecMat MatFacts SpecFilters SpecBanks SpecFeatures DctFacts CqtFacts WindowFacts Features
  Extractors FeaturesFacts FeaturesMore FeaturesLaws FeaturesPhase RoundedCepsLaws FftFacts SpecInvariance InvarianceFacts InvarianceLaws SpecRounded SpecRoundedCeps
  RoundedBark SpecRoundedBark RoundedBarkFacts SpecNoise.
Import ListNotations.
Local Open Scope R_scope.

(** ** differences of frames *)
Lemma pre_minus : forall on c x x2 t, spec_pre on c x2 t - spec_pre on c x t = spec_pre on c (fun s => x2 s - x s) t.
Proof. intros on c x x2 t. unfold spec_pre. destruct on; [destruct t|]; ring. Qed.
Lemma frame_minus : forall a co L hop x x2 i t, frame_of a co L hop x2 i t - frame_of a co L hop x i t = frame_of a co L hop (fun s => x2 s - x s) i t.
Proof. intros. unfold frame_of, spec_frame. rewrite <- pre_minus. ring. Qed.
Lemma frame_small : forall a co N L hop z i t d, (0 <= d) -> (forall s, (s < N)%nat -> Rabs (z s) <= d) -> (t < L)%nat -> (i * hop + t < N)%nat ->
  Rabs (frame_of a co L hop z i t) <= (if s_pre_emph a then 1 + Rabs co else 1) * d.
Proof.
  intros a co N L hop z i t d Hd Hz Ht Hi. unfold frame_of, spec_frame. rewrite Rabs_mult.
  pose proof (spec_window_bounds (win_type (window_of a)) L t Ht) as W.
  assert (P : Rabs (spec_pre (s_pre_emph a) co z (i * hop + t)) <= (if s_pre_emph a then 1 + Rabs co else 1) * d).
  { unfold spec_pre. pose proof (Rmult_le_pos _ _ (Rabs_pos co) Hd). pose proof (Hz _ Hi) as B. destruct (s_pre_emph a); [|lra].
    destruct (i * hop + t)%nat as [|s]; [lra|]. pose proof (Hz s ltac:(lia)) as B2.
    pose proof (Rmult_le_compat_l _ _ _ (Rabs_pos co) B2). pose proof (Rabs_triang (z (S s)) (- (co * z s))) as T.
    rewrite Rabs_Ropp, Rabs_mult in T. unfold Rminus. lra. }
  rewrite (Rabs_pos_eq (spec_window _ _ _)) by lra. pose proof (Rabs_pos (spec_pre (s_pre_emph a) co z (i * hop + t))).
  pose proof (Rmult_le_compat_r _ _ _ H (proj2 W)). lra.
Qed.
Lemma frame_in : forall N L hop i t, (0 < hop)%nat -> (L <= N)%nat -> (i < frame_count N L hop)%nat -> (t < L)%nat -> (i * hop + t < N)%nat.
Proof.
  intros N L hop i t Hh HL Hi Ht. unfold frame_count in Hi. assert (i <= (N - L) / hop)%nat by lia.
  pose proof (Nat.mul_div_le (N - L) hop ltac:(lia)). nia.
Qed.

(** ** the root of a band energy is a seminorm *)
Lemma spec_re_minus : forall n L f g k, spec_re n L g k - spec_re n L f k = spec_re n L (fun t => g t - f t) k.
Proof. intros. unfold spec_re. rewrite <- bigsum_minus. apply bigsum_ext. intros. ring. Qed.
Lemma spec_im_minus : forall n L f g k, spec_im n L g k - spec_im n L f k = spec_im n L (fun t => g t - f t) k.
Proof. intros. unfold spec_im. rewrite <- bigsum_minus. apply bigsum_ext. intros. ring. Qed.
Definition scaled (n L : nat) (f b : nat -> R) (k : nat) : C :=
  (sqrt (b k / INR n) * spec_re n L f k, sqrt (b k / INR n) * spec_im n L f k).
Lemma band_en : forall h n L f b, (0 < n)%nat -> (forall k, (k <= h)%nat -> 0 <= b k) -> spec_band h n L f b = en (S h) (scaled n L f b).
Proof.
  intros h n L f b Hn Hb. unfold spec_band, en. apply bigsum_ext. intros k Hk. unfold scaled, sq, spec_power, spec_sq. cbn [fst snd].
  assert (0 <= b k / INR n) by (apply Rmult_le_pos; [apply Hb; lia|left; apply Rinv_0_lt_compat, lt_0_INR; lia]).
  pose proof (sqrt_sqrt _ H). assert (INR n <> 0) by (apply not_0_INR; lia).
  set (s := sqrt _) in *. transitivity (s * s * (spec_re n L f k ^ 2 + spec_im n L f k ^ 2)); [|ring]. rewrite H0. field. assumption.
Qed.
Lemma band_root_plus : forall h n L f g b, (0 < n)%nat -> (forall k, (k <= h)%nat -> 0 <= b k) ->
  sqrt (spec_band h n L g b) <= sqrt (spec_band h n L f b) + sqrt (spec_band h n L (fun t => g t - f t) b).
Proof.
  intros h n L f g b Hn Hb. rewrite !band_en by assumption.
  assert (K := en_plus (S h) (scaled n L f b) (scaled n L (fun t => g t - f t) b) (sqrt (en (S h) (scaled n L f b))) (sqrt (en (S h) (scaled n L (fun t => g t - f t) b)))
    (sqrt_pos _) (sqrt_pos _)). rewrite !pow2_sqrt in K by apply en_nonneg. specialize (K (Rle_refl _) (Rle_refl _)).
  rewrite (en_ext _ _ (scaled n L g b)) in K.
  - apply sqrt_le_1_alt in K. rewrite sqrt_pow2 in K; [exact K|]. apply Rplus_le_le_0_compat; apply sqrt_pos.
  - intros k _. unfold scaled, Cplus. cbn [fst snd]. rewrite <- spec_re_minus, <- spec_im_minus. f_equal; ring.
Qed.
Lemma spec_sq_min : forall n L f k, spec_sq n L f k = spec_sq n (Nat.min L n) f k.
Proof. intros. unfold spec_sq, spec_re, spec_im. replace (Nat.min (Nat.min L n) n) with (Nat.min L n) by lia. reflexivity. Qed.
(** a band with weights up to b holds at most b times the energy of the frame *)
Lemma band_energy_le : forall h n L f w b, (0 < n)%nat -> (h < n)%nat -> (forall k, (k <= h)%nat -> 0 <= w k <= b) ->
  spec_band h n L f w <= b * bigsum (Nat.min L n) (fun t => f t ^ 2).
Proof.
  intros h n L f w b Hn Hh Hw. pose proof (lt_0_INR n ltac:(lia)) as Pn.
  assert (S0 : forall k, 0 <= spec_sq n L f k) by (intros; apply spec_sq_nonneg).
  apply Rle_trans with (b * (bigsum n (spec_sq n L f) / INR n)).
  - rewrite <- bigsum_div, <- bigsum_scal. replace n with (S h + (n - S h))%nat at 2 by lia. rewrite bigsum_split.
    assert (T : forall k, 0 <= b * (spec_sq n L f k / INR n)).
    { intros k. apply Rmult_le_pos; [destruct (Hw 0%nat ltac:(lia)); lra|]. apply Rmult_le_pos; [apply S0|left; apply Rinv_0_lt_compat, Pn]. }
    assert (0 <= bigsum (n - S h) (fun i => b * (spec_sq n L f (S h + i) / INR n))) by (apply bigsum_nonneg; intros; apply T).
    assert (spec_band h n L f w <= bigsum (S h) (fun k => b * (spec_sq n L f k / INR n))); [|lra].
    apply bigsum_le. intros k Hk. unfold spec_power. rewrite Rmult_comm. apply Rmult_le_compat_r; [|apply Hw; lia].
    apply Rmult_le_pos; [apply S0|left; apply Rinv_0_lt_compat, Pn].
  - rewrite (bigsum_ext n _ _ (fun k _ => spec_sq_min n L f k)). rewrite parseval_full by lia. right. field. lra.
Qed.
Lemma half_lt : forall z, (1 <= z)%Z -> (half z < Z.to_nat z)%nat.
Proof. intros z Hz. rewrite half_nat by lia. apply Nat.div_lt; lia. Qed.
(** the band energies of two recordings that differ by at most d *)
Lemma band_apart : forall a co N L hop z b w x x2 d i, (0 < hop)%nat -> (1 <= L <= N)%nat -> (1 <= z)%Z -> (forall k, (k <= half z)%nat -> 0 <= w k <= b) -> apart N d x x2 ->
  (i < frame_count N L hop)%nat ->
  Rabs (sqrt (spec_band (half z) (Z.to_nat z) L (frame_of a co L hop x2 i) w) - sqrt (spec_band (half z) (Z.to_nat z) L (frame_of a co L hop x i) w))
  <= noise_level (s_pre_emph a) co b L d.
Proof.
  intros a co N L hop z b w x x2 d i Hh HL Hz Hw Hd Hi. pose proof (half_lt z Hz) as Hlt. set (h := half z) in *. set (n := Z.to_nat z) in *.
  assert (Hd0 : 0 <= d) by (eapply Rle_trans; [apply Rabs_pos|apply (Hd 0%nat); lia]).
  assert (Hb0 : 0 <= b) by (destruct (Hw 0%nat ltac:(lia)); lra).
  assert (K : forall y y2, apart N d y y2 ->
    sqrt (spec_band h n L (frame_of a co L hop y2 i) w) <= sqrt (spec_band h n L (frame_of a co L hop y i) w) + noise_level (s_pre_emph a) co b L d).
  { intros y y2 Hy. eapply Rle_trans; [apply (band_root_plus h n L (frame_of a co L hop y i)); [lia|apply Hw]|]. apply Rplus_le_compat_l.
    set (m := (if s_pre_emph a then 1 + Rabs co else 1) * d).
    assert (M : 0 <= m). { apply Rmult_le_pos; [|exact Hd0]. pose proof (Rabs_pos co). destruct (s_pre_emph a); lra. }
    unfold noise_level. fold m. rewrite <- (sqrt_pow2 m) by exact M. rewrite <- sqrt_mult_alt by (apply Rmult_le_pos; [exact Hb0|apply pos_INR]).
    apply sqrt_le_1_alt. eapply Rle_trans; [apply (band_energy_le h n L _ w b); [lia|exact Hlt|exact Hw]|].
    rewrite Rmult_assoc. apply Rmult_le_compat_l; [exact Hb0|].
    apply Rle_trans with (INR (Nat.min L n) * m ^ 2); [|apply Rmult_le_compat_r; [apply pow2_ge_0|apply le_INR; lia]].
    rewrite <- bigsum_const. apply bigsum_le. intros t Ht. rewrite frame_minus. rewrite <- (pow2_abs (frame_of _ _ _ _ _ _ _)). apply pow_incr. split; [apply Rabs_pos|].
    apply (frame_small a co N); [exact Hd0|exact Hy|lia|]. apply (frame_in N L); lia. }
  pose proof (K x x2 Hd) as K1. assert (Hd' : apart N d x2 x). { intros t Ht. rewrite Rabs_minus_sym. apply Hd, Ht. }
  pose proof (K x2 x Hd') as K2. apply Rabs_le. lra.
Qed.
(** a single bin *)
Lemma mag_apart : forall a co N L hop n x x2 d i k, (0 < hop)%nat -> (1 <= L <= N)%nat -> apart N d x x2 -> (i < frame_count N L hop)%nat ->
  Rabs (spec_mag n L (frame_of a co L hop x2 i) k - spec_mag n L (frame_of a co L hop x i) k) <= INR L * ((if s_pre_emph a then 1 + Rabs co else 1) * d).
Proof.
  intros a co N L hop n x x2 d i k Hh HL Hd Hi.
  assert (Hd0 : 0 <= d) by (eapply Rle_trans; [apply Rabs_pos|apply (Hd 0%nat); lia]).
  set (m := (if s_pre_emph a then 1 + Rabs co else 1) * d).
  assert (M : 0 <= m). { apply Rmult_le_pos; [|exact Hd0]. pose proof (Rabs_pos co). destruct (s_pre_emph a); lra. }
  assert (K : forall y y2, apart N d y y2 -> spec_mag n L (frame_of a co L hop y2 i) k <= spec_mag n L (frame_of a co L hop y i) k + INR L * m).
  { intros y y2 Hy. set (f := frame_of a co L hop y i). set (g := frame_of a co L hop y2 i).
    unfold spec_mag, spec_sq.
    assert (E1 : forall f', spec_re n L f' k ^ 2 + spec_im n L f' k ^ 2 = Cmod (spec_re n L f' k, spec_im n L f' k) ^ 2).
    { intros. unfold Cmod. cbn [fst snd]. rewrite pow2_sqrt; [reflexivity|]. apply Rplus_le_le_0_compat; apply pow2_ge_0. }
    rewrite !E1, !sqrt_pow2 by apply Cmod_ge_0.
    replace (spec_re n L g k, spec_im n L g k) with (Cplus (spec_re n L f k, spec_im n L f k) (spec_re n L (fun t => g t - f t) k, spec_im n L (fun t => g t - f t) k)).
    2:{ unfold Cplus. cbn [fst snd]. rewrite <- spec_re_minus, <- spec_im_minus. f_equal; ring. }
    eapply Rle_trans; [apply Cmod_triangle|]. apply Rplus_le_compat_l.
    apply Rle_trans with (INR (Nat.min L n) * m); [|apply Rmult_le_compat_r; [exact M|apply le_INR; lia]].
    assert (T : forall T, (T <= L)%nat -> Cmod (bigsum T (fun t => (g t - f t) * cos (2 * PI * INR (t * k) / INR n)), bigsum T (fun t => (g t - f t) * - sin (2 * PI * INR (t * k) / INR n))) <= INR T * m).
    { induction T as [|T IH]; intros HT.
      - cbn [bigsum INR]. rewrite Rmult_0_l. right. apply Cmod_0.
      - rewrite !bigsum_S, S_INR. set (t1 := 2 * PI * INR (T * k) / INR n).
        match goal with |- Cmod (?u + ?v, ?u' + ?v') <= _ => change (Cmod (Cplus (u, u') (v, v')) <= (INR T + 1) * m) end.
        eapply Rle_trans; [apply Cmod_triangle|]. rewrite Rmult_plus_distr_r, Rmult_1_l. apply Rplus_le_compat; [apply IH; lia|].
        unfold Cmod. cbn [fst snd]. replace (((g T - f T) * cos t1) ^ 2 + ((g T - f T) * - sin t1) ^ 2) with ((g T - f T) ^ 2 * (Rsqr (sin t1) + Rsqr (cos t1))) by (unfold Rsqr; ring).
        rewrite sin2_cos2, Rmult_1_r, <- Rsqr_pow2, sqrt_Rsqr_abs. unfold f, g. rewrite frame_minus.
        apply (frame_small a co N); [exact Hd0|exact Hy|lia|]. apply (frame_in N L); lia. }
    apply T. lia. }
  pose proof (K x x2 Hd) as K1. assert (Hd' : apart N d x2 x). { intros t Ht. rewrite Rabs_minus_sym. apply Hd, Ht. }
  pose proof (K x2 x Hd') as K2. apply Rabs_le. lra.
Qed.

(** ** compression *)
Lemma root_double : forall p v, 0 <= v -> spec_root p v = spec_root (2 * p) (sqrt v).
Proof.
  intros p v Hv. unfold spec_root. destruct (Req_EM_T v 0) as [->|V].
  - rewrite sqrt_0. destruct (Req_EM_T 0 0); [reflexivity|lra].
  - assert (P : 0 < v) by lra. pose proof (sqrt_lt_R0 v P) as S. destruct (Req_EM_T (sqrt v) 0); [lra|].
    unfold Rpower. f_equal. rewrite <- (sqrt_sqrt v) at 1 by lra. rewrite ln_mult by exact S. ring.
Qed.
Lemma root_mono : forall s u v, 0 < s -> 0 <= u <= v -> spec_root s u <= spec_root s v.
Proof.
  intros s u v Hs H. unfold spec_root. destruct (Req_EM_T u 0), (Req_EM_T v 0); try lra.
  - unfold Rpower. left. apply exp_pos.
  - apply Rle_Rpower_l; lra.
Qed.
Lemma root_plus : forall s u v, 0 < s <= 1 -> 0 <= u -> 0 <= v -> spec_root s (u + v) <= spec_root s u + spec_root s v.
Proof.
  intros s u v Hs Hu Hv.
  destruct (Req_dec u 0) as [->|U]; [rewrite Rplus_0_l; pose proof (spec_root_nonneg s 0); lra|].
  destruct (Req_dec v 0) as [->|V]; [rewrite Rplus_0_r; pose proof (spec_root_nonneg s 0); lra|].
  assert (K : forall a, 0 < a <= u + v -> a / (u + v) * Rpower (u + v) s <= Rpower a s).
  { intros a Ha. unfold Rpower. rewrite <- (exp_ln (a / (u + v))) at 1 by (apply Rdiv_lt_0_compat; lra). rewrite <- exp_plus.
    assert (L : forall p q, p <= q -> exp p <= exp q) by (intros p q [H | H]; [left; apply exp_increasing, H|right; f_equal; exact H]).
    apply L. unfold Rdiv. rewrite ln_mult, ln_Rinv by (try apply Rinv_0_lt_compat; lra).
    assert (ln a <= ln (u + v)) by (apply Rcomplements.ln_le; lra).
    pose proof (Rmult_le_compat_l (1 - s) (ln a) (ln (u + v)) ltac:(lra) H). lra. }
  unfold spec_root. destruct (Req_EM_T u 0), (Req_EM_T v 0), (Req_EM_T (u + v) 0); try lra.
  pose proof (K u ltac:(lra)) as K1. pose proof (K v ltac:(lra)) as K2.
  assert (u / (u + v) * Rpower (u + v) s + v / (u + v) * Rpower (u + v) s = Rpower (u + v) s) by (field; lra). lra.
Qed.
(** roots do not amplify more than a power *)
Lemma root_apart : forall p q v v2, 0 < p <= / 2 -> 0 <= v -> 0 <= v2 -> Rabs (sqrt v2 - sqrt v) <= q ->
  Rabs (spec_root p v2 - spec_root p v) <= spec_root (2 * p) q.
Proof.
  intros p q v v2 Hp Hv Hv2 Hq. rewrite !(root_double p) by assumption. apply Rcomplements.Rabs_le_between in Hq.
  assert (Hq0 : 0 <= q) by lra. pose proof (sqrt_pos v). pose proof (sqrt_pos v2).
  pose proof (root_mono (2 * p) (sqrt v2) (sqrt v + q) ltac:(lra) ltac:(lra)). pose proof (root_plus (2 * p) (sqrt v) q ltac:(lra) ltac:(lra) Hq0).
  pose proof (root_mono (2 * p) (sqrt v) (sqrt v2 + q) ltac:(lra) ltac:(lra)). pose proof (root_plus (2 * p) (sqrt v2) q ltac:(lra) ltac:(lra) Hq0).
  apply Rabs_le. lra.
Qed.
(** logarithms of energies well above the difference *)
Lemma ln_apart : forall r q v v2, 0 <= r < 1 -> 0 < v -> 0 <= v2 -> q <= r * sqrt v -> Rabs (sqrt v2 - sqrt v) <= q ->
  lnear (2 * - ln (1 - r)) v v2.
Proof.
  intros r q v v2 Hr Hv Hv2 Hq H. pose proof (sqrt_lt_R0 v Hv) as S.
  assert (A : lnear (- ln (1 - r)) (sqrt v) (sqrt v2)) by (apply lnear_relative; [exact Hr|exact S|lra]).
  apply (lnear_pow _ _ _ 2) in A. replace (INR 2) with 2 in A by (cbn [INR]; ring). rewrite !pow2_sqrt in A by lra. exact A.
Qed.
Lemma loudness_lnear : forall l w b, lnear l w b -> lnear (16 / 3 * l) (spec_loudness w) (spec_loudness b).
Proof.
  intros l w b H. destruct H as (Hw & Hb & H).
  destruct (loudness_near exact_env 0 0 (fun k z => z ^ k) (spec_root (1 / 3))) with (l := l) (w := w) (b := b) (Y := Rabs (ln (spec_loudness w))) as (_ & K).
  - split; [lra|]. split; [lra|]. intros x. cbn [rnd exact_env]. rewrite Rminus_diag_eq, Rabs_R0 by reflexivity. lra.
  - lra.
  - split; [lra|]. split.
    + intros k. split; [lra|]. intros x Hx. rewrite Rpower_pow by exact Hx. rewrite Rminus_diag_eq, Rabs_R0 by reflexivity. lra.
    + split; [lra|]. intros x Hx. cbn [rnd exact_env]. unfold spec_root. destruct (Req_EM_T x 0); [lra|]. rewrite Rminus_diag_eq, Rabs_R0 by reflexivity. lra.
  - split; [exact Hw|]. split; [exact Hb|exact H].
  - apply Rle_refl.
  - rewrite loudness_exact in K by auto. eapply lnear_le; [exact K|]. unfold loud_log_bound. rewrite Rminus_0_r, ln_1. lra.
Qed.
Lemma log_lnear : forall l v v2, lnear l v v2 -> Rabs (spec_log v - spec_log v2) <= l.
Proof.
  intros l v v2 (A & B & C). unfold spec_log. destruct (Req_EM_T v 0), (Req_EM_T v2 0); try lra. rewrite Rabs_minus_sym. exact C.
Qed.
Lemma sqdist_le : forall n f g e, (forall j, (j < n)%nat -> Rabs (f j - g j) <= e) -> sqdist n f g <= INR n * e ^ 2.
Proof.
  intros n f g e H. unfold sqdist. rewrite <- bigsum_const. apply bigsum_le. intros j Hj. rewrite <- pow2_abs. apply pow_incr. split; [apply Rabs_pos|apply H, Hj].
Qed.
(** ** spectrograms *)
Theorem spectrogram_apart : forall (E : Env) s a N L hop n B b x x2 d,
  @well_framed E a N L hop -> (1 <= s_nfft a)%Z -> (0 < n)%nat ->
  @spectro_bank E s a = Ok (fmat n (S (half (s_nfft a))) B) -> (forall j k, (j < n)%nat -> (k <= half (s_nfft a))%nat -> 0 <= B j k <= b) -> apart N d x x2 ->
  exists P Q P2 Q2,
    @spectrogram E s (fvec N x) a = Ok (fmat (frame_count N L hop) n P, fmat (frame_count N L hop) (S (half (s_nfft a))) Q) /\
    @spectrogram E s (fvec N x2) a = Ok (fmat (frame_count N L hop) n P2, fmat (frame_count N L hop) (S (half (s_nfft a))) Q2) /\
    forall i, (i < frame_count N L hop)%nat ->
      (forall j, (j < n)%nat -> Rabs (sqrt (P2 i j) - sqrt (P i j)) <= noise_level (s_pre_emph a) (spectro_coeff s a) b L d) /\
      (forall k, Rabs (Q2 i k - Q i k) <= INR L * ((if s_pre_emph a then 1 + Rabs (spectro_coeff s a) else 1) * d)).
Proof.
  intros E s a N L hop n B b x x2 d Hw Hn Hn0 HB Hb Hd.
  do 4 eexists. split; [apply (@spectrogram_fvec E); eauto; lia|]. split; [apply (@spectrogram_fvec E); eauto; lia|].
  intros i Hi. cbv beta. unfold well_framed in Hw. split.
  - intros j Hj. apply (band_apart a _ N); try tauto; try lia. intros k Hk. apply Hb; assumption.
  - intros k. apply (mag_apart a _ N); try tauto.
Qed.
(** ** cepstra *)
Section Run.
Context (E : Env) (e : extractor) (a : sargs) (c : cargs) (N L hop n : nat) (B : nat -> nat -> R) (b : R) (x x2 : nat -> R) (d : R).
Hypothesis Hw : @well_framed E a N L hop.
Hypothesis Hn : (1 <= s_nfft a)%Z.
Hypothesis Hn0 : (0 < n)%nat.
Hypothesis HB : @extractor_bank E e a = Ok (fmat n (S (half (s_nfft a))) B).
Hypothesis Hb : forall j k, (j < n)%nat -> (k <= half (s_nfft a))%nat -> 0 <= B j k <= b.
Hypothesis Hd : apart N d x x2.
Hypothesis Hnc : (0 <= c_num_ceps c <= s_nfilts a)%Z.
Hypothesis Ht : (1 <= c_dct_type c <= 4)%Z.
Hypothesis H1 : c_dct_type c = 1%Z -> (2 <= n)%nat.
Hypothesis Hl : no_lifter c.
Hypothesis Hm : no_normalisation c.
Let K := Nat.min (Z.to_nat (c_num_ceps c)) n.
Let band z i j := spec_band (half (s_nfft a)) (Z.to_nat (s_nfft a)) L (frame_of a (extractor_coeff e a) L hop z i) (B j).
Let q := noise_level (s_pre_emph a) (extractor_coeff e a) b L d.

Lemma band_ok : forall z i j, (j < n)%nat -> 0 <= band z i j.
Proof. intros. apply spec_band_nonneg; [lia|]. intros. apply Hb; assumption. Qed.
Lemma bands_apart : forall i j, (i < frame_count N L hop)%nat -> (j < n)%nat -> Rabs (sqrt (band x2 i j) - sqrt (band x i j)) <= q.
Proof. intros i j Hi Hj. unfold well_framed in Hw. apply (band_apart a _ N); try tauto; try lia. intros k Hk. apply Hb; assumption. Qed.
Lemma rows_apart : c_use_energy c = false -> (forall z i j, (j < n)%nat -> compressible e (band z i j)) ->
  exists y y2, @run E e (fvec N x) a c = Ok (fmat (frame_count N L hop) K y) /\ @run E e (fvec N x2) a c = Ok (fmat (frame_count N L hop) K y2) /\
    forall i l, (forall j, (j < n)%nat -> Rabs (compression e (band x i j) - compression e (band x2 i j)) <= l) -> sqdist K (y i) (y2 i) <= INR n * l ^ 2.
Proof.
  intros Hu Hc. destruct (@run_distance E e a c N L hop n B x x2 Hw Hn Hn0 HB) as (y & y2 & Y & Y2 & D); auto.
  - intros i j _ Hj. split; apply Hc, Hj.
  - exists y, y2. split; [exact Y|]. split; [exact Y2|]. intros i l H. destruct (D i i) as [D1 _]. eapply Rle_trans; [exact D1|].
    apply sqdist_le. exact H.
Qed.
Lemma log_apart : In e [Mfcc; Imfcc; Lfcc; Ngcc] -> c_use_energy c = false ->
  exists y y2, @run E e (fvec N x) a c = Ok (fmat (frame_count N L hop) K y) /\ @run E e (fvec N x2) a c = Ok (fmat (frame_count N L hop) K y2) /\
    forall i r, (i < frame_count N L hop)%nat -> 0 <= r < 1 -> (forall j, (j < n)%nat -> 0 < band x i j /\ q <= r * sqrt (band x i j)) ->
      sqdist K (y i) (y2 i) <= INR n * (2 * - ln (1 - r)) ^ 2.
Proof.
  intros He Hu. destruct rows_apart as (y & y2 & Y & Y2 & D); [exact Hu| |].
  - intros z i j Hj. pose proof (band_ok z i j Hj). destruct He as [<-|[<-|[<-|[<-|[]]]]]; assumption.
  - exists y, y2. split; [exact Y|]. split; [exact Y2|]. intros i r Hi Hr H. apply D. intros j Hj. destruct (H j Hj) as [H2 H3].
    assert (C : forall v, compression e v = spec_log v) by (destruct He as [<-|[<-|[<-|[<-|[]]]]]; reflexivity). rewrite !C.
    apply log_lnear. apply (ln_apart r q); try assumption; [apply band_ok, Hj|apply bands_apart; assumption].
Qed.
Lemma bfcc_apart : e = Bfcc -> c_use_energy c = false ->
  exists y y2, @run E e (fvec N x) a c = Ok (fmat (frame_count N L hop) K y) /\ @run E e (fvec N x2) a c = Ok (fmat (frame_count N L hop) K y2) /\
    forall i r, (i < frame_count N L hop)%nat -> 0 <= r < 1 -> (forall j, (j < n)%nat -> 0 < band x i j /\ q <= r * sqrt (band x i j)) ->
      sqdist K (y i) (y2 i) <= INR n * (32 / 3 * - ln (1 - r)) ^ 2.
Proof.
  intros He Hu. destruct rows_apart as (y & y2 & Y & Y2 & D); [exact Hu| |].
  - intros z i j _. rewrite He. exact I.
  - exists y, y2. split; [exact Y|]. split; [exact Y2|]. intros i r Hi Hr H. apply D. intros j Hj. destruct (H j Hj) as [H2 H3].
    rewrite He. cbn [compression]. apply log_lnear. replace (32 / 3 * - ln (1 - r)) with (16 / 3 * (2 * - ln (1 - r))) by lra. apply loudness_lnear.
    apply (ln_apart r q); try assumption; [apply band_ok, Hj|apply bands_apart; assumption].
Qed.
Lemma roots_apart : forall p, root_exponent e p -> 0 < p <= / 2 -> c_use_energy c = false ->
  exists y y2, @run E e (fvec N x) a c = Ok (fmat (frame_count N L hop) K y) /\ @run E e (fvec N x2) a c = Ok (fmat (frame_count N L hop) K y2) /\
    forall i, (i < frame_count N L hop)%nat -> sqdist K (y i) (y2 i) <= INR n * spec_root (2 * p) q ^ 2.
Proof.
  intros p He Hp Hu. destruct rows_apart as (y & y2 & Y & Y2 & D); [exact Hu| |].
  - intros z i j Hj. pose proof (band_ok z i j Hj). destruct He as [[-> _]|[-> _]]; cbn [compressible]; [assumption|]. right. right. split; [assumption|lra].
  - exists y, y2. split; [exact Y|]. split; [exact Y2|]. intros i Hi. apply D. intros j Hj.
    assert (C : forall v, compression e v = spec_root p v).
    { intros v. destruct He as [[-> ->]|[-> H]]; [reflexivity|]. cbn [compression]. destruct (Req_EM_T p 0); [contradiction|reflexivity]. }
    rewrite !C, Rabs_minus_sym. apply root_apart; [exact Hp|apply band_ok, Hj|apply band_ok, Hj|apply bands_apart; assumption].
Qed.
(** the log energy of a frame *)
Lemma energy_apart : c_use_energy c = true -> (0 < c_num_ceps c)%Z -> (forall z i j, (j < n)%nat -> compressible e (band z i j)) ->
  exists y y2, @run E e (fvec N x) a c = Ok (fmat (frame_count N L hop) K y) /\ @run E e (fvec N x2) a c = Ok (fmat (frame_count N L hop) K y2) /\
    forall i r, (i < frame_count N L hop)%nat -> 0 <= r < 1 ->
      let total := spec_total (half (s_nfft a)) (Z.to_nat (s_nfft a)) L (frame_of a (extractor_coeff e a) L hop x i) in
      0 < total -> noise_level (s_pre_emph a) (extractor_coeff e a) 1 L d <= r * sqrt total ->
      Rabs (y2 i 0%nat - y i 0%nat) <= 2 * - ln (1 - r).
Proof.
  intros Hu Hnc0 Hc. do 2 eexists. split; [|split].
  - apply (@run_fvec E) with (B := B); try assumption; try lia. intros i j _ Hj. apply (Hc _ i j Hj).
  - apply (@run_fvec E) with (B := B); try assumption; try lia. intros i j _ Hj. apply (Hc _ i j Hj).
  - intros i r Hi Hr total Hp Hq. cbv beta zeta. rewrite Hu. cbn [andb Nat.eqb].
    assert (T : forall f, spec_total (half (s_nfft a)) (Z.to_nat (s_nfft a)) L f = spec_band (half (s_nfft a)) (Z.to_nat (s_nfft a)) L f (fun _ => 1)).
    { intros f. unfold spec_total, spec_band. apply bigsum_ext. intros. ring. }
    fold total. rewrite Rabs_minus_sym. apply log_lnear. apply (ln_apart r (noise_level (s_pre_emph a) (extractor_coeff e a) 1 L d)); try assumption.
    + rewrite T. apply spec_band_nonneg; [lia|]. intros. lra.
    + unfold total. rewrite !T. unfold well_framed in Hw. apply (band_apart a _ N); try tauto; try lia. intros k. lra.
Qed.
End Run.
