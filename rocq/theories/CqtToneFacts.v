(** * Proofs for C193: pure tones in the constant-Q transform *)
From Coq Require Import Reals ZArith List String Bool Lia Lra Psatz.
From Coquelicot Require Import Complex.
From Coquelicot Require Rcomplements.
From Verif Require Import Base BaseFacts SpecBase BigSum SpecMat MatFacts Preprocessing PreprocessingFacts Features SpecFeatures Extractors FeaturesFacts SpecSpectral Cplx Cqt SpecCqt CqtFacts WindowFacts SpecTone ToneFacts ColourFacts PhaseNearFacts SpecCqtSeen SpecCqtTone.
Import ListNotations.
Local Open Scope R_scope.

(** ** Summation by parts *)
Lemma by_parts : forall n (u T : nat -> R), bigsum (S n) (fun t => u t * (T (S t) - T t))
  = u n * T (S n) - u 0%nat * T 0%nat - bigsum n (fun t => (u (S t) - u t) * T (S t)).
Proof.
  induction n; intros u T; [cbn [bigsum]; ring|]. rewrite bigsum_S, IHn, (bigsum_S n). ring.
Qed.
Definition varies (n : nat) (u : nat -> R) : R := u 0%nat + bigsum n (fun t => Rabs (u (S t) - u t)) + u n.
Lemma parts_bound : forall n u T M, 0 <= u 0%nat -> 0 <= u n -> (forall t, Rabs (T t) <= M) ->
  Rabs (bigsum (S n) (fun t => u t * (T (S t) - T t))) <= varies n u * M.
Proof.
  intros n u T M H0 Hn HT. rewrite by_parts. unfold varies.
  assert (B : Rabs (bigsum n (fun t => (u (S t) - u t) * T (S t))) <= bigsum n (fun t => Rabs (u (S t) - u t)) * M).
  { rewrite <- bigsum_scal_r. eapply Rle_trans; [apply bigsum_Rabs|]. apply bigsum_le. intros t _. rewrite Rabs_mult. apply Rmult_le_compat_l; [apply Rabs_pos|apply HT]. }
  assert (B0 : Rabs (u 0%nat * T 0%nat) <= u 0%nat * M) by (rewrite Rabs_mult, (Rabs_pos_eq (u 0%nat)) by auto; apply Rmult_le_compat_l; auto).
  assert (Bn : Rabs (u n * T (S n)) <= u n * M) by (rewrite Rabs_mult, (Rabs_pos_eq (u n)) by auto; apply Rmult_le_compat_l; auto).
  set (x := u n * T (S n)) in *. set (y := u 0%nat * T 0%nat) in *. set (z := bigsum n (fun t => (u (S t) - u t) * T (S t))) in *.
  replace (x - y - z) with (x + (- y + - z)) by ring. eapply Rle_trans; [apply Rabs_triang|]. pose proof (Rabs_triang (- y) (- z)) as T2. rewrite !Rabs_Ropp in T2. lra.
Qed.
Lemma osc_varies : forall n u th c s, 0 <= u 0%nat -> 0 <= u n -> c * c + s * s = 1 -> sin (th / 2) <> 0 ->
  Rabs (bigsum (S n) (fun t => u t * osc th c s t)) <= varies n u / (2 * Rabs (sin (th / 2))).
Proof.
  intros n u th c s H0 Hn H1 Hs. assert (P : 0 < Rabs (sin (th / 2))) by (apply Rabs_pos_lt; auto).
  set (T := fun t => (c * sin (th * INR t - th / 2) - s * cos (th * INR t - th / 2)) / (2 * sin (th / 2))).
  rewrite (bigsum_ext (S n) _ (fun t => u t * (T (S t) - T t))).
  - apply parts_bound; auto. intros t. unfold T, Rdiv. rewrite Rabs_mult, Rabs_inv, Rabs_mult, (Rabs_pos_eq 2) by lra.
    rewrite <- (Rmult_1_l (/ (2 * Rabs (sin (th * / 2))))) at 2. apply Rmult_le_compat_r; [left; apply Rinv_0_lt_compat; change (th * / 2) with (th / 2); lra|].
    apply unit_dot; [exact H1|apply sin_cos_1].
  - intros t _. f_equal. pose proof (osc_sum th c s t 1) as E. cbn [bigsum] in E. rewrite Nat.add_0_r, Rplus_0_l, Nat.add_1_r in E. unfold T.
    apply Rmult_eq_reg_l with (2 * sin (th / 2)); [|lra]. rewrite E. field. lra.
Qed.
(** ** a window inside of another one *)
Lemma total_change : forall L v K, (forall t, (L <= t)%nat -> v t = 0) -> (1 <= L)%nat -> 0 <= v (L - 1)%nat ->
  bigsum K (fun t => Rabs (v (S t) - v t)) <= bigsum (L - 1) (fun t => Rabs (v (S t) - v t)) + v (L - 1)%nat.
Proof.
  intros L v K Hv HL H0. assert (Nn : forall m f, 0 <= bigsum m (fun t => Rabs (f t))) by (intros; apply bigsum_nonneg; intros; apply Rabs_pos).
  destruct (le_lt_dec K (L - 1)) as [H|H].
  - replace (L - 1)%nat with (K + (L - 1 - K))%nat at 1 by lia. rewrite bigsum_split. pose proof (Nn (L - 1 - K)%nat (fun i => v (S (K + i)) - v (K + i)%nat)). lra.
  - replace K with (L - 1 + (1 + (K - L)))%nat by lia. rewrite bigsum_split. apply Rplus_le_compat_l. rewrite bigsum_split. cbn [bigsum]. rewrite Nat.add_0_r, Rplus_0_l.
    rewrite (Hv (S (L - 1))) by lia. rewrite (bigsum_ext (K - L) _ (fun _ => 0)), bigsum_const.
    + rewrite Rminus_0_l, Rabs_Ropp, Rabs_pos_eq by auto. lra.
    + intros i _. rewrite !Hv by lia. rewrite Rminus_0_r, Rabs_R0. reflexivity.
Qed.
Lemma shifted_change : forall s n (v : nat -> R), bigsum n (fun t => Rabs (v (s + S t)%nat - v (s + t)%nat)) <= bigsum (s + n) (fun t => Rabs (v (S t) - v t)).
Proof.
  intros s n v. rewrite bigsum_split. rewrite (bigsum_ext n _ (fun t => Rabs (v (S (s + t)) - v (s + t)%nat))) by (intros t _; replace (s + S t)%nat with (S (s + t)) by lia; reflexivity).
  assert (0 <= bigsum s (fun t => Rabs (v (S t) - v t))) by (apply bigsum_nonneg; intros; apply Rabs_pos). lra.
Qed.
Definition seen_window (wt : string) (L N s t : nat) : R := spec_window wt N t * padded L (spec_window wt L) (s + t).
Lemma padded_bounds : forall wt L t, 0 <= padded L (spec_window wt L) t <= 1.
Proof. intros. unfold padded. destruct (Nat.ltb_spec t L); [apply spec_window_bounds; auto|lra]. Qed.
Lemma seen_nonneg : forall wt L N s t, (t < N)%nat -> 0 <= seen_window wt L N s t.
Proof. intros. unfold seen_window. apply Rmult_le_pos; [apply spec_window_bounds; auto|apply padded_bounds]. Qed.
Lemma seen_varies : forall wt L n s, (1 <= L)%nat -> varies n (seen_window wt L (S n) s) <= 4.
Proof.
  intros wt L n s HL. unfold varies, seen_window. set (w := spec_window wt (S n)). set (v := padded L (spec_window wt L)).
  assert (V1 : forall t, 0 <= v t <= 1) by (intros; apply padded_bounds). assert (W1 : forall t, (t <= n)%nat -> 0 <= w t <= 1) by (intros; apply spec_window_bounds; lia).
  pose proof (window_variation wt n) as WV. cbv zeta in WV. fold w in WV.
  assert (VV : bigsum n (fun t => Rabs (v (s + S t)%nat - v (s + t)%nat)) <= 2).
  { eapply Rle_trans; [apply shifted_change|]. eapply Rle_trans; [apply (total_change L v (s + n)); [intros; unfold v, padded; destruct (Nat.ltb_spec t L); [lia|auto]|auto|apply V1]|].
    destruct L as [|L']; [lia|]. replace (S L' - 1)%nat with L' by lia. pose proof (window_variation wt L') as X. cbv zeta in X. pose proof (proj1 (spec_window_bounds wt (S L') 0 ltac:(lia))).
    rewrite (bigsum_ext L' _ (fun t => Rabs (spec_window wt (S L') (S t) - spec_window wt (S L') t))).
    - unfold v, padded. destruct (Nat.ltb_spec L' (S L')); [lra|lia].
    - intros t Ht. unfold v, padded. destruct (Nat.ltb_spec (S t) (S L')); [|lia]. destruct (Nat.ltb_spec t (S L')); [reflexivity|lia]. }
  assert (D : bigsum n (fun t => Rabs (w (S t) * v (s + S t)%nat - w t * v (s + t)%nat)) <= bigsum n (fun t => Rabs (w (S t) - w t)) + bigsum n (fun t => Rabs (v (s + S t)%nat - v (s + t)%nat))).
  { rewrite <- bigsum_plus. apply bigsum_le. intros t Ht. replace (w (S t) * v (s + S t)%nat - w t * v (s + t)%nat) with ((w (S t) - w t) * v (s + S t)%nat + w t * (v (s + S t)%nat - v (s + t)%nat)) by ring.
    eapply Rle_trans; [apply Rabs_triang|]. rewrite !Rabs_mult. rewrite (Rabs_pos_eq (v (s + S t)%nat)), (Rabs_pos_eq (w t)) by (try apply V1; apply W1; lia).
    pose proof (Rabs_pos (w (S t) - w t)) as A1. pose proof (Rabs_pos (v (s + S t)%nat - v (s + t)%nat)) as A2. pose proof (Rmult_le_compat_l _ _ _ A1 (proj2 (V1 (s + S t)%nat))). pose proof (Rmult_le_compat_r _ _ _ A2 (proj2 (W1 t ltac:(lia)))). lra. }
  pose proof (Rmult_le_compat_l _ _ _ (proj1 (W1 0%nat ltac:(lia))) (proj2 (V1 (s + 0)%nat))). pose proof (Rmult_le_compat_l _ _ _ (proj1 (W1 n ltac:(lia))) (proj2 (V1 (s + n)%nat))). lra.
Qed.
(** ** a tone seen through it *)
Lemma tone_product : forall al be ph c s t, cos (al * INR t + ph) * (c * cos (be * INR t) - s * sin (be * INR t))
  = / 2 * osc (al - be) (cos ph * c + sin ph * s) (cos ph * s - sin ph * c) t + / 2 * osc (al + be) (cos ph * c - sin ph * s) (- (cos ph * s + sin ph * c)) t.
Proof. intros. unfold osc. rewrite !Rmult_plus_distr_r, Rmult_minus_distr_r, !cos_plus, cos_minus, sin_plus, sin_minus. field. Qed.
Lemma turn_unit : forall p q c s, p * p + q * q = 1 -> c * c + s * s = 1 ->
  (p * c + q * s) * (p * c + q * s) + (p * s - q * c) * (p * s - q * c) = 1 /\ (p * c - q * s) * (p * c - q * s) + - (p * s + q * c) * - (p * s + q * c) = 1.
Proof.
  intros p q c s H1 H2. split.
  - transitivity ((p * p + q * q) * (c * c + s * s)); [ring|rewrite H1, H2; ring].
  - transitivity ((p * p + q * q) * (c * c + s * s)); [ring|rewrite H1, H2; ring].
Qed.
Section Seen.
Variables (wt : string) (L N s0 : nat) (al be ph : R).
Hypothesis HL : (1 <= L)%nat.
Hypothesis HN : (1 <= N)%nat.
Let u := seen_window wt L N s0.
Let S0 (c s : R) : R := bigsum N (fun t => u t * (cos (al * INR t + ph) * (c * cos (be * INR t) - s * sin (be * INR t)))).
Lemma one_osc : forall th c s, c * c + s * s = 1 -> sin (th / 2) <> 0 -> Rabs (bigsum N (fun t => u t * osc th c s t)) <= 2 / Rabs (sin (th / 2)).
Proof.
  intros th c s H1 Hs. destruct N as [|n] eqn:EN; [lia|]. assert (P : 0 < Rabs (sin (th / 2))) by (apply Rabs_pos_lt; auto).
  eapply Rle_trans; [apply osc_varies; auto; apply seen_nonneg; lia|]. pose proof (seen_varies wt L n s0 HL) as V.
  replace (2 / Rabs (sin (th / 2))) with (4 / (2 * Rabs (sin (th / 2)))) by (field; lra). apply Rmult_le_compat_r; [left; apply Rinv_0_lt_compat; lra|exact V].
Qed.
Lemma split_tone : forall c s, S0 c s = / 2 * bigsum N (fun t => u t * osc (al - be) (cos ph * c + sin ph * s) (cos ph * s - sin ph * c) t)
  + / 2 * bigsum N (fun t => u t * osc (al + be) (cos ph * c - sin ph * s) (- (cos ph * s + sin ph * c)) t).
Proof. intros c s. unfold S0. rewrite <- !bigsum_scal, <- bigsum_plus. apply bigsum_ext. intros t _. rewrite tone_product. ring. Qed.
Lemma seen_leak : forall c s, c * c + s * s = 1 -> sin ((al - be) / 2) <> 0 -> sin ((al + be) / 2) <> 0 ->
  Rabs (S0 c s) <= / Rabs (sin ((al - be) / 2)) + / Rabs (sin ((al + be) / 2)).
Proof.
  intros c s H1 Ha Hb. pose proof (sin_cos_1 ph) as HP. rewrite Rplus_comm in HP. destruct (turn_unit _ _ _ _ HP H1) as [U1 U2]. rewrite split_tone.
  pose proof (one_osc _ _ _ U1 Ha) as A. pose proof (one_osc _ _ _ U2 Hb) as B. eapply Rle_trans; [apply Rabs_triang|]. rewrite !Rabs_mult, (Rabs_pos_eq (/ 2)) by lra. unfold Rdiv in A, B at 2. unfold Rdiv in *. lra.
Qed.
Lemma seen_peak : al = be -> sin al <> 0 -> / 2 * bigsum N u - / Rabs (sin al) <= S0 (cos ph) (sin ph).
Proof.
  intros E Hs. pose proof (sin_cos_1 ph) as HP. rewrite Rplus_comm in HP. destruct (turn_unit _ _ _ _ HP HP) as [_ U2]. rewrite split_tone.
  assert (E2 : (al + be) / 2 = al) by lra. assert (Hb : sin ((al + be) / 2) <> 0) by (rewrite E2; exact Hs). pose proof (one_osc _ _ _ U2 Hb) as B. rewrite E2 in B. unfold Rdiv in B.
  rewrite (bigsum_ext N (fun t => u t * osc (al - be) (cos ph * cos ph + sin ph * sin ph) (cos ph * sin ph - sin ph * cos ph) t) u).
  - set (X := bigsum N (fun t => u t * osc (al + be) _ _ t)) in *. assert (- X <= Rabs X) by (rewrite <- Rabs_Ropp; apply Rle_abs). lra.
  - intros t _. unfold osc. rewrite HP, E. replace (be - be) with 0 by ring. rewrite Rmult_0_l, cos_0, sin_0. ring.
Qed.
End Seen.

(** ** rows of the transform *)
Lemma abs_dir : forall a b, exists c s, c * c + s * s = 1 /\ spec_abs a b = a * c + b * s.
Proof.
  intros a b. unfold spec_abs. set (r := sqrt (a ^ 2 + b ^ 2)). assert (Q : 0 <= a ^ 2 + b ^ 2) by (pose proof (pow2_ge_0 a); pose proof (pow2_ge_0 b); lra).
  assert (R2 : r * r = a ^ 2 + b ^ 2) by (apply sqrt_sqrt; exact Q). destruct (Req_dec r 0) as [E|Hr].
  - exists 1, 0. split; [ring|]. pose proof (pow2_ge_0 a). pose proof (pow2_ge_0 b). rewrite E in *. assert (A : a ^ 2 = 0) by lra. assert (a = 0) by (apply Rsqr_0_uniq; rewrite Rsqr_pow2; exact A). subst a. ring.
  - exists (a / r), (b / r). split.
    + transitivity ((a ^ 2 + b ^ 2) / (r * r)); [field; exact Hr|rewrite <- R2; field; exact Hr].
    + transitivity ((a ^ 2 + b ^ 2) / r); [rewrite <- R2; field; exact Hr|field; exact Hr].
Qed.
Lemma abs_ge_dir : forall a b c s, c * c + s * s = 1 -> a * c + b * s <= spec_abs a b.
Proof.
  intros a b c s H1. unfold spec_abs. destruct (Rle_lt_dec (a * c + b * s) 0) as [H|H]; [pose proof (sqrt_pos (a ^ 2 + b ^ 2)); lra|].
  rewrite <- (sqrt_pow2 (a * c + b * s)) by lra. apply sqrt_le_1_alt. replace (a ^ 2 + b ^ 2) with ((a ^ 2 + b ^ 2) * (c * c + s * s)) by (rewrite H1; ring). pose proof (pow2_ge_0 (a * s - b * c)). lra.
Qed.
Section Row.
Variables (wt : string) (fs : Z) (f : R) (N L n : nat) (A nu phi : R).
Hypothesis Hfs : (0 < fs)%Z.
Hypothesis HL : (1 <= L)%nat.
Hypothesis HN : (1 <= N)%nat.
Let s0 := middle n N.
Let x (t : nat) : R := spec_window wt L t * tone A nu phi t.
Let g := f / IZR fs.
Let ph := 2 * PI * nu * INR s0 + phi.
Let Sd (c s : R) : R := bigsum N (fun t => seen_window wt L N s0 t * (cos (2 * PI * nu * INR t + ph) * (c * cos (2 * PI * g * INR t) - s * sin (2 * PI * g * INR t)))).
Lemma brown_dir : forall c s, brown_re wt fs f N s0 (padded L x) * c + brown_im wt fs f N s0 (padded L x) * s = A / INR N * Sd c s.
Proof.
  intros c s. assert (HF : IZR fs <> 0) by (apply not_0_IZR; lia). assert (HP : INR N <> 0) by (apply not_0_INR; lia). unfold brown_re, brown_im, Sd.
  transitivity (/ INR N * (bigsum N (fun t => c * (spec_window wt N t * padded L x (s0 + t) * cos (2 * PI * f * INR t / IZR fs))) + bigsum N (fun t => s * (spec_window wt N t * padded L x (s0 + t) * - sin (2 * PI * f * INR t / IZR fs))))); [rewrite !bigsum_scal; ring|].
  rewrite <- bigsum_plus, <- !bigsum_scal. apply bigsum_ext. intros t _.
  assert (E : padded L x (s0 + t) = padded L (spec_window wt L) (s0 + t) * (A * cos (2 * PI * nu * INR t + ph))).
  { unfold padded, x, tone, ph. destruct (Nat.ltb _ _); [|ring]. do 3 f_equal. rewrite plus_INR. ring. }
  rewrite E. unfold seen_window, g. replace (2 * PI * (f / IZR fs) * INR t) with (2 * PI * f * INR t / IZR fs) by (field; exact HF). field. exact HP.
Qed.
Lemma brown_leak : sin (PI * (nu - g)) <> 0 -> sin (PI * (nu + g)) <> 0 ->
  spec_abs (brown_re wt fs f N s0 (padded L x)) (brown_im wt fs f N s0 (padded L x)) <= Rabs A / INR N * (/ Rabs (sin (PI * (nu - g))) + / Rabs (sin (PI * (nu + g)))).
Proof.
  intros Ha Hb. destruct (abs_dir (brown_re wt fs f N s0 (padded L x)) (brown_im wt fs f N s0 (padded L x))) as (c & s & H1 & ->). rewrite brown_dir. assert (HP : 0 < INR N) by (apply lt_0_INR; lia).
  pose proof (seen_leak wt L N s0 (2 * PI * nu) (2 * PI * g) ph HL HN c s H1) as K.
  replace ((2 * PI * nu - 2 * PI * g) / 2) with (PI * (nu - g)) in K by field. replace ((2 * PI * nu + 2 * PI * g) / 2) with (PI * (nu + g)) in K by field. specialize (K Ha Hb). fold (Sd c s) in K.
  eapply Rle_trans; [apply Rle_abs|]. unfold Rdiv. rewrite !Rabs_mult, (Rabs_pos_eq (/ INR N)) by (left; apply Rinv_0_lt_compat; exact HP).
  apply Rmult_le_compat_l; [apply Rmult_le_pos; [apply Rabs_pos|left; apply Rinv_0_lt_compat; exact HP]|exact K].
Qed.
Lemma brown_peak : g = nu -> sin (2 * PI * nu) <> 0 ->
  Rabs A * (tone_share wt L n N / 2 - / (INR N * Rabs (sin (2 * PI * nu)))) <= spec_abs (brown_re wt fs f N s0 (padded L x)) (brown_im wt fs f N s0 (padded L x)).
Proof.
  intros Hg Hs. assert (HP : 0 < INR N) by (apply lt_0_INR; lia). assert (HQ : 0 < Rabs (sin (2 * PI * nu))) by (apply Rabs_pos_lt; exact Hs).
  pose proof (seen_peak wt L N s0 (2 * PI * nu) (2 * PI * g) ph HL HN ltac:(rewrite Hg; reflexivity) Hs) as K. fold (Sd (cos ph) (sin ph)) in K.
  assert (H1 : cos ph * cos ph + sin ph * sin ph = 1) by (pose proof (sin_cos_1 ph); lra).
  assert (E : tone_share wt L n N / 2 - / (INR N * Rabs (sin (2 * PI * nu))) = / INR N * (/ 2 * bigsum N (seen_window wt L N s0) - / Rabs (sin (2 * PI * nu)))).
  { unfold tone_share. fold s0. change (bigsum N (fun t => spec_window wt N t * padded L (spec_window wt L) (s0 + t))) with (bigsum N (seen_window wt L N s0)). field. split; lra. }
  rewrite E. destruct (Rle_lt_dec 0 A) as [HA|HA].
  - rewrite Rabs_pos_eq by auto. eapply Rle_trans; [|apply (abs_ge_dir _ _ _ _ H1)]. rewrite brown_dir. replace (A / INR N * Sd (cos ph) (sin ph)) with (A * (/ INR N * Sd (cos ph) (sin ph))) by (field; lra). apply Rmult_le_compat_l; [exact HA|]. apply Rmult_le_compat_l; [left; apply Rinv_0_lt_compat; exact HP|exact K].
  - rewrite Rabs_left by auto. assert (H2 : - cos ph * - cos ph + - sin ph * - sin ph = 1) by (rewrite <- H1; ring). eapply Rle_trans; [|apply (abs_ge_dir _ _ _ _ H2)].
    replace (brown_re wt fs f N s0 (padded L x) * - cos ph + brown_im wt fs f N s0 (padded L x) * - sin ph) with (- (brown_re wt fs f N s0 (padded L x) * cos ph + brown_im wt fs f N s0 (padded L x) * sin ph)) by ring.
    rewrite brown_dir. replace (- (A / INR N * Sd (cos ph) (sin ph))) with (- A * (/ INR N * Sd (cos ph) (sin ph))) by (field; lra). apply Rmult_le_compat_l; [lra|]. apply Rmult_le_compat_l; [left; apply Rinv_0_lt_compat; exact HP|exact K].
Qed.
End Row.
Lemma tone_energy : forall wt L n A nu phi, let x := fun t => spec_window wt L t * tone A nu phi t in sqrt (bigsum (Nat.min L n) (fun t => x t ^ 2)) <= Rabs A * sqrt (INR (Nat.min L n)).
Proof.
  intros wt L n A nu phi x. rewrite <- (sqrt_pow2 (Rabs A)) by apply Rabs_pos. rewrite <- sqrt_mult by (try apply pos_INR; apply pow2_ge_0). apply sqrt_le_1_alt. rewrite Rmult_comm, <- bigsum_const. apply bigsum_le. intros t Ht.
  rewrite <- (pow2_abs (x t)). apply pow_incr. split; [apply Rabs_pos|]. unfold x, tone. rewrite !Rabs_mult. pose proof (spec_window_bounds wt L t ltac:(lia)) as W. rewrite (Rabs_pos_eq (spec_window wt L t)) by lra.
  assert (C : Rabs (cos (2 * PI * nu * INR t + phi)) <= 1) by (apply Rabs_le; apply COS_bound). pose proof (Rabs_pos A) as A0. pose proof (Rabs_pos (cos (2 * PI * nu * INR t + phi))) as C0.
  pose proof (Rmult_le_compat_l _ _ _ A0 C) as M1. pose proof (Rmult_le_pos _ _ A0 C0) as M0. pose proof (Rmult_le_compat_r _ _ _ M0 (proj2 W)). lra.
Qed.
(** ** sines and distances *)
Lemma sin_chord : forall y, 0 <= y <= / 2 -> 2 * y <= sin (PI * y).
Proof.
  intros y Hy. pose proof PI_RGT_0 as HP. assert (H2 : PI * y <= PI / 2) by (unfold Rdiv; apply Rmult_le_compat_l; lra). assert (H1 : 0 <= PI * y) by (apply Rmult_le_pos; lra). pose proof (jordan (PI * y) (conj H1 H2)) as J.
  apply Rmult_le_reg_l with PI; [exact HP|]. lra.
Qed.
Lemma sin_near_0 : forall z, Rabs z <= / 2 -> 2 * Rabs z <= Rabs (sin (PI * z)).
Proof.
  intros z Hz. pose proof (sin_chord (Rabs z) (conj (Rabs_pos z) Hz)) as K. unfold Rabs in K at 2. eapply Rle_trans; [exact K|]. destruct (Rcase_abs z).
  - rewrite Ropp_mult_distr_r_reverse, sin_neg, <- Rabs_Ropp. apply Rle_abs.
  - apply Rle_abs.
Qed.
Lemma sin_image_chord : forall nu g, 0 < nu < / 2 -> 0 < g <= / 2 -> 0 < image_distance nu g /\ 2 * image_distance nu g <= Rabs (sin (PI * (nu + g))).
Proof.
  intros nu g Hn Hg. unfold image_distance. split; [apply Rmin_glb_lt; lra|]. eapply Rle_trans; [|apply Rle_abs]. destruct (Rle_lt_dec (nu + g) (/ 2)) as [H|H].
  - rewrite Rmin_left by lra. apply sin_chord. lra.
  - rewrite Rmin_right by lra. replace (sin (PI * (nu + g))) with (sin (PI * (1 - (nu + g)))) by (rewrite Rmult_minus_distr_l, Rmult_1_r, sin_minus, sin_PI, cos_PI; ring). apply sin_chord. lra.
Qed.
Lemma quality_pos : forall q B, 0 < q -> (0 < B)%nat -> 0 < cqt_quality q B.
Proof.
  intros q B Hq HB. unfold cqt_quality. apply Rdiv_lt_0_compat; [exact Hq|]. assert (HP : 0 < INR B) by (apply lt_0_INR; auto). assert (Rpower 2 0 < Rpower 2 (1 / INR B)); [|rewrite Rpower_O in *; lra].
  apply Rpower_lt; [lra|]. apply Rdiv_lt_0_compat; lra.
Qed.
Lemma mod_split : forall (u v : C) e, Cmod (Cminus u v) <= e -> Rabs (Cmod u - Cmod v) <= e.
Proof.
  intros u v e H. pose proof (Cmod_triangle (Cminus u v) v) as T1. replace (Cplus (Cminus u v) v) with u in T1 by ring.
  pose proof (Cmod_triangle (Cminus v u) u) as T2. replace (Cplus (Cminus v u) u) with v in T2 by ring.
  rewrite <- (Cmod_opp (Cminus v u)) in T2. replace (Copp (Cminus v u)) with (Cminus u v) in T2 by ring. apply Rabs_le. lra.
Qed.
Lemma abs_split : forall a b c d e, Cmod (Cminus (a, b) (c, d)) <= e -> Rabs (spec_abs a b - spec_abs c d) <= e.
Proof. intros a b c d e H. exact (mod_split (a, b) (c, d) e H). Qed.
Definition row_at `{Env} (a : qargs) (B L hop n : nat) (len : nat -> nat) (b : nat) (x : nat -> R) (p i : nat) : C :=
  cqtC (q_threshold a) n (win_type (window_of (q_sargs a))) (q_fs a) L (frame_of (q_sargs a) (q_coeff a) L hop x i) (cqt_freq (q_f0 a) B (b + p)) (len p).
Lemma row_tone : forall `{Env} a N L hop n O B b P len, cqt_ready a N L hop n O B -> q_pre_emph a = false ->
  cqt_rows (q_f0 a) (q_rate a) O B (q_fs a) (q_low a) (or_half (q_high a) (q_fs a)) n b P len ->
  forall A nu phi p i, 0 < nu < / 2 -> (p < P)%nat -> let z := row_at a B L hop n len b (tone A nu phi) p i in
    let f := cqt_freq (q_f0 a) B (b + p) / IZR (q_fs a) in let cut := Rmax 0 (q_threshold a) * (Rabs A * sqrt (INR (Nat.min L n))) in
    (f <> nu -> spec_abs (fst z) (snd z) <= Rabs A / INR (len p) * (/ Rabs (sin (PI * (nu - f))) + / Rabs (sin (PI * (nu + f)))) + cut) /\
    (f <> nu -> spec_abs (fst z) (snd z) <= Rabs A / (2 * cqt_quality (q_rate a) B) * (f / Rabs (nu - f) + f / image_distance nu f) + cut) /\
    (f = nu -> Rabs A * (tone_share (win_type (window_of (q_sargs a))) L n (len p) / 2 - / (INR (len p) * Rabs (sin (2 * PI * nu)))) - cut <= spec_abs (fst z) (snd z)).
Proof.
  intros E a N L hop n O B b P len Hr Hpre HR A nu phi p i Hnu Hp. pose proof Hr as Hr'. destruct Hr' as (Hw & _ & _ & _ & Hhi & Hcf & _). assert (HL : (1 <= L)%nat) by (unfold well_framed in Hw; lia).
  destruct Hcf as (Hf0 & Hq & HB & Hfs & _ & _). assert (HF : 0 < IZR (q_fs a)) by (apply IZR_lt; lia).
  cbv beta zeta. unfold row_at. pose proof (rows_len _ _ _ _ _ _ _ _ _ _ _ p HR Hp) as HN. destruct HR as (_ & _ & _ & HU). destruct (HU p Hp) as [_ ((_ & Up) & [Lo _] & _)].
  set (wt := win_type (window_of (q_sargs a))). set (fr := cqt_freq (q_f0 a) B (b + p)) in *. set (ph := 2 * PI * nu * INR (i * hop) + phi).
  rewrite (cqtC_ext _ n _ _ L _ (fun t => spec_window wt L t * tone A nu ph t)) by (intros t; apply frame_of_tone; exact Hpre).
  set (z := cqtC _ _ _ _ _ _ _ _). pose proof (cqtC_brown (q_threshold a) n wt (q_fs a) L (fun t => spec_window wt L t * tone A nu ph t) fr (len p) HN) as CB. change ((n - len p) / 2)%nat with (middle n (len p)) in CB. fold z in CB.
  set (cut := Rmax 0 (q_threshold a) * (Rabs A * sqrt (INR (Nat.min L n)))).
  assert (HC : Rmax 0 (q_threshold a) * sqrt (bigsum (Nat.min L n) (fun t => (spec_window wt L t * tone A nu ph t) ^ 2)) <= cut) by (apply Rmult_le_compat_l; [apply Rmax_l|apply (tone_energy wt L n A nu ph)]).
  assert (CB2 : Rabs (spec_abs (fst z) (snd z) - spec_abs (brown_re wt (q_fs a) fr (len p) (middle n (len p)) (padded L (fun t => spec_window wt L t * tone A nu ph t))) (brown_im wt (q_fs a) fr (len p) (middle n (len p)) (padded L (fun t => spec_window wt L t * tone A nu ph t)))) <= cut).
  { apply abs_split. rewrite <- surjective_pairing. lra. }
  clear CB HC. apply Rcomplements.Rabs_le_between in CB2. set (br := spec_abs (brown_re _ _ _ _ _ _) _) in *.
  set (g := fr / IZR (q_fs a)). assert (Fp : 0 < fr) by (unfold fr, cqt_freq, Rpower; apply Rmult_lt_0_compat; [exact Hf0|apply exp_pos]).
  assert (G : 0 < g <= / 2). { unfold g. split; [apply Rdiv_lt_0_compat; auto|]. apply Rmult_le_reg_r with (IZR (q_fs a)); [exact HF|]. unfold Rdiv. rewrite Rmult_assoc, Rinv_l by lra. lra. }
  destruct (sin_image_chord nu g Hnu G) as [I0 I1]. assert (S2 : sin (PI * (nu + g)) <> 0) by (intros Z; rewrite Z, Rabs_R0 in I1; lra).
  assert (LK : g <> nu -> 0 < Rabs (nu - g) /\ 2 * Rabs (nu - g) <= Rabs (sin (PI * (nu - g))) /\ br <= Rabs A / INR (len p) * (/ Rabs (sin (PI * (nu - g))) + / Rabs (sin (PI * (nu + g))))).
  { intros Hne. assert (D : 0 < Rabs (nu - g)) by (apply Rabs_pos_lt; lra). assert (D2 : 2 * Rabs (nu - g) <= Rabs (sin (PI * (nu - g)))) by (apply sin_near_0; apply Rabs_le; lra).
    split; [exact D|]. split; [exact D2|]. apply (brown_leak wt (q_fs a) fr (len p) L n A nu ph ltac:(lia) HL ltac:(lia)); [|exact S2]. intros Z. fold g in Z. rewrite Z, Rabs_R0 in D2. lra. }
  split; [intros Hne; destruct (LK Hne) as (_ & _ & K); lra|]. split.
  - intros Hne. destruct (LK Hne) as (D & D2 & K). apply Rplus_le_compat_r with (r := cut) in K. eapply Rle_trans; [|apply Rle_trans with (1 := K)]; [lra|]. apply Rplus_le_compat_r.
    pose proof (quality_pos _ _ Hq HB) as QP. set (Q := cqt_quality (q_rate a) B) in *. assert (LP : 0 < INR (len p)) by (apply lt_0_INR; lia).
    assert (LQ : / INR (len p) <= g / Q). { cbv zeta in Lo. assert (E1 : Q * IZR (q_fs a) / fr = Q / g) by (unfold g; field; lra). rewrite E1 in Lo. replace (g / Q) with (/ (Q / g)) by (field; lra). apply Rinv_le_contravar; [apply Rdiv_lt_0_compat; lra|exact Lo]. }
    assert (V1 : / Rabs (sin (PI * (nu - g))) <= / (2 * Rabs (nu - g))) by (apply Rinv_le_contravar; lra). assert (V2 : / Rabs (sin (PI * (nu + g))) <= / (2 * image_distance nu g)) by (apply Rinv_le_contravar; lra).
    replace (Rabs A / (2 * Q) * (g / Rabs (nu - g) + g / image_distance nu g)) with (Rabs A * (g / Q * (/ (2 * Rabs (nu - g)) + / (2 * image_distance nu g)))) by (field; repeat split; lra).
    unfold Rdiv at 1. rewrite Rmult_assoc. apply Rmult_le_compat_l; [apply Rabs_pos|]. apply Rmult_le_compat; [left; apply Rinv_0_lt_compat; exact LP| |exact LQ|lra].
    pose proof (Rinv_0_lt_compat _ (Rlt_le_trans _ _ _ (Rmult_lt_0_compat 2 _ ltac:(lra) D) D2)). pose proof (Rinv_0_lt_compat _ (Rlt_le_trans _ _ _ (Rmult_lt_0_compat 2 _ ltac:(lra) I0) I1)). lra.
  - intros Hg. assert (S1 : sin (2 * PI * nu) <> 0) by (replace (2 * PI * nu) with (PI * (nu + g)) by (rewrite Hg; ring); exact S2).
    pose proof (brown_peak wt (q_fs a) fr (len p) L n A nu ph ltac:(lia) HL ltac:(lia) Hg S1) as K. unfold br in *. lra.
Qed.
Lemma cqt_tone : forall `{Env} a N L hop n O B, cqt_ready a N L hop n O B -> q_pre_emph a = false ->
  exists b P len, cqt_rows (q_f0 a) (q_rate a) O B (q_fs a) (q_low a) (or_half (q_high a) (q_fs a)) n b P len /\
  forall A nu phi, 0 < nu < / 2 -> exists re im, cqt_spectrogram (fvec N (tone A nu phi)) a = Ok (cmat P (frame_count N L hop) re im) /\
  forall p i, (p < P)%nat ->
    let f := cqt_freq (q_f0 a) B (b + p) / IZR (q_fs a) in let cut := Rmax 0 (q_threshold a) * (Rabs A * sqrt (INR (Nat.min L n))) in
    (f <> nu -> spec_abs (re p i) (im p i) <= Rabs A / INR (len p) * (/ Rabs (sin (PI * (nu - f))) + / Rabs (sin (PI * (nu + f)))) + cut) /\
    (f <> nu -> spec_abs (re p i) (im p i) <= Rabs A / (2 * cqt_quality (q_rate a) B) * (f / Rabs (nu - f) + f / image_distance nu f) + cut) /\
    (f = nu -> Rabs A * (tone_share (win_type (window_of (q_sargs a))) L n (len p) / 2 - / (INR (len p) * Rabs (sin (2 * PI * nu)))) - cut <= spec_abs (re p i) (im p i)).
Proof.
  intros E a N L hop n O B Hr Hpre. destruct (spectrogram_ok a N L hop n O B Hr) as (b & P & len & HR & HE). exists b, P, len. split; [exact HR|]. intros A nu phi Hnu. rewrite HE, cmat_emb. do 2 eexists. split; [reflexivity|].
  intros p i Hp. exact (row_tone a N L hop n O B b P len Hr Hpre HR A nu phi p i Hnu Hp).
Qed.
Lemma row_plus : forall `{Env} a B L hop n len b x y p i, row_at a B L hop n len b (fun t => x t + y t) p i = Cplus (row_at a B L hop n len b x p i) (row_at a B L hop n len b y p i).
Proof.
  intros. unfold row_at. rewrite (cqtC_ext _ n _ _ L _ (fun t => 1 * frame_of (q_sargs a) (q_coeff a) L hop x i t + 1 * frame_of (q_sargs a) (q_coeff a) L hop y i t)), cqtC_linear.
  - unfold Cplus, Cmult, RtoC. cbn [fst snd]. f_equal; ring.
  - intros t. unfold frame_of, spec_frame, spec_pre. destruct (s_pre_emph _); [destruct (_ + _)%nat|]; ring.
Qed.
Lemma cqt_two_tones : forall `{Env} a N L hop n O B, cqt_ready a N L hop n O B -> q_pre_emph a = false ->
  exists b P len, cqt_rows (q_f0 a) (q_rate a) O B (q_fs a) (q_low a) (or_half (q_high a) (q_fs a)) n b P len /\
  forall A nu phi A2 nu2 phi2, 0 < nu < / 2 -> 0 < nu2 < / 2 -> nu <> nu2 -> exists re im,
    cqt_spectrogram (fvec N (fun t => tone A nu phi t + tone A2 nu2 phi2 t)) a = Ok (cmat P (frame_count N L hop) re im) /\
  forall p i, (p < P)%nat -> cqt_freq (q_f0 a) B (b + p) / IZR (q_fs a) = nu ->
    let cut := Rmax 0 (q_threshold a) * ((Rabs A + Rabs A2) * sqrt (INR (Nat.min L n))) in
    Rabs A * (tone_share (win_type (window_of (q_sargs a))) L n (len p) / 2 - / (INR (len p) * Rabs (sin (2 * PI * nu))))
    - Rabs A2 / (2 * cqt_quality (q_rate a) B) * (nu / Rabs (nu2 - nu) + nu / image_distance nu2 nu) - cut <= spec_abs (re p i) (im p i).
Proof.
  intros E a N L hop n O B Hr Hpre. destruct (spectrogram_ok a N L hop n O B Hr) as (b & P & len & HR & HE). exists b, P, len. split; [exact HR|]. intros A nu phi A2 nu2 phi2 Hn Hn2 Hne. rewrite HE, cmat_emb. do 2 eexists. split; [reflexivity|].
  intros p i Hp Hf. cbv beta zeta.
  pose proof (proj2 (proj2 (row_tone a N L hop n O B b P len Hr Hpre HR A nu phi p i Hn Hp)) Hf) as K1. cbv zeta in K1.
  pose proof (row_tone a N L hop n O B b P len Hr Hpre HR A2 nu2 phi2 p i Hn2 Hp) as K2. cbv zeta in K2. rewrite Hf in K2. destruct K2 as (_ & K2 & _). specialize (K2 Hne).
  change (cqtC _ _ _ _ _ (frame_of (q_sargs a) (q_coeff a) L hop (fun t => tone A nu phi t + tone A2 nu2 phi2 t) i) _ _) with (row_at a B L hop n len b (fun t => tone A nu phi t + tone A2 nu2 phi2 t) p i). rewrite row_plus.
  set (u := row_at a B L hop n len b (tone A nu phi) p i) in *. set (v := row_at a B L hop n len b (tone A2 nu2 phi2) p i) in *.
  change (spec_abs (fst u) (snd u)) with (Cmod (fst u, snd u)) in K1. change (spec_abs (fst v) (snd v)) with (Cmod (fst v, snd v)) in K2. rewrite <- surjective_pairing in K1, K2.
  pose proof (Cmod_triangle (Cplus u v) (Copp v)) as T. replace (Cplus (Cplus u v) (Copp v)) with u in T by ring. rewrite Cmod_opp in T.
  change (spec_abs (fst (Cplus u v)) (snd (Cplus u v))) with (Cmod (Cplus u v)). lra.
Qed.
