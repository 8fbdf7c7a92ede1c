(** * Proofs for C175: recordings made through a fixed filter *)
From Coq Require Import Reals ZArith List String Bool Lia Lra Psatz.
From Coquelicot Require Import Complex.
From Coquelicot Require Rcomplements.
From Verif Require Import Base BaseFacts SpecBase BigSum Preprocessing SpecMat MatFacts SpecFilters SpecBanks SpecFeatures WindowFacts Features
  Extractors FeaturesFacts FeaturesMore FeaturesLaws FeaturesPhase CqtFacts FftFacts SpecInvariance InvarianceLaws RoundedBarkFacts NoiseFacts ToneFacts
  Cepstral CepstralFacts SpecOptions OptionFacts SpecBudget BudgetFacts DctFacts SpecColour.
Import ListNotations.
Local Open Scope R_scope.

(** ** Delays of one sample through a window *)
Lemma Cmod_cis : forall a, Cmod (cis a) = 1.
Proof.
  intros. unfold Cmod, cis. cbn [fst snd]. rewrite <- sqrt_1. f_equal. pose proof (sin2_cos2 a) as H. unfold Rsqr in H. nra.
Qed.
Lemma Cbig_S : forall n f, Cbig (S n) f = Cplus (Cbig n f) (f n).
Proof. intros. unfold Cbig, Cplus. reflexivity. Qed.
Lemma Cbig_S_l : forall n f, Cbig (S n) f = Cplus (f 0%nat) (Cbig n (fun i => f (S i))).
Proof. intros. unfold Cbig, Cplus. cbn [fst snd]. rewrite !bigsum_S_l. reflexivity. Qed.
Lemma Cbig_minus : forall n f g, Cminus (Cbig n f) (Cbig n g) = Cbig n (fun i => Cminus (f i) (g i)).
Proof. intros. unfold Cbig, Cminus, Cplus, Copp. cbn [fst snd]. f_equal; rewrite <- bigsum_opp, <- bigsum_plus; reflexivity. Qed.
Definition trig (L : nat) (f : nat -> R) (th : R) : C := Cbig L (fun t => Cmult (RtoC (f t)) (cis (th * INR t))).
Lemma trig_mod : forall L f th, Cmod (trig L f th) <= bigsum L (fun t => Rabs (f t)).
Proof.
  intros. eapply Rle_trans; [apply Cbig_mod|]. right. apply bigsum_ext. intros t _. rewrite Cmod_mult, Cmod_R, Cmod_cis. ring.
Qed.
Lemma variation : forall p w, (forall t, (t < p)%nat -> w t <= w (S t)) -> bigsum p (fun t => Rabs (w (S t) - w t)) = w p - w 0%nat.
Proof.
  induction p; intros w H; simpl bigsum; [lra|]. rewrite IHp by (intros; apply H; lia). rewrite Rabs_pos_eq; [lra|]. specialize (H p ltac:(lia)). lra.
Qed.
Lemma variation_down : forall p w, (forall t, (t < p)%nat -> w (S t) <= w t) -> bigsum p (fun t => Rabs (w (S t) - w t)) = w 0%nat - w p.
Proof.
  induction p; intros w H; simpl bigsum; [lra|]. rewrite IHp by (intros; apply H; lia). specialize (H p ltac:(lia)). rewrite Rabs_left1; lra.
Qed.
Lemma window_rises : forall wt M t, (S t <= M / 2)%nat -> (S t < M)%nat -> spec_window wt M t <= spec_window wt M (S t).
Proof.
  intros wt M t H1 H2. rewrite <- (spec_window_sym wt M t) by lia. rewrite <- (spec_window_sym wt M (S t)) by lia.
  pose proof (Nat.div_mod M 2 ltac:(lia)). pose proof (Nat.mod_upper_bound M 2 ltac:(lia)).
  destruct (Nat.eq_dec (M - 1 - t) (M / 2)) as [E|N].
  - destruct (Nat.eq_dec (M - 1 - S t) (M / 2)) as [E2|N2]; [lia|].
    assert (M - 1 - S t = t)%nat by lia. rewrite H3. rewrite (spec_window_sym wt M t) by lia. lra.
  - replace (M - 1 - t)%nat with (S (M - 1 - S t)) by lia. apply window_falls; lia.
Qed.
Lemma window_variation : forall wt L', let w := spec_window wt (S L') in w 0%nat + bigsum L' (fun t => Rabs (w (S t) - w t)) + w L' <= 2.
Proof.
  intros wt L' w. set (p := (S L' / 2)%nat). assert (P : (p <= L')%nat) by (unfold p; pose proof (Nat.div_mod (S L') 2 ltac:(lia)); destruct L'; simpl in *; lia).
  replace L' with (p + (L' - p))%nat at 1 by lia. rewrite bigsum_split.
  rewrite (variation p w) by (intros t Ht; apply window_rises; fold p; lia).
  rewrite (bigsum_ext (L' - p) _ (fun t => Rabs (w (p + S t)%nat - w (p + t)%nat))) by (intros t _; replace (p + S t)%nat with (S (p + t)) by lia; reflexivity).
  rewrite (variation_down (L' - p) (fun t => w (p + t)%nat)).
  2:{ intros t Ht. replace (p + S t)%nat with (S (p + t)) by lia. apply window_falls; fold p; lia. }
  pose proof (spec_window_bounds wt (S L') p ltac:(lia)) as B. fold w in B. replace (p + (L' - p))%nat with L' by lia. rewrite Nat.add_0_r. lra.
Qed.

(** a window over the recording delayed by one more sample *)
Lemma delay_step : forall wt L z z2 th M, (1 <= L)%nat -> (forall t, (S t < L)%nat -> z2 (S t) = z t) ->
  (forall t, (t < L)%nat -> Rabs (z t) <= M) -> Rabs (z2 0%nat) <= M ->
  Cmod (Cminus (trig L (fun t => spec_window wt L t * z2 t) th) (Cmult (cis th) (trig L (fun t => spec_window wt L t * z t) th))) <= 2 * M.
Proof.
  intros wt L z z2 th M HL Hz Bz B2. destruct L as [|L']; [lia|]. set (w := spec_window wt (S L')).
  assert (W : forall t, (t <= L')%nat -> 0 <= w t) by (intros t Ht; apply spec_window_bounds; lia).
  assert (M0 : 0 <= M) by (eapply Rle_trans; [apply Rabs_pos|exact B2]).
  assert (E : Cminus (trig (S L') (fun t => w t * z2 t) th) (Cmult (cis th) (trig (S L') (fun t => w t * z t) th))
    = Cplus (Cplus (RtoC (w 0%nat * z2 0%nat)) (Cbig L' (fun t => Cmult (RtoC ((w (S t) - w t) * z t)) (cis (th * INR (S t))))))
            (Cmult (RtoC (- (w L' * z L'))) (cis (th * INR (S L'))))).
  { assert (A : trig (S L') (fun t => w t * z2 t) th = Cplus (RtoC (w 0%nat * z2 0%nat)) (Cbig L' (fun t => Cmult (RtoC (w (S t) * z t)) (cis (th * INR (S t)))))).
    { unfold trig. rewrite Cbig_S_l. f_equal.
      - change (INR 0) with 0. rewrite Rmult_0_r, cis_0. ring.
      - apply Cbig_ext. intros t Ht. rewrite Hz by lia. reflexivity. }
    assert (B : Cmult (cis th) (trig (S L') (fun t => w t * z t) th)
      = Cplus (Cbig L' (fun t => Cmult (RtoC (w t * z t)) (cis (th * INR (S t))))) (Cmult (RtoC (w L' * z L')) (cis (th * INR (S L'))))).
    { unfold trig. rewrite <- Cbig_scal, Cbig_S.
      assert (R1 : forall t, Cmult (cis th) (Cmult (RtoC (w t * z t)) (cis (th * INR t))) = Cmult (RtoC (w t * z t)) (cis (th * INR (S t)))).
      { intros t. transitivity (Cmult (RtoC (w t * z t)) (Cmult (cis th) (cis (th * INR t)))); [ring|]. rewrite cis_add, S_INR. do 2 f_equal. ring. }
      rewrite R1. f_equal. apply Cbig_ext. intros t _. apply R1. }
    rewrite A, B. rewrite (Cbig_ext L' (fun t => Cmult (RtoC ((w (S t) - w t) * z t)) (cis (th * INR (S t))))
      (fun t => Cminus (Cmult (RtoC (w (S t) * z t)) (cis (th * INR (S t)))) (Cmult (RtoC (w t * z t)) (cis (th * INR (S t)))))).
    - rewrite <- Cbig_minus, RtoC_opp. ring.
    - intros t _. rewrite Rmult_minus_distr_r, RtoC_minus. ring. }
  fold w. rewrite E. eapply Rle_trans; [apply Cmod_triangle|]. 
  assert (T1 : Cmod (Cplus (RtoC (w 0%nat * z2 0%nat)) (Cbig L' (fun t => Cmult (RtoC ((w (S t) - w t) * z t)) (cis (th * INR (S t)))))) <= w 0%nat * M + bigsum L' (fun t => Rabs (w (S t) - w t)) * M).
  { eapply Rle_trans; [apply Cmod_triangle|]. apply Rplus_le_compat.
    - rewrite Cmod_R, Rabs_mult, (Rabs_pos_eq (w 0%nat)) by (apply W; lia). apply Rmult_le_compat_l; [apply W; lia|exact B2].
    - eapply Rle_trans; [apply Cbig_mod|]. rewrite <- bigsum_scal_r. apply bigsum_le. intros t Ht. rewrite Cmod_mult, Cmod_R, Cmod_cis, Rmult_1_r, Rabs_mult.
      apply Rmult_le_compat_l; [apply Rabs_pos|apply Bz; lia]. }
  assert (T2 : Cmod (Cmult (RtoC (- (w L' * z L'))) (cis (th * INR (S L')))) <= w L' * M).
  { rewrite Cmod_mult, Cmod_R, Cmod_cis, Rmult_1_r, Rabs_Ropp, Rabs_mult, (Rabs_pos_eq (w L')) by (apply W; lia). apply Rmult_le_compat_l; [apply W; lia|apply Bz; lia]. }
  pose proof (window_variation wt L') as V. fold w in V. cbv zeta in V.
  apply Rle_trans with ((w 0%nat + bigsum L' (fun t => Rabs (w (S t) - w t)) + w L') * M); [lra|]. apply Rmult_le_compat_r; assumption.
Qed.

(** ** Delays and filters *)
Definition delayed (s : nat) (y : nat -> R) (t : nat) : R := if (s <=? t)%nat then y (t - s)%nat else 0.
Lemma delayed_0 : forall y t, delayed 0 y t = y t.
Proof. intros. unfold delayed. simpl. rewrite Nat.sub_0_r. reflexivity. Qed.
Lemma delayed_S : forall s y t, delayed (S s) y (S t) = delayed s y t.
Proof. intros. unfold delayed. simpl. reflexivity. Qed.
Lemma delayed_le : forall s y N M, 0 <= M -> (forall t, (t < N)%nat -> Rabs (y t) <= M) -> forall t, (t < N)%nat -> Rabs (delayed s y t) <= M.
Proof. intros s y N M HM H t Ht. unfold delayed. destruct (s <=? t)%nat; [apply H; lia|rewrite Rabs_R0; exact HM]. Qed.
Lemma filtered_delayed : forall m h y t, filtered m h y t = bigsum m (fun s => h s * delayed s y t).
Proof. intros. unfold filtered, delayed. apply bigsum_ext. intros s _. destruct (s <=? t)%nat; ring. Qed.
Lemma delayed_frame : forall wt L p y s th N M, (1 <= L)%nat -> (p + L <= N)%nat -> 0 <= M -> (forall t, (t < N)%nat -> Rabs (y t) <= M) ->
  Cmod (Cminus (trig L (fun t => spec_window wt L t * delayed s y (p + t)%nat) th)
               (Cmult (cis (th * INR s)) (trig L (fun t => spec_window wt L t * y (p + t)%nat) th))) <= 2 * INR s * M.
Proof.
  intros wt L p y s th N M HL HN HM Hy. induction s as [|s IH].
  - change (INR 0) with 0. rewrite Rmult_0_r, cis_0. unfold trig.
    rewrite (Cbig_ext L _ (fun t => Cmult (RtoC (spec_window wt L t * y (p + t)%nat)) (cis (th * INR t)))) by (intros; rewrite delayed_0; reflexivity).
    match goal with |- Cmod ?z <= _ => replace z with (RtoC 0) by ring end. rewrite Cmod_0. lra.
  - set (G1 := trig L (fun t => spec_window wt L t * delayed (S s) y (p + t)%nat) th). set (G := trig L (fun t => spec_window wt L t * delayed s y (p + t)%nat) th) in *.
    set (G0 := trig L (fun t => spec_window wt L t * y (p + t)%nat) th) in *.
    assert (S1 : Cmod (Cminus G1 (Cmult (cis th) G)) <= 2 * M).
    { apply (delay_step wt L (fun t => delayed s y (p + t)%nat) (fun t => delayed (S s) y (p + t)%nat)); [exact HL| | |].
      - intros t _. rewrite Nat.add_succ_r. apply delayed_S.
      - intros t Ht. apply (delayed_le s y N M); auto. lia.
      - apply (delayed_le (S s) y N M); auto. lia. }
    replace (Cminus G1 (Cmult (cis (th * INR (S s))) G0)) with (Cplus (Cminus G1 (Cmult (cis th) G)) (Cmult (cis th) (Cminus G (Cmult (cis (th * INR s)) G0)))).
    + eapply Rle_trans; [apply Cmod_triangle|]. rewrite Cmod_mult, Cmod_cis, S_INR. lra.
    + replace (cis (th * INR (S s))) with (Cmult (cis th) (cis (th * INR s))) by (rewrite cis_add, S_INR; f_equal; ring). ring.
Qed.
Lemma filtered_frame : forall wt L p y m h th N M, (1 <= L)%nat -> (p + L <= N)%nat -> 0 <= M -> (forall t, (t < N)%nat -> Rabs (y t) <= M) ->
  Cmod (Cminus (trig L (fun t => spec_window wt L t * filtered m h y (p + t)%nat) th)
               (Cmult (trig m h th) (trig L (fun t => spec_window wt L t * y (p + t)%nat) th))) <= edge_mag m h M.
Proof.
  intros wt L p y m h th N M HL HN HM Hy. set (G0 := trig L (fun t => spec_window wt L t * y (p + t)%nat) th).
  assert (A : trig L (fun t => spec_window wt L t * filtered m h y (p + t)%nat) th
    = Cbig m (fun s => Cmult (RtoC (h s)) (trig L (fun t => spec_window wt L t * delayed s y (p + t)%nat) th))).
  { unfold trig. rewrite (Cbig_ext m _ (fun s => Cbig L (fun t => Cmult (RtoC (h s * (spec_window wt L t * delayed s y (p + t)%nat))) (cis (th * INR t))))).
    - rewrite Cbig_swap. apply Cbig_ext. intros t _. rewrite filtered_delayed.
      rewrite (Cbig_ext m _ (fun s => Cmult (cis (th * INR t)) (RtoC (h s * (spec_window wt L t * delayed s y (p + t)%nat))))) by (intros; apply Cmult_comm).
      rewrite Cbig_scal, Cmult_comm. f_equal. rewrite <- bigsum_scal. unfold Cbig, RtoC. cbn [fst snd]. f_equal.
      + apply bigsum_ext. intros. ring.
      + symmetry. apply bigsum_zero. reflexivity.
    - intros s _. rewrite <- Cbig_scal. apply Cbig_ext. intros t _. rewrite (RtoC_mult (h s)). ring. }
  rewrite A. assert (B : Cmult (trig m h th) G0 = Cbig m (fun s => Cmult (RtoC (h s)) (Cmult (cis (th * INR s)) G0))).
  { unfold trig at 1. rewrite Cmult_comm, <- Cbig_scal. apply Cbig_ext. intros. ring. }
  rewrite B, Cbig_minus. eapply Rle_trans; [apply Cbig_mod|]. unfold edge_mag, smear.
  replace (2 * bigsum m (fun s => INR s * Rabs (h s)) * M) with (bigsum m (fun s => Rabs (h s) * (2 * INR s * M))).
  - apply bigsum_le. intros s _. replace (Cminus (Cmult (RtoC (h s)) (trig L (fun t => spec_window wt L t * delayed s y (p + t)%nat) th)) (Cmult (RtoC (h s)) (Cmult (cis (th * INR s)) G0)))
      with (Cmult (RtoC (h s)) (Cminus (trig L (fun t => spec_window wt L t * delayed s y (p + t)%nat) th) (Cmult (cis (th * INR s)) G0))) by ring.
    rewrite Cmod_mult, Cmod_R. apply Rmult_le_compat_l; [apply Rabs_pos|]. eapply delayed_frame; eassumption.
  - rewrite <- bigsum_scal, <- bigsum_scal_r. apply bigsum_ext. intros. ring.
Qed.
Lemma pre_filtered : forall on c m h x t, spec_pre on c (filtered m h x) t = filtered m h (spec_pre on c x) t.
Proof.
  intros on c m h x t. destruct on; [|reflexivity]. destruct t as [|u].
  - unfold filtered. cbn [spec_pre]. apply bigsum_ext. intros s _. destruct (s <=? 0)%nat eqn:E; [|reflexivity]. apply Nat.leb_le in E. replace (0 - s)%nat with 0%nat by lia. reflexivity.
  - cbn [spec_pre]. unfold filtered. rewrite <- bigsum_scal, <- bigsum_minus. apply bigsum_ext. intros s _.
    destruct (Nat.leb_spec s (S u)); destruct (Nat.leb_spec s u); try lia; try ring.
    + replace (S u - s)%nat with (S (u - s)) by lia. cbn [spec_pre]. ring.
    + replace (S u - s)%nat with 0%nat by lia. cbn [spec_pre]. ring.
Qed.

(** ** Bins and bands *)
Definition bin (n L : nat) (f : nat -> R) (k : nat) : C := (spec_re n L f k, spec_im n L f k).
Definition angle (n k : nat) : R := - (2 * PI * INR k / INR n).
Lemma bin_trig : forall n L f k, (L <= n)%nat -> bin n L f k = trig L f (angle n k).
Proof.
  intros n L f k HL. unfold bin, trig, spec_re, spec_im, Cbig, Cmult, RtoC, cis. cbn [fst snd]. rewrite Nat.min_l by exact HL.
  assert (A : forall t, angle n k * INR t = - (2 * PI * INR (t * k) / INR n)) by (intros t; unfold angle; rewrite mult_INR; unfold Rdiv; ring).
  f_equal; apply bigsum_ext; intros t _; rewrite A, cos_neg, sin_neg; ring.
Qed.
Lemma mag_bin : forall n L f k, spec_mag n L f k = Cmod (bin n L f k).
Proof. intros. reflexivity. Qed.
Lemma response_trig : forall n m h k, response n m h k = Cmod (trig m h (angle n k)).
Proof.
  intros n m h k. unfold response, trig, Cbig, Cmult, RtoC, cis, Cmod. cbn [fst snd].
  assert (A : forall t, angle n k * INR t = - (2 * PI * INR (t * k) / INR n)) by (intros t; unfold angle; rewrite mult_INR; unfold Rdiv; ring).
  f_equal. f_equal.
  - f_equal. apply bigsum_ext. intros t _. rewrite A, cos_neg. ring.
  - replace (bigsum m (fun i => h i * sin (angle n k * INR i) + 0 * cos (angle n k * INR i))) with (- bigsum m (fun s => h s * sin (2 * PI * INR (s * k) / INR n))); [ring|].
    rewrite <- bigsum_opp. apply bigsum_ext. intros t _. rewrite A, sin_neg. ring.
Qed.
Lemma frame_filtered : forall a co L hop m h x i t, frame_of a co L hop (filtered m h x) i t
  = spec_window (win_type (window_of a)) L t * filtered m h (spec_pre (s_pre_emph a) co x) (i * hop + t)%nat.
Proof. intros. unfold frame_of, spec_frame. rewrite pre_filtered. reflexivity. Qed.
Lemma pre_bound : forall on c x N M, 0 <= M -> (forall t, (t < N)%nat -> Rabs (x t) <= M) -> forall t, (t < N)%nat -> Rabs (spec_pre on c x t) <= pre_peak on c M.
Proof.
  intros on c x N M HM H t Ht. unfold pre_peak. destruct on; [|cbn [spec_pre]; specialize (H t Ht); lra]. pose proof (Rmult_le_pos _ _ (Rabs_pos c) HM). pose proof (H t Ht) as B.
  destruct t as [|u]; cbn [spec_pre]; [lra|]. pose proof (H u ltac:(lia)) as B2. pose proof (Rmult_le_compat_l _ _ _ (Rabs_pos c) B2).
  pose proof (Rabs_triang (x (S u)) (- (c * x u))) as T. rewrite Rabs_Ropp, Rabs_mult in T. unfold Rminus. lra.
Qed.
Lemma bin_filtered : forall a co N L hop n m h x M i k, (1 <= L <= n)%nat -> (i * hop + L <= N)%nat -> 0 <= M -> (forall t, (t < N)%nat -> Rabs (x t) <= M) ->
  Cmod (Cminus (bin n L (frame_of a co L hop (filtered m h x) i) k) (Cmult (trig m h (angle n k)) (bin n L (frame_of a co L hop x i) k)))
  <= edge_mag m h (pre_peak (s_pre_emph a) co M).
Proof.
  intros a co N L hop n m h x M i k HL HN HM Hx. rewrite !bin_trig by lia.
  pose proof (filtered_frame (win_type (window_of a)) L (i * hop) (spec_pre (s_pre_emph a) co x) m h (angle n k) N (pre_peak (s_pre_emph a) co M)
    ltac:(lia) HN ltac:(unfold pre_peak; pose proof (Rabs_pos co); destruct (s_pre_emph a); nra) (pre_bound _ _ _ _ _ HM Hx)) as K.
  eapply Rle_trans; [|exact K]. right. do 2 f_equal. unfold trig. apply Cbig_ext. intros t _. rewrite frame_filtered. reflexivity.
Qed.
Definition rootw (n : nat) (b : nat -> R) (k : nat) : C := RtoC (sqrt (b k / INR n)).
Lemma sq_mod : forall z, sq z = Cmod z ^ 2.
Proof. intros z. unfold sq, Cmod. rewrite pow2_sqrt; [reflexivity|]. pose proof (pow2_ge_0 (fst z)). pose proof (pow2_ge_0 (snd z)). lra. Qed.
Lemma scaled_bin : forall n L f b k, scaled n L f b k = Cmult (rootw n b k) (bin n L f k).
Proof. intros. unfold scaled, rootw, bin, Cmult, RtoC. cbn [fst snd]. f_equal; ring. Qed.
Lemma rootw_mod : forall n b k, (0 < n)%nat -> 0 <= b k -> Cmod (rootw n b k) ^ 2 = b k / INR n.
Proof.
  intros n b k Hn Hb. unfold rootw. rewrite Cmod_R, pow2_abs, pow2_sqrt; [reflexivity|]. apply Rcomplements.Rdiv_le_0_compat; [exact Hb|apply lt_0_INR; exact Hn].
Qed.
Lemma root_en_plus : forall n f g q, 0 <= q -> en n (fun k => Cminus (g k) (f k)) <= q ^ 2 -> sqrt (en n g) <= sqrt (en n f) + q.
Proof.
  intros n f g q Hq H. pose proof (en_plus n f (fun k => Cminus (g k) (f k)) (sqrt (en n f)) q (sqrt_pos _) Hq) as K.
  rewrite pow2_sqrt in K by apply en_nonneg. specialize (K (Rle_refl _) H).
  rewrite (en_ext _ _ g) in K by (intros; ring). apply sqrt_le_1_alt in K. rewrite sqrt_pow2 in K; [exact K|]. pose proof (sqrt_pos (en n f)). lra.
Qed.
Lemma en_swap : forall n f g, en n (fun k => Cminus (f k) (g k)) = en n (fun k => Cminus (g k) (f k)).
Proof. intros. unfold en. apply bigsum_ext. intros k _. unfold sq, Cminus, Cplus, Copp. cbn [fst snd]. ring. Qed.
Lemma smear_pos : forall m h, 0 <= smear m h.
Proof. intros. apply bigsum_nonneg. intros. apply Rmult_le_pos; [apply pos_INR|apply Rabs_pos]. Qed.
Lemma peak_pos : forall on c M, 0 <= M -> 0 <= pre_peak on c M.
Proof. intros. unfold pre_peak. pose proof (Rabs_pos c). apply Rmult_le_pos; [destruct on; lra|assumption]. Qed.
Lemma band_filtered : forall a co N L hop n top m h x M i b g d, (1 <= L <= n)%nat -> (i * hop + L <= N)%nat -> 0 <= M -> (forall t, (t < N)%nat -> Rabs (x t) <= M) ->
  even_gain n m h top b g d ->
  exists A, 0 <= A /\
    g * exp (- d) * sqrt (spec_band top n L (frame_of a co L hop x i) b) <= sqrt A <= g * exp d * sqrt (spec_band top n L (frame_of a co L hop x i) b) /\
    Rabs (sqrt (spec_band top n L (frame_of a co L hop (filtered m h x) i) b) - sqrt A) <= edge_level m h (pre_peak (s_pre_emph a) co M) (bigsum (S top) b) n.
Proof.
  intros a co N L hop n top m h x M i b g d HL HN HM Hx (G0 & D0 & HG). assert (N0 : (0 < n)%nat) by lia. assert (Rn : 0 < INR n) by (apply lt_0_INR; exact N0).
  assert (B0 : forall k, (k <= top)%nat -> 0 <= b k) by (intros k Hk; apply HG; exact Hk).
  set (f := frame_of a co L hop x i). set (f2 := frame_of a co L hop (filtered m h x) i).
  set (v := fun k => Cmult (rootw n b k) (Cmult (trig m h (angle n k)) (bin n L f k))).
  assert (V : forall k, (k <= top)%nat -> sq (v k) = response n m h k ^ 2 * sq (scaled n L f b k)).
  { intros k Hk. unfold v. rewrite !sq_mod, scaled_bin, !Cmod_mult, response_trig. ring. }
  assert (E1 : 0 < exp d) by apply exp_pos. assert (E2 : 0 < exp (- d)) by apply exp_pos.
  assert (Z : forall k, (k <= top)%nat -> b k = 0 -> sq (scaled n L f b k) = 0).
  { intros k Hk E. rewrite sq_mod, scaled_bin, Cmod_mult, Rpow_mult_distr, rootw_mod, E by (try exact N0; rewrite ?E; lra). unfold Rdiv. ring. }
  assert (K : forall c1, 0 <= c1 -> (forall k, (k <= top)%nat -> b k <> 0 -> response n m h k <= c1) -> en (S top) v <= c1 ^ 2 * en (S top) (scaled n L f b)).
  { intros c1 C1 H. unfold en. rewrite <- bigsum_scal. apply bigsum_le. intros k Hk. rewrite V by lia. destruct (Req_dec (b k) 0) as [E|NE]; [rewrite Z by (auto; lia); lra|].
    apply Rmult_le_compat_r; [apply sq_nonneg|]. apply pow_incr. split; [apply sqrt_pos|apply H; auto; lia]. }
  assert (K2 : forall c1, 0 <= c1 -> (forall k, (k <= top)%nat -> b k <> 0 -> c1 <= response n m h k) -> c1 ^ 2 * en (S top) (scaled n L f b) <= en (S top) v).
  { intros c1 C1 H. unfold en. rewrite <- bigsum_scal. apply bigsum_le. intros k Hk. rewrite V by lia. destruct (Req_dec (b k) 0) as [E|NE]; [rewrite Z by (auto; lia); lra|].
    apply Rmult_le_compat_r; [apply sq_nonneg|]. apply pow_incr. split; [exact C1|apply H; auto; lia]. }
  exists (en (S top) v). rewrite !band_en by assumption. split; [apply en_nonneg|]. split.
  - split.
    + rewrite <- (sqrt_pow2 (g * exp (- d))) by (apply Rmult_le_pos; lra). rewrite <- sqrt_mult_alt by apply pow2_ge_0. apply sqrt_le_1_alt.
      apply K2; [apply Rmult_le_pos; lra|]. intros k Hk Hb. apply HG; assumption.
    + rewrite <- (sqrt_pow2 (g * exp d)) by (apply Rmult_le_pos; lra). rewrite <- sqrt_mult_alt by apply pow2_ge_0. apply sqrt_le_1_alt.
      apply K; [apply Rmult_le_pos; lra|]. intros k Hk Hb. apply HG; assumption.
  - set (P := pre_peak (s_pre_emph a) co M). set (q := edge_level m h P (bigsum (S top) b) n).
    assert (EM : 0 <= edge_mag m h P) by (unfold edge_mag; pose proof (smear_pos m h); pose proof (peak_pos (s_pre_emph a) co M HM); fold P in H0; apply Rmult_le_pos; lra).
    assert (SB : 0 <= bigsum (S top) b / INR n) by (apply Rcomplements.Rdiv_le_0_compat; [apply bigsum_nonneg; intros; apply B0; lia|exact Rn]).
    assert (Q0 : 0 <= q) by (apply Rmult_le_pos; [apply sqrt_pos|exact EM]).
    assert (EN : en (S top) (fun k => Cminus (scaled n L f2 b k) (v k)) <= q ^ 2).
    { unfold q, edge_level. rewrite Rpow_mult_distr, pow2_sqrt by exact SB. unfold Rdiv. rewrite <- bigsum_scal_r, <- bigsum_scal_r. unfold en. apply bigsum_le. intros k Hk.
      replace (Cminus (scaled n L f2 b k) (v k)) with (Cmult (rootw n b k) (Cminus (bin n L f2 k) (Cmult (trig m h (angle n k)) (bin n L f k)))) by (rewrite scaled_bin; unfold v; ring).
      rewrite sq_mod, Cmod_mult, Rpow_mult_distr, rootw_mod by (try exact N0; apply B0; lia). unfold Rdiv. apply Rmult_le_compat_l.
      - apply Rmult_le_pos; [apply B0; lia|left; apply Rinv_0_lt_compat; exact Rn].
      - apply pow_incr. split; [apply Cmod_ge_0|]. unfold f, f2, P. eapply bin_filtered; eassumption. }
    pose proof (root_en_plus (S top) v (scaled n L f2 b) q Q0 EN) as U1. rewrite en_swap in EN. pose proof (root_en_plus (S top) (scaled n L f2 b) v q Q0 EN) as U2.
    apply Rabs_le. lra.
Qed.
Lemma log_filtered : forall g d r q P A P2, 0 < g -> 0 <= d -> 0 <= r < 1 -> 0 < P -> 0 <= A -> 0 <= P2 ->
  g * exp (- d) * sqrt P <= sqrt A <= g * exp d * sqrt P -> Rabs (sqrt P2 - sqrt A) <= q -> q <= r * (g * exp (- d) * sqrt P) ->
  Rabs (spec_log P2 - (spec_log P + 2 * ln g)) <= 2 * (d - ln (1 - r)).
Proof.
  intros g d r q P A P2 Hg Hd Hr HP HA HP2 HA1 Hq1 Hq. pose proof (sqrt_lt_R0 P HP) as SP. pose proof (exp_pos d) as E1. pose proof (exp_pos (- d)) as E2.
  assert (LO : 0 < g * exp (- d) * sqrt P) by (apply Rmult_lt_0_compat; [apply Rmult_lt_0_compat|]; assumption).
  assert (SA : 0 < sqrt A) by lra.
  assert (L1 : lnear d (g * sqrt P) (sqrt A)).
  { apply lnear_bounds. assert (0 < g * sqrt P) by (apply Rmult_lt_0_compat; assumption). split; [assumption|]. split; [exact SA|]. split; [|lra].
    apply Rmult_le_reg_l with (exp (- d)); [exact E2|]. rewrite <- (Rmult_assoc (exp (- d)) (exp d)), <- exp_plus. replace (- d + d) with 0 by ring. rewrite exp_0. lra. }
  assert (L2 : lnear (- ln (1 - r)) (sqrt A) (sqrt P2)).
  { apply lnear_relative; [exact Hr|exact SA|]. eapply Rle_trans; [exact Hq1|]. eapply Rle_trans; [exact Hq|]. apply Rmult_le_compat_l; lra. }
  pose proof (lnear_trans _ _ _ _ _ L1 L2) as (_ & S2 & LN).
  assert (P2P : 0 < P2) by (apply sqrt_lt_0_alt; rewrite sqrt_0; exact S2).
  assert (LS : forall z, 0 < z -> ln z = 2 * ln (sqrt z)).
  { intros z Hz. rewrite <- (sqrt_sqrt z) at 1 by lra. rewrite ln_mult by (apply sqrt_lt_R0; exact Hz). ring. }
  unfold spec_log. destruct (Req_EM_T P2 0); [lra|]. destruct (Req_EM_T P 0); [lra|]. rewrite (LS P2 P2P), (LS P HP).
  rewrite ln_mult in LN by assumption.
  replace (2 * ln (sqrt P2) - (2 * ln (sqrt P) + 2 * ln g)) with (2 * (ln (sqrt P2) - (ln g + ln (sqrt P)))) by ring.
  rewrite Rabs_mult, (Rabs_pos_eq 2) by lra. lra.
Qed.

(** ** The theorems *)
Lemma frame_fits : forall N L hop i, (0 < hop)%nat -> (L <= N)%nat -> (i < frame_count N L hop)%nat -> (i * hop + L <= N)%nat.
Proof.
  intros N L hop i Hh HL Hi. unfold frame_count in Hi. assert (i <= (N - L) / hop)%nat by lia.
  assert (i * hop <= (N - L) / hop * hop)%nat by (apply Nat.mul_le_mono_r; assumption). pose proof (Nat.div_mod (N - L) hop ltac:(lia)). lia.
Qed.
Lemma spectrogram_filtered : forall (E : Env) s a N L hop n B m h x M,
  @well_framed E a N L hop -> (Z.of_nat L <= s_nfft a)%Z -> (0 < n)%nat ->
  @spectro_bank E s a = Ok (fmat n (S (half (s_nfft a))) B) ->
  0 <= M -> (forall t, (t < N)%nat -> Rabs (x t) <= M) ->
  let z := Z.to_nat (s_nfft a) in
  let peak := pre_peak (s_pre_emph a) (spectro_coeff s a) M in
  exists P Q P2 Q2,
    @spectrogram E s (fvec N x) a = Ok (fmat (frame_count N L hop) n P, fmat (frame_count N L hop) (S (half (s_nfft a))) Q) /\
    @spectrogram E s (fvec N (filtered m h x)) a = Ok (fmat (frame_count N L hop) n P2, fmat (frame_count N L hop) (S (half (s_nfft a))) Q2) /\
    forall i, (i < frame_count N L hop)%nat ->
      (forall k, Rabs (Q2 i k - response z m h k * Q i k) <= edge_mag m h peak) /\
      (forall j g d, (j < n)%nat -> even_gain z m h (half (s_nfft a)) (B j) g d ->
         g * exp (- d) * sqrt (P i j) - edge_level m h peak (bigsum (S (half (s_nfft a))) (B j)) z <= sqrt (P2 i j)
         <= g * exp d * sqrt (P i j) + edge_level m h peak (bigsum (S (half (s_nfft a))) (B j)) z).
Proof.
  intros E s a N L hop n B m h x M Hw HL Hn HB HM Hx z peak. assert (W : (0 < hop)%nat /\ (1 <= L <= N)%nat) by (unfold well_framed in Hw; lia).
  do 4 eexists. split; [apply spectrogram_fvec; eauto; lia|]. split; [apply spectrogram_fvec; eauto; lia|]. intros i Hi. cbv beta. fold z.
  assert (FT : (i * hop + L <= N)%nat) by (apply frame_fits; tauto || lia). assert (LZ : (1 <= L <= z)%nat) by (unfold z; lia). split.
  - intros k. rewrite !mag_bin, response_trig, <- Cmod_mult. set (u := bin z L (frame_of a (spectro_coeff s a) L hop (filtered m h x) i) k).
    set (v := Cmult (trig m h (angle z k)) (bin z L (frame_of a (spectro_coeff s a) L hop x i) k)).
    assert (D : Cmod (Cminus u v) <= edge_mag m h peak) by (unfold u, v, peak; eapply bin_filtered; eassumption).
    pose proof (Cmod_triangle (Cminus u v) v) as T1. replace (Cplus (Cminus u v) v) with u in T1 by ring.
    pose proof (Cmod_triangle (Copp (Cminus u v)) u) as T2. replace (Cplus (Copp (Cminus u v)) u) with v in T2 by ring. rewrite Cmod_opp in T2.
    apply Rabs_le. lra.
  - intros j g d Hj HG. destruct (band_filtered a (spectro_coeff s a) N L hop z (half (s_nfft a)) m h x M i (B j) g d LZ FT HM Hx HG) as (A & A0 & A1 & A2).
    fold peak in A2. pose proof (Rle_abs (sqrt (spec_band (half (s_nfft a)) z L (frame_of a (spectro_coeff s a) L hop (filtered m h x) i) (B j)) - sqrt A)) as T1. rewrite Rabs_minus_sym in A2. pose proof (Rle_abs (sqrt A - sqrt (spec_band (half (s_nfft a)) z L (frame_of a (spectro_coeff s a) L hop (filtered m h x) i) (B j)))) as T2. rewrite Rabs_minus_sym in T1. lra.
Qed.

Section Colour.
Variables (E : Env) (e : extractor) (a : sargs) (c : cargs) (N L hop n : nat) (B : nat -> nat -> R) (m : nat) (h : nat -> R) (x : nat -> R) (M : R) (g d r : nat -> R).
Hypothesis Hw : @well_framed E a N L hop.
Hypothesis HL : (Z.of_nat L <= s_nfft a)%Z.
Hypothesis Hn : (0 < n)%nat.
Hypothesis HB : @extractor_bank E e a = Ok (fmat n (S (half (s_nfft a))) B).
Hypothesis He : In e [Mfcc; Imfcc; Lfcc; Ngcc].
Hypothesis HM : 0 <= M.
Hypothesis Hx : forall t, (t < N)%nat -> Rabs (x t) <= M.
Let z := Z.to_nat (s_nfft a).
Let peak := pre_peak (s_pre_emph a) (extractor_coeff e a) M.
Let band y i j := spec_band (half (s_nfft a)) z L (frame_of a (extractor_coeff e a) L hop y i) (B j).
Let q j := edge_level m h peak (bigsum (S (half (s_nfft a))) (B j)) z.
Hypothesis HG : forall j, (j < n)%nat -> even_gain z m h (half (s_nfft a)) (B j) (g j) (d j) /\ 0 <= r j < 1.
Hypothesis Hnc : (0 <= c_num_ceps c <= s_nfilts a)%Z.
Hypothesis Ht : (1 <= c_dct_type c <= 4)%Z.
Hypothesis H1 : c_dct_type c = 1%Z -> (2 <= n)%nat.
Hypothesis Hu : c_use_energy c = false.
Hypothesis Hl : no_lifter c.
Let K := Nat.min (Z.to_nat (c_num_ceps c)) n.

Lemma colour_ok : forall y i j, (j < n)%nat -> 0 <= band y i j.
Proof. intros y i j Hj. destruct (HG j Hj) as ((_ & _ & G) & _). assert (1 <= L)%nat by (unfold well_framed in Hw; lia). apply spec_band_nonneg; [unfold z; lia|]. intros k Hk. apply G; exact Hk. Qed.
Lemma colour_log : forall i j, (i < frame_count N L hop)%nat -> (j < n)%nat -> 0 < band x i j -> q j <= r j * (g j * exp (- d j) * sqrt (band x i j)) ->
  Rabs (spec_log (band (filtered m h x) i j) - (spec_log (band x i j) + 2 * ln (g j))) <= 2 * (d j - ln (1 - r j)).
Proof.
  intros i j Hi Hj Hb Hq. destruct (HG j Hj) as (EG & R1). assert (W : (0 < hop)%nat /\ (1 <= L <= N)%nat) by (unfold well_framed in Hw; lia).
  assert (FT : (i * hop + L <= N)%nat) by (apply frame_fits; tauto || lia). assert (LZ : (1 <= L <= z)%nat) by (unfold z; lia).
  destruct (band_filtered a (extractor_coeff e a) N L hop z (half (s_nfft a)) m h x M i (B j) (g j) (d j) LZ FT HM Hx EG) as (A & A0 & A1 & A2).
  destruct EG as (G0 & D0 & _). apply (log_filtered (g j) (d j) (r j) (q j) (band x i j) A); try assumption. apply colour_ok; exact Hj.
Qed.
Lemma colour_run : forall y c', c_num_ceps c' = c_num_ceps c -> c_dct_type c' = c_dct_type c -> c_use_energy c' = false -> no_lifter c' -> no_normalisation c' ->
  @run E e (fvec N y) a c' = Ok (fmat (frame_count N L hop) K (fun i => spec_dct (c_dct_type c) n (fun j => spec_log (band y i j)))).
Proof.
  intros y c' E1 E2 E3 E4 E5. assert (1 <= L)%nat by (unfold well_framed in Hw; lia).
  assert (C : forall v, compression e v = spec_log v) by (intros v; destruct He as [<-|[<-|[<-|[<-|[]]]]]; reflexivity).
  assert (CC : forall v, 0 <= v -> compressible e v) by (intros v Hv; destruct He as [<-|[<-|[<-|[<-|[]]]]]; exact Hv).
  rewrite (run_fvec e a c' N L hop n B y); auto; rewrite ?E1, ?E2, ?E3; auto; try lia; try discriminate.
  - f_equal. apply fmat_ext. intros i k _ _. cbv zeta. cbn [andb]. apply spec_dct_ext. intros j _. rewrite C. reflexivity.
  - intros i j _ Hj. apply CC. apply (colour_ok y); exact Hj.
Qed.
Let clear_frame i := forall j, (j < n)%nat -> 0 < band x i j /\ q j <= r j * (g j * exp (- d j) * sqrt (band x i j)).
Let step j := 2 * (d j - ln (1 - r j)).

Lemma colour_rows : no_normalisation c ->
  exists y y2, @run E e (fvec N x) a c = Ok (fmat (frame_count N L hop) K y) /\ @run E e (fvec N (filtered m h x)) a c = Ok (fmat (frame_count N L hop) K y2) /\
    forall i, (i < frame_count N L hop)%nat -> clear_frame i ->
      sqdist K (fun k => y i k + spec_dct (c_dct_type c) n (fun j => 2 * ln (g j)) k) (y2 i) <= bigsum n (fun j => step j ^ 2).
Proof.
  intros Hm. do 2 eexists. split; [apply colour_run; auto|]. split; [apply colour_run; auto|]. intros i Hi HC. cbv beta.
  eapply Rle_trans; [apply (sqdist_mono K n); unfold K; lia|].
  apply Rle_trans with (sqdist n (spec_dct (c_dct_type c) n (fun j => 1 * spec_log (band x i j) + 1 * (2 * ln (g j)))) (spec_dct (c_dct_type c) n (fun j => spec_log (band (filtered m h x) i j)))).
  { right. unfold sqdist. apply bigsum_ext. intros k _. rewrite spec_dct_linear. ring. }
  rewrite dct_sqdist by assumption. apply bigsum_le. intros j Hj. destruct (HC j Hj) as (C1 & C2). pose proof (colour_log i j Hi Hj C1 C2) as CL.
  rewrite <- pow2_abs. apply pow_incr. split; [apply Rabs_pos|]. rewrite Rabs_minus_sym. rewrite !Rmult_1_l. exact CL.
Qed.

Lemma mean_le : forall r0 (f : nat -> R) b0, (0 < r0)%nat -> (forall i, (i < r0)%nat -> Rabs (f i) <= b0) -> Rabs (bigsum r0 f / INR r0) <= b0.
Proof.
  intros r0 f b0 Hr H. assert (R0 : 0 < INR r0) by (apply lt_0_INR; exact Hr). unfold Rdiv. rewrite Rabs_mult, (Rabs_pos_eq (/ INR r0)) by (left; apply Rinv_0_lt_compat; exact R0).
  apply Rmult_le_reg_r with (INR r0); [exact R0|]. rewrite Rmult_assoc, Rinv_l, Rmult_1_r by lra.
  eapply Rle_trans; [apply bigsum_Rabs|]. rewrite Rmult_comm, <- bigsum_const. apply bigsum_le. exact H.
Qed.
Lemma colour_ms : c_normalize c = Some "ms"%string -> (0 < c_num_ceps c)%Z ->
  exists y y2, @run E e (fvec N x) a c = Ok (fmat (frame_count N L hop) K y) /\ @run E e (fvec N (filtered m h x)) a c = Ok (fmat (frame_count N L hop) K y2) /\
    ((forall i, (i < frame_count N L hop)%nat -> clear_frame i) ->
     forall i, (i < frame_count N L hop)%nat -> sqdist K (y i) (y2 i) <= bigsum n (fun j => (2 * step j) ^ 2)).
Proof.
  intros Hm HK0. set (R1 := frame_count N L hop). assert (R0 : (0 < R1)%nat) by apply frame_count_pos. assert (RI : 0 < INR R1) by (apply lt_0_INR; exact R0).
  set (ty := c_dct_type c). set (G := fun y i j => spec_log (band y i j)).
  set (U := fun y i j => G y i j - bigsum R1 (fun i' => G y i' j) / INR R1).
  assert (RUN : forall y, (0 < K)%nat -> @run E e (fvec N y) a c = Ok (fmat R1 K (fun i => spec_dct ty n (U y i)))).
  { intros y HK. rewrite run_options. rewrite (colour_run y (plain_options c)); try reflexivity; try exact Hu; [|left; reflexivity|left; reflexivity]. cbn [rbind]. unfold after.
    replace (match c_lifter c with Some l => if Reqb l 0 then Ok _ else _ | None => Ok _ end) with (Ok (fmat R1 K (fun i => spec_dct ty n (G y i)))).
    2:{ destruct Hl as [->| ->]; [reflexivity|]. unfold Reqb. destruct (Req_EM_T 0 0); [reflexivity|congruence]. }
    cbn [rbind]. rewrite Hm. cbn [String.eqb]. rewrite norm_ms by assumption. f_equal. apply fmat_ext. intros i k Hi Hk.
    transitivity (spec_dct ty n (fun j => 1 * G y i j + (- / INR R1) * bigsum R1 (fun i' => G y i' j)) k).
    - rewrite spec_dct_linear. rewrite Rmult_1_l. unfold Rminus. f_equal. unfold cmean, Rdiv. rewrite Ropp_mult_distr_l_reverse, Rmult_comm. f_equal. f_equal.
      unfold spec_dct. rewrite bigsum_swap. apply bigsum_ext. intros j _. rewrite bigsum_scal_r. reflexivity.
    - apply spec_dct_ext. intros j _. unfold U, Rdiv. ring. }
  assert (KN : (0 < K)%nat) by (unfold K; lia).
  do 2 eexists. split; [apply RUN; lia|]. split; [apply RUN; lia|]. intros HC i Hi. cbv beta.
    eapply Rle_trans; [apply (sqdist_mono K n); unfold K; lia|]. rewrite dct_sqdist by assumption. apply bigsum_le. intros j Hj.
    assert (D : forall i', (i' < R1)%nat -> Rabs (G (filtered m h x) i' j - (G x i' j + 2 * ln (g j))) <= step j).
    { intros i' Hi'. destruct (HC i' Hi' j Hj) as (C1 & C2). apply colour_log; assumption. }
    replace (U x i j - U (filtered m h x) i j) with (- (G (filtered m h x) i j - (G x i j + 2 * ln (g j))) + bigsum R1 (fun i' => G (filtered m h x) i' j - (G x i' j + 2 * ln (g j))) / INR R1).
    + rewrite <- pow2_abs. apply pow_incr. split; [apply Rabs_pos|]. eapply Rle_trans; [apply Rabs_triang|]. rewrite Rabs_Ropp. pose proof (D i Hi) as D1.
      pose proof (mean_le R1 _ _ R0 D) as D2. cbv beta in D2. lra.
    + unfold U. rewrite bigsum_minus, bigsum_plus, bigsum_const. field. lra.
Qed.
End Colour.

(** ** mvn divides by the deviation of the whole matrix, so even a gain remains *)
Definition pair_a : sargs := mkS 1 true 1 (Some (mkWindow 1 1 "hamming")) 2 1 0 None "constant" (Some [[f1]; [f1]]) "Oshaghnessy".
Definition pair_c : cargs := mkC 2 2 false None (Some "mvn"%string).
Definition pair_x (t : nat) : R := match t with O => 1 | _ => 3 end.
Lemma pair_dct : forall v k, (k < 2)%nat -> spec_dct 2 2 (fun _ => v) k = if Nat.eqb k 0 then sqrt 2 * v else 0.
Proof.
  intros v k Hk. unfold spec_dct, spec_dct_entry. cbn [bigsum Z.eqb Pos.eqb]. destruct k as [|[|k]]; [| |lia]; cbn [Nat.eqb].
  - replace (PI * INR 0 * (2 * INR 0 + 1) / (2 * INR 2)) with 0 by (simpl; field). replace (PI * INR 0 * (2 * INR 1 + 1) / (2 * INR 2)) with 0 by (simpl; field).
    rewrite cos_0. assert (S2 : sqrt (1 / INR 2) = sqrt 2 / 2).
    { simpl INR. replace (1 / (1 + 1)) with (2 / 2 ^ 2) by field. rewrite sqrt_div_alt by lra. rewrite sqrt_pow2 by lra. reflexivity. }
    rewrite S2. field.
  - replace (PI * INR 1 * (2 * INR 0 + 1) / (2 * INR 2)) with (PI / 4) by (simpl; field). replace (PI * INR 1 * (2 * INR 1 + 1) / (2 * INR 2)) with (PI - PI / 4) by (simpl; field).
    rewrite cos_minus, cos_PI, sin_PI. ring.
Qed.
Lemma pair_run : forall (E : Env) x, rnd 1 = 1 -> @run E Mfcc (fvec 2 x) pair_a (plain_options pair_c)
  = Ok (fmat 2 2 (fun i k => if Nat.eqb k 0 then sqrt 2 * spec_log (spec_pre true 1 x i ^ 2) else 0)).
Proof.
  intros E x Hr. rewrite (run_fvec Mfcc pair_a (plain_options pair_c) 2 1 1 2 (fun _ _ => 1) x); try (simpl; lia); try (left; reflexivity); try reflexivity; try discriminate.
  - change (frame_count 2 1 1) with 2%nat. change (Nat.min (Z.to_nat (c_num_ceps (plain_options pair_c))) 2) with 2%nat. f_equal. apply fmat_ext. intros i k Hi Hk.
    cbv zeta. cbn [c_use_energy plain_options andb c_dct_type pair_c compression].
    change (half (s_nfft pair_a)) with 0%nat. change (Z.to_nat (s_nfft pair_a)) with 1%nat.
    change (frame_of pair_a (extractor_coeff Mfcc pair_a) 1 1 x i) with (frame_of (tiny 1) 1 1 1 x i). rewrite tiny_band, Rmult_1_r. apply pair_dct. exact Hk.
  - exact (tiny_framed 1 Hr).
  - intros i j _ _. cbn [compressible]. apply spec_band_nonneg; [simpl; lia|]. intros; lra.
Qed.
Theorem mvn_gain : forall (E : Env), rnd 1 = 1 -> exists y y2,
  @run E Mfcc (fvec 2 pair_x) pair_a pair_c = Ok (fmat 2 2 y) /\ @run E Mfcc (fvec 2 (filtered 1 (fun _ => 2) pair_x)) pair_a pair_c = Ok (fmat 2 2 y2) /\
  y2 0%nat 0%nat <> y 0%nat 0%nat.
Proof.
  intros E Hr. set (s := sqrt 2 * ln 4). assert (S0 : 0 < s) by (apply Rmult_lt_0_compat; [apply sqrt_lt_R0; lra|rewrite <- ln_1; apply ln_increasing; lra]).
  assert (L4 : spec_log 4 = ln 4) by (unfold spec_log; destruct (Req_EM_T 4 0); [lra|reflexivity]).
  assert (L1 : spec_log 1 = 0) by (unfold spec_log; destruct (Req_EM_T 1 0); [lra|apply ln_1]).
  assert (L16 : spec_log 16 = 2 * ln 4) by (unfold spec_log; destruct (Req_EM_T 16 0); [lra|]; replace 16 with (4 * 4) by lra; rewrite ln_mult by lra; ring).
  assert (G : forall b0 v, (forall i, (i < 2)%nat -> sqrt 2 * spec_log (spec_pre true 1 v i ^ 2) = (b0 + INR i) * s) -> 0 <= b0 ->
    @run E Mfcc (fvec 2 v) pair_a pair_c = Ok (fmat 2 2 (fun i k => if Nat.eqb k 0 then (INR i - 1 / 2) * s / (s * sqrt ((b0 ^ 2 + b0 + 3 / 4) / 4)) else 0))).
  { intros b0 v Hv B0. rewrite run_options. rewrite pair_run by exact Hr. cbn [rbind]. unfold after. cbn [c_lifter c_normalize pair_c rbind String.eqb Ascii.eqb Bool.eqb].
    rewrite (fmat_ext 2 2 (fun i k => if Nat.eqb k 0 then sqrt 2 * spec_log (spec_pre true 1 v i ^ 2) else 0) (fun i k => if Nat.eqb k 0 then (b0 + INR i) * s else 0)).
    2:{ intros i k Hi Hk. destruct (Nat.eqb k 0); [apply Hv; exact Hi|reflexivity]. }
    assert (SD : spec_std 2 2 (fun i k => if Nat.eqb k 0 then (b0 + INR i) * s else 0) = s * sqrt ((b0 ^ 2 + b0 + 3 / 4) / 4)).
    { transitivity (sqrt (s ^ 2) * sqrt ((b0 ^ 2 + b0 + 3 / 4) / 4)); [|rewrite (sqrt_pow2 s) by lra; reflexivity]. rewrite <- sqrt_mult_alt by apply pow2_ge_0. unfold spec_std. f_equal. unfold spec_mean. cbn [bigsum Nat.eqb]. simpl INR. field. }
    assert (SP : 0 < sqrt ((b0 ^ 2 + b0 + 3 / 4) / 4)) by (apply sqrt_lt_R0; pose proof (pow2_ge_0 b0); lra).
    rewrite norm_mvn; [|lia|lia|rewrite SD; apply Rmult_lt_0_compat; assumption]. rewrite SD. f_equal. apply fmat_ext. intros i k Hi Hk. unfold cmean. cbn [bigsum].
    destruct k as [|[|k]]; [| |lia]; cbn [Nat.eqb]; simpl (INR 2); [|field; split; lra]. simpl (INR 0). simpl (INR 1). field. split; lra. }
  do 2 eexists. split; [apply (G 0)|split; [apply (G 1)|]]; try lra.
  - intros i Hi. destruct i as [|[|i]]; [| |lia]; cbn [spec_pre pair_x].
    + replace (1 ^ 2) with 1 by ring. rewrite L1. simpl INR. ring.
    + replace ((3 - 1 * 1) ^ 2) with 4 by ring. rewrite L4. simpl INR. unfold s. ring.
  - intros i Hi. unfold filtered. destruct i as [|[|i]]; [| |lia]; cbn [spec_pre pair_x bigsum Nat.leb Nat.sub].
    + replace ((0 + 2 * 1) ^ 2) with 4 by ring. rewrite L4. simpl INR. unfold s. ring.
    + replace ((0 + 2 * 3 - 1 * (0 + 2 * 1)) ^ 2) with 16 by ring. rewrite L16. simpl INR. unfold s. ring.
  - cbv beta. cbn [Nat.eqb]. simpl INR.
    set (u := sqrt ((1 ^ 2 + 1 + 3 / 4) / 4)). set (w := sqrt ((0 ^ 2 + 0 + 3 / 4) / 4)).
    assert (UW : w < u) by (apply sqrt_lt_1_alt; lra). assert (W0 : 0 < w) by (apply sqrt_lt_R0; lra). intros Q.
    assert (T : forall t, 0 < t -> (0 - 1 / 2) * s / (s * t) = - / (2 * t)) by (intros t Ht'; field; lra).
    rewrite !T in Q by lra. assert (Q2 : / (2 * u) = / (2 * w)) by lra. apply (f_equal Rinv) in Q2. rewrite !Rinv_inv in Q2. lra.
Qed.
