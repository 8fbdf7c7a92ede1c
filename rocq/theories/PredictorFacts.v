(** * Predictors that nearly meet the normal equations (proofs for C177) *)
From Coq Require Import Reals ZArith List String Bool Lia Lra.
From Coquelicot Require Import Complex.
From Verif Require Import Base BaseFacts SpecBase BigSum SpecMat MatFacts Preprocessing SpecFeatures Features FeaturesFacts FeaturesPhase CqtFacts
  Rounded SpecRounded RoundedLaws SpecNoise NoiseFacts SpecLpc Lpc LpcTheory LpcMore LpcLaws Extractors SpecLevinson LevinsonFacts ColourFacts.
Import ListNotations.
Local Open Scope R_scope.

(** ** Floors *)
Lemma trig_sum : forall M m (v : nat -> R) (g : nat -> nat -> R) th,
  trig M (fun t => bigsum m (fun k => v k * g k t)) th = Cbig m (fun k => Cmult (RtoC (v k)) (trig M (g k) th)).
Proof.
  intros M m v g th. unfold trig.
  rewrite (Cbig_ext m (fun k => Cmult (RtoC (v k)) (Cbig M (fun t => Cmult (RtoC (g k t)) (cis (th * INR t))))) (fun k => Cbig M (fun t => Cmult (RtoC (v k)) (Cmult (RtoC (g k t)) (cis (th * INR t)))))).
  2:{ intros k _. rewrite Cbig_scal. reflexivity. }
  rewrite Cbig_swap. apply Cbig_ext. intros t _.
  induction m as [|m IH]; [cbn [bigsum]; unfold Cbig; cbn [bigsum]; apply injective_projections; cbn; ring|].
  rewrite Cbig_S, <- IH. cbn [bigsum]. rewrite RtoC_plus, RtoC_mult. ring.
Qed.
Lemma cis_plus : forall a b, cis (a + b) = Cmult (cis a) (cis b).
Proof. intros. unfold cis, Cmult. cbn [fst snd]. rewrite cos_plus, sin_plus. f_equal; ring. Qed.
Lemma trig_delay : forall L p f k th, (k <= p)%nat -> trig (L + p) (SpecLpc.delayed L f k) th = Cmult (cis (th * INR k)) (trig L f th).
Proof.
  intros L p f k th Hk. unfold trig. replace (L + p)%nat with (k + (L + (p - k)))%nat by lia. rewrite Cbig_split.
  rewrite (Cbig_zero k). 2:{ intros t Ht. rewrite delayed_before by exact Ht. apply injective_projections; cbn; ring. }
  rewrite Cbig_split. rewrite (Cbig_zero (p - k)). 2:{ intros t Ht. rewrite delayed_after by lia. apply injective_projections; cbn; ring. }
  rewrite <- Cbig_scal. rewrite (Cbig_ext L _ (fun t => Cmult (cis (th * INR k)) (Cmult (RtoC (f t)) (cis (th * INR t))))).
  - apply injective_projections; cbn; ring.
  - intros t Ht. rewrite delayed_in by exact Ht. rewrite plus_INR, Rmult_plus_distr_l, cis_plus. ring.
Qed.
Lemma residual_bin : forall n L p f v k, (L + p <= n)%nat ->
  bin n (L + p) (residual L p f v) k = Cmult (trig (S p) v (angle n k)) (bin n L f k).
Proof.
  intros n L p f v k Hn. rewrite !bin_trig by lia.
  rewrite (trig_sum (L + p) (S p) v (fun j t => SpecLpc.delayed L f j t) (angle n k) : trig (L + p) (residual L p f v) (angle n k) = _).
  rewrite (Cbig_ext (S p) _ (fun j => Cmult (trig L f (angle n k)) (Cmult (RtoC (v j)) (cis (angle n k * INR j))))).
  - rewrite Cbig_scal. unfold trig at 2. ring.
  - intros j Hj. rewrite trig_delay by lia. ring.
Qed.
Lemma sq_bin : forall n L f k, spec_re n L f k ^ 2 + spec_im n L f k ^ 2 = Cmod (bin n L f k) ^ 2.
Proof. intros. unfold Cmod, bin. cbn [fst snd]. rewrite pow2_sqrt; [reflexivity|]. pose proof (pow2_ge_0 (spec_re n L f k)). pose proof (pow2_ge_0 (spec_im n L f k)). lra. Qed.
Lemma energy_bins : forall n L f, (0 < n)%nat -> (L <= n)%nat -> bigsum n (fun k => Cmod (bin n L f k) ^ 2) = INR n * bigsum L (fun t => f t ^ 2).
Proof. intros n L f Hn HL. rewrite <- (parseval_full n L f Hn HL). apply bigsum_ext. intros k _. rewrite <- sq_bin. reflexivity. Qed.
Lemma floor_spectrum : forall n L p f s, (1 <= L)%nat -> (L + p <= n)%nat -> spectrum_floor n L f s -> energy_floor L p f s.
Proof.
  intros n L p f s HL Hn HS v. assert (N0 : 0 < INR n) by (apply lt_0_INR; lia). apply Rmult_le_reg_l with (INR n); [exact N0|].
  unfold residual_energy. rewrite <- (energy_bins n (L + p) (residual L p f v)) by lia.
  replace (INR n * (s * bigsum (S p) (fun k => v k ^ 2))) with (s * (INR n * bigsum (S p) (fun k => v k ^ 2))) by ring.
  rewrite <- (energy_bins n (S p) v) by lia. rewrite <- bigsum_scal. apply bigsum_le. intros k Hk. rewrite residual_bin by exact Hn. rewrite Cmod_mult, Rpow_mult_distr.
  rewrite <- (bin_trig n (S p) v k) by lia. rewrite Rmult_comm. apply Rmult_le_compat_l; [apply pow2_ge_0|]. rewrite <- sq_bin. apply HS. exact Hk.
Qed.
Lemma sum_sq_split : forall n u w, bigsum n (fun k => (u k + w k) ^ 2) <= 2 * bigsum n (fun k => u k ^ 2) + 2 * bigsum n (fun k => w k ^ 2).
Proof. intros. rewrite <- !bigsum_scal, <- bigsum_plus. apply bigsum_le. intros k _. pose proof (pow2_ge_0 (u k - w k)). lra. Qed.
Lemma form_grow : forall L p f u v, u (S p) = 0 -> v (S p) = 0 -> form L (S p) f u v = form L p f u v.
Proof.
  intros L p f u v Hu Hv. rewrite !form_toeplitz. rewrite (bigsum_S (S p)), Hu, Rmult_0_l, Rplus_0_r. apply bigsum_ext. intros i _. rewrite (bigsum_S (S p)), Hv, Rmult_0_r, Rplus_0_r. reflexivity.
Qed.
Lemma floor_exists : forall L f, sounding L f -> forall p, exists s, 0 < s /\ energy_floor L p f s.
Proof.
  intros L f Hf p. induction p as [|p (s & S0 & HS)].
  - exists (residual_energy L 0 f (fun _ => 1)). split; [apply residual_energy_pos; [exact Hf|exists O; split; [lia|lra]]|].
    intros v. right. rewrite <- !form_self. rewrite !form_toeplitz. cbn [bigsum]. ring.
  - destruct (levinson L f Hf (S p)) as (a & Ha & _). pose proof (normal_positive L (S p) f a Hf Ha) as E0. set (E := residual_energy L (S p) f a) in *.
    set (Q := bigsum (S p) (fun k => a (S k) ^ 2)). assert (Q0 : 0 <= Q) by (apply bigsum_nonneg; intros; apply pow2_ge_0).
    exists (Rmin (s / 2) (E / (1 + 2 * Q))). assert (B0 : 0 < E / (1 + 2 * Q)) by (apply Rdiv_lt_0_compat; lra).
    split; [apply Rmin_pos; lra|]. intros v. set (t := v O). set (w := fun k => v k - t * a k).
    assert (W0 : w O = 0) by (unfold w, t; destruct Ha as (A0 & _); rewrite A0; ring).
    assert (P1 : residual_energy L (S p) f v = t ^ 2 * E + residual_energy L (S p) f w).
    { unfold E. rewrite <- !form_self. rewrite (form_ext L (S p) f v (fun k => t * a k + 1 * w k) v v) by (intros; unfold w; try ring; reflexivity).
      rewrite form_lin, !(form_sym L (S p) f _ v). rewrite !(form_ext L (S p) f v (fun k => t * a k + 1 * w k) _ _ (fun k _ => ltac:(unfold w; ring)) (fun k _ => eq_refl)).
      rewrite !form_lin. rewrite (normal_form L (S p) f a w Ha W0), (form_sym L (S p) f a w), (normal_form L (S p) f a w Ha W0). ring. }
    set (w' := fun k => if Nat.leb k p then w (S k) else 0).
    assert (P2 : s * bigsum (S p) (fun k => w (S k) ^ 2) <= residual_energy L (S p) f w).
    { rewrite <- form_self. rewrite (form_ext L (S p) f w (sh w') w (sh w')).
      2, 3: intros k Hk; destruct k as [|k]; [exact W0|]; cbn [sh]; unfold w'; destruct (Nat.leb_spec k p); [reflexivity|lia].
      assert (Z : w' (S p) = 0) by (unfold w'; destruct (Nat.leb_spec (S p) p); [lia|reflexivity]). rewrite form_shift, form_grow by exact Z. rewrite form_self.
      specialize (HS w'). eapply Rle_trans; [|exact HS]. right. f_equal. apply bigsum_ext. intros k Hk. unfold w'. destruct (Nat.leb_spec k p); [reflexivity|lia]. }
    rewrite P1, bigsum_S_l. fold t.
    assert (P3 : bigsum (S p) (fun k => v (S k) ^ 2) <= 2 * bigsum (S p) (fun k => w (S k) ^ 2) + 2 * (t ^ 2 * Q)).
    { eapply Rle_trans; [|eapply Rle_trans; [apply (sum_sq_split (S p) (fun k => w (S k)) (fun k => t * a (S k)))|]].
      - right. apply bigsum_ext. intros k _. unfold w. ring.
      - right. f_equal. f_equal. unfold Q. rewrite <- bigsum_scal. apply bigsum_ext. intros; ring. }
    set (X := bigsum (S p) (fun k => v (S k) ^ 2)) in *. set (Y := bigsum (S p) (fun k => w (S k) ^ 2)) in *.
    assert (Y0 : 0 <= Y) by (apply bigsum_nonneg; intros; apply pow2_ge_0).
    set (m := Rmin (s / 2) (E / (1 + 2 * Q))). assert (M1 : m <= s / 2) by apply Rmin_l. assert (M2 : m <= E / (1 + 2 * Q)) by apply Rmin_r.
    assert (M0 : 0 < m) by (apply Rmin_pos; lra).
    apply Rle_trans with (m * (2 * Y) + m * (1 + 2 * Q) * t ^ 2).
    + apply Rle_trans with (m * (t ^ 2 + (2 * Y + 2 * (t ^ 2 * Q)))); [apply Rmult_le_compat_l; lra|right; ring].
    + assert (m * (2 * Y) <= s * Y) by (apply Rle_trans with ((s / 2) * (2 * Y)); [apply Rmult_le_compat_r; lra|right; field]).
      assert (m * (1 + 2 * Q) <= E). { apply Rle_trans with (E / (1 + 2 * Q) * (1 + 2 * Q)); [apply Rmult_le_compat_r; lra|right; field; lra]. }
      assert (m * (1 + 2 * Q) * t ^ 2 <= E * t ^ 2) by (apply Rmult_le_compat_r; [apply pow2_ge_0|assumption]). lra.
Qed.

(** ** Defects *)
Lemma cauchy : forall n u w, bigsum n (fun k => u k * w k) ^ 2 <= bigsum n (fun k => u k ^ 2) * bigsum n (fun k => w k ^ 2).
Proof.
  intros n u w. set (A := bigsum n (fun k => u k ^ 2)). set (B := bigsum n (fun k => u k * w k)). set (D := bigsum n (fun k => w k ^ 2)).
  assert (A0 : 0 <= A) by (apply bigsum_nonneg; intros; apply pow2_ge_0).
  assert (H : forall l, 0 <= l ^ 2 * A - 2 * l * B + D).
  { intros l. unfold A, B, D. rewrite <- !bigsum_scal, <- bigsum_minus, <- bigsum_plus. apply bigsum_nonneg. intros k _. pose proof (pow2_ge_0 (l * u k - w k)). lra. }
  destruct (Req_dec A 0) as [Z|Z].
  - assert (B0 : B = 0).
    { destruct (Req_dec B 0) as [|NB]; [assumption|]. exfalso. pose proof (H ((D + 1) / (2 * B))) as HH. rewrite Z in HH. replace (2 * ((D + 1) / (2 * B)) * B) with (D + 1) in HH by (field; exact NB). lra. }
    rewrite B0, Z. lra.
  - pose proof (H (B / A)) as H1. replace ((B / A) ^ 2 * A - 2 * (B / A) * B + D) with ((A * D - B ^ 2) / A) in H1 by (field; exact Z).
    apply Rmult_le_compat_r with (r := A) in H1; [|exact A0]. unfold Rdiv in H1. rewrite Rmult_assoc, Rinv_l in H1 by exact Z. lra.
Qed.
Lemma defect_near : forall L p f a b s, normal_equations L p f a -> b O = 1 -> 0 < s -> energy_floor L p f s ->
  let D := bigsum p (fun i => defect L p f b (S i) ^ 2) in
  bigsum (S p) (fun k => (b k - a k) ^ 2) <= D / s ^ 2 /\ residual_energy L p f b <= residual_energy L p f a + D / s.
Proof.
  intros L p f a b s Ha Hb S0 HS D. set (c := fun k => b k - a k). assert (C0 : c O = 0) by (unfold c; rewrite Hb; destruct Ha as (-> & _); ring).
  assert (F : residual_energy L p f c = bigsum p (fun i => c (S i) * defect L p f b (S i))).
  { rewrite <- form_self. transitivity (form L p f c b).
    - rewrite (form_sym L p f c b). rewrite (form_ext L p f b (fun k => 1 * c k + 1 * a k) c c) by (intros; unfold c; try ring; reflexivity).
      rewrite form_lin, (form_sym L p f a c), (normal_form L p f a c Ha C0). ring.
    - rewrite form_toeplitz, bigsum_S_l, C0, Rmult_0_l, Rplus_0_l. reflexivity. }
  set (X := bigsum (S p) (fun k => c k ^ 2)). assert (X1 : X = bigsum p (fun i => c (S i) ^ 2)) by (unfold X; rewrite bigsum_S_l, C0; lra).
  pose proof (HS c) as FL. fold X in FL. assert (X0 : 0 <= X) by (apply bigsum_nonneg; intros; apply pow2_ge_0).
  pose proof (cauchy p (fun i => c (S i)) (fun i => defect L p f b (S i))) as CS. cbv beta in CS. rewrite <- F, <- X1 in CS. fold D in CS.
  assert (D0 : 0 <= D) by (apply bigsum_nonneg; intros; apply pow2_ge_0). set (G := residual_energy L p f c) in *. assert (G0 : 0 <= G) by apply residual_energy_nonneg.
  assert (SX : s ^ 2 * X <= D).
  { destruct (Req_dec X 0) as [Z|Z]; [rewrite Z; lra|]. assert (XP : 0 < X) by lra. apply Rmult_le_reg_l with X; [exact XP|]. apply Rle_trans with (G ^ 2); [|exact CS].
    replace (X * (s ^ 2 * X)) with ((s * X) ^ 2) by ring. apply pow_incr. split; [apply Rmult_le_pos; lra|exact FL]. }
  assert (S2 : 0 < s ^ 2) by (apply pow_lt; exact S0).
  split.
  - change (X <= D / s ^ 2). apply Rmult_le_reg_l with (s ^ 2); [exact S2|]. replace (s ^ 2 * (D / s ^ 2)) with D by (field; lra). exact SX.
  - rewrite (normal_pythagoras L p f a b Ha Hb). apply Rplus_le_compat_l. change (G <= D / s). apply Rmult_le_reg_l with s; [exact S0|]. replace (s * (D / s)) with D by (field; lra).
    destruct (Req_dec G 0) as [Z|Z]; [rewrite Z; lra|]. apply Rmult_le_reg_l with G; [lra|]. replace (G * (s * G)) with (s * G ^ 2) by ring.
    apply Rle_trans with (s * (X * D)); [apply Rmult_le_compat_l; lra|]. replace (s * (X * D)) with ((s * X) * D) by ring. apply Rmult_le_compat_r; assumption.
Qed.

(** ** Autocorrelations of nearby samples, and rounded ones *)
Lemma acf_change : forall L f g M d k, 0 <= d -> (forall t, (t < L)%nat -> Rabs (f t) <= M) -> (forall t, (t < L)%nat -> Rabs (g t - f t) <= d) ->
  Rabs (acf L g k - acf L f k) <= change_loss L M d.
Proof.
  intros L f g M d k D0 HM HD. unfold acf. rewrite <- bigsum_minus. eapply Rle_trans; [apply bigsum_Rabs|].
  assert (M0 : (L = 0)%nat \/ 0 <= M). { destruct L as [|L]; [left; reflexivity|]. right. eapply Rle_trans; [apply Rabs_pos|apply (HM O); lia]. }
  destruct M0 as [-> |M0]; [cbn; unfold change_loss; cbn; lra|].
  apply Rle_trans with (bigsum (L - k) (fun _ => d * (2 * M + d))).
  - apply bigsum_le. intros t Ht. replace (g t * g (t + k)%nat - f t * f (t + k)%nat) with ((g t - f t) * (g (t + k)%nat - f (t + k)%nat) + ((g t - f t) * f (t + k)%nat + f t * (g (t + k)%nat - f (t + k)%nat))) by ring.
    pose proof (HM t ltac:(lia)). pose proof (HM (t + k)%nat ltac:(lia)). pose proof (HD t ltac:(lia)). pose proof (HD (t + k)%nat ltac:(lia)).
    eapply Rle_trans; [apply Rabs_triang|]. pose proof (Rabs_triang ((g t - f t) * f (t + k)%nat) (f t * (g (t + k)%nat - f (t + k)%nat))) as T. rewrite !Rabs_mult in *.
    assert (P : forall u v a b, Rabs u <= a -> Rabs v <= b -> Rabs u * Rabs v <= a * b) by (intros; apply Rmult_le_compat; auto using Rabs_pos).
    pose proof (P _ _ _ _ H1 H2). pose proof (P _ _ _ _ H1 H0). pose proof (P _ _ _ _ H H2). lra.
  - rewrite bigsum_const. unfold change_loss. assert (INR (L - k) <= INR L) by (apply le_INR; lia). rewrite Rmult_assoc. apply Rmult_le_compat_r; [apply Rmult_le_pos; lra|assumption].
Qed.
Lemma acf_rounded : forall (E : Env) u L g M k prog, accurate u 0 (@rnd E) -> (forall t, (t < L)%nat -> Rabs (g t) <= M) -> dot_program g (L - k) prog ->
  Rabs (@lin_run E (fun t => g (t + k)%nat) prog - acf L g k) <= rounding_loss u L M.
Proof.
  intros E u L g M k prog Ha HM Hp. eapply Rle_trans; [apply (dot_error E u 0 g (L - k) prog (fun t => g (t + k)%nat) Ha Hp)|]. destruct Ha as (U0 & _ & _).
  rewrite Rmult_0_r, Rplus_0_r. unfold rounding_loss.
  assert (M0 : 0 <= bigsum (L - k) (fun t => Rabs (g t * g (t + k)%nat)) <= INR L * M ^ 2).
  { split; [apply bigsum_nonneg; intros; apply Rabs_pos|]. apply Rle_trans with (bigsum (L - k) (fun _ => M ^ 2)).
    - apply bigsum_le. intros t Ht. rewrite Rabs_mult. replace (M ^ 2) with (M * M) by ring. apply Rmult_le_compat; try apply Rabs_pos; apply HM; lia.
    - rewrite bigsum_const. apply Rmult_le_compat_r; [apply pow2_ge_0|apply le_INR; lia]. }
  assert (P : 1 <= (1 + u) ^ (L - k) <= (1 + u) ^ L) by (split; [apply pow_R1_Rle; lra|apply Rle_pow; [lra|lia]]).
  apply Rmult_le_compat; lra.
Qed.
Lemma defect_bound : forall L p f r b tau eps i, (forall k, (k <= p)%nat -> Rabs (r k - acf L f k) <= eps) -> (1 <= i <= p)%nat ->
  Rabs (bigsum (S p) (fun j => r (dist i j) * b j)) <= tau -> Rabs (defect L p f b i) <= tau + eps * bigsum (S p) (fun j => Rabs (b j)).
Proof.
  intros L p f r b tau eps i He Hi Ht. unfold defect.
  replace (bigsum (S p) (fun j => acf L f (dist i j) * b j)) with (bigsum (S p) (fun j => r (dist i j) * b j) - bigsum (S p) (fun j => (r (dist i j) - acf L f (dist i j)) * b j)).
  - unfold Rminus. eapply Rle_trans; [apply Rabs_triang|]. rewrite Rabs_Ropp. apply Rplus_le_compat; [exact Ht|]. eapply Rle_trans; [apply bigsum_Rabs|]. rewrite <- bigsum_scal.
    apply bigsum_le. intros j Hj. rewrite Rabs_mult. apply Rmult_le_compat_r; [apply Rabs_pos|]. apply He. unfold dist. destruct (Nat.leb_spec j i); lia.
  - rewrite <- bigsum_minus. apply bigsum_ext. intros; ring.
Qed.
Lemma sum_sq_const : forall p (q : nat -> R) m, (forall i, (i < p)%nat -> Rabs (q i) <= m) -> bigsum p (fun i => q i ^ 2) <= INR p * m ^ 2.
Proof.
  intros p q m H. rewrite <- bigsum_const. apply bigsum_le. intros i Hi. rewrite <- pow2_abs. apply pow_incr. split; [apply Rabs_pos|apply H; exact Hi].
Qed.
(** any computation whose predictor nearly solves the system it has *)
Lemma computed_near : forall (E : Env) u L p f g a M d prog b tau s, accurate u 0 (@rnd E) -> 0 <= d ->
  (forall t, (t < L)%nat -> Rabs (f t) <= M) -> (forall t, (t < L)%nat -> Rabs (g t - f t) <= d) ->
  (forall k, (k <= p)%nat -> dot_program g (L - k) (prog k)) ->
  b O = 1 -> (forall i, (1 <= i <= p)%nat -> Rabs (bigsum (S p) (fun j => @lin_run E (fun t => g (t + dist i j)%nat) (prog (dist i j)) * b j)) <= tau) ->
  normal_equations L p f a -> 0 < s -> energy_floor L p f s ->
  let q := tau + (rounding_loss u L (M + d) + change_loss L M d) * bigsum (S p) (fun j => Rabs (b j)) in
  bigsum (S p) (fun k => (b k - a k) ^ 2) <= INR p * (q / s) ^ 2 /\ residual_energy L p f b <= residual_energy L p f a + INR p * q ^ 2 / s.
Proof.
  intros E u L p f g a M d prog b tau s Ha D0 HM HD Hp Hb Ht Hn S0 HS q.
  destruct (defect_near L p f a b s Hn Hb S0 HS) as (N1 & N2). set (D := bigsum p (fun i => defect L p f b (S i) ^ 2)) in *.
  assert (DB : D <= INR p * q ^ 2).
  { apply sum_sq_const. intros i Hi. apply (defect_bound L p f (fun k => @lin_run E (fun t => g (t + k)%nat) (prog k)) b tau); [|lia|apply Ht; lia].
    intros k Hk. replace (@lin_run E (fun t => g (t + k)%nat) (prog k) - acf L f k) with ((@lin_run E (fun t => g (t + k)%nat) (prog k) - acf L g k) + (acf L g k - acf L f k)) by ring.
    eapply Rle_trans; [apply Rabs_triang|]. apply Rplus_le_compat.
    - apply acf_rounded; [exact Ha| |apply Hp; exact Hk]. intros t Ht'. replace (g t) with (f t + (g t - f t)) by ring. eapply Rle_trans; [apply Rabs_triang|]. pose proof (HM t Ht'). pose proof (HD t Ht'). lra.
    - apply acf_change; assumption. }
  split.
  - eapply Rle_trans; [exact N1|]. replace (INR p * (q / s) ^ 2) with (INR p * q ^ 2 / s ^ 2) by (field; lra).
    apply Rmult_le_compat_r; [left; apply Rinv_0_lt_compat, pow_lt; exact S0|exact DB].
  - eapply Rle_trans; [exact N2|]. apply Rplus_le_compat_l. apply Rmult_le_compat_r; [left; apply Rinv_0_lt_compat; exact S0|exact DB].
Qed.
(** the predictors of two similar frames *)
Lemma normal_change : forall L p f g a b M d s, 0 <= d -> (forall t, (t < L)%nat -> Rabs (f t) <= M) -> (forall t, (t < L)%nat -> Rabs (g t - f t) <= d) ->
  normal_equations L p f a -> normal_equations L p g b -> sounding L g -> 0 < s -> energy_floor L p f s ->
  bigsum (S p) (fun k => (b k - a k) ^ 2) <= INR p * (change_loss L M d * 2 ^ p / s) ^ 2.
Proof.
  intros L p f g a b M d s D0 HM HD Ha Hb Hg S0 HS. destruct (defect_near L p f a b s Ha (proj1 Hb) S0 HS) as (N1 & _). eapply Rle_trans; [exact N1|].
  assert (C0 : 0 <= change_loss L M d). { unfold change_loss. destruct L as [|L]; [cbn; lra|]. pose proof (HM O ltac:(lia)). pose proof (Rabs_pos (f O)). apply Rmult_le_pos; [apply Rmult_le_pos; [apply pos_INR|lra]|lra]. }
  assert (DB : bigsum p (fun i => defect L p f b (S i) ^ 2) <= INR p * (change_loss L M d * 2 ^ p) ^ 2).
  { apply sum_sq_const. intros i Hi. eapply Rle_trans; [apply (defect_bound L p f (acf L g) b 0 (change_loss L M d)); [|lia|]|].
    - intros k _. apply acf_change; assumption.
    - destruct Hb as (_ & Hb). rewrite Hb by lia. rewrite Rabs_R0. lra.
    - rewrite Rplus_0_l. apply Rmult_le_compat_l; [exact C0|]. rewrite <- binom_sum. apply bigsum_le. intros j Hj. apply (normal_binomial L p g); [assumption|assumption|lia]. }
  replace (INR p * (change_loss L M d * 2 ^ p / s) ^ 2) with (INR p * (change_loss L M d * 2 ^ p) ^ 2 / s ^ 2) by (field; lra).
  apply Rmult_le_compat_r; [left; apply Rinv_0_lt_compat, pow_lt; exact S0|exact DB].
Qed.

(** ** The frames of a recording *)
Lemma plain_frame_sample : forall N L hop i t, (0 < hop)%nat -> (1 <= L <= N)%nat -> (i < frame_count N L hop)%nat -> (t < L)%nat ->
  (i * hop + t < N)%nat.
Proof.
  intros N L hop i t Hh HL Hi Ht. unfold frame_count in Hi. assert (i <= (N - L) / hop)%nat by lia. assert (i * hop <= (N - L) / hop * hop)%nat by (apply Nat.mul_le_mono_r; assumption).
  pose proof (Nat.mul_div_le (N - L) hop ltac:(lia)). lia.
Qed.
Lemma plain_pre_le : forall on m (y : nat -> R) t, (forall u, (u <= t)%nat -> Rabs (y u) <= m) -> Rabs (spec_pre on 0.97 y t) <= emphasis on * m.
Proof.
  intros on m y t H. pose proof (H t ltac:(lia)) as H1. pose proof (Rabs_pos (y t)). unfold spec_pre, emphasis. destruct on; [|lra]. destruct t as [|t]; [lra|].
  unfold Rminus. eapply Rle_trans; [apply Rabs_triang|]. rewrite Rabs_Ropp, Rabs_mult, (Rabs_pos_eq 0.97) by lra. pose proof (H t ltac:(lia)). lra.
Qed.
Lemma plain_frame_peak : forall a N L hop x M i t, (0 < hop)%nat -> (1 <= L <= N)%nat -> (i < frame_count N L hop)%nat -> (t < L)%nat ->
  (forall u, (u < N)%nat -> Rabs (x u) <= M) -> Rabs (plain_frame a hop x i t) <= emphasis (s_pre_emph a) * M.
Proof.
  intros a N L hop x M i t Hh HL Hi Ht HM. apply plain_pre_le. intros u Hu. apply HM. pose proof (plain_frame_sample N L hop i t Hh HL Hi Ht). lia.
Qed.
Lemma plain_frame_apart : forall a N L hop x y d i t, (0 < hop)%nat -> (1 <= L <= N)%nat -> (i < frame_count N L hop)%nat -> (t < L)%nat ->
  apart N d x y -> Rabs (plain_frame a hop y i t - plain_frame a hop x i t) <= emphasis (s_pre_emph a) * d.
Proof.
  intros a N L hop x y d i t Hh HL Hi Ht Hd. replace (plain_frame a hop y i t - plain_frame a hop x i t) with (plain_frame a hop (fun u => y u - x u) i t).
  - apply (plain_frame_peak a N L); assumption.
  - unfold plain_frame, spec_pre. destruct (s_pre_emph a); [|reflexivity]. destruct (i * hop + t)%nat; [reflexivity|ring].
Qed.
Lemma plain_frame_same : forall a N L hop x y i t, (0 < hop)%nat -> (1 <= L <= N)%nat -> (i < frame_count N L hop)%nat -> (t < L)%nat ->
  (forall u, (u < N)%nat -> y u = x u) -> plain_frame a hop y i t = plain_frame a hop x i t.
Proof.
  intros a N L hop x y i t Hh HL Hi Ht H. assert (K : apart N 0 x y) by (intros u Hu; rewrite H by exact Hu; replace (x u - x u) with 0 by ring; rewrite Rabs_R0; lra).
  pose proof (plain_frame_apart a N L hop x y 0 i t Hh HL Hi Ht K) as A. rewrite Rmult_0_r in A. apply Rminus_diag_uniq. destruct (Req_dec (plain_frame a hop y i t - plain_frame a hop x i t) 0) as [Z|Z]; [exact Z|].
  pose proof (Rabs_pos_lt _ Z). lra.
Qed.

(** ** The calls of lpc *)
Lemma lpc_two_orders : forall (Env1 : Env) a N L hop p x A E A2 E2, well_framed a N L hop -> (1 <= p)%nat ->
  lpc (fvec N x) (s_fs a) (Z.of_nat (S p)) (s_pre_emph a) (s_coeff a) (s_window a) = Ok (fmat (frame_count N L hop) (S p) A, fmat (frame_count N L hop) 1 E) ->
  lpc (fvec N x) (s_fs a) (Z.of_nat (S (S p))) (s_pre_emph a) (s_coeff a) (s_window a) = Ok (fmat (frame_count N L hop) (S (S p)) A2, fmat (frame_count N L hop) 1 E2) ->
  forall i, (i < frame_count N L hop)%nat -> let k := A2 i (S p) in
    Rabs k < 1 /\ (forall j, (1 <= j <= p)%nat -> A2 i j = A i j + k * A i (S p - j)%nat) /\
    residual_energy L (S p) (plain_frame a hop x i) (A2 i) = (1 - k ^ 2) * residual_energy L p (plain_frame a hop x i) (A i).
Proof.
  intros Env1 a N L hop p x A E A2 E2 Hw Hp H1 H2 i Hi k.
  destruct (lpc_ok_sounding a N L hop p x A E Hw Hp H1 i Hi) as (Hs & N1 & _). destruct (lpc_ok_sounding a N L hop (S p) x A2 E2 Hw ltac:(lia) H2 i Hi) as (_ & N2 & _).
  destruct (normal_step L p _ _ _ Hs N1 N2) as (k' & K1 & K2 & K3 & K4). unfold k. rewrite K2. auto.
Qed.
Lemma lpc_change : forall (Env1 : Env) a N L hop p x y A E A2 E2 M d, well_framed a N L hop -> (1 <= p)%nat ->
  let call z := lpc (fvec N z) (s_fs a) (Z.of_nat (S p)) (s_pre_emph a) (s_coeff a) (s_window a) in let n := frame_count N L hop in
  call x = Ok (fmat n (S p) A, fmat n 1 E) -> call y = Ok (fmat n (S p) A2, fmat n 1 E2) ->
  (forall t, (t < N)%nat -> Rabs (x t) <= M) -> apart N d x y ->
  forall i s, (i < n)%nat -> 0 < s -> energy_floor L p (plain_frame a hop x i) s ->
  bigsum (S p) (fun k => (A2 i k - A i k) ^ 2) <= INR p * (change_loss L (emphasis (s_pre_emph a) * M) (emphasis (s_pre_emph a) * d) * 2 ^ p / s) ^ 2.
Proof.
  intros Env1 a N L hop p x y A E A2 E2 M d Hw Hp call n H1 H2 HM Hd i s Hi S0 HS.
  destruct (lpc_ok_sounding a N L hop p x A E Hw Hp H1 i Hi) as (_ & N1 & _). destruct (lpc_ok_sounding a N L hop p y A2 E2 Hw Hp H2 i Hi) as (Hs & N2 & _).
  destruct Hw as (_ & _ & _ & Hh & HL & _). fold n in Hi.
  assert (D0 : 0 <= d). { eapply Rle_trans; [apply Rabs_pos|apply (Hd O); lia]. }
  apply (normal_change L p (plain_frame a hop x i) (plain_frame a hop y i)); try assumption.
  - unfold emphasis. destruct (s_pre_emph a); lra.
  - intros t Ht. apply (plain_frame_peak a N L); try assumption; lia.
  - intros t Ht. apply (plain_frame_apart a N L); try assumption; lia.
Qed.
Lemma lpc_computed : forall (Env1 : Env) a N L hop p x A E, well_framed a N L hop -> (1 <= p)%nat ->
  lpc (fvec N x) (s_fs a) (Z.of_nat (S p)) (s_pre_emph a) (s_coeff a) (s_window a) = Ok (fmat (frame_count N L hop) (S p) A, fmat (frame_count N L hop) 1 E) ->
  forall (Env2 : Env) u i M d s g prog b tau, (i < frame_count N L hop)%nat -> accurate u 0 (@rnd Env2) -> 0 <= d ->
  let f := plain_frame a hop x i in
  (forall t, (t < L)%nat -> Rabs (f t) <= M) -> (forall t, (t < L)%nat -> Rabs (g t - f t) <= d) -> (forall k, (k <= p)%nat -> dot_program g (L - k) (prog k)) ->
  b O = 1 -> (forall k, (1 <= k <= p)%nat -> Rabs (bigsum (S p) (fun j => @lin_run Env2 (fun t => g (t + dist k j)%nat) (prog (dist k j)) * b j)) <= tau) ->
  0 < s -> energy_floor L p f s ->
  let q := tau + (rounding_loss u L (M + d) + change_loss L M d) * bigsum (S p) (fun j => Rabs (b j)) in
  bigsum (S p) (fun k => (b k - A i k) ^ 2) <= INR p * (q / s) ^ 2 /\ residual_energy L p f b <= residual_energy L p f (A i) + INR p * q ^ 2 / s.
Proof.
  intros Env1 a N L hop p x A E Hw Hp H1 Env2 u i M d s g prog b tau Hi Ha D0 f HM HD Hg Hb Ht S0 HS.
  destruct (lpc_ok_sounding a N L hop p x A E Hw Hp H1 i Hi) as (_ & N1 & _). apply (computed_near Env2 u L p f g (A i) M d prog b tau s); assumption.
Qed.

(** ** Continuity *)
Lemma finite_min : forall (P : nat -> R -> Prop), (forall i s s', 0 < s' <= s -> P i s -> P i s') ->
  forall n, (forall i, (i < n)%nat -> exists s, 0 < s /\ P i s) -> exists s, 0 < s /\ forall i, (i < n)%nat -> P i s.
Proof.
  intros P HP n. induction n as [|n IH]; intros H; [exists 1; split; [lra|lia]|].
  destruct IH as (s & S0 & HS); [intros; apply H; lia|]. destruct (H n ltac:(lia)) as (s2 & S2 & HS2).
  assert (0 < Rmin s s2) by (apply Rmin_glb_lt; assumption). exists (Rmin s s2). split; [assumption|]. intros i Hi. destruct (Nat.eq_dec i n) as [-> |Hn].
  - apply (HP n s2); [split; [assumption|apply Rmin_r]|exact HS2].
  - apply (HP i s); [split; [assumption|apply Rmin_l]|apply HS; lia].
Qed.
Lemma floor_mono : forall L p f s s', 0 < s' <= s -> energy_floor L p f s -> energy_floor L p f s'.
Proof.
  intros L p f s s' H HS v. eapply Rle_trans; [|apply HS]. apply Rmult_le_compat_r; [apply bigsum_nonneg; intros; apply pow2_ge_0|lra].
Qed.
Lemma lpc_continuous : forall (Env1 : Env) a N L hop p x A E eps, well_framed a N L hop -> (1 <= p)%nat -> 0 < eps ->
  let call z := lpc (fvec N z) (s_fs a) (Z.of_nat (S p)) (s_pre_emph a) (s_coeff a) (s_window a) in let n := frame_count N L hop in
  call x = Ok (fmat n (S p) A, fmat n 1 E) ->
  exists d, 0 < d /\ forall y, apart N d x y ->
    exists A2 E2, call y = Ok (fmat n (S p) A2, fmat n 1 E2) /\ forall i k, (i < n)%nat -> (k <= p)%nat -> Rabs (A2 i k - A i k) < eps.
Proof.
  intros Env1 a N L hop p x A E eps Hw Hp E0 call n H1.
  assert (Hs : forall i, (i < n)%nat -> sounding L (plain_frame a hop x i)) by (intros i Hi; apply (lpc_ok_sounding a N L hop p x A E Hw Hp H1 i Hi)).
  destruct (finite_min (fun i s => energy_floor L p (plain_frame a hop x i) s)) with (n := n) as (s & S0 & HS).
  { intros i s s' ? ?. apply (floor_mono L p _ s); assumption. }
  { intros i Hi. apply floor_exists, Hs, Hi. }
  destruct (finite_min (fun i m => exists t, (t < L)%nat /\ m <= Rabs (plain_frame a hop x i t))) with (n := n) as (m & M0 & HM).
  { intros i s1 s2 ? (t & ? & ?). exists t. split; [assumption|lra]. }
  { intros i Hi. destruct (Hs i Hi) as (t & Ht & Hx). exists (Rabs (plain_frame a hop x i t)). split; [apply Rabs_pos_lt, Hx|]. exists t. split; [exact Ht|lra]. }
  set (M := bigsum N (fun t => Rabs (x t))). assert (HX : forall t, (t < N)%nat -> Rabs (x t) <= M).
  { intros t Ht. apply (bigsum_ge_term N (fun t => Rabs (x t)) t); [intros; apply Rabs_pos|exact Ht]. }
  assert (MP : 0 <= M) by (apply bigsum_nonneg; intros; apply Rabs_pos).
  set (e := emphasis (s_pre_emph a)). assert (e1 : 1 <= e <= 1.97) by (unfold e, emphasis; destruct (s_pre_emph a); lra).
  set (K := INR p * (INR L * (2 * (e * M) + 2)) * 2 ^ p / s).
  assert (K0 : 0 <= K). { unfold K. apply Rmult_le_pos; [|left; apply Rinv_0_lt_compat, S0]. apply Rmult_le_pos; [|apply pow_le; lra]. apply Rmult_le_pos; [apply pos_INR|]. apply Rmult_le_pos; [apply pos_INR|]. assert (0 <= e * M) by (apply Rmult_le_pos; lra). lra. }
  set (d0 := Rmin 1 (Rmin (m / 2) (eps / (K + 1)))). 
  assert (D0 : 0 < d0). { unfold d0. repeat apply Rmin_glb_lt; [lra|lra|apply Rdiv_lt_0_compat; lra]. }
  assert (D1 : d0 <= 1) by apply Rmin_l. assert (D2 : d0 <= m / 2) by (eapply Rle_trans; [apply Rmin_r|apply Rmin_l]). assert (D3 : d0 <= eps / (K + 1)) by (eapply Rle_trans; [apply Rmin_r|apply Rmin_r]).
  assert (D4 : K * d0 < eps). { apply Rle_lt_trans with (K * (eps / (K + 1))); [apply Rmult_le_compat_l; assumption|]. apply Rmult_lt_reg_r with (K + 1); [lra|]. replace (K * (eps / (K + 1)) * (K + 1)) with (K * eps) by (field; lra). lra. }
  assert (Dd : 0 < d0 / e) by (apply Rdiv_lt_0_compat; lra). assert (De : e * (d0 / e) = d0) by (field; lra).
  exists (d0 / e). split; [exact Dd|]. intros y Hy.
  assert (Hf := Hw). destruct Hf as (_ & _ & _ & Hh & HL & _).
  destruct (lpc_sounding a N L hop p y Hw Hp) as (A2 & N2 & C2).
  { intros i Hi. destruct (HM i Hi) as (t & Ht & Hm). exists t. split; [exact Ht|]. intros Z.
    pose proof (plain_frame_apart a N L hop x y _ i t Hh ltac:(lia) Hi Ht Hy) as P. fold e in P. rewrite De, Z, Rminus_0_l, Rabs_Ropp in P. lra. }
  eexists A2, _. split; [exact C2|]. intros i k Hi Hk.
  pose proof (lpc_change Env1 a N L hop p x y A E A2 _ M (d0 / e) Hw Hp H1 C2 HX Hy i s Hi S0 (HS i Hi)) as B. fold e in B. rewrite De in B.
  assert (B2 : (A2 i k - A i k) ^ 2 <= (K * d0) ^ 2).
  { eapply Rle_trans; [apply (bigsum_ge_term (S p) (fun k => (A2 i k - A i k) ^ 2) k); [intros; apply pow2_ge_0|lia]|]. eapply Rle_trans; [exact B|].
    assert (P1 : 1 <= INR p) by (change 1 with (INR 1); apply le_INR; lia). unfold change_loss.
    set (z := INR L * d0 * (2 * (e * M) + d0) * 2 ^ p / s).
    assert (Z0 : 0 <= z). { unfold z. apply Rmult_le_pos; [|left; apply Rinv_0_lt_compat, S0]. apply Rmult_le_pos; [|apply pow_le; lra]. apply Rmult_le_pos; [apply Rmult_le_pos; [apply pos_INR|lra]|]. assert (0 <= e * M) by (apply Rmult_le_pos; lra). lra. }
    apply Rle_trans with ((INR p * z) ^ 2).
    - replace ((INR p * z) ^ 2) with (INR p * (INR p * z ^ 2)) by ring. rewrite <- (Rmult_1_l (INR p * z ^ 2)) at 1. apply Rmult_le_compat_r; [apply Rmult_le_pos; [lra|apply pow2_ge_0]|exact P1].
    - apply pow_incr. split; [apply Rmult_le_pos; lra|]. unfold z, K. replace (INR p * (INR L * (2 * (e * M) + 2)) * 2 ^ p / s * d0) with (INR p * (INR L * d0 * (2 * (e * M) + 2) * 2 ^ p / s)) by (field; lra).
      apply Rmult_le_compat_l; [lra|]. apply Rmult_le_compat_r; [left; apply Rinv_0_lt_compat, S0|]. apply Rmult_le_compat_r; [apply pow_le; lra|]. apply Rmult_le_compat_l; [apply Rmult_le_pos; [apply pos_INR|lra]|lra]. }
  apply Rle_lt_trans with (K * d0); [|exact D4]. apply Rsqr_incr_0_var; [|apply Rmult_le_pos; lra]. rewrite <- Rsqr_abs. unfold Rsqr. cbn [pow] in B2. lra.
Qed.
