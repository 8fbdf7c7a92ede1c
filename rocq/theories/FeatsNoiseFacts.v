(** * Proofs for C182: spectral statistics of two similar recordings *)
From Coq Require Import Reals ZArith List String Bool Lia Lra Psatz.
From Coquelicot Require Import Complex.
From Coquelicot Require Rcomplements.
From Verif Require Import Base BaseFacts SpecBase BigSum SpecMat MatFacts SpecFeatures SpecSpectral Cplx SpFeats SpFeatsFacts FeaturesFacts FeaturesPhase CqtFacts FftFacts NoiseFacts ColourFacts ContractFacts SpecFeatsNoise.
Import ListNotations.
Local Open Scope R_scope.

(** ** Spectra of the difference *)
Lemma half_count : forall n, (n <= 2 * S (n / 2))%nat.
Proof. intros n. pose proof (Nat.div_mod n 2 ltac:(lia)). pose proof (Nat.mod_upper_bound n 2 ltac:(lia)). lia. Qed.
Definition gap (n L : nat) (x x2 : nat -> R) (k : nat) : C := (spec_re n L x2 k - spec_re n L x k, spec_im n L x2 k - spec_im n L x k).
Lemma gap_energy : forall n L x x2, (0 < n)%nat -> en (S (n / 2)) (gap n L x x2) <= INR n * seen_energy n L x x2.
Proof.
  intros n L x x2 Hn. unfold en.
  assert (G : forall k, sq (gap n L x x2 k) = spec_sq n (Nat.min L n) (fun t => x2 t - x t) k).
  { intros k. rewrite <- spec_sq_min. unfold sq, gap. cbn [fst snd]. rewrite spec_re_minus, spec_im_minus. reflexivity. }
  rewrite (bigsum_ext _ _ _ (fun k _ => G k)). unfold seen_energy. rewrite <- parseval_full by lia.
  destruct (Nat.eq_dec n 1) as [->|N1].
  - cbn [Nat.div Nat.divmod fst]. lra.
  - apply bigsum_more; [pose proof (Nat.div_mod n 2 ltac:(lia)); lia|]. intros; apply spec_sq_nonneg.
Qed.
Lemma seen_pos : forall n L x x2, 0 <= seen_energy n L x x2.
Proof. intros. apply bigsum_nonneg. intros. apply pow2_ge_0. Qed.
Lemma mag_gap : forall n L x x2 k, (bin_mag n L x2 k - bin_mag n L x k) ^ 2 <= sq (gap n L x x2 k).
Proof.
  intros n L x x2 k. unfold bin_mag, cmag, spec_abs.
  change (sqrt (spec_re n L x2 k ^ 2 + spec_im n L x2 k ^ 2)) with (Cmod (spec_re n L x2 k, spec_im n L x2 k)).
  change (sqrt (spec_re n L x k ^ 2 + spec_im n L x k ^ 2)) with (Cmod (spec_re n L x k, spec_im n L x k)).
  set (u := (spec_re n L x2 k, spec_im n L x2 k) : C). set (v := (spec_re n L x k, spec_im n L x k) : C).
  change (gap n L x x2 k) with (Cminus u v). rewrite sq_mod. rewrite <- pow2_abs. apply pow_incr. split; [apply Rabs_pos|].
  pose proof (Cmod_triangle (Cminus u v) v) as T1. replace (Cplus (Cminus u v) v) with u in T1 by ring.
  pose proof (Cmod_triangle (Copp (Cminus u v)) u) as T2. replace (Cplus (Copp (Cminus u v)) u) with v in T2 by ring. rewrite Cmod_opp in T2. apply Rabs_le. lra.
Qed.
Lemma mags_gap : forall n L x x2, bigsum (S (n / 2)) (fun k => (bin_mag n L x2 k - bin_mag n L x k) ^ 2) <= en (S (n / 2)) (gap n L x x2).
Proof. intros. apply bigsum_le. intros k _. apply mag_gap. Qed.
Lemma abs_sum : forall M u, bigsum M (fun k => Rabs (u k)) <= sqrt (INR M * bigsum M (fun k => u k ^ 2)).
Proof.
  intros M u. assert (P : 0 <= bigsum M (fun k => Rabs (u k))) by (apply bigsum_nonneg; intros; apply Rabs_pos).
  rewrite <- (sqrt_pow2 _ P). apply sqrt_le_1_alt. eapply Rle_trans; [apply sum_sq_cauchy|]. right. f_equal. apply bigsum_ext. intros k _. apply pow2_abs.
Qed.

(** ** Mean and deviation *)
Lemma avg_minus : forall M u v, spec_avg M u - spec_avg M v = spec_avg M (fun k => u k - v k).
Proof. intros. unfold spec_avg. rewrite bigsum_minus. unfold Rdiv. ring. Qed.
Lemma avg_sq : forall M u, (0 < M)%nat -> spec_avg M u ^ 2 <= bigsum M (fun k => u k ^ 2) / INR M.
Proof.
  intros M u HM. assert (P : 0 < INR M) by (apply lt_0_INR; exact HM). unfold spec_avg. pose proof (sum_sq_cauchy M u) as S1.
  unfold Rdiv. rewrite Rpow_mult_distr. apply Rmult_le_reg_r with (INR M ^ 2); [apply pow_lt; exact P|].
  replace (bigsum M u ^ 2 * (/ INR M) ^ 2 * INR M ^ 2) with (bigsum M u ^ 2) by (field; lra).
  replace (bigsum M (fun k => u k ^ 2) * / INR M * INR M ^ 2) with (INR M * bigsum M (fun k => u k ^ 2)) by (field; lra). exact S1.
Qed.
Lemma var_en : forall M re im, (0 < M)%nat ->
  spec_avg M (fun k => re k ^ 2 + im k ^ 2) - (spec_avg M re ^ 2 + spec_avg M im ^ 2) = en M (fun k => (re k - spec_avg M re, im k - spec_avg M im)) / INR M.
Proof.
  intros M re im HM. assert (P : 0 < INR M) by (apply lt_0_INR; exact HM).
  assert (V : forall u, bigsum M (fun k => (u k - spec_avg M u) ^ 2) = bigsum M (fun k => u k ^ 2) - INR M * spec_avg M u ^ 2).
  { intros u. set (a := spec_avg M u). rewrite (bigsum_ext M _ (fun k => u k ^ 2 - (2 * a * u k - a ^ 2))) by (intros; ring).
    rewrite bigsum_minus, bigsum_minus, bigsum_scal, bigsum_const. assert (E : bigsum M u = INR M * a) by (unfold a, spec_avg; field; lra). rewrite E. ring. }
  unfold en, sq. cbn [fst snd]. rewrite bigsum_plus, !V. unfold spec_avg at 1. rewrite bigsum_plus. field. lra.
Qed.
Lemma var_le : forall M re im, (0 < M)%nat -> en M (fun k => (re k - spec_avg M re, im k - spec_avg M im)) <= en M (fun k => (re k, im k)).
Proof.
  intros M re im HM. assert (P : 0 < INR M) by (apply lt_0_INR; exact HM). pose proof (var_en M re im HM) as V. set (e := en M _) in *.
  assert (E : e = bigsum M (fun k => re k ^ 2 + im k ^ 2) - INR M * (spec_avg M re ^ 2 + spec_avg M im ^ 2)).
  { apply Rmult_eq_reg_r with (/ INR M); [|apply Rinv_neq_0_compat; lra]. fold (e / INR M). rewrite <- V. unfold spec_avg at 1. field. lra. }
  rewrite E. change (en M (fun k => (re k, im k))) with (bigsum M (fun k => re k ^ 2 + im k ^ 2)).
  assert (0 <= INR M * (spec_avg M re ^ 2 + spec_avg M im ^ 2)) by (apply Rmult_le_pos; [lra|]; pose proof (pow2_ge_0 (spec_avg M re)); pose proof (pow2_ge_0 (spec_avg M im)); lra). lra.
Qed.
Lemma std_gap : forall M re im re2 im2, (0 < M)%nat ->
  let v r i := spec_avg M (fun k => r k ^ 2 + i k ^ 2) - (spec_avg M r ^ 2 + spec_avg M i ^ 2) in
  Rabs (sqrt (v re2 im2) - sqrt (v re im)) <= sqrt (en M (fun k => (re2 k - re k, im2 k - im k)) / INR M).
Proof.
  intros M re im re2 im2 HM v. assert (P : 0 < INR M) by (apply lt_0_INR; exact HM).
  assert (K : forall r i r2 i2, sqrt (v r2 i2) <= sqrt (v r i) + sqrt (en M (fun k => (r2 k - r k, i2 k - i k)) / INR M)).
  { intros r i r2 i2. unfold v. rewrite !var_en by exact HM. set (f := fun k => (r k - spec_avg M r, i k - spec_avg M i) : C). set (g := fun k => (r2 k - spec_avg M r2, i2 k - spec_avg M i2) : C).
    set (e := en M (fun k => (r2 k - r k, i2 k - i k))). assert (E0 : 0 <= e) by apply en_nonneg.
    assert (Q : en M (fun k => Cminus (g k) (f k)) <= sqrt e ^ 2).
    { rewrite pow2_sqrt by exact E0. unfold e. eapply Rle_trans; [|apply var_le; exact HM]. right. apply en_ext. intros k _. unfold g, f, Cminus, Cplus, Copp. cbn [fst snd].
      rewrite <- !avg_minus. f_equal; ring. }
    pose proof (root_en_plus M f g (sqrt e) (sqrt_pos _) Q) as R1. rewrite !sqrt_div_alt by exact P. pose proof (sqrt_lt_R0 _ P) as SP.
    unfold Rdiv. rewrite <- Rmult_plus_distr_r. apply Rmult_le_compat_r; [left; apply Rinv_0_lt_compat; exact SP|exact R1]. }
  pose proof (K re im re2 im2) as K1. pose proof (K re2 im2 re im) as K2.
  assert (S1 : en M (fun k => (re k - re2 k, im k - im2 k)) = en M (fun k => (re2 k - re k, im2 k - im k))) by (unfold en; apply bigsum_ext; intros k _; unfold sq; cbn [fst snd]; ring).
  rewrite S1 in K2. apply Rabs_le. lra.
Qed.

(** ** Flux and centroid *)
Lemma flux_root : forall n L x v, 0 <= v -> v ^ 2 = bigsum (S (n / 2) - 1) (fun k => Rabs (bin_mag n L x (S k) - bin_mag n L x k) ^ 2) ->
  v = sqrt (en (n / 2) (fun k => RtoC (bin_mag n L x (S k) - bin_mag n L x k))).
Proof.
  intros n L x v Hv E. rewrite <- (sqrt_pow2 v Hv), E. f_equal. replace (S (n / 2) - 1)%nat with (n / 2)%nat by lia. apply bigsum_ext. intros k _. unfold sq, RtoC. cbn [fst snd]. rewrite pow2_abs. ring.
Qed.
Lemma flux_gap : forall n L x x2,
  Rabs (sqrt (en (n / 2) (fun k => RtoC (bin_mag n L x2 (S k) - bin_mag n L x2 k))) - sqrt (en (n / 2) (fun k => RtoC (bin_mag n L x (S k) - bin_mag n L x k))))
  <= 2 * sqrt (en (S (n / 2)) (gap n L x x2)).
Proof.
  intros n L x x2. set (f := fun k => RtoC (bin_mag n L x (S k) - bin_mag n L x k)). set (g := fun k => RtoC (bin_mag n L x2 (S k) - bin_mag n L x2 k)).
  set (s := sqrt (en (S (n / 2)) (gap n L x x2))). assert (S0 : 0 <= 2 * s) by (pose proof (sqrt_pos (en (S (n / 2)) (gap n L x x2))); unfold s; lra).
  assert (Q : en (n / 2) (fun k => Cminus (g k) (f k)) <= (2 * s) ^ 2).
  { rewrite Rpow_mult_distr. unfold s. rewrite pow2_sqrt by apply en_nonneg. set (d := fun k => bin_mag n L x2 k - bin_mag n L x k).
    pose proof (mags_gap n L x x2) as MG. fold d in MG.
    apply Rle_trans with (bigsum (n / 2) (fun k => 2 * d (S k) ^ 2 + 2 * d k ^ 2)).
    - apply bigsum_le. intros k _. unfold g, f, sq, Cminus, Cplus, Copp, RtoC. cbn [fst snd]. unfold d. pose proof (pow2_ge_0 (bin_mag n L x2 (S k) - bin_mag n L x (S k) + (bin_mag n L x2 k - bin_mag n L x k))). lra.
    - rewrite bigsum_plus, !bigsum_scal. pose proof (bigsum_S_l (n / 2) (fun k => d k ^ 2)) as A. pose proof (bigsum_S (n / 2) (fun k => d k ^ 2)) as B. cbv beta in A, B.
      pose proof (pow2_ge_0 (d 0%nat)). pose proof (pow2_ge_0 (d (n / 2)%nat)). change (bigsum (S (n / 2)) (fun k => d k ^ 2) <= en (S (n / 2)) (gap n L x x2)) in MG. lra. }
  pose proof (root_en_plus (n / 2) f g (2 * s) S0 Q) as U1. rewrite en_swap in Q. pose proof (root_en_plus (n / 2) g f (2 * s) S0 Q) as U2. apply Rabs_le. lra.
Qed.
Lemma centroid_gap : forall M fr m m2 F q, (0 < M)%nat -> (forall k, (k < M)%nat -> 0 <= fr k <= F) -> (forall k, 0 <= m k) -> (forall k, 0 <= m2 k) ->
  bigsum M (fun k => Rabs (m2 k - m k)) <= q -> q < bigsum M m ->
  0 < bigsum M m2 /\ Rabs (spec_moment M m2 fr 1 - spec_moment M m fr 1) <= F * q / bigsum M m.
Proof.
  intros M fr m m2 F q HM Hf Hm Hm2 Hq HT. set (T := bigsum M m) in *. set (T2 := bigsum M m2).
  assert (Q0 : 0 <= q) by (eapply Rle_trans; [|exact Hq]; apply bigsum_nonneg; intros; apply Rabs_pos).
  assert (TT : T - T2 <= q).
  { unfold T, T2. rewrite <- bigsum_minus. eapply Rle_trans; [|exact Hq]. apply bigsum_le. intros k _. rewrite Rabs_minus_sym. apply Rle_abs. }
  assert (T2P : 0 < T2) by lra. split; [exact T2P|].
  assert (F0 : 0 <= F) by (destruct (Hf 0%nat HM); lra).
  set (c2 := spec_moment M m2 fr 1). 
  assert (C2 : 0 <= c2 <= F).
  { unfold c2, spec_moment. rewrite (bigsum_ext M (fun k => m2 k * fr k ^ 1) (fun k => m2 k * fr k)) by (intros; ring). apply weighted_mean_bounds; auto. fold T2. lra. }
  assert (E2 : bigsum M (fun k => m2 k * (fr k - c2)) = 0).
  { rewrite (bigsum_ext M _ (fun k => m2 k * fr k ^ 1 - m2 k * c2)) by (intros; ring). rewrite bigsum_minus, bigsum_scal_r. fold T2. unfold c2, spec_moment. fold T2. field. lra. }
  assert (E1 : (c2 - spec_moment M m fr 1) * T = bigsum M (fun k => (m2 k - m k) * (fr k - c2))).
  { rewrite (bigsum_ext M _ (fun k => m2 k * (fr k - c2) - (m k * fr k ^ 1 - m k * c2))) by (intros; ring). rewrite bigsum_minus, E2, bigsum_minus, bigsum_scal_r. fold T.
    unfold spec_moment. fold T. field. lra. }
  apply Rmult_le_reg_r with T; [lra|]. unfold Rdiv. rewrite (Rmult_assoc (F * q)), Rinv_l, Rmult_1_r by lra. rewrite <- (Rabs_pos_eq T) at 1 by lra. rewrite <- Rabs_mult, E1.
  eapply Rle_trans; [apply bigsum_Rabs|]. apply Rle_trans with (bigsum M (fun k => F * Rabs (m2 k - m k))).
  - apply bigsum_le. intros k Hk. rewrite Rabs_mult, Rmult_comm. apply Rmult_le_compat_r; [apply Rabs_pos|]. destruct (Hf k Hk). apply Rabs_le. lra.
  - rewrite bigsum_scal. apply Rmult_le_compat_l; assumption.
Qed.

(** ** The fields extract_feats returns *)
Lemma share_le : forall n L x x2, (1 <= n)%nat -> en (S (n / 2)) (gap n L x x2) / INR (S (n / 2)) <= 2 * seen_energy n L x x2.
Proof.
  intros n L x x2 Hn. set (M := S (n / 2)). assert (P : 0 < INR M) by (apply lt_0_INR; unfold M; lia). apply Rmult_le_reg_r with (INR M); [exact P|].
  unfold Rdiv. rewrite Rmult_assoc, Rinv_l, Rmult_1_r by lra. eapply Rle_trans; [apply gap_energy; lia|].
  pose proof (le_INR _ _ (half_count n)) as H. fold M in H. rewrite mult_INR in H. change (INR 2) with 2 in H. pose proof (seen_pos n L x x2) as D.
  replace (2 * seen_energy n L x x2 * INR M) with (2 * INR M * seen_energy n L x x2) by ring. apply Rmult_le_compat_r; [exact D|exact H].
Qed.
Lemma shape_gap : forall L x x2 fs n, (1 <= n)%nat -> (0 < fs)%Z -> exists r r2 a b a2 b2 s s2 v v2 p q p2 q2,
  let M := S (n / 2) in let D := seen_energy n L x x2 in
  extract_feats (fvec L x) fs (Z.of_nat n) = Ok r /\ extract_feats (fvec L x2) fs (Z.of_nat n) = Ok r2 /\
  (sf_mean r = (Fin a, Fin b) /\ sf_mean r2 = (Fin a2, Fin b2) /\ spec_abs (a2 - a) (b2 - b) <= sqrt (2 * D)) /\
  (sf_std r = Fin s /\ sf_std r2 = Fin s2 /\ Rabs (s2 - s) <= sqrt (2 * D)) /\
  (sf_flux r = Fin v /\ sf_flux r2 = Fin v2 /\ Rabs (v2 - v) <= 2 * sqrt (INR n * D)) /\
  (sf_rolloff r = cvec M p q /\ sf_rolloff r2 = cvec M p2 q2 /\
   bigsum M (fun k => (p2 k - p k) ^ 2 + (q2 k - q k) ^ 2) <= IZR fs ^ 2 * (INR n * D)).
Proof.
  intros L x x2 fs n Hn Hfs.
  destruct (extract_ok L x fs n Hn Hfs) as (r & E & (_ & _ & _ & _ & _ & _ & A6) & B1 & B2 & _ & B4 & _).
  destruct (extract_ok L x2 fs n Hn Hfs) as (r' & E' & (_ & _ & _ & _ & _ & _ & A6') & B1' & B2' & _ & B4' & _).
  destruct (flux_cvec (S (n / 2)) (spec_re n L x) (spec_im n L x) 2 ltac:(lia)) as (v & V1 & V2 & V3).
  destruct (flux_cvec (S (n / 2)) (spec_re n L x2) (spec_im n L x2) 2 ltac:(lia)) as (v' & V1' & V2' & V3').
  rewrite V1 in A6. rewrite V1' in A6'. apply Ok_inj in A6, A6'.
  exists r, r'. do 12 eexists. cbv zeta. split; [exact E|]. split; [exact E'|]. pose proof (share_le n L x x2 Hn) as SL.
  split; [|split; [|split]].
  - split; [exact B2|]. split; [exact B2'|]. unfold spec_abs. apply sqrt_le_1_alt. rewrite !avg_minus.
    pose proof (avg_sq (S (n / 2)) (fun k => spec_re n L x2 k - spec_re n L x k) ltac:(lia)) as U1.
    pose proof (avg_sq (S (n / 2)) (fun k => spec_im n L x2 k - spec_im n L x k) ltac:(lia)) as U2.
    eapply Rle_trans; [apply Rplus_le_compat; [exact U1|exact U2]|]. eapply Rle_trans; [|exact SL]. right. unfold en, sq, gap. cbn [fst snd]. rewrite bigsum_plus. unfold Rdiv. ring.
  - split; [exact B4|]. split; [exact B4'|]. eapply Rle_trans; [apply (std_gap (S (n / 2)) (spec_re n L x) (spec_im n L x) (spec_re n L x2) (spec_im n L x2)); lia|].
    apply sqrt_le_1_alt. exact SL.
  - split; [symmetry; exact A6|]. split; [symmetry; exact A6'|].
    rewrite (flux_root n L x v V2 V3), (flux_root n L x2 v' V2' V3'). eapply Rle_trans; [apply flux_gap|].
    apply Rmult_le_compat_l; [lra|]. apply sqrt_le_1_alt. apply gap_energy. lia.
  - split; [exact B1|]. split; [exact B1'|]. eapply Rle_trans; [|apply Rmult_le_compat_l; [apply pow2_ge_0|apply gap_energy; lia]].
    right. unfold en. rewrite <- bigsum_scal. apply bigsum_ext. intros k _. unfold sq, gap. cbn [fst snd]. ring.
Qed.
Lemma mags_sum_gap : forall n L x x2, (1 <= n)%nat ->
  bigsum (S (n / 2)) (fun k => Rabs (bin_mag n L x2 k - bin_mag n L x k)) <= sqrt (INR (S (n / 2)) * INR n * seen_energy n L x x2).
Proof.
  intros n L x x2 Hn. eapply Rle_trans; [apply abs_sum|]. apply sqrt_le_1_alt. rewrite Rmult_assoc. apply Rmult_le_compat_l; [apply pos_INR|].
  eapply Rle_trans; [apply mags_gap|apply gap_energy; lia].
Qed.
Lemma centroid_near : forall L x x2 fs n, (1 <= n)%nat -> (0 < fs)%Z ->
  let q := sqrt (INR (S (n / 2)) * INR n * seen_energy n L x x2) in q < mag_sum n L x ->
  exists r r2 c c2, extract_feats (fvec L x) fs (Z.of_nat n) = Ok r /\ extract_feats (fvec L x2) fs (Z.of_nat n) = Ok r2 /\
  sf_centroid r = Fin c /\ sf_centroid r2 = Fin c2 /\ Rabs (c2 - c) <= IZR fs / 2 * q / mag_sum n L x.
Proof.
  intros L x x2 fs n Hn Hfs q Hq.
  destruct (extract_ok L x fs n Hn Hfs) as (r & E & (A1 & _) & _). destruct (extract_ok L x2 fs n Hn Hfs) as (r' & E' & (A1' & _) & _).
  destruct (centroid_gap (S (n / 2)) (bin_freq fs (S (n / 2))) (bin_mag n L x) (bin_mag n L x2) (IZR fs / 2) q) as [P B].
  - lia.
  - intros k Hk. apply bin_freq_range; assumption.
  - intros k. apply cmag_nonneg.
  - intros k. apply cmag_nonneg.
  - apply mags_sum_gap; exact Hn.
  - exact Hq.
  - assert (Q0 : 0 <= q) by apply sqrt_pos. unfold mag_sum in *. rewrite centroid_cvec in A1; [|lia|exact Hfs|change (cmag (spec_re n L x) (spec_im n L x)) with (bin_mag n L x); lra].
    rewrite centroid_cvec in A1'; [|lia|exact Hfs|change (cmag (spec_re n L x2) (spec_im n L x2)) with (bin_mag n L x2); lra].
    apply Ok_inj in A1, A1'. exists r, r'. do 2 eexists. split; [exact E|]. split; [exact E'|]. split; [symmetry; exact A1|]. split; [symmetry; exact A1'|]. exact B.
Qed.
Lemma flat_near : forall L x x2 fs n w, (1 <= n)%nat -> (0 < fs)%Z -> 0 < w ->
  (forall k, (k <= n / 2)%nat -> w <= bin_mag n L x k /\ w <= bin_mag n L x2 k) ->
  exists r r2 u u2, extract_feats (fvec L x) fs (Z.of_nat n) = Ok r /\ extract_feats (fvec L x2) fs (Z.of_nat n) = Ok r2 /\
  sf_flatness r = Fin u /\ sf_flatness r2 = Fin u2 /\ 0 < u /\ 0 < u2 /\ Rabs (ln u2 - ln u) <= 2 * sqrt (2 * seen_energy n L x x2) / w.
Proof.
  intros L x x2 fs n w Hn Hfs Hw Hk.
  destruct (extract_ok L x fs n Hn Hfs) as (r & E & (_ & _ & _ & _ & _ & A1 & _) & _). destruct (extract_ok L x2 fs n Hn Hfs) as (r' & E' & (_ & _ & _ & _ & _ & A1' & _) & _).
  set (M := S (n / 2)) in *. assert (P : 0 < INR M) by (apply lt_0_INR; unfold M; lia).
  assert (K : forall k, (k < M)%nat -> w <= bin_mag n L x k /\ w <= bin_mag n L x2 k) by (intros; apply Hk; unfold M in *; lia).
  destruct (flatness_geo M (spec_re n L x) (spec_im n L x)) as (u & U1 & U2 & U3); [unfold M; lia|intros k H; destruct (K k H) as [H1 _]; unfold bin_mag in H1; lra|].
  destruct (flatness_geo M (spec_re n L x2) (spec_im n L x2)) as (u' & U1' & U2' & U3'); [unfold M; lia|intros k H; destruct (K k H) as [_ H1]; unfold bin_mag in H1; lra|].
  rewrite U1 in A1. rewrite U1' in A1'. exists r, r', u, u'. split; [exact E|]. split; [exact E'|]. split; [symmetry; exact A1|]. split; [symmetry; exact A1'|]. split; [exact U2|]. split; [exact U2'|].
  change (cmag (spec_re n L x)  (spec_im n L x)) with (bin_mag n L x) in U3. change (cmag (spec_re n L x2)  (spec_im n L x2)) with (bin_mag n L x2) in U3'.
  set (m := bin_mag n L x) in *. set (m2 := bin_mag n L x2) in *.
  assert (FA : forall g, (forall k, (k < M)%nat -> w <= g k) -> w <= bigsum M g / INR M).
  { intros g Hg. apply Rmult_le_reg_r with (INR M); [exact P|]. unfold Rdiv. rewrite Rmult_assoc, Rinv_l, Rmult_1_r by lra.
    pose proof (bigsum_le M (fun _ => w) g Hg) as BL. rewrite bigsum_const in BL. lra. }
  assert (F1 : w <= bigsum M m / INR M) by (apply FA; intros k H; apply (K k H)). assert (F2 : w <= bigsum M m2 / INR M) by (apply FA; intros k H; apply (K k H)).
  rewrite ln_mult in U3, U3' by lra. set (a := bigsum M m / INR M) in *. set (a2 := bigsum M m2 / INR M) in *.
  set (d := bigsum M (fun k => Rabs (m2 k - m k))).
  assert (DD : d / INR M <= sqrt (2 * seen_energy n L x x2)).
  { assert (d0 : 0 <= d) by (apply bigsum_nonneg; intros; apply Rabs_pos). assert (0 <= d / INR M) by (apply Rmult_le_pos; [exact d0|left; apply Rinv_0_lt_compat; exact P]).
    rewrite <- (sqrt_pow2 (d / INR M)) by assumption. apply sqrt_le_1_alt. eapply Rle_trans; [|apply share_le; exact Hn]. fold M.
    eapply Rle_trans; [apply (avg_sq M (fun k => Rabs (m2 k - m k))); unfold M; lia|]. apply Rmult_le_compat_r; [left; apply Rinv_0_lt_compat; exact P|].
    eapply Rle_trans; [|apply mags_gap]. right. fold M. apply bigsum_ext. intros k _. apply pow2_abs. }
  assert (I0 : 0 <= / w) by (left; apply Rinv_0_lt_compat; exact Hw).
  assert (G1 : Rabs (bigsum M (fun k => ln (m2 k)) - bigsum M (fun k => ln (m k))) <= d / w).
  { rewrite <- bigsum_minus. eapply Rle_trans; [apply bigsum_Rabs|]. unfold d, Rdiv. rewrite <- bigsum_scal_r. apply bigsum_le. intros k H. apply ln_gap; [exact Hw|apply (K k H)|apply (K k H)]. }
  assert (G2 : Rabs (ln a2 - ln a) <= d / INR M / w).
  { eapply Rle_trans; [apply (ln_gap a2 a w); assumption|]. apply Rmult_le_compat_r; [exact I0|]. unfold a2, a. rewrite <- Rdiv_minus_distr, <- bigsum_minus. unfold Rdiv. rewrite Rabs_mult, (Rabs_pos_eq (/ INR M)) by (left; apply Rinv_0_lt_compat; exact P).
    apply Rmult_le_compat_r; [left; apply Rinv_0_lt_compat; exact P|]. apply bigsum_Rabs. }
  assert (G3 : Rabs ((ln u' + ln a2) - (ln u + ln a)) <= d / INR M / w).
  { apply Rmult_le_reg_l with (INR M); [exact P|]. replace (INR M * (d / INR M / w)) with (d / w) by (field; lra). rewrite <- (Rabs_pos_eq (INR M)) at 1 by lra. rewrite <- Rabs_mult, Rmult_minus_distr_l, <- U3, <- U3'. exact G1. }
  replace (ln u' - ln u) with ((ln u' + ln a2 - (ln u + ln a)) - (ln a2 - ln a)) by ring.
  eapply Rle_trans; [apply Rabs_triang|]. rewrite Rabs_Ropp. assert (G4 : d / INR M / w <= sqrt (2 * seen_energy n L x x2) / w) by (apply Rmult_le_compat_r; assumption).
  unfold Rdiv in *. lra.
Qed.

(** ** Two recordings of two samples *)
Lemma pair_bin : forall g h k, (k < 2)%nat -> spec_re 2 2 (fun t => match t with O => g | _ => h end) k = (match k with O => g + h | _ => g - h end) /\
  spec_im 2 2 (fun t => match t with O => g | _ => h end) k = 0.
Proof.
  intros g h k Hk. unfold spec_re, spec_im. cbn [bigsum Nat.min]. destruct k as [|[|k]]; [| |lia]; cbn [Nat.mul Nat.add INR]; split.
  - replace (2 * PI * 0 / (1 + 1)) with 0 by field. rewrite cos_0. ring.
  - replace (2 * PI * 0 / (1 + 1)) with 0 by field. rewrite sin_0. ring.
  - replace (2 * PI * 0 / (1 + 1)) with 0 by field. replace (2 * PI * 1 / (1 + 1)) with PI by field. rewrite cos_0, cos_PI. ring.
  - replace (2 * PI * 0 / (1 + 1)) with 0 by field. replace (2 * PI * 1 / (1 + 1)) with PI by field. rewrite sin_0, sin_PI. ring.
Qed.
Lemma centroid_jump : forall fs e, (0 < fs)%Z -> 0 < e -> exists x x2 r r2, seen_energy 2 2 x x2 <= e /\
  extract_feats (fvec 2 x) fs 2 = Ok r /\ extract_feats (fvec 2 x2) fs 2 = Ok r2 /\ sf_centroid r = Fin 0 /\ sf_centroid r2 = Fin (IZR fs / 2).
Proof.
  intros fs e Hfs He. set (g := sqrt e / 2). assert (G : 0 < g) by (unfold g; pose proof (sqrt_lt_R0 e He); lra).
  set (y := fun h t => match t with O => g | S _ => h end : R).
  destruct (extract_ok 2 (y g) fs 2 ltac:(lia) Hfs) as (r & E & (A1 & _) & _). destruct (extract_ok 2 (y (- g)) fs 2 ltac:(lia) Hfs) as (r' & E' & (A1' & _) & _).
  exists (y g), (y (- g)), r, r'. split; [|split; [exact E|split; [exact E'|]]].
  - unfold seen_energy, y. cbn [bigsum Nat.min]. replace (0 + (g - g) ^ 2 + (- g - g) ^ 2) with (sqrt e ^ 2) by (unfold g; field). rewrite pow2_sqrt by lra. lra.
  - rewrite (centroid_single (S (2 / 2)) _ _ fs 0) in A1.
    + rewrite (centroid_single (S (2 / 2)) _ _ fs 1) in A1'.
      * apply Ok_inj in A1, A1'. rewrite <- A1, <- A1'. split; f_equal; cbn; field.
      * cbn; lia.
      * exact Hfs.
      * left. unfold y. destruct (pair_bin g (- g) 1 ltac:(lia)) as [-> _]. lra.
      * intros j Hj Hn. change (S (2 / 2)) with 2%nat in Hj. unfold y. destruct (pair_bin g (- g) j Hj) as [-> ->]. destruct j as [|[|j]]; [split; [ring|reflexivity]|congruence|lia].
    + cbn; lia.
    + exact Hfs.
    + left. unfold y. destruct (pair_bin g g 0 ltac:(lia)) as [-> _]. lra.
    + intros j Hj Hn. change (S (2 / 2)) with 2%nat in Hj. unfold y. destruct (pair_bin g g j Hj) as [-> ->]. destruct j as [|[|j]]; [congruence|split; [ring|reflexivity]|lia].
Qed.
