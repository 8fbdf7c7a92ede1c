(** * C182: extract_feats of two similar recordings *)
From Coq Require Import Reals ZArith List String Bool Lia Lra Psatz.
From Verif Require Import Base BaseFacts Cplx SpecBase SpecMat SpecFeatures BigSum MatFacts SpecSpectral SpFeats SpFeatsFacts SpecFeatsNoise FeatsNoiseFacts.
Import ListNotations.
Local Open Scope R_scope.

(** Mean, deviation, flux and the "rolloff" row move by no more than a multiple of the root of the energy of
    the difference, whatever the recordings, their levels and the sampling rate. *)
Theorem C182_shape : forall L x x2 fs n, (1 <= n)%nat -> (0 < fs)%Z -> exists r r2 a b a2 b2 s s2 v v2 p q p2 q2,
  let M := S (n / 2) in let D := seen_energy n L x x2 in
  extract_feats (fvec L x) fs (Z.of_nat n) = Ok r /\ extract_feats (fvec L x2) fs (Z.of_nat n) = Ok r2 /\
  (sf_mean r = (Fin a, Fin b) /\ sf_mean r2 = (Fin a2, Fin b2) /\ spec_abs (a2 - a) (b2 - b) <= sqrt (2 * D)) /\
  (sf_std r = Fin s /\ sf_std r2 = Fin s2 /\ Rabs (s2 - s) <= sqrt (2 * D)) /\
  (sf_flux r = Fin v /\ sf_flux r2 = Fin v2 /\ Rabs (v2 - v) <= 2 * sqrt (INR n * D)) /\
  (sf_rolloff r = cvec M p q /\ sf_rolloff r2 = cvec M p2 q2 /\
   bigsum M (fun k => (p2 k - p k) ^ 2 + (q2 k - q k) ^ 2) <= IZR fs ^ 2 * (INR n * D)).
Proof. exact shape_gap. Qed.
Print Assumptions C182_shape.
(** The centroid moves by no more than the share of the band that the difference has of the magnitudes. *)
Theorem C182_centroid : forall L x x2 fs n, (1 <= n)%nat -> (0 < fs)%Z ->
  let q := sqrt (INR (S (n / 2)) * INR n * seen_energy n L x x2) in q < mag_sum n L x ->
  exists r r2 c c2, extract_feats (fvec L x) fs (Z.of_nat n) = Ok r /\ extract_feats (fvec L x2) fs (Z.of_nat n) = Ok r2 /\
  sf_centroid r = Fin c /\ sf_centroid r2 = Fin c2 /\ Rabs (c2 - c) <= IZR fs / 2 * q / mag_sum n L x.
Proof. exact centroid_near. Qed.
Print Assumptions C182_centroid.
(** No bound on the difference alone is enough: it can be as small as one likes while the centroid goes from one
    end of the band to the other. *)
Theorem C182_centroid_stable_refuted : forall fs e, (0 < fs)%Z -> 0 < e -> exists x x2 r r2, seen_energy 2 2 x x2 <= e /\
  extract_feats (fvec 2 x) fs 2 = Ok r /\ extract_feats (fvec 2 x2) fs 2 = Ok r2 /\ sf_centroid r = Fin 0 /\ sf_centroid r2 = Fin (IZR fs / 2).
Proof. exact centroid_jump. Qed.
Print Assumptions C182_centroid_stable_refuted.
(** The flatness of two recordings without empty bins *)
Theorem C182_flatness : forall L x x2 fs n w, (1 <= n)%nat -> (0 < fs)%Z -> 0 < w ->
  (forall k, (k <= n / 2)%nat -> w <= bin_mag n L x k /\ w <= bin_mag n L x2 k) ->
  exists r r2 u u2, extract_feats (fvec L x) fs (Z.of_nat n) = Ok r /\ extract_feats (fvec L x2) fs (Z.of_nat n) = Ok r2 /\
  sf_flatness r = Fin u /\ sf_flatness r2 = Fin u2 /\ 0 < u /\ 0 < u2 /\ Rabs (ln u2 - ln u) <= 2 * sqrt (2 * seen_energy n L x x2) / w.
Proof. exact flat_near. Qed.
Print Assumptions C182_flatness.

(** A click, and the same click with an echo of 1/100 one sample later: energy of the difference 1/10000 *)
Definition click (e : R) (t : nat) : R := match t with O => 1 | S O => e | _ => 0 end.
Lemma click_energy : seen_energy 512 2 (click 0) (click (1 / 100)) = 1 / 10000.
Proof. unfold seen_energy. change (Nat.min 2 512) with 2%nat. cbn [bigsum click]. lra. Qed.
Lemma click_mag : forall e k, 0 <= e <= 1 -> 1 - e <= bin_mag 512 2 (click e) k.
Proof.
  intros e k He. unfold bin_mag, cmag, spec_abs. assert (RE : 1 - e <= spec_re 512 2 (click e) k).
  { unfold spec_re. change (Nat.min 2 512) with 2%nat. cbn [bigsum click]. rewrite Nat.mul_0_l. replace (2 * PI * INR 0 / INR 512) with 0 by (cbn [INR]; unfold Rdiv; ring).
    rewrite cos_0. pose proof (COS_bound (2 * PI * INR (1 * k) / INR 512)) as [CB _].
    assert (- e <= e * cos (2 * PI * INR (1 * k) / INR 512)) by (replace (- e) with (e * -1) by ring; apply Rmult_le_compat_l; lra). lra. }
  eapply Rle_trans; [exact RE|]. rewrite <- (sqrt_pow2 (spec_re 512 2 (click e) k)) at 1 by lra. apply sqrt_le_1_alt. pose proof (pow2_ge_0 (spec_im 512 2 (click e) k)). lra.
Qed.
Lemma click_sum : 257 <= mag_sum 512 2 (click 0).
Proof.
  unfold mag_sum. change (S (512 / 2)) with 257%nat. pose proof (bigsum_le 257 (fun _ => 1) (bin_mag 512 2 (click 0))) as B.
  rewrite bigsum_const in B. rewrite INR_IZR_INZ in B. change (IZR (Z.of_nat 257)) with 257 in B. rewrite Rmult_1_r in B. apply B. intros k _. pose proof (click_mag 0 k ltac:(lra)). lra.
Qed.
Lemma click_root : sqrt (INR (S (512 / 2)) * INR 512 * seen_energy 512 2 (click 0) (click (1 / 100))) <= 4.
Proof.
  rewrite click_energy, !INR_IZR_INZ. change (IZR (Z.of_nat (S (512 / 2)))) with 257. change (IZR (Z.of_nat 512)) with 512.
  rewrite <- (sqrt_pow2 4) by lra. apply sqrt_le_1_alt. lra.
Qed.
Example C182_shape_example : exists r r2 s s2, extract_feats (fvec 2 (click 0)) 16000 512 = Ok r /\ extract_feats (fvec 2 (click (1 / 100))) 16000 512 = Ok r2 /\
  sf_std r = Fin s /\ sf_std r2 = Fin s2 /\ Rabs (s2 - s) <= 2 / 100.
Proof.
  destruct (C182_shape 2 (click 0) (click (1 / 100)) 16000 512 ltac:(lia) ltac:(lia)) as (r & r2 & a & b & a2 & b2 & s & s2 & v & v2 & p & q & p2 & q2 & E & E2 & _ & (S1 & S2 & S3) & _).
  exists r, r2, s, s2. do 4 (split; [assumption|]). eapply Rle_trans; [exact S3|]. rewrite click_energy. rewrite <- (sqrt_pow2 (2 / 100)) by lra. apply sqrt_le_1_alt. lra.
Qed.
Example C182_centroid_example : exists r r2 c c2, extract_feats (fvec 2 (click 0)) 16000 512 = Ok r /\ extract_feats (fvec 2 (click (1 / 100))) 16000 512 = Ok r2 /\
  sf_centroid r = Fin c /\ sf_centroid r2 = Fin c2 /\ Rabs (c2 - c) <= 125.
Proof.
  pose proof click_root as Q. pose proof click_sum as T.
  destruct (C182_centroid 2 (click 0) (click (1 / 100)) 16000 512 ltac:(lia) ltac:(lia)) as (r & r2 & c & c2 & E & E2 & C1 & C2 & B).
  - eapply Rle_lt_trans; [exact Q|]. lra.
  - exists r, r2, c, c2. do 4 (split; [assumption|]). eapply Rle_trans; [exact B|]. set (q := sqrt _) in *. clearbody q. set (m := mag_sum _ _ _) in *. clearbody m.
    apply Rmult_le_reg_r with m; [lra|]. unfold Rdiv. rewrite (Rmult_assoc _ (/ m)), Rinv_l by lra. lra.
Qed.
Example C182_flatness_example : exists r r2 u u2, extract_feats (fvec 2 (click 0)) 16000 512 = Ok r /\ extract_feats (fvec 2 (click (1 / 100))) 16000 512 = Ok r2 /\
  sf_flatness r = Fin u /\ sf_flatness r2 = Fin u2 /\ 0 < u /\ 0 < u2 /\ Rabs (ln u2 - ln u) <= 3 / 100.
Proof.
  destruct (C182_flatness 2 (click 0) (click (1 / 100)) 16000 512 (99 / 100) ltac:(lia) ltac:(lia) ltac:(lra)) as (r & r2 & u & u2 & E & E2 & U1 & U2 & P1 & P2 & B).
  - intros k _. split; [pose proof (click_mag 0 k ltac:(lra))|pose proof (click_mag (1 / 100) k ltac:(lra))]; lra.
  - exists r, r2, u, u2. do 6 (split; [assumption|]). eapply Rle_trans; [exact B|]. rewrite click_energy.
    assert (S : sqrt (2 * (1 / 10000)) <= 1415 / 100000) by (rewrite <- (sqrt_pow2 (1415 / 100000)) by lra; apply sqrt_le_1_alt; lra). lra.
Qed.
Example C182_centroid_stable_refuted_example : exists x x2 r r2, seen_energy 2 2 x x2 <= / 10 ^ 20 /\
  extract_feats (fvec 2 x) 16000 2 = Ok r /\ extract_feats (fvec 2 x2) 16000 2 = Ok r2 /\ sf_centroid r = Fin 0 /\ sf_centroid r2 = Fin (IZR 16000 / 2).
Proof. apply C182_centroid_stable_refuted; [lia|]. apply Rinv_0_lt_compat, pow_lt. lra. Qed.
