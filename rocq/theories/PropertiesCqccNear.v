(** * C192: resampling does not amplify, and cqcc of similar recordings *)
From Coq Require Import Reals ZArith List String Bool Lia Lra Psatz.
From Flocq Require Import Core.Raux.
From Verif Require Import Base BaseFacts SpecBase SpecMat BigSum MatFacts SpecFeatures SpecSpectral SpecCqt Preprocessing PreprocessingFacts ExampleTools Features Extractors FeaturesFacts Cqt CqtFacts PropertiesCqt SpecNoise SpecCqccNear CqccNearFacts.
Import ListNotations.
Local Open Scope R_scope.

(** Resampling the frames of a spectrogram to num rows: the energy per row of every column is at most
    twice the energy per row before, and at most the energy per row before when num is odd or there
    are at least as many rows as before. *)
Theorem C192_resample : forall m P y num, (0 < m)%nat -> (1 <= num)%nat -> exists z, resample (fmat m P y) (Z.of_nat num) = Ok (fmat num P z) /\
  forall j, bigsum num (fun t => z t j ^ 2) <= 2 * (INR num / INR m) * bigsum m (fun s => y s j ^ 2) /\
    ((m <= num)%nat \/ Nat.odd num = true -> bigsum num (fun t => z t j ^ 2) <= INR num / INR m * bigsum m (fun s => y s j ^ 2)).
Proof. exact resample_energy. Qed.
Print Assumptions C192_resample.
(** The factor two is needed: four rows 1, 0, -1, 0 become the two rows 1, -1, with twice the energy
    per row. *)
Theorem C192_factor_refuted : ~ forall m P y num, (0 < m)%nat -> (1 <= num)%nat -> exists z, resample (fmat m P y) (Z.of_nat num) = Ok (fmat num P z) /\
  forall j, (j < P)%nat -> bigsum num (fun t => z t j ^ 2) <= INR num / INR m * bigsum m (fun s => y s j ^ 2).
Proof.
  intros W. set (x := fun s (_ : nat) => match s with 0%nat => 1 | 2%nat => -1 | _ => 0 end). destruct (W 4%nat 1%nat x 2%nat ltac:(lia) ltac:(lia)) as (z & E & D). specialize (D 0%nat ltac:(lia)).
  rewrite resample_fmat in E by lia. apply Ok_inj in E. pose proof (fmat_inj _ _ _ _ E) as V.
  assert (R0 : resample_weight 4 2 0 0 = 3 / 4 /\ resample_weight 4 2 0 2 = - (1 / 4) /\ resample_weight 4 2 1 0 = - (1 / 4) /\ resample_weight 4 2 1 2 = 3 / 4).
  { unfold resample_weight, resample_bin. cbn [seq map Nat.min Nat.div Nat.divmod fst fold_right Nat.eqb Nat.ltb Nat.leb Nat.mul Nat.add INR].
    replace (2 * PI * 0 * (0 / (1 + 1) - 0 / (1 + 1 + 1 + 1))) with 0 by field. replace (2 * PI * 0 * (0 / (1 + 1) - (1 + 1) / (1 + 1 + 1 + 1))) with 0 by field.
    replace (2 * PI * 0 * (1 / (1 + 1) - 0 / (1 + 1 + 1 + 1))) with 0 by field. replace (2 * PI * 0 * (1 / (1 + 1) - (1 + 1) / (1 + 1 + 1 + 1))) with 0 by field.
    replace (2 * PI * 1 * (0 / (1 + 1) - 0 / (1 + 1 + 1 + 1))) with 0 by field. replace (2 * PI * 1 * (0 / (1 + 1) - (1 + 1) / (1 + 1 + 1 + 1))) with (- PI) by field.
    replace (2 * PI * 1 * (1 / (1 + 1) - 0 / (1 + 1 + 1 + 1))) with PI by field. replace (2 * PI * 1 * (1 / (1 + 1) - (1 + 1) / (1 + 1 + 1 + 1))) with 0 by field.
    rewrite cos_neg, cos_PI, cos_0. repeat split; lra. }
  destruct R0 as (A & B & C & F). pose proof (V 0%nat 0%nat ltac:(lia) ltac:(lia)) as V0. pose proof (V 1%nat 0%nat ltac:(lia) ltac:(lia)) as V1. cbv beta in V0, V1. unfold x in *. cbn [bigsum] in V0, V1, D. rewrite A, B in V0. rewrite C, F in V1.
  assert (Z0 : z 0%nat 0%nat = 1) by lra. assert (Z1 : z 1%nat 0%nat = -1) by lra. rewrite Z0, Z1 in D. cbn [INR] in D. lra.
Qed.
Print Assumptions C192_factor_refuted.
(** Two signals whose constant-Q transforms have the same shape: the squared distance of the cqcc matrices
    is at most twice the ratio of the row numbers times the squared distance of the log powers. *)
Theorem C192_near : forall `{Env} sig sig2 a ratio c P m re im re2 im2 num, cqt_spectrogram sig a = Ok (cmat P m re im) -> cqt_spectrogram sig2 a = Ok (cmat P m re2 im2) ->
  (0 < P)%nat -> (0 < m)%nat -> Ztrunc (rnd (INR m * ratio)) = Z.of_nat num -> (1 <= num)%nat ->
  (1 <= c_dct_type c <= 4)%Z -> (c_dct_type c = 1%Z -> (2 <= P)%nat) -> (0 <= c_num_ceps c)%Z -> no_lifter c -> no_normalisation c ->
  let K := Nat.min (Z.to_nat (c_num_ceps c)) P in
  exists y y2, cqcc sig a ratio c = Ok (fmat num K y) /\ cqcc sig2 a ratio c = Ok (fmat num K y2) /\
    bigsum num (fun t => bigsum K (fun k => (y2 t k - y t k) ^ 2))
    <= 2 * (INR num / INR m) * bigsum m (fun i => bigsum P (fun p => (spec_log (re2 p i ^ 2 + im2 p i ^ 2) - spec_log (re p i ^ 2 + im p i ^ 2)) ^ 2)).
Proof. exact @cqcc_near. Qed.
Print Assumptions C192_near.
(** Two recordings whose samples differ by at most d, where that changes no entry of the transform by
    more than the fraction th of its size: the mean square difference of the coefficients is at most
    8 (ln (1 - th))^2 per row and per bin. *)
Theorem C192_recordings : forall `{Env} a N L hop n O B x x2 d ratio c P re im num th, cqt_ready a N L hop n O B -> 0 <= d -> apart N d x x2 ->
  cqt_spectrogram (fvec N x) a = Ok (cmat P (frame_count N L hop) re im) ->
  Ztrunc (rnd (INR (frame_count N L hop) * ratio)) = Z.of_nat num -> (1 <= num)%nat ->
  (1 <= c_dct_type c <= 4)%Z -> (c_dct_type c = 1%Z -> (2 <= P)%nat) -> (0 <= c_num_ceps c)%Z -> no_lifter c -> no_normalisation c ->
  0 <= th < 1 -> (forall p i, (p < P)%nat -> (i < frame_count N L hop)%nat -> 0 < spec_abs (re p i) (im p i) /\ cqt_reach (q_pre_emph a) (q_coeff a) (q_threshold a) L n d <= th * spec_abs (re p i) (im p i)) ->
  let K := Nat.min (Z.to_nat (c_num_ceps c)) P in
  exists y y2, cqcc (fvec N x) a ratio c = Ok (fmat num K y) /\ cqcc (fvec N x2) a ratio c = Ok (fmat num K y2) /\
    bigsum num (fun t => bigsum K (fun k => (y2 t k - y t k) ^ 2)) <= INR num * INR P * (8 * ln (1 - th) ^ 2).
Proof. exact @cqcc_recordings. Qed.
Print Assumptions C192_recordings.
(** cqcc is continuous at every recording whose transform has no zero entry, ... *)
Theorem C192_continuous : forall `{Env} a N L hop n O B x ratio c P re im num eps, cqt_ready a N L hop n O B ->
  cqt_spectrogram (fvec N x) a = Ok (cmat P (frame_count N L hop) re im) ->
  (forall p i, (p < P)%nat -> (i < frame_count N L hop)%nat -> re p i <> 0 \/ im p i <> 0) ->
  Ztrunc (rnd (INR (frame_count N L hop) * ratio)) = Z.of_nat num -> (1 <= num)%nat ->
  (1 <= c_dct_type c <= 4)%Z -> (c_dct_type c = 1%Z -> (2 <= P)%nat) -> (0 <= c_num_ceps c)%Z -> no_lifter c -> no_normalisation c -> 0 < eps ->
  let K := Nat.min (Z.to_nat (c_num_ceps c)) P in
  exists d y, 0 < d /\ cqcc (fvec N x) a ratio c = Ok (fmat num K y) /\
    forall x2, apart N d x x2 -> exists y2, cqcc (fvec N x2) a ratio c = Ok (fmat num K y2) /\ forall t k, (t < num)%nat -> (k < K)%nat -> Rabs (y2 t k - y t k) <= eps.
Proof. exact @cqcc_continuous. Qed.
Print Assumptions C192_continuous.

Definition ex_ceps : cargs := mkC 13 2 false None None.
Lemma ex_trunc : Ztrunc (@rnd exact_env (INR (frame_count 8 4 2) * 0.5)) = Z.of_nat 1.
Proof. change (frame_count 8 4 2) with 3%nat. cbn [rnd exact_env INR]. replace ((1 + 1 + 1) * 0.5) with 1.5 by lra. rewrite Ztrunc_floor by lra. apply Zfloor_imp. cbn. lra. Qed.
(** ... and not at silence: there are recordings as faint as you like for which it is as far off as you like. *)
Theorem C192_silence_refuted : ~ exists eps d, 0 < d /\ forall x2, apart 8 d (fun _ => 0) x2 -> exists K y y2, (0 < K)%nat /\
  @cqcc exact_env (fvec 8 (fun _ => 0)) ex_qargs 0.5 ex_ceps = Ok (fmat 1 K y) /\ @cqcc exact_env (fvec 8 x2) ex_qargs 0.5 ex_ceps = Ok (fmat 1 K y2) /\ Rabs (y2 0%nat 0%nat - y 0%nat 0%nat) <= eps.
Proof.
  intros (eps & d & Hd & W). destruct alternating_cqt as (P & re & im & HP & E & NZ).
  assert (G : forall g, g <> 0 -> exists y, @cqcc exact_env (fvec 8 alternating) ex_qargs 0.5 ex_ceps = Ok (fmat 1 (Nat.min 13 P) y) /\
     @cqcc exact_env (fvec 8 (fun t => g * alternating t)) ex_qargs 0.5 ex_ceps = Ok (fmat 1 (Nat.min 13 P) (fun t k => y t k + (if Nat.eqb k 0 then 2 * ln (Rabs g) * sqrt (INR P) else 0)))).
  { intros g Hg. apply (@C99_gain exact_env ex_qargs 8 4 2 4 3 1 alternating g 0.5 ex_ceps P re im 1 ex_ready Hg E NZ); try (cbn; lia); try (left; reflexivity); try reflexivity. exact ex_trunc. }
  destruct (W (fun _ => 0) ltac:(intros t _; rewrite Rminus_0_r, Rabs_R0; lra)) as (K & y0 & _ & HK & E0 & _ & _). destruct (G 1 ltac:(lra)) as (y & Ey & _).
  set (T := Rabs (- ln d) + Rabs eps + Rabs (y 0%nat 0%nat - y0 0%nat 0%nat) + 1).
  assert (T1 : 0 <= T) by (unfold T; pose proof (Rabs_pos (- ln d)); pose proof (Rabs_pos eps); pose proof (Rabs_pos (y 0%nat 0%nat - y0 0%nat 0%nat)); lra).
  pose proof (exp_pos (- T)) as GP.
  assert (SM : exp (- T) <= d). { rewrite <- (exp_ln d Hd). assert (LE : - T <= ln d) by (unfold T; pose proof (Rle_abs (- ln d)); pose proof (Rabs_pos eps); pose proof (Rabs_pos (y 0%nat 0%nat - y0 0%nat 0%nat)); lra). destruct LE as [LE|LE]; [left; apply exp_increasing; exact LE|rewrite LE; lra]. }
  destruct (W (fun t => exp (- T) * alternating t)) as (K2 & y1 & y2 & HK2 & F0 & F2 & D).
  { intros t _. rewrite Rminus_0_r. unfold alternating. destruct (Nat.even t); [rewrite Rmult_1_r, Rabs_pos_eq; lra|rewrite Rmult_0_r, Rabs_R0; lra]. }
  destruct (G (exp (- T)) ltac:(lra)) as (y' & Ey' & E2). rewrite Ey in Ey'. apply Ok_inj in Ey'. rewrite F2 in E2. apply Ok_inj in E2. rewrite E0 in F0. apply Ok_inj in F0.
  assert (CK : forall k k' (u v : nat -> nat -> R), fmat 1 k u = fmat 1 k' v -> k = k').
  { intros k k' u v Q. apply (f_equal (fun M => List.length (nth 0 M []))) in Q. rewrite !fmat_nth, !fvec_length in Q by lia. exact Q. }
  pose proof (CK _ _ _ _ E2) as Q2. pose proof (CK _ _ _ _ F0) as Q0. subst K K2.
  pose proof (fmat_inj _ _ _ _ F0 0%nat 0%nat ltac:(lia) HK2) as V0. pose proof (fmat_inj _ _ _ _ E2 0%nat 0%nat ltac:(lia) HK2) as V2. pose proof (fmat_inj _ _ _ _ Ey' 0%nat 0%nat ltac:(lia) HK2) as Vy. cbv beta in V2. cbn [Nat.eqb] in V2.
  rewrite (Rabs_pos_eq (exp (- T))), ln_exp, <- Vy in V2 by lra. rewrite <- V0, V2 in D.
  assert (S1 : 1 <= sqrt (INR P)) by (rewrite <- sqrt_1; apply sqrt_le_1_alt; apply (le_INR 1); lia).
  assert (TS : T <= T * sqrt (INR P)) by (rewrite <- (Rmult_1_r T) at 1; apply Rmult_le_compat_l; auto).
  pose proof (Rle_abs (- (y 0%nat 0%nat + 2 * - T * sqrt (INR P) - y0 0%nat 0%nat))) as A. rewrite Rabs_Ropp in A. pose proof (Rle_abs eps). pose proof (Rle_abs (y 0%nat 0%nat - y0 0%nat 0%nat)). pose proof (Rabs_pos (- ln d)). pose proof (Rabs_pos eps).
  unfold T in *. set (b := Rabs (- ln d)) in *. set (c := Rabs eps) in *. set (q := Rabs (y 0%nat 0%nat - y0 0%nat 0%nat)) in *. set (s := sqrt (INR P)) in *. clearbody b c q s. lra.
Qed.
Print Assumptions C192_silence_refuted.

(** Ten rows of noise resampled to five do not gain energy per row; to four at most twice. *)
Example C192_resample_example : forall y, exists z z2, resample (fmat 10 1 y) 5 = Ok (fmat 5 1 z) /\ resample (fmat 10 1 y) 4 = Ok (fmat 4 1 z2) /\
  bigsum 5 (fun t => z t 0%nat ^ 2) <= / 2 * bigsum 10 (fun s => y s 0%nat ^ 2) /\ bigsum 4 (fun t => z2 t 0%nat ^ 2) <= 4 / 5 * bigsum 10 (fun s => y s 0%nat ^ 2).
Proof.
  intros y. destruct (C192_resample 10 1 y 5 ltac:(lia) ltac:(lia)) as (z & E & D). destruct (C192_resample 10 1 y 4 ltac:(lia) ltac:(lia)) as (z2 & E2 & D2).
  exists z, z2. split; [exact E|]. split; [exact E2|]. pose proof (proj2 (D 0%nat) (or_intror eq_refl)) as A. pose proof (proj1 (D2 0%nat)) as B.
  replace (INR 5 / INR 10) with (/ 2) in A by (simpl; field). replace (2 * (INR 4 / INR 10)) with (4 / 5) in B by (simpl; field). split; [exact A|exact B].
Qed.
(** the recording with every second sample 1, and the same with different samples near it *)
Example C192_continuous_example : forall eps, 0 < eps -> exists P d y, (0 < P)%nat /\ 0 < d /\ @cqcc exact_env (fvec 8 alternating) ex_qargs 0.5 ex_ceps = Ok (fmat 1 (Nat.min 13 P) y) /\
  forall x2, apart 8 d alternating x2 -> exists y2, @cqcc exact_env (fvec 8 x2) ex_qargs 0.5 ex_ceps = Ok (fmat 1 (Nat.min 13 P) y2) /\
    forall t k, (t < 1)%nat -> (k < Nat.min 13 P)%nat -> Rabs (y2 t k - y t k) <= eps.
Proof.
  intros eps He. destruct alternating_cqt as (P & re & im & HP & E & NZ).
  destruct (@C192_continuous exact_env ex_qargs 8 4 2 4 3 1 alternating 0.5 ex_ceps P re im 1 eps ex_ready E NZ) as (d & y & Hd & Ey & D); auto; try (cbn; lia); try (left; reflexivity); try reflexivity; [exact ex_trunc|].
  exists P, d, y. split; [exact HP|]. split; [exact Hd|]. split; [exact Ey|exact D].
Qed.
Example C192_recordings_example : exists P re im, @cqt_spectrogram exact_env (fvec 8 alternating) ex_qargs = Ok (cmat P 3 re im) /\
  exists d, 0 < d /\ forall x2, apart 8 d alternating x2 -> exists y y2, @cqcc exact_env (fvec 8 alternating) ex_qargs 0.5 ex_ceps = Ok (fmat 1 (Nat.min 13 P) y) /\
    @cqcc exact_env (fvec 8 x2) ex_qargs 0.5 ex_ceps = Ok (fmat 1 (Nat.min 13 P) y2) /\
    bigsum 1 (fun t => bigsum (Nat.min 13 P) (fun k => (y2 t k - y t k) ^ 2)) <= INR 1 * INR P * (8 * ln (1 - 0.1) ^ 2).
Proof.
  destruct alternating_cqt as (P & re & im & HP & E & NZ). exists P, re, im. split; [exact E|].
  destruct (least_entry P 3 (fun p i => spec_abs (re p i) (im p i)) ltac:(intros; apply abs_pos; auto)) as (r & Hr & B). exists (0.1 * r). split; [lra|]. intros x2 Hx.
  apply (@C192_recordings exact_env ex_qargs 8 4 2 4 3 1 alternating x2 (0.1 * r) 0.5 ex_ceps P re im 1 0.1 ex_ready); auto; try lra; try (cbn; lia); try (left; reflexivity); try reflexivity; [exact ex_trunc|].
  intros p i Hp Hi. specialize (B p i Hp Hi). cbv beta in B. split; [lra|]. unfold cqt_reach. cbn [q_pre_emph q_threshold ex_qargs]. rewrite Rmax_left, Rmult_0_l by lra. lra.
Qed.
(** every two recordings of 8 samples *)
Example C192_near_example : forall x x2, exists P re im re2 im2 y y2, (0 < P)%nat /\
  @cqt_spectrogram exact_env (fvec 8 x) ex_qargs = Ok (cmat P 3 re im) /\ @cqt_spectrogram exact_env (fvec 8 x2) ex_qargs = Ok (cmat P 3 re2 im2) /\
  @cqcc exact_env (fvec 8 x) ex_qargs 0.5 ex_ceps = Ok (fmat 1 (Nat.min 13 P) y) /\ @cqcc exact_env (fvec 8 x2) ex_qargs 0.5 ex_ceps = Ok (fmat 1 (Nat.min 13 P) y2) /\
  bigsum 1 (fun t => bigsum (Nat.min 13 P) (fun k => (y2 t k - y t k) ^ 2))
    <= 2 * (INR 1 / INR 3) * bigsum 3 (fun i => bigsum P (fun p => (spec_log (re2 p i ^ 2 + im2 p i ^ 2) - spec_log (re p i ^ 2 + im p i ^ 2)) ^ 2)).
Proof.
  intros x x2. destruct (@cqt_apart exact_env ex_qargs 8 4 2 4 3 1 ex_ready) as (b & P & len & HR & HE).
  assert (HB : exists d, 0 <= d /\ apart 8 d x x2).
  { exists (bigsum 8 (fun t => Rabs (x2 t - x t))). split; [apply bigsum_nonneg; intros; apply Rabs_pos|]. intros t Ht. apply (bigsum_one 8 (fun t => Rabs (x2 t - x t))); [intros; apply Rabs_pos|exact Ht]. }
  destruct HB as (d & Hd & Ha). destruct (HE x x2 d Hd Ha) as (re & im & re2 & im2 & E1 & E2 & _). assert (HP : (0 < P)%nat) by apply HR.
  destruct (@C192_near exact_env (fvec 8 x) (fvec 8 x2) ex_qargs 0.5 ex_ceps P 3 re im re2 im2 1 E1 E2) as (y & y2 & F1 & F2 & D); auto; try (cbn; lia); try (left; reflexivity); try reflexivity; [exact ex_trunc|].
  exists P, re, im, re2, im2, y, y2. repeat (split; [assumption|]). exact D.
Qed.
