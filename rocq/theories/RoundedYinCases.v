(** * YIN in floating point: exact cases, and binary64 numbers computed in integers *)
From Coq Require Import Reals ZArith List Lia Lra Psatz FunctionalExtensionality.
From Flocq Require Import Core.
From Verif Require Import Base BaseFacts SpecBase SpecMat BigSum MatFacts SpecFeatures LpcMore SpecPcm LpcPcm Lpc SpecLpc PcmFacts Yin SpecYin YinFacts Binary64 Rounded SpecRounded
  RoundedFacts RoundedWindows RoundedYin SpecRoundedYin RoundedYinFacts RoundedYinMore RoundedYinLaws.
Import ListNotations.
Local Open Scope R_scope.

(** ** only the curves matter *)
Lemma yin_of_frames : forall (E : Env) conv N x fs wl wh low high th L hop lo T,
  yin_config fs wl wh low high L hop lo T -> (S T <= L)%nat ->
  @compute_yin_of E conv (map x (seq 0 N)) fs wl wh low high th
  = do out <- mapM (fun i => let c := map (@window_curve E conv L hop x i) (seq 0 (S T)) in
       do p <- get_pitch c (Z.of_nat lo) (Z.of_nat (S T)) th;
       do am <- np_argmin c;
       let argm := if (Z.of_nat lo <? Z.of_nat am)%Z then @rounded E (fdiv (fZ fs) (fnat am)) else f0 in
       if negb (p =? 0)%Z then do h <- py_nth c p; Ok (@rounded E (fdiv (fZ fs) (fZ p)), h, argm)
       else do h <- py_min c; Ok (f0, h, argm)) (seq 0 (yin_frames N L hop));
    Ok (map (fun o => fst (fst o)) out, map (fun o => snd (fst o)) out, map snd out,
        map (fun i => @rounded E (fdiv (fZ (Z.of_nat i * Z.of_nat hop)) (fZ fs))) (seq 0 (yin_frames N L hop))).
Proof.
  intros E conv N x fs wl wh low high th L hop lo T (Hf & Hl & Hh & E1 & E2 & H1 & E3 & E4) HL.
  unfold compute_yin_of. destruct (Req_EM_T high 0); [contradiction|]. destruct (Req_EM_T low 0); [contradiction|].
  rewrite E1, E2, E3, E4. unfold zlen at 1. rewrite map_length, seq_length, range_step_ok by auto. cbn [rbind].
  rewrite mapM_map.
  rewrite (mapM_ok_map _ _ _ (fun i => @rounded E (fdiv (fZ (Z.of_nat i * Z.of_nat hop)) (fZ fs)))).
  2:{ intros i Hi. destruct (Z.eqb_spec fs 0); [lia|]. reflexivity. }
  cbn [rbind]. rewrite map_map, mapM_map. f_equal. apply mapM_ext. intros i Hi. apply in_seq in Hi.
  rewrite <- Nat2Z.inj_mul. rewrite py_slice_seq by (pose proof (yin_frames_lt N L hop i H1); lia).
  unfold yin_frame_of. change (map (fun t => x (i * hop + t)%nat) (seq 0 L)) with (window_list L hop x i).
  unfold window_list at 1. rewrite difference_list by exact HL. rewrite cmnd_list. reflexivity.
Qed.

Lemma yin_of_same : forall (E : Env) conv N x y fs wl wh low high th L hop lo T,
  yin_config fs wl wh low high L hop lo T -> (S T <= L)%nat ->
  (forall i t, @window_curve E conv L hop x i t = @window_curve E conv L hop y i t) ->
  @compute_yin_of E conv (map x (seq 0 N)) fs wl wh low high th = @compute_yin_of E conv (map y (seq 0 N)) fs wl wh low high th.
Proof.
  intros E conv N x y fs wl wh low high th L hop lo T Hc HL Hw.
  rewrite !(yin_of_frames E conv N _ fs wl wh low high th L hop lo T Hc HL). f_equal. apply mapM_ext. intros i _.
  cbv zeta. rewrite (map_ext _ _ (Hw i)). reflexivity.
Qed.

(** ** exact arithmetic *)
Lemma running_exact : forall v k, @running exact_env v k = bigsum k v.
Proof.
  intros v k. induction k as [|m IH]; [reflexivity|]. cbn [running bigsum]. destruct m; [cbn [bigsum]; ring|].
  rewrite IH. reflexivity.
Qed.
Lemma difference_exact : forall L x tau, (tau <= L)%nat -> @difference_of exact_env lag_product L x tau = yin_d L x tau.
Proof.
  intros L x tau Ht. rewrite yin_d_split by exact Ht. unfold difference_of. rewrite !running_exact. cbn [rnd exact_env]. ring.
Qed.
Lemma rounded_exact : forall v, @rounded exact_env v = v.
Proof. destruct v; reflexivity. Qed.
Lemma curve_exact : forall d tau, (forall k, 0 <= d k) -> @curve_of exact_env d tau = yin_c d tau.
Proof.
  intros d tau Hd. unfold curve_of, yin_c. destruct (Nat.eqb_spec tau 0) as [|Hn]; [reflexivity|].
  rewrite rounded_exact, running_exact. fold (yin_sum d tau). cbn [rnd exact_env].
  destruct (Req_EM_T (yin_sum d tau) 0) as [K|K]; [|rewrite fdiv_Fin by exact K; reflexivity].
  assert (d tau = 0) as ->.
  { replace tau with (S (tau - 1)) by lia. apply (bigsum_eq0 tau (fun v => d (S v))); [intros; apply Hd|exact K|lia]. }
  rewrite K, Rmult_0_l. unfold fdiv. destruct (Req_EM_T 0 0); [|lra]. unfold finfmul. destruct (Req_EM_T 0 0); [reflexivity|lra].
Qed.
Lemma yin_of_exact : forall N x fs wl wh low high th L hop lo T,
  @yin_config exact_env fs wl wh low high L hop lo T -> (S T <= L)%nat ->
  @compute_yin_of exact_env lag_product (map x (seq 0 N)) fs wl wh low high th
  = @compute_yin exact_env (fvec N x) fs wl wh low high th.
Proof.
  intros N x fs wl wh low high th L hop lo T Hc HL.
  rewrite (yin_of_frames exact_env lag_product N x fs wl wh low high th L hop lo T Hc HL).
  rewrite (compute_yin_frames N x fs wl wh low high th L hop lo T Hc _ eq_refl).
  assert (Hf : (0 < fs)%Z) by apply Hc.
  replace (map (fun i => @rounded exact_env (fdiv (fZ (Z.of_nat i * Z.of_nat hop)) (fZ fs))) (seq 0 (yin_frames N L hop)))
    with (fvec (yin_frames N L hop) (fun i => INR (i * hop) / IZR fs)).
  - f_equal. apply mapM_ext. intros i _. unfold yin_frame. rewrite compute_difference_fvec by lia.
    rewrite Nat2Z.id, Nat.min_l by lia. rewrite compute_cmnd_fvec by (intros; apply yin_d_nonneg). cbn [rbind].
    unfold yin_curve.
    rewrite (map_ext_in (@window_curve exact_env lag_product L hop x i) (yin_c (yin_d L (yin_x hop x i)))).
    2:{ intros t Ht. apply in_seq in Ht. rewrite <- curve_exact by (intros; apply yin_d_nonneg).
        unfold window_curve, curve_of. destruct (Nat.eqb t 0) eqn:E0; [reflexivity|].
        rewrite difference_exact by lia. rewrite (yin_d_ext L _ (yin_x hop x i)) by (intros; apply window_fun_in; assumption).
        do 3 f_equal. apply running_ext. intros j Hj. rewrite difference_exact by lia.
        apply yin_d_ext. intros; apply window_fun_in; assumption. }
    cbv zeta. destruct (get_pitch _ _ _ _); [|reflexivity]. cbn [rbind].
    destruct (np_argmin _); [|reflexivity]. cbn [rbind]. rewrite !rounded_exact. reflexivity.
  - unfold fvec. apply map_ext. intros i. rewrite rounded_exact. unfold fZ. rewrite fdiv_Fin by (apply not_0_IZR; lia).
    rewrite INR_IZR, Nat2Z.inj_mul. reflexivity.
Qed.

(** ** windows without differences *)
Lemma running_zero : forall (E : Env) v k, @rnd E 0 = 0 -> (forall j, (j < k)%nat -> v j = 0) -> @running E v k = 0.
Proof.
  intros E v k H0. induction k as [|m IH]; intros Hv; [reflexivity|]. cbn [running]. destruct m; [apply Hv; lia|].
  rewrite IH, Hv by (intros; auto). rewrite Rplus_0_l. exact H0.
Qed.
Lemma curve_flat : forall (E : Env) d T, @rnd E 0 = 0 -> (forall k, (1 <= k <= T)%nat -> d k = 0) ->
  forall k, (1 <= k <= T)%nat -> @curve_of E d k = NaN.
Proof.
  intros E d T H0 Hd k Hk. unfold curve_of. destruct (Nat.eqb_spec k 0); [lia|].
  rewrite Hd by lia. rewrite Rmult_0_l, H0, running_zero by (auto; intros; apply Hd; lia).
  unfold fdiv. destruct (Req_EM_T 0 0); [|lra]. unfold finfmul. destruct (Req_EM_T 0 0); [reflexivity|lra].
Qed.
Lemma yin_of_flat : forall (E : Env) conv N x fs wl wh low high th L hop lo T,
  @rnd E 0 = 0 -> yin_config fs wl wh low high L hop lo T -> (S T <= L)%nat -> (1 <= lo)%nat -> (1 <= T)%nat ->
  forall P H A tm, @compute_yin_of E conv (map x (seq 0 N)) fs wl wh low high th = Ok (P, H, A, tm) ->
  forall i, (i < yin_frames N L hop)%nat ->
  (forall k, (1 <= k <= T)%nat -> @difference_of E conv L (window_fun L hop x i) k = 0) ->
  nth i P NaN = Fin 0 /\ nth i H NaN = Fin 1 /\ nth i A NaN = Fin 0.
Proof.
  intros E conv N x fs wl wh low high th L hop lo T R0 Hc HL Hlo HT P0 H0 A0 tm0 Hy i Hi Hk.
  destruct (yin_of_ok E conv N x fs wl wh low high th L hop lo T Hc HL) as (P & H & A & tm & E1 & E2).
  rewrite E1 in Hy. apply Ok_inj in Hy. injection Hy as <- <- <- _. rewrite !nth_map_seq by auto.
  destruct (E2 i Hi) as ((a & Ha & EA) & Hp). cbv zeta in *.
  pose proof (curve_flat E _ T R0 Hk) as Hn. fold (@window_curve E conv L hop x i) in Hn.
  set (c := @window_curve E conv L hop x i) in *. assert (C0 : c O = Fin 1) by reflexivity.
  assert (a = 1%nat) as ->.
  { apply (is_argmin_unique c (S T)); [exact Ha|]. split; [lia|]. left. split; [apply Hn; lia|].
    intros t Ht. assert (t = O) as -> by lia. rewrite C0. discriminate. }
  destruct (Nat.ltb_spec lo 1); [lia|].
  destruct Hp as [(s & p & Hl & Hp & _)|(_ & EP & HN & (t & Ht & Et) & _)].
  - exfalso. destruct Hl as (B1 & B2 & B3 & _). rewrite Hn in B3 by lia. discriminate.
  - split; [exact EP|]. split; [|exact EA]. destruct t as [|t]; [rewrite Et; reflexivity|].
    rewrite Hn in Et by lia. congruence.
Qed.

(** ** whole numbers in binary64 *)
Lemma lag_iacf : forall L z tau, lag_product L (fun t => IZR (z t)) tau = IZR (iacf L z tau).
Proof. intros. unfold lag_product, iacf. rewrite IZR_isum. apply bigsum_ext. intros. rewrite mult_IZR. reflexivity. Qed.
Lemma isum_mono : forall z k n, (k <= n)%nat -> (isum k (fun t => z t * z t) <= isum n (fun t => z t * z t))%Z.
Proof.
  intros z k n Hk. replace n with (k + (n - k))%nat by lia. rewrite isum_split.
  pose proof (isum_nonneg (n - k) (fun i => z (k + i)%nat * z (k + i)%nat)%Z (fun i _ => Z.square_nonneg _)). lia.
Qed.
Lemma running_whole : forall L z, (isum L (fun t => z t * z t) < 2 ^ 53)%Z ->
  forall k, (k <= L)%nat -> @running binary64 (fun t => @rnd binary64 (IZR (z t) * IZR (z t))) k = IZR (isum k (fun t => z t * z t)%Z).
Proof.
  intros L z HL k. induction k as [|m IH]; intros Hk; [reflexivity|].
  pose proof (isum_mono z (S m) L Hk) as M. cbn [isum] in M.
  pose proof (isum_nonneg m (fun t => z t * z t)%Z (fun i _ => Z.square_nonneg _)) as N. pose proof (Z.square_nonneg (z m)) as Q.
  assert (Eq : rnd64 (IZR (z m) * IZR (z m)) = IZR (z m * z m)) by (rewrite <- mult_IZR; apply rnd64_int; lia).
  cbn [running isum]. cbn [rnd binary64] in *. destruct m as [|m'].
  - rewrite Eq. cbn [isum]. f_equal.
  - rewrite IH, Eq by lia. rewrite <- plus_IZR. apply rnd64_int. lia.
Qed.
Lemma difference_whole : forall L z tau, (isum L (fun t => z t * z t) < 2 ^ 51)%Z -> (tau <= L)%nat ->
  @difference_of binary64 (best_conv rnd64) L (fun t => IZR (z t)) tau = yin_d L (fun t => IZR (z t)) tau.
Proof.
  intros L z tau HL Ht. rewrite yin_d_split by exact Ht. unfold difference_of, best_conv.
  rewrite !(running_whole L z) by lia. cbn [rnd binary64]. rewrite !lag_iacf.
  replace (bigsum (L - tau) (fun j => IZR (z j) * IZR (z j))) with (IZR (isum (L - tau) (fun t => z t * z t)%Z))
    by (rewrite IZR_isum; apply bigsum_ext; intros; apply mult_IZR).
  replace (bigsum L (fun j => IZR (z j) * IZR (z j))) with (IZR (isum L (fun t => z t * z t)%Z))
    by (rewrite IZR_isum; apply bigsum_ext; intros; apply mult_IZR).
  replace (bigsum tau (fun j => IZR (z j) * IZR (z j))) with (IZR (isum tau (fun t => z t * z t)%Z))
    by (rewrite IZR_isum; apply bigsum_ext; intros; apply mult_IZR).
  pose proof (isum_mono z tau L Ht). pose proof (isum_mono z (L - tau) L ltac:(lia)).
  pose proof (isum_nonneg tau (fun t => z t * z t)%Z (fun i _ => Z.square_nonneg _)).
  pose proof (isum_nonneg (L - tau) (fun t => z t * z t)%Z (fun i _ => Z.square_nonneg _)).
  pose proof (iacf_bound L z tau) as B. unfold iacf in B at 2. rewrite Nat.sub_0_r in B.
  rewrite (isum_ext L (fun t => z t * z (t + 0)%nat)%Z (fun t => z t * z t)%Z) in B by (intros; rewrite Nat.add_0_r; reflexivity).
  set (e := isum L (fun t => z t * z t)%Z) in *. set (s1 := isum tau _) in *. set (s2 := isum (L - tau) _) in *. set (a := iacf L z tau) in *.
  rewrite <- minus_IZR, (rnd64_int (e - s1)) by lia. rewrite <- plus_IZR, (rnd64_int (s2 + (e - s1))) by lia.
  rewrite (rnd64_int a) by lia. rewrite <- (mult_IZR 2 a), (rnd64_int (2 * a)) by lia.
  rewrite <- minus_IZR.
  apply rnd64_int. lia.
Qed.

(** ** gain by a power of two, polarity *)
Lemma window_map : forall L hop x b i t, window_fun L hop (fun s => b * x s) i t = b * window_fun L hop x i t.
Proof.
  intros L hop x b i t. destruct (Nat.lt_ge_cases t L) as [K|K].
  - rewrite !window_fun_in by exact K. reflexivity.
  - unfold window_fun, window_list. rewrite !nth_overflow by (rewrite map_length, seq_length; exact K). ring.
Qed.
Lemma running_scale : forall v k m, @running binary53 (fun t => bpow radix2 k * v t) m = bpow radix2 k * @running binary53 v m.
Proof.
  intros v k m. induction m as [|m IH]; [cbn; ring|]. cbn [running]. destruct m; [reflexivity|].
  rewrite IH. cbn [rnd binary53]. rewrite <- rnd53_scale. f_equal. ring.
Qed.
Lemma curve_scale : forall d k t, @curve_of binary53 (fun t => bpow radix2 k * d t) t = @curve_of binary53 d t.
Proof.
  intros d k t. unfold curve_of. destruct (Nat.eqb t 0); [reflexivity|]. rewrite running_scale. cbn [rnd binary53].
  rewrite Rmult_assoc, rnd53_scale. f_equal.
  pose proof (bpow_gt_0 radix2 k) as B. set (b := bpow radix2 k) in *. set (n := rnd53 (d t * INR t)). set (q := @running binary53 (fun v => d (S v)) t).
  destruct (Req_dec q 0) as [->|Hq].
  - rewrite Rmult_0_r. unfold fdiv. destruct (Req_EM_T 0 0); [|lra]. unfold finfmul.
    destruct (Req_EM_T (b * n) 0) as [K|K], (Req_EM_T n 0) as [K'|K'].
    + reflexivity.
    + exfalso. apply Rmult_integral in K as [K|K]; lra.
    + exfalso. apply K. rewrite K'. ring.
    + destruct (Rlt_dec 0 (b * n)) as [J|J], (Rlt_dec 0 n) as [J'|J']; try reflexivity; exfalso; nra.
  - rewrite !fdiv_Fin; [|exact Hq|intros K; apply Rmult_integral in K as [K|K]; lra]. f_equal. field. lra.
Qed.
Lemma difference_scale : forall (conv : nat -> (nat -> R) -> nat -> R) L x k,
  (forall tau, conv L (fun t => bpow radix2 k * x t) tau = bpow radix2 (2 * k) * conv L x tau) -> forall tau,
  @difference_of binary53 conv L (fun t => bpow radix2 k * x t) tau = bpow radix2 (2 * k) * @difference_of binary53 conv L x tau.
Proof.
  intros conv L x k Hc tau. unfold difference_of. rewrite Hc. cbn [rnd binary53].
  assert (B : bpow radix2 (2 * k) = bpow radix2 k * bpow radix2 k) by (rewrite <- bpow_plus; f_equal; lia).
  assert (K : forall n, @running binary53 (fun t => rnd53 (bpow radix2 k * x t * (bpow radix2 k * x t))) n
                        = bpow radix2 (2 * k) * @running binary53 (fun t => rnd53 (x t * x t)) n).
  { intros n. rewrite <- running_scale. apply running_ext. intros j _. rewrite <- rnd53_scale, B. f_equal. ring. }
  rewrite !K. clear K. set (b := bpow radix2 (2 * k)).
  rewrite <- Rmult_minus_distr_l. unfold b at 2. rewrite rnd53_scale. fold b.
  rewrite <- Rmult_plus_distr_l. unfold b at 1. rewrite rnd53_scale. fold b.
  replace (2 * (b * conv L x tau)) with (b * (2 * conv L x tau)) by ring. unfold b at 2. rewrite rnd53_scale. fold b.
  rewrite <- Rmult_minus_distr_l. apply rnd53_scale.
Qed.
Lemma yin_of_gain : forall conv N x fs wl wh low high th L hop lo T k,
  (forall f tau, conv L (fun t => bpow radix2 k * f t) tau = bpow radix2 (2 * k) * conv L f tau) ->
  @yin_config binary53 fs wl wh low high L hop lo T -> (S T <= L)%nat ->
  @compute_yin_of binary53 conv (map (fun t => bpow radix2 k * x t) (seq 0 N)) fs wl wh low high th
  = @compute_yin_of binary53 conv (map x (seq 0 N)) fs wl wh low high th.
Proof.
  intros conv N x fs wl wh low high th L hop lo T k Hconv Hc HL.
  apply (yin_of_same binary53 conv N _ _ fs wl wh low high th L hop lo T Hc HL). intros i t. unfold window_curve.
  symmetry. rewrite <- (curve_scale _ (2 * k)). f_equal. extensionality tau. rewrite <- difference_scale by (intros; apply Hconv).
  f_equal. extensionality s. symmetry. apply window_map.
Qed.
Lemma yin_of_polarity : forall (E : Env) conv N x fs wl wh low high th L hop lo T,
  (forall f tau, conv L (fun t => - f t) tau = conv L f tau) ->
  yin_config fs wl wh low high L hop lo T -> (S T <= L)%nat ->
  @compute_yin_of E conv (map (fun t => - x t) (seq 0 N)) fs wl wh low high th
  = @compute_yin_of E conv (map x (seq 0 N)) fs wl wh low high th.
Proof.
  intros E conv N x fs wl wh low high th L hop lo T Hconv Hc HL.
  apply (yin_of_same E conv N _ _ fs wl wh low high th L hop lo T Hc HL). intros i t. unfold window_curve. f_equal.
  extensionality tau. replace (window_fun L hop (fun s => - x s) i) with (fun s => - window_fun L hop x i s).
  - unfold difference_of. rewrite Hconv.
    assert (K : forall n, @running E (fun t0 => @rnd E (- window_fun L hop x i t0 * - window_fun L hop x i t0)) n
              = @running E (fun t0 => @rnd E (window_fun L hop x i t0 * window_fun L hop x i t0)) n).
    { intros n. apply running_ext. intros j _. f_equal. ring. }
    rewrite !K. reflexivity.
  - extensionality s. replace (- window_fun L hop x i s) with (-1 * window_fun L hop x i s) by ring.
    rewrite <- window_map. f_equal. extensionality r. ring.
Qed.

(** ** binary64 numbers as integers at a fixed scale *)
Definition fl (m : Z) : Z :=
  let s := (Z.log2 (Z.abs m) - 52)%Z in
  if (s <=? 0)%Z then m
  else let p := (2 ^ s)%Z in let q := (m / p)%Z in let r := (m mod p)%Z in
       (p * match Z.compare (2 * r) p with Lt => q | Gt => q + 1 | Eq => if Z.even q then q else q + 1 end)%Z.
Lemma nearest_quotient : forall m p, (0 < p)%Z ->
  ZnearestE (IZR m / IZR p) = match Z.compare (2 * (m mod p)) p with Lt => m / p | Gt => m / p + 1 | Eq => if Z.even (m / p) then m / p else m / p + 1 end%Z.
Proof.
  intros m p Hp. assert (P0 : 0 < IZR p) by (apply (IZR_lt 0); exact Hp).
  assert (Fl : Zfloor (IZR m / IZR p) = (m / p)%Z) by (apply Zfloor_div; lia).
  assert (Em : IZR m / IZR p = IZR (m / p) + IZR (m mod p) / IZR p).
  { rewrite (Z.div_mod m p) at 1 by lia. rewrite plus_IZR, mult_IZR. field. lra. }
  pose proof (Z.mod_pos_bound m p Hp) as Hr.
  unfold Znearest. rewrite Fl.
  replace (IZR m / IZR p - IZR (m / p)) with (IZR (m mod p) / IZR p) by lra.
  assert (Cc : (m mod p <> 0)%Z -> Zceil (IZR m / IZR p) = (m / p + 1)%Z).
  { intros Hne. rewrite Zceil_floor_neq; rewrite Fl; [reflexivity|]. intros K. rewrite Em in K.
    assert (IZR (m mod p) / IZR p = 0) as K2 by lra. apply Rmult_integral in K2 as [K2|K2].
    - apply Hne. apply eq_IZR. exact K2.
    - apply Rinv_neq_0_compat in K2; lra. }
  assert (Hh : forall c, Rcompare (IZR (m mod p) / IZR p) (/ 2) = c <-> Z.compare (2 * (m mod p)) p = c).
  { intros c. replace (Rcompare (IZR (m mod p) / IZR p) (/ 2)) with (Rcompare (IZR (2 * (m mod p))) (IZR p)).
    - rewrite Rcompare_IZR. tauto.
    - rewrite <- (Rcompare_mult_r (2 * IZR p) _ (/ 2)) by lra. rewrite mult_IZR. f_equal; field; lra. }
  destruct (Z.compare (2 * (m mod p)) p) eqn:K; rewrite (proj2 (Hh _) eq_refl).
  - apply Z.compare_eq_iff in K. destruct (Z.even (m / p)); cbn [negb]; [reflexivity|]. apply Cc. lia.
  - reflexivity.
  - apply Z.compare_gt_iff in K. apply Cc. lia.
Qed.
Lemma rnd64_fl : forall m e, (-1074 <= e)%Z -> rnd64 (IZR m * bpow radix2 e) = IZR (fl m) * bpow radix2 e.
Proof.
  intros m e He. unfold fl. set (s := (Z.log2 (Z.abs m) - 52)%Z). destruct (Z.leb_spec s 0) as [K|K].
  - apply rnd64_id; [|exact He]. destruct (Z.eq_dec m 0) as [->|Hm]; [reflexivity|].
    pose proof (Z.log2_spec (Z.abs m) ltac:(lia)) as [_ B]. eapply Z.lt_le_trans; [exact B|]. apply Z.pow_le_mono_r; lia.
  - cbv zeta. assert (Hm : (0 < Z.abs m)%Z). { destruct (Z.eq_dec m 0) as [->|]; [cbn in s; lia|lia]. }
    pose proof (Z.log2_spec (Z.abs m) Hm) as [B1 B2].
    assert (Hp : (0 < 2 ^ s)%Z) by (apply Z.pow_pos_nonneg; lia).
    rewrite <- nearest_quotient by exact Hp.
    rewrite (rnd64_scaled _ (ZnearestE (IZR m / IZR (2 ^ s))) (e + s)); [|lia| |].
    + rewrite mult_IZR, bpow_plus. replace (IZR (2 ^ s)) with (bpow radix2 s) by (rewrite <- IZR_Zpower by lia; reflexivity). ring.
    + rewrite Rabs_mult, (Rabs_pos_eq (bpow radix2 e)) by apply bpow_ge_0. rewrite <- abs_IZR.
      replace (52 + (e + s))%Z with (Z.log2 (Z.abs m) + e)%Z by (unfold s; lia).
      replace (53 + (e + s))%Z with (Z.succ (Z.log2 (Z.abs m)) + e)%Z by (unfold s; lia).
      rewrite !bpow_plus. pose proof (bpow_gt_0 radix2 e). pose proof (Z.log2_nonneg (Z.abs m)) as Ln.
      rewrite <- (IZR_Zpower radix2 (Z.log2 (Z.abs m))), <- (IZR_Zpower radix2 (Z.succ (Z.log2 (Z.abs m)))) by lia.
      split; [apply Rmult_le_compat_r; [lra|apply IZR_le; exact B1]|apply Rmult_lt_compat_r; [lra|apply IZR_lt; exact B2]].
    + f_equal. rewrite Rmult_assoc, <- bpow_plus. replace (e + - (e + s))%Z with (- s)%Z by lia. rewrite bpow_opp.
      unfold Rdiv. f_equal. f_equal. rewrite <- IZR_Zpower by lia. reflexivity.
Qed.

(** YIN on binary64 numbers z(t) * 2^e with a correctly rounded convolution, as integers *)
Fixpoint zrun (v : nat -> Z) (k : nat) : Z :=
  match k with O => 0 | S m => match m with O => v O | S _ => fl (zrun v m + v m) end end%Z.
Definition zdiff (L : nat) (z : nat -> Z) (tau : nat) : Z :=
  let c := zrun (fun t => fl (z t * z t)%Z) in
  fl (fl (c (L - tau)%nat + fl (c L - c tau)) - fl (2 * fl (iacf L z tau)))%Z.
Lemma running_fl : forall v e k, (-1074 <= e)%Z -> @running binary64 (fun t => IZR (v t) * bpow radix2 e) k = IZR (zrun v k) * bpow radix2 e.
Proof.
  intros v e k He. induction k as [|k IH]; [cbn; ring|]. cbn [running zrun]. destruct k; [reflexivity|]. rewrite IH.
  cbn [rnd binary64]. rewrite <- rnd64_fl by exact He. f_equal. rewrite plus_IZR. ring.
Qed.
Lemma difference_fl : forall L z e tau, (-1074 <= 2 * e)%Z ->
  @difference_of binary64 (best_conv rnd64) L (fun t => IZR (z t) * bpow radix2 e) tau = IZR (zdiff L z tau) * bpow radix2 (2 * e).
Proof.
  intros L z e tau He. unfold difference_of, zdiff. cbv zeta. cbn [rnd binary64].
  assert (B : bpow radix2 (2 * e) = bpow radix2 e * bpow radix2 e) by (rewrite <- bpow_plus; f_equal; lia).
  assert (K : forall n, @running binary64 (fun t => rnd64 (IZR (z t) * bpow radix2 e * (IZR (z t) * bpow radix2 e))) n
                        = IZR (zrun (fun t => fl (z t * z t)%Z) n) * bpow radix2 (2 * e)).
  { intros n. rewrite <- running_fl by exact He. apply running_ext. intros j _. rewrite <- rnd64_fl by exact He. f_equal.
    rewrite mult_IZR, B. ring. }
  rewrite !K. clear K.
  replace (best_conv rnd64 L (fun t => IZR (z t) * bpow radix2 e) tau) with (IZR (fl (iacf L z tau)) * bpow radix2 (2 * e)).
  2:{ unfold best_conv. rewrite <- rnd64_fl by exact He. f_equal. rewrite <- lag_iacf. unfold lag_product. rewrite Rmult_comm, <- bigsum_scal.
      apply bigsum_ext. intros j _. rewrite B. ring. }
  set (b := bpow radix2 (2 * e)).
  rewrite <- Rmult_minus_distr_r, <- minus_IZR. unfold b at 2. rewrite rnd64_fl by exact He. fold b.
  rewrite <- Rmult_plus_distr_r, <- plus_IZR. unfold b at 1. rewrite rnd64_fl by exact He. fold b.
  rewrite <- Rmult_assoc, <- mult_IZR. unfold b at 2. rewrite rnd64_fl by exact He. fold b.
  rewrite <- Rmult_minus_distr_r, <- minus_IZR. apply rnd64_fl. exact He.
Qed.
