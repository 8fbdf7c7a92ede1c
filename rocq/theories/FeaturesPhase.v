(** * Parseval for the short-time spectra, shifted signals, phase features *)
From Coq Require Import Reals ZArith List String Bool Lia Lra Psatz.
From Flocq Require Import Core.Raux.
From Verif Require Import Base BaseFacts Cplx CplxFacts SpecBase SpecMat SpecBanks SpecFeatures BigSum MatFacts
  Preprocessing PreprocessingFacts WindowFacts Filters MelBanks Cepstral CepstralFacts Fourier DctFacts Features
  Extractors FeaturesFacts FeaturesMore FeaturesLaws.
Import ListNotations.
Local Open Scope R_scope.

(** ** Parseval *)
Lemma spec_sq_expand : forall n L f k, spec_sq n L f k
  = bigsum (Nat.min L n) (fun t => bigsum (Nat.min L n) (fun s =>
      f t * f s * cos (INR k * (PI * IZR (2 * (Z.of_nat t - Z.of_nat s)) / INR n)))).
Proof.
  intros. unfold spec_sq, spec_re, spec_im. rewrite <- !Rsqr_pow2. unfold Rsqr. rewrite !bigsum_mult, <- bigsum_plus.
  apply bigsum_ext. intros t _. rewrite <- bigsum_plus. apply bigsum_ext. intros s _.
  replace (INR k * (PI * IZR (2 * (Z.of_nat t - Z.of_nat s)) / INR n))
    with (2 * PI * INR (t * k) / INR n - 2 * PI * INR (s * k) / INR n).
  - rewrite cos_minus. ring.
  - rewrite mult_IZR, minus_IZR, <- !INR_IZR_INZ, !mult_INR. unfold Rdiv. ring.
Qed.
Lemma parseval_full : forall n L f, (0 < n)%nat -> (L <= n)%nat ->
  bigsum n (spec_sq n L f) = INR n * bigsum L (fun t => f t ^ 2).
Proof.
  intros n L f Hn HL. rewrite (bigsum_ext n _ _ (fun k _ => spec_sq_expand n L f k)).
  rewrite Nat.min_l by auto. rewrite bigsum_swap. rewrite <- bigsum_scal. apply bigsum_ext. intros t Ht.
  rewrite bigsum_swap.
  rewrite (bigsum_ext L _ (fun s => if Nat.eqb s t then INR n * f s ^ 2 else 0)).
  - rewrite bigsum_delta by auto. auto.
  - intros s Hs. rewrite (bigsum_scal n (f t * f s)). fold (Seven n (2 * (Z.of_nat t - Z.of_nat s))).
    destruct (Nat.eqb_spec s t) as [->|Hne].
    + rewrite Z.sub_diag, Z.mul_0_r, Seven_0. ring.
    + rewrite Seven_even; [ring|auto|lia|]. rewrite Z.even_mul. auto.
Qed.
Lemma spec_sq_sym : forall n L f k, (0 < n)%nat -> (k <= n)%nat -> spec_sq n L f (n - k) = spec_sq n L f k.
Proof.
  intros n L f k Hn Hk. rewrite !spec_sq_expand. apply bigsum_ext. intros t _. apply bigsum_ext. intros s _. f_equal.
  rewrite minus_INR by auto. assert (0 < INR n) by (apply lt_0_INR; auto).
  replace ((INR n - INR k) * (PI * IZR (2 * (Z.of_nat t - Z.of_nat s)) / INR n))
    with (IZR (2 * (Z.of_nat t - Z.of_nat s)) * PI - INR k * (PI * IZR (2 * (Z.of_nat t - Z.of_nat s)) / INR n)) by (field; lra).
  rewrite cos_minus, cos_even_PI, sin_IZR_PI. ring.
Qed.
Lemma fold_spectrum : forall n g, (0 < n)%nat -> (forall k, (0 < k < n)%nat -> g (n - k)%nat = g k) ->
  bigsum n g = bigsum (S (n / 2)) (fun k => bin_weight n k * g k).
Proof.
  intros n g Hn Hs. set (h := (n / 2)%nat).
  assert (Hh : n = (2 * h + n mod 2)%nat) by (apply Nat.div_mod; lia).
  assert (Hm : (n mod 2 < 2)%nat) by (apply Nat.mod_upper_bound; lia).
  assert (E : forall m, (m <= h)%nat -> (2 * m <= n)%nat -> forall d, n = (1 + m + d + m)%nat ->
            bigsum n g = g 0%nat + 2 * bigsum m (fun k => g (S k)) + bigsum d (fun k => g (S m + k)%nat)).
  { intros m H1 H2 d Hd. rewrite Hd at 1. replace (1 + m + d + m)%nat with (S (m + (d + m))) by lia.
    rewrite bigsum_S_l, bigsum_split, bigsum_split.
    assert (bigsum m (fun i => g (S (m + (d + i)))) = bigsum m (fun k => g (S k))) as ->.
    { rewrite bigsum_rev. apply bigsum_ext. intros i Hi. rewrite <- Hs by lia. f_equal. lia. }
    cbv beta. replace (bigsum d (fun i => g (S (m + i)))) with (bigsum d (fun k => g (S m + k)%nat)) by (apply bigsum_ext; auto).
    ring. }
  rewrite bigsum_S_l. unfold bin_weight at 1. cbn [Nat.eqb orb].
  destruct (Nat.eq_dec (n mod 2) 0) as [Hev|Hod].
  - destruct h as [|m] eqn:Eh; [lia|]. rewrite (E m ltac:(lia) ltac:(lia) 1%nat ltac:(lia)).
    rewrite bigsum_S. cbn [bigsum].
    rewrite (bigsum_ext m (fun i => bin_weight n (S i) * g (S i)) (fun i => 2 * g (S i))).
    + rewrite bigsum_scal. unfold bin_weight. rewrite (proj2 (Nat.eqb_eq (2 * S m) n)) by lia. cbn [Nat.eqb orb].
      replace (S m + 0)%nat with (S m) by lia. ring.
    + intros i Hi. unfold bin_weight. rewrite (proj2 (Nat.eqb_neq (2 * S i) n)) by lia. cbn [Nat.eqb orb]. auto.
  - rewrite (E h ltac:(lia) ltac:(lia) 0%nat ltac:(lia)).
    rewrite (bigsum_ext h (fun i => bin_weight n (S i) * g (S i)) (fun i => 2 * g (S i))).
    + rewrite bigsum_scal. cbn [bigsum]. ring.
    + intros i Hi. unfold bin_weight. rewrite (proj2 (Nat.eqb_neq (2 * S i) n)) by lia. cbn [Nat.eqb orb]. auto.
Qed.
Lemma parseval_half : forall n L f, (0 < n)%nat -> (L <= n)%nat ->
  bigsum (S (n / 2)) (fun k => bin_weight n k * spec_mag n L f k ^ 2) = INR n * bigsum L (fun t => f t ^ 2).
Proof.
  intros n L f Hn HL. rewrite <- parseval_full by auto. rewrite (fold_spectrum n (spec_sq n L f)); auto.
  - apply bigsum_ext. intros k _. unfold spec_mag. rewrite <- Rsqr_pow2, Rsqr_sqrt by apply spec_sq_nonneg. auto.
  - intros. apply spec_sq_sym; lia.
Qed.

(** ** shifting the signal by one hop *)


Lemma run_shift : forall `{Env} e sig a c M M2 i,
  let L := flen (s_fs a) (win_len (window_of a)) in
  let hop := flen (s_fs a) (win_hop (window_of a)) in
  (0 <= hop)%Z ->
  run e sig a c = Ok M -> run e (skipn (Z.to_nat hop) sig) a c = Ok M2 -> no_normalisation c ->
  (s_pre_emph a = true -> (0 < i)%nat) ->
  (S i < List.length M)%nat -> (i < List.length M2)%nat ->
  nth (S i) M [] = nth i M2 [].
Proof.
  intros E e sig a c M M2 i L hop Hh H1 H2 Hn Hp Hi Hi2.
  apply (run_row_eq e sig (skipn (Z.to_nat hop) sig) a c M M2 (S i) i); auto; fold L hop.
  - intros Q. specialize (Hp Q). nia.
  - intros j Hj Hj2 Hpos.
    assert (0 <= Z.of_nat i * hop + j)%Z.
    { destruct Hj2 as [?|Q]; [nia|]. specialize (Hp Q).
      destruct (Z.eq_dec hop 0) as [Z0|Z0]; [rewrite Z0 in *; lia|nia]. }
    rewrite skipn_nth_add. f_equal. rewrite Nat2Z.inj_succ. rewrite <- Z2Nat.inj_add by lia. f_equal. lia.
Qed.

(** ** psrcc *)
Lemma atan2_range : forall b a, exists r, fatan2 (Fin b) (Fin a) = Fin r /\ - PI < r <= PI.
Proof.
  intros b a. pose proof PI_RGT_0. pose proof (atan_bound (b / a)) as [A1 A2]. cbn [fatan2].
  destruct (Rlt_dec 0 a); [eexists; split; [reflexivity|]; lra|].
  destruct (Rlt_dec a 0).
  - destruct (Rle_dec 0 b); eexists; (split; [reflexivity|]).
    + assert (atan (b / a) <= 0).
      { rewrite <- atan_0. destruct (Req_dec (b / a) 0) as [->|]; [lra|]. left. apply atan_increasing.
        assert (0 < - a) by lra. assert (b / a = - (b / - a)) by (field; lra).
        assert (0 <= b / - a) by (apply Rmult_le_pos; auto; left; apply Rinv_0_lt_compat; auto). lra. }
      lra.
    + assert (0 < atan (b / a)).
      { rewrite <- atan_0. apply atan_increasing. replace (b / a) with ((- b) / (- a)) by (field; lra).
        apply Rdiv_lt_0_compat; lra. }
      lra.
  - destruct (Rlt_dec 0 b); [|destruct (Rlt_dec b 0)]; eexists; (split; [reflexivity|]); lra.
Qed.
Lemma phase_range : forall z, exists p, wrap_phase (angle_deg (emb z)) = Fin p /\ 0 <= p < 360.
Proof.
  intros [a b]. unfold angle_deg, emb. cbn [fst snd]. destruct (atan2_range b a) as (r & -> & H1 & H2).
  cbn [fmul]. pose proof PI_RGT_0. set (p := r * (180 / PI)).
  assert (-180 < p <= 180).
  { unfold p. replace (r * (180 / PI)) with (180 * (r / PI)) by (field; lra).
    assert (-1 < r / PI <= 1); [|lra].
    split; [apply (Rmult_lt_reg_r PI)|apply (Rmult_le_reg_r PI)]; auto; unfold Rdiv; rewrite Rmult_assoc, Rinv_l; lra. }
  unfold wrap_phase, fltb, f0, Rltb. destruct (Rlt_dec p 0), (Rlt_dec 0 p); try lra; cbn [fbool fadd fmul f1 f0];
    eexists; (split; [reflexivity|]); lra.
Qed.
Lemma nonan_fmax2 : forall x y, x <> NaN -> y <> NaN -> fmax2 x y <> NaN.
Proof. intros x y Hx Hy. unfold fmax2. destruct (fleb x y); destruct x, y; congruence. Qed.
Lemma nonan_fold : forall l x, Forall (fun v => v <> NaN) l -> x <> NaN -> fold_left fmax2 l x <> NaN.
Proof.
  induction l; intros x Hl Hx; simpl; auto. inversion Hl; subst. apply IHl; auto. apply nonan_fmax2; auto.
Qed.
Lemma nonan_fmaxl : forall l v, Forall (fun v => v <> NaN) l -> fmaxl l = Ok v -> v <> NaN.
Proof. intros l v Hl H. destruct l; [discriminate|]. simpl in H. inversion H. inversion Hl; subst. apply nonan_fold; auto. Qed.
Lemma psrcc_nonan : forall ws b nfft g f X, psrcc_features ws b nfft g = Ok (f, X) -> Forall (Forall (fun v => v <> NaN)) f.
Proof.
  intros ws b nfft g f X H. unfold psrcc_features in H.
  apply rbind_Ok in H as (X' & HX & H). apply rbind_Ok in H as (d & Hd & H). apply rbind_Ok in H as (mx & Hmx & H).
  apply Ok_inj in H. inversion H; subst; clear H.
  set (m := map (map (fun v => if is_nan v then f0 else v)) (map (map (fun v => fpow v g)) d)) in *.
  assert (Hm : Forall (Forall (fun v => v <> NaN)) m).
  { unfold m. apply Forall_map, Forall_forall. intros row _. apply Forall_map, Forall_forall. intros v _.
    destruct v; simpl; unfold f0; congruence. }
  assert (Hx : mx <> NaN).
  { eapply nonan_fmaxl; [|exact Hmx]. apply Forall_concat. exact Hm. }
  apply Forall_map. eapply Forall_impl; [|exact Hm]. intros row Hr. apply Forall_map. eapply Forall_impl; [|exact Hr].
  intros v Hv. cbv beta in *. destruct (is_inf v); auto.
Qed.

(** the wrapped angle is the phase *)
Lemma atan2_polar : forall b a, exists r, fatan2 (Fin b) (Fin a) = Fin r /\ - PI < r <= PI /\
  a = sqrt (a ^ 2 + b ^ 2) * cos r /\ b = sqrt (a ^ 2 + b ^ 2) * sin r /\ (a = 0 -> b = 0 -> r = 0).
Proof.
  intros b a. destruct (atan2_range b a) as (r & E & R1 & R2). exists r. split; auto. split; auto. clear R1 R2.
  assert (Hs : a <> 0 -> sqrt (a ^ 2 + b ^ 2) = Rabs a * sqrt (1 + (b / a)²)).
  { intros Ha. replace (a ^ 2 + b ^ 2) with (a² * (1 + (b / a)²)) by (unfold Rsqr; field; auto).
    rewrite sqrt_mult_alt by apply Rle_0_sqr. rewrite sqrt_Rsqr_abs. auto. }
  assert (Hp : 0 < sqrt (1 + (b / a)²)) by (apply sqrt_lt_R0; pose proof (Rle_0_sqr (b / a)); lra).
  cbn [fatan2] in E.
  destruct (Rlt_dec 0 a).
  - inversion E; subst r. clear E. rewrite Hs by lra. rewrite cos_atan, sin_atan, Rabs_pos_eq by lra.
    split; [|split; [|lra]].
    + field. lra.
    + field. split; lra.
  - destruct (Rlt_dec a 0).
    + assert (Ec : cos r = - cos (atan (b / a)) /\ sin r = - sin (atan (b / a))).
      { destruct (Rle_dec 0 b); inversion E; subst r.
        - rewrite neg_cos, neg_sin. auto.
        - rewrite cos_minus, sin_minus, cos_PI, sin_PI. lra. }
      destruct Ec as [-> ->]. rewrite Hs by lra. rewrite cos_atan, sin_atan, Rabs_left by lra.
      split; [field; lra|split; [field; split; lra|lra]].
    + assert (a = 0) by lra. subst a. clear Hs Hp.
      replace (0 ^ 2 + b ^ 2) with (b²) by (unfold Rsqr; ring). rewrite sqrt_Rsqr_abs.
      destruct (Rlt_dec 0 b); [|destruct (Rlt_dec b 0)]; inversion E; subst r.
      * rewrite cos_PI2, sin_PI2, Rabs_pos_eq by lra. lra.
      * rewrite cos_neg, sin_neg, cos_PI2, sin_PI2, Rabs_left by lra. lra.
      * assert (b = 0) by lra. subst b. rewrite Rabs_R0. lra.
Qed.
Lemma wrap_phase_is : forall z, exists p, wrap_phase (angle_deg (emb z)) = Fin p /\ is_phase (fst z) (snd z) p.
Proof.
  intros [a b]. destruct (phase_range (a, b)) as (p & Hp & Hr). exists p. split; auto.
  unfold angle_deg, emb in Hp. cbn [fst snd] in *. destruct (atan2_polar b a) as (r & Er & _ & Ha & Hb & H0).
  rewrite Er in Hp. cbn [fmul] in Hp. pose proof PI_RGT_0. unfold is_phase. split; auto.
  unfold wrap_phase, fltb, f0, Rltb in Hp.
  assert (Hq : r * (180 / PI) * PI / 180 = r) by (field; lra).
  set (q := r * (180 / PI)) in *. clearbody q.
  destruct (Rlt_dec q 0), (Rlt_dec 0 q); try lra; cbn [fbool fadd fmul f1 f0] in Hp; inversion Hp as [Ep]; clear Hp.
  - assert (Et : ((360 + q) * 1 + q * 0) * PI / 180 = r + 2 * PI) by (rewrite <- Hq; field).
    rewrite Et, cos_plus, sin_plus, cos_2PI, sin_2PI. split; [rewrite Ha at 1; ring|]. split; [rewrite Hb at 1; ring|].
    intros A B. specialize (H0 A B). subst r. nra.
  - assert (Et : ((360 + q) * 0 + q * 1) * PI / 180 = r) by (rewrite <- Hq; field). rewrite Et.
    split; [auto|]. split; [auto|]. intros A B. specialize (H0 A B). subst r. nra.
  - assert (q = 0) by lra. subst q. assert (Er0 : r = 0) by lra. rewrite Er0 in *.
    replace (((360 + 0) * 0 + 0 * 0) * PI / 180) with 0 by field. split; [auto|]. split; [auto|]. intros. ring.
Qed.

(** ** psrcc on finite signals *)
Definition psrcc_bank `{Env} (a : sargs) : result (list (list F)) := spectro_bank Mel a.
Lemma psrcc_unfold : forall `{Env} sig a g c, psrcc sig a g c =
  if (s_nfilts a <? c_num_ceps c)%Z then Raise (ParameterError msg_nfilts)
  else do fbanks <- spectro_bank Mel a;
    do (_, windows) <- framed sig (s_fs a) (s_pre_emph a) (s_coeff a) (s_window a);
    do (features, fourrier) <- psrcc_features windows fbanks (s_nfft a) g;
    finish c (s_nfft a) features (map (map cabs) fourrier).
Proof. intros. unfold psrcc, spectro_bank. destruct (s_fbanks a); reflexivity. Qed.

Lemma phases_fmat : forall m L n h f, exists P, (forall i k, is_phase (spec_re n L (f i) k) (spec_im n L (f i) k) (P i k)) /\
  map (map (fun z => wrap_phase (angle_deg z)))
      (map (fun row => map (dft_bin n (crop_pad n row)) (seq 0 h)) (fmat m L f)) = fmat m h P.
Proof.
  intros m L n h f.
  exists (fun i k => toR (wrap_phase (angle_deg (emb (spec_re n L (f i) k, spec_im n L (f i) k))))). split.
  - intros i k. destruct (wrap_phase_is (spec_re n L (f i) k, spec_im n L (f i) k)) as (p & -> & Hp). exact Hp.
  - unfold fmat, fvec at 2. rewrite !map_map. apply map_ext. intros i. rewrite map_map. apply map_ext. intros k.
    rewrite dft_bin_fvec. destruct (wrap_phase_is (spec_re n L (f i) k, spec_im n L (f i) k)) as (p & -> & _). auto.
Qed.
Lemma cabs_rfft : forall ws nfft X, np_rfft ws nfft = Ok X -> rfft_magnitude ws nfft = Ok (map (map cabs) X).
Proof. intros ws nfft X H. unfold rfft_magnitude. rewrite H. auto. Qed.

Lemma fold_fmax2_fin : forall l a, exists b, fold_left fmax2 (map Fin l) (Fin a) = Fin b.
Proof. intros. destruct (fmaxl_fold l a) as (b & Hb & _). eauto. Qed.

Lemma fmax2_pinf : forall x, x <> NaN -> fmax2 x PInf = PInf.
Proof. intros x Hx. unfold fmax2. destruct x; simpl; try congruence; auto. Qed.
Lemma fmax2_pinf_l : forall x, x <> NaN -> fmax2 PInf x = PInf.
Proof. intros x Hx. unfold fmax2. destruct x; simpl; try congruence; auto. Qed.
Lemma fold_pinf : forall l x, Forall (fun v => v <> NaN) (x :: l) -> In PInf (x :: l) -> fold_left fmax2 l x = PInf.
Proof.
  induction l; intros x Hf Hin.
  - destruct Hin as [->|[]]. auto.
  - inversion Hf as [|? ? Hx Hf']; subst. inversion Hf' as [|? ? Ha Hl]; subst. cbn [fold_left]. apply IHl.
    + constructor; auto. apply nonan_fmax2; auto.
    + destruct Hin as [->|[->|Hin]].
      * left. apply fmax2_pinf_l; auto.
      * left. apply fmax2_pinf; auto.
      * right. auto.
Qed.
Lemma fmaxl_pinf : forall l, In PInf l -> Forall (fun v => v <> NaN) l -> fmaxl l = Ok PInf.
Proof. intros l Hin Hf. destruct l; [destruct Hin|]. simpl. f_equal. apply fold_pinf; auto. Qed.

Lemma psrcc_fvec : forall `{Env} a c g N L hop n B x, g <> 0 ->
  well_framed a N L hop -> (1 <= s_nfft a)%Z -> (0 < n)%nat ->
  spectro_bank Mel a = Ok (fmat n (S (half (s_nfft a))) B) ->
  (c_num_ceps c <= s_nfilts a)%Z ->
  exists P, (forall i k, let f := frame_of a (s_coeff a) L hop x i in
       is_phase (spec_re (Z.to_nat (s_nfft a)) L f k) (spec_im (Z.to_nat (s_nfft a)) L f k) (P i k)) /\
    let band i j := bigsum (S (half (s_nfft a))) (fun k => P i k * B j k) in
    let rows := frame_count N L hop in
    let mag := fmat rows (S (half (s_nfft a))) (fun i => spec_mag (Z.to_nat (s_nfft a)) L (frame_of a (s_coeff a) L hop x i)) in
    ((forall i j, (i < rows)%nat -> (j < n)%nat -> 0 < band i j \/ (0 <= band i j /\ 0 < g)) ->
       psrcc (fvec N x) a g c = finish c (s_nfft a) (fmat rows n (fun i j => spec_root g (band i j))) mag) /\
    (g < 0 -> (forall i j, (i < rows)%nat -> (j < n)%nat -> 0 <= band i j) ->
       (exists i j, (i < rows)%nat /\ (j < n)%nat /\ band i j = 0) ->
       psrcc (fvec N x) a g c = finish c (s_nfft a)
         (map (map (fun v => fpow v g)) (fmat rows n band)) mag).
Proof.
  intros E a c g N L hop n B x Hg Hw Hn Hn0 HB Hc.
  destruct (phases_fmat (frame_count N L hop) L (Z.to_nat (s_nfft a)) (S (half (s_nfft a))) (frame_of a (s_coeff a) L hop x)) as (P & HP & EP).
  exists P. split; [exact HP|]. cbv zeta. pose proof (frame_count_pos N L hop) as Hr.
  set (ws := fmat (frame_count N L hop) L (frame_of a (s_coeff a) L hop x)) in *.
  assert (HX : exists X, np_rfft ws (s_nfft a) = Ok X /\
     map (map (fun z => wrap_phase (angle_deg z))) X = fmat (frame_count N L hop) (S (half (s_nfft a))) P /\
     map (map cabs) X = fmat (frame_count N L hop) (S (half (s_nfft a))) (fun i => spec_mag (Z.to_nat (s_nfft a)) L (frame_of a (s_coeff a) L hop x i))).
  { destruct (np_rfft ws (s_nfft a)) as [X|] eqn:EX.
    - exists X. split; auto. split.
      + rewrite <- EP. f_equal. unfold np_rfft in EX. destruct (_ <? 1)%Z; [discriminate|]. apply Ok_inj in EX.
        rewrite <- EX, half_nat by lia. auto.
      + apply cabs_rfft in EX. unfold ws in EX. rewrite rfft_magnitude_fmat in EX by auto. apply Ok_inj in EX. auto.
    - exfalso. unfold np_rfft in EX. destruct (Z.ltb_spec (s_nfft a) 1); [lia|discriminate]. }
  destruct HX as (X & EX & Eph & Emag).
  set (band := fun i j => bigsum (S (half (s_nfft a))) (fun k => P i k * B j k)).
  assert (Hrun : psrcc (fvec N x) a g c =
    do mx <- fmaxl (List.concat (map (map (fun v => if is_nan v then f0 else v)) (map (map (fun v => fpow v g)) (fmat (frame_count N L hop) n band))));
    finish c (s_nfft a) (map (map (fun v => if is_inf v then mx else v)) (map (map (fun v => if is_nan v then f0 else v)) (map (map (fun v => fpow v g)) (fmat (frame_count N L hop) n band))))
      (fmat (frame_count N L hop) (S (half (s_nfft a))) (fun i => spec_mag (Z.to_nat (s_nfft a)) L (frame_of a (s_coeff a) L hop x i)))).
  { rewrite psrcc_unfold. rewrite (proj2 (Z.ltb_ge _ _)) by lia. rewrite HB. cbn [rbind].
    rewrite (framed_fvec a N L hop x) by auto. cbn [rbind].
    match goal with |- context[psrcc_features ?w] => change w with ws end. unfold psrcc_features. rewrite EX. cbn [rbind].
    rewrite Eph, np_dot_T_fmat by auto. cbn [rbind]. fold band.
    destruct (fmaxl _); cbn [rbind]; [|reflexivity]. rewrite Emag. auto. }
  split.
  - intros Hb. rewrite Hrun.
    assert (Efp : map (map (fun v => fpow v g)) (fmat (frame_count N L hop) n band) = fmat (frame_count N L hop) n (fun i j => spec_root g (band i j))).
    { unfold fmat, fvec. rewrite !map_map. apply map_ext_in. intros i Hi. apply in_seq in Hi. rewrite map_map. apply map_ext_in.
      intros j Hj. apply in_seq in Hj. apply fpow_root; auto. apply Hb; lia. }
    rewrite Efp.
    rewrite (fmat_map _ _ _ (fun v => if is_nan v then f0 else v) (fun v => v)) by reflexivity.
    destruct (fmaxl_ok (List.concat (fmat (frame_count N L hop) n (fun i j => spec_root g (band i j))))) as [mx Hmx].
    { intros Q. apply (f_equal (@List.length _)) in Q. destruct (frame_count N L hop); [lia|]. destruct n; [lia|].
      unfold fmat, fvec in Q. simpl in Q. lia. }
    rewrite Hmx. cbn [rbind].
    rewrite (fmat_map _ _ _ (fun v => if is_inf v then mx else v) (fun v => v)) by reflexivity. auto.
  - intros Hneg Hb (i0 & j0 & Hi0 & Hj0 & Hz). rewrite Hrun.
    assert (Hpf : forall i j, (i < frame_count N L hop)%nat -> (j < n)%nat ->
              fpow (Fin (band i j)) g = if Req_EM_T (band i j) 0 then PInf else Fin (spec_root g (band i j))).
    { intros i j Hi Hj. specialize (Hb i j Hi Hj). fold (band i j) in Hb. destruct (Req_EM_T (band i j) 0) as [Q|Q].
      - rewrite Q. unfold fpow. destruct (Req_EM_T g 0); [lra|]. destruct (Rlt_dec 0 0); [lra|].
        destruct (Req_EM_T 0 0); [|lra]. destruct (Rlt_dec 0 g); [lra|auto].
      - apply fpow_root; auto. left. destruct Hb; auto. congruence. }
    assert (Enan : map (map (fun v => if is_nan v then f0 else v)) (map (map (fun v => fpow v g)) (fmat (frame_count N L hop) n band))
                 = map (map (fun v => fpow v g)) (fmat (frame_count N L hop) n band)).
    { unfold fmat, fvec. rewrite !map_map. apply map_ext_in. intros i Hi. apply in_seq in Hi. rewrite !map_map. apply map_ext_in.
      intros j Hj. apply in_seq in Hj. rewrite Hpf by lia. destruct (Req_EM_T _ 0); auto. }
    rewrite Enan.
    assert (Hmx : fmaxl (List.concat (map (map (fun v => fpow v g)) (fmat (frame_count N L hop) n band))) = Ok PInf).
    { apply fmaxl_pinf.
      - apply in_concat. exists (map (fun v => fpow v g) (fvec n (band i0))). split.
        + apply in_map. unfold fmat. apply in_map_iff. exists i0. split; auto. apply in_seq. lia.
        + apply in_map_iff. exists (Fin (band i0 j0)). split.
          * rewrite Hpf by auto. destruct (Req_EM_T _ 0); [auto|]. contradiction.
          * unfold fvec. apply in_map_iff. exists j0. split; auto. apply in_seq. lia.
      - apply Forall_concat. apply Forall_map, Forall_forall. intros row Hrow. unfold fmat in Hrow.
        apply in_map_iff in Hrow as (i & <- & Hi). apply in_seq in Hi. apply Forall_map, Forall_forall. intros v Hv.
        unfold fvec in Hv. apply in_map_iff in Hv as (j & <- & Hj). apply in_seq in Hj. rewrite Hpf by lia.
        destruct (Req_EM_T _ 0); congruence. }
    rewrite Hmx. cbn [rbind]. f_equal.
    unfold fmat, fvec. rewrite !map_map. apply map_ext_in. intros i Hi. apply in_seq in Hi. rewrite !map_map. apply map_ext_in.
    intros j Hj. apply in_seq in Hj. rewrite Hpf by lia. destruct (Req_EM_T _ 0); auto.
Qed.

Lemma psrcc_silence : forall `{Env} a c g N L hop n B, g < 0 ->
  well_framed a N L hop -> (1 <= s_nfft a)%Z -> (0 < n)%nat ->
  spectro_bank Mel a = Ok (fmat n (S (half (s_nfft a))) B) ->
  (0 <= c_num_ceps c <= s_nfilts a)%Z -> (1 <= c_dct_type c <= 4)%Z -> (c_dct_type c = 1%Z -> (2 <= n)%nat) ->
  c_use_energy c = false -> no_lifter c -> no_normalisation c ->
  exists M, psrcc (fvec N (fun _ => 0)) a g c = Ok M /\ List.length M = frame_count N L hop /\
    forall i, (i < frame_count N L hop)%nat ->
      List.length (nth i M []) = Nat.min (Z.to_nat (c_num_ceps c)) n /\ nonfinite_row (nth i M []).
Proof.
  intros E a c g N L hop n B Hg Hw Hn Hn0 HB Hc Ht Ht1 Hu Hl Hnm.
  destruct (psrcc_fvec a c g N L hop n B (fun _ => 0) ltac:(lra) Hw Hn Hn0 HB ltac:(lia)) as (P & HP & _ & H2).
  cbv zeta in *. pose proof (frame_count_pos N L hop) as Hr.
  assert (HP0 : forall i k, P i k = 0).
  { intros i k. destruct (HP i k) as (_ & _ & _ & Z0). apply Z0.
    - unfold spec_re. apply bigsum_zero. intros. rewrite frame_of_zero by auto. ring.
    - unfold spec_im. apply bigsum_zero. intros. rewrite frame_of_zero by auto. ring. }
  assert (Hb0 : forall i j, bigsum (S (half (s_nfft a))) (fun k => P i k * B j k) = 0)
    by (intros; apply bigsum_zero; intros; rewrite HP0; ring).
  rewrite H2; auto.
  2:{ intros. rewrite Hb0. lra. }
  2:{ exists 0%nat, 0%nat. repeat split; auto. }
  set (feats := map (map (fun v => fpow v g)) (fmat (frame_count N L hop) n (fun i j => bigsum (S (half (s_nfft a))) (fun k => P i k * B j k)))).
  assert (Hrow : forall i, (i < frame_count N L hop)%nat -> nth i feats [] = repeat PInf n).
  { intros i Hi. unfold feats. rewrite nth_map with (d := []) by (rewrite fmat_length; auto). rewrite fmat_nth by auto.
    apply (list_eq_nth _ NaN); [rewrite map_length, fvec_length, repeat_length; auto|].
    intros j Hj. rewrite map_length, fvec_length in Hj. rewrite nth_map with (d := NaN) by (rewrite fvec_length; auto).
    rewrite fvec_nth, Hb0 by auto.
    rewrite (nth_indep (repeat PInf n) NaN PInf) by (rewrite repeat_length; auto). rewrite nth_repeat.
    unfold fpow. destruct (Req_EM_T g 0); [lra|]. destruct (Rlt_dec 0 0); [lra|].
    destruct (Req_EM_T 0 0); [|lra]. destruct (Rlt_dec 0 g); [lra|auto]. }
  assert (Hlen : List.length feats = frame_count N L hop) by (unfold feats; rewrite map_length, fmat_length; auto).
  assert (Hnc : ncols feats = n).
  { unfold feats. erewrite shape_ncols; [reflexivity| |eauto]. eapply shape_map; [apply has_shape_fmat|]. intros. rewrite map_length. auto. }
  assert (Hfin : forall i, (i < frame_count N L hop)%nat -> exists M,
     finish c (s_nfft a) feats (fmat (frame_count N L hop) (S (half (s_nfft a)))
        (fun i => spec_mag (Z.to_nat (s_nfft a)) L (frame_of a (s_coeff a) L hop (fun _ => 0) i))) = Ok M /\
     List.length M = List.length feats /\
     (forall i', (i' < List.length feats)%nat -> List.length (nth i' M []) = Nat.min (Z.to_nat (c_num_ceps c)) (List.length (nth i' feats []))) /\
     nonfinite_row (nth i M [])).
  { intros i Hi. apply (finish_nonfinite c (s_nfft a) feats _ i 0%nat); auto; try lia.
    - rewrite Hnc. destruct (Z.eqb_spec (c_dct_type c) 1); [auto|lia].
    - rewrite Hrow, repeat_length by auto. auto.
    - rewrite Hrow by auto. destruct n; [lia|]. simpl. intros [q Hq]. discriminate. }
  destruct (Hfin 0%nat Hr) as (M & E1 & E2 & E3 & _). exists M. split; auto. split; [lia|].
  intros i Hi. destruct (Hfin i Hi) as (M' & E1' & _ & _ & E4). rewrite E1 in E1'. apply Ok_inj in E1'. subst M'. split; auto.
  rewrite E3 by lia. rewrite Hrow, repeat_length by auto. auto.
Qed.

Lemma psrcc_shape : forall `{Env} sig a g c M, psrcc sig a g c = Ok M -> (0 <= c_num_ceps c)%Z ->
  exists b, spectro_bank Mel a = Ok b /\
    zlen M = ((zlen sig - flen (s_fs a) (win_len (window_of a))) / flen (s_fs a) (win_hop (window_of a)) + 1)%Z /\
    Forall (fun row => List.length row = Nat.min (Z.to_nat (c_num_ceps c)) (List.length b)) M.
Proof.
  intros E sig a g c M H Hnc. rewrite psrcc_unfold in H. destruct (_ <? _)%Z; [discriminate|].
  apply rbind_Ok in H as (b & Hb & H). apply rbind_Ok in H as ([fr ws] & Hf & H).
  apply rbind_Ok in H as ([f X] & Hp & H). exists b. split; auto.
  unfold psrcc_features in Hp. apply rbind_Ok in Hp as (X' & HX & Hp). apply rbind_Ok in Hp as (d & Hd & Hp).
  apply rbind_Ok in Hp as (mx & _ & Hp). apply Ok_inj in Hp. inversion Hp; subst f X'; clear Hp.
  apply np_dot_T_rows in Hd. unfold np_rfft in HX. destruct (_ <? 1)%Z; [discriminate|]. apply Ok_inj in HX.
  subst X. subst d. rewrite !map_map in H.
  pose proof (framed_inv _ _ _ _ _ Hf) as (sig' & _ & Hfr & Hwin).
  apply framing_nonempty in Hfr. apply windowing_length in Hwin.
  assert (Hl : (0 < List.length ws)%nat) by (rewrite Hwin; destruct fr; simpl; [congruence|lia]).
  eapply finish_rows with (n := List.length b) in H; auto.
  2:{ intros. rewrite !map_length. auto. }
  destruct H as (M0 & H1 & _ & _ & H4 & H5). rewrite (proj2 (Z.ltb_ge _ _)) in H4 by lia.
  assert (Hs : has_shape M0 (List.length ws) (Nat.min (Z.to_nat (c_num_ceps c)) (List.length b))).
  { rewrite H1. split; [apply map_length|]. apply Forall_map, Forall_forall. exact H4. }
  assert (HsM : has_shape M (List.length ws) (Nat.min (Z.to_nat (c_num_ceps c)) (List.length b))).
  { destruct (c_normalize c) as [t|]; [|congruence]. destruct (String.eqb t ""); [congruence|].
    eapply normalize_shape; eauto. }
  destruct HsM as [Z1 Z2]. split; auto. rewrite <- (framed_length _ _ _ _ _ Hf). unfold zlen. lia.
Qed.

(** ** a configuration in which the pre-emphasis coefficient matters *)
Definition tiny (k : R) : sargs :=
  mkS 1 true k (Some (mkWindow 1 1 "hamming")) 1 1 0 None "constant" (Some [[f1]]) "Oshaghnessy".
Definition tiny_c : cargs := mkC 1 2 false None None.
Lemma tiny_framed : forall `{Env} k, rnd 1 = 1 -> well_framed (tiny k) 2 1 1.
Proof.
  intros E k Hr. assert (flen 1 1 = 1%Z).
  { unfold flen. rewrite Rmult_1_l, Hr. apply (Ztrunc_IZR 1). }
  unfold well_framed, window_of, tiny. cbn [s_window win_len win_hop win_type s_fs]. repeat split; auto; try lra; try lia.
  simpl. tauto.
Qed.
Lemma tiny_band : forall k x i b, spec_band 0 1 1 (frame_of (tiny k) k 1 1 x i) b = spec_pre true k x i ^ 2 * b 0%nat.
Proof.
  intros. unfold spec_band. cbn [bigsum]. unfold spec_power, spec_sq, spec_re, spec_im. cbn [Nat.min bigsum].
  unfold frame_of, spec_frame, window_of, tiny. cbn [s_window win_type s_pre_emph].
  unfold spec_window. cbn [Nat.leb]. replace (2 * PI * INR (0 * 0) / INR 1) with 0 by (simpl; field).
  rewrite cos_0, sin_0. replace (i * 1 + 0)%nat with i by lia. simpl INR. field.
Qed.
Definition tiny_x (k k' : R) (t : nat) : R := match t with O => / (k - k') | _ => 1 + k * / (k - k') end.
Lemma tiny_bank : forall `{Env} k, spectro_bank Mel (tiny k) = Ok (fmat 1 1 (fun _ _ => 1)).
Proof. intros. reflexivity. Qed.
Lemma mel_depends : forall `{Env} k k', rnd 1 = 1 -> k <> k' ->
  mel_spectrogram (fvec 2 (tiny_x k k')) (tiny k) <> mel_spectrogram (fvec 2 (tiny_x k k')) (tiny k').
Proof.
  intros E k k' Hr Hk Heq. change mel_spectrogram with (spectrogram Mel) in Heq.
  rewrite (spectrogram_fvec Mel (tiny k) 2 1 1 1 (fun _ _ => 1)) in Heq by (auto using tiny_framed; simpl; lia).
  rewrite (spectrogram_fvec Mel (tiny k') 2 1 1 1 (fun _ _ => 1)) in Heq by (auto using tiny_framed; simpl; lia).
  apply Ok_inj in Heq. apply (f_equal (fun p => nth 0 (nth 1 (fst p) []) NaN)) in Heq. cbn [fst] in Heq.
  change (frame_count 2 1 1) with 2%nat in Heq. rewrite !fmat_nth, !fvec_nth in Heq by lia.
  change (half (s_nfft (tiny k))) with 0%nat in Heq. change (Z.to_nat (s_nfft (tiny k))) with 1%nat in Heq.
  change (half (s_nfft (tiny k'))) with 0%nat in Heq. change (Z.to_nat (s_nfft (tiny k'))) with 1%nat in Heq.
  cbn [spectro_coeff s_coeff] in Heq. change (s_coeff (tiny k)) with k in Heq. change (s_coeff (tiny k')) with k' in Heq.
  rewrite !tiny_band in Heq. inversion Heq as [E2]. cbn [spec_pre tiny_x] in E2.
  assert (k - k' <> 0) by lra.
  assert (A : 1 + k * / (k - k') - k * / (k - k') = 1) by ring. assert (B : 1 + k * / (k - k') - k' * / (k - k') = 2) by (field; auto).
  rewrite A, B in E2. lra.
Qed.
Lemma dct_1 : forall f, spec_dct 2 1 f 0 = f 0%nat.
Proof.
  intros. unfold spec_dct, spec_dct_entry. cbn [bigsum Z.eqb Pos.eqb Nat.eqb].
  replace (PI * INR 0 * (2 * INR 0 + 1) / (2 * INR 1)) with 0 by (simpl; field). rewrite cos_0.
  replace (1 / INR 1) with 1 by (simpl; field). rewrite sqrt_1. ring.
Qed.
Lemma run_depends : forall `{Env} e k k', In e [Mfcc; Imfcc; Ngcc] \/ (exists g, g <> 0 /\ e = Msrcc g) -> rnd 1 = 1 -> k <> k' ->
  run e (fvec 2 (tiny_x k k')) (tiny k) tiny_c <> run e (fvec 2 (tiny_x k k')) (tiny k') tiny_c.
Proof.
  intros E e k k' He Hr Hk Heq. assert (Hkk : k - k' <> 0) by lra.
  assert (Hx0 : 0 < tiny_x k k' 0 ^ 2).
  { rewrite <- Rsqr_pow2. apply Rsqr_pos_lt. cbn [tiny_x]. apply Rinv_neq_0_compat. auto. }
  assert (A : 1 + k * / (k - k') - k * / (k - k') = 1) by ring. assert (B : 1 + k * / (k - k') - k' * / (k - k') = 2) by (field; auto).
  assert (Hall : forall P : extractor -> Prop, P Mfcc -> P Imfcc -> P Ngcc -> (forall g, g <> 0 -> P (Msrcc g)) -> P e).
  { intros P P1 P2 P3 P4. destruct He as [He|(g & Hg & ->)]; [|auto]. simpl in He. destruct He as [<-|[<-|[<-|[]]]]; auto. }
  assert (Hco : forall q, extractor_coeff e (tiny q) = q) by (apply Hall; reflexivity).
  assert (Hba : forall q, extractor_bank e (tiny q) = Ok (fmat 1 1 (fun _ _ => 1))) by (apply Hall; reflexivity).
  assert (Hok : forall v, 0 < v -> compressible e v) by (apply Hall; simpl; intros; auto; lra).
  assert (Hne : compression e (1 * 1) <> compression e (4 * 1)).
  { assert (L4 : 0 < ln 4) by (rewrite <- ln_1; apply ln_increasing; lra).
    assert (Hl : spec_log (1 * 1) <> spec_log (4 * 1)).
    { unfold spec_log. destruct (Req_EM_T (1 * 1) 0); [lra|]. destruct (Req_EM_T (4 * 1) 0); [lra|].
      rewrite !Rmult_1_r, ln_1. lra. }
    apply Hall; auto. intros g Hg H0. cbn [compression] in H0.
    destruct (Req_EM_T g 0); [lra|]. unfold spec_root in H0. destruct (Req_EM_T (1 * 1) 0); [lra|]. destruct (Req_EM_T (4 * 1) 0); [lra|].
    rewrite !Rmult_1_r in H0. unfold Rpower in H0. apply exp_inv in H0. rewrite ln_1, Rmult_0_r in H0.
    symmetry in H0. apply Rmult_integral in H0. lra. }
  assert (R : forall q, (q = k \/ q = k') -> exists y, run e (fvec 2 (tiny_x k k')) (tiny q) tiny_c = Ok (fmat 2 1 y) /\
     y 1%nat 0%nat = compression e (spec_pre true q (tiny_x k k') 1 ^ 2 * 1)).
  { intros q Hq. eexists. split.
    - rewrite (run_fvec e (tiny q) tiny_c 2 1 1 1 (fun _ _ => 1)); auto using tiny_framed; try (simpl; lia); try (apply or_introl; reflexivity).
      + intros i j Hi Hj. change (half (s_nfft (tiny q))) with 0%nat. change (Z.to_nat (s_nfft (tiny q))) with 1%nat.
        rewrite Hco, tiny_band. apply Hok. rewrite Rmult_1_r.
        change (frame_count 2 1 1) with 2%nat in Hi. destruct i as [|[|i]]; [exact Hx0| |lia].
        cbn [spec_pre tiny_x]. destruct Hq; subst q; [rewrite A|rewrite B]; lra.
    - cbv beta. cbn [tiny_c c_use_energy c_dct_type andb]. rewrite dct_1. rewrite Hco.
      change (half (s_nfft (tiny q))) with 0%nat. change (Z.to_nat (s_nfft (tiny q))) with 1%nat. rewrite tiny_band. auto. }
  destruct (R k) as (y & E1 & Y1); auto. destruct (R k') as (y' & E2 & Y2); auto.
  rewrite E1, E2 in Heq. apply Ok_inj in Heq. apply (f_equal (fun p => nth 0 (nth 1 p []) NaN)) in Heq.
  rewrite !fmat_nth, !fvec_nth in Heq by lia. inversion Heq as [E3]. rewrite Y1, Y2 in E3. cbn [spec_pre tiny_x] in E3.
  rewrite A, B in E3. apply Hne. replace 1 with (1 ^ 2) at 1 by ring. replace 4 with (2 ^ 2) by ring. exact E3.
Qed.
