(** * Lemmas about dominant frequencies *)
From Coq Require Import Reals ZArith List String Bool Lia Lra Psatz.
From Flocq Require Import Core.Raux Core.Round_NE Core.Generic_fmt.
From Coquelicot Require Import Complex.
From Verif Require Import Base BaseFacts Cplx CplxFacts SpecBase SpecMat SpecFeatures BigSum MatFacts
  Preprocessing PreprocessingFacts WindowFacts Fourier Features Filters Extractors FeaturesFacts Yin YinFacts
  SpecSpectral Dominant.
Import ListNotations.
Local Open Scope R_scope.

(** ** fftfreq, argmax, rounding *)
Lemma half_ltb : forall M k, (0 < M)%nat -> Nat.ltb k (S ((M - 1) / 2)) = Nat.ltb (2 * k) M.
Proof.
  intros M k HM. pose proof (Nat.div_mod (M - 1) 2 ltac:(lia)). pose proof (Nat.mod_upper_bound (M - 1) 2 ltac:(lia)).
  destruct (Nat.ltb_spec k (S ((M - 1) / 2))), (Nat.ltb_spec (2 * k) M); auto; lia.
Qed.
Lemma fftfreq_fvec : forall M fs, (0 < M)%nat -> fs <> 0%Z ->
  fftfreq M fs = Ok (fvec M (fun k => signed_bin M k * IZR fs / INR M)).
Proof.
  intros M fs HM Hfs. unfold fftfreq. rewrite (proj2 (Z.eqb_neq _ _)) by auto.
  destruct (Nat.eqb_spec M 0); [lia|]. f_equal. apply map_ext_in. intros k Hk. apply in_seq in Hk.
  rewrite half_ltb by auto. unfold fZ, fnat. assert (INR M <> 0) by (apply not_0_INR; lia).
  rewrite fdiv_Fin by auto. cbn [fmul]. unfold signed_bin. f_equal. field. auto.
Qed.
Lemma signed_bin_abs : forall M k, (k < M)%nat -> Rabs (signed_bin M k) = folded_bin M k.
Proof.
  intros M k Hk. unfold signed_bin, folded_bin. destruct (Nat.ltb_spec (2 * k) M).
  - rewrite Nat.min_l by lia. apply Rabs_pos_eq, pos_INR.
  - rewrite Nat.min_r by lia. rewrite minus_INR by lia. rewrite Rabs_left; [lra|].
    assert (INR k < INR M) by (apply lt_INR; auto). lra.
Qed.

Lemma arg_scan_max : forall l pre best, (best < List.length pre)%nat ->
  is_argmax (List.length pre) (fun i => nth i pre 0) best ->
  is_argmax (List.length (pre ++ l)) (fun i => nth i (pre ++ l) 0)
    (arg_scan fgtb (map Fin l) (List.length pre) best (Fin (nth best pre 0))).
Proof.
  induction l as [|x l IH]; intros pre best Hb H.
  - rewrite app_nil_r. exact H.
  - cbn [map arg_scan fisnan negb andb orb]. unfold fgtb. cbn [fltb].
    replace (pre ++ x :: l) with ((pre ++ [x]) ++ l) by (rewrite <- app_assoc; reflexivity).
    assert (HL : List.length (pre ++ [x]) = S (List.length pre)) by (rewrite app_length; cbn; lia).
    destruct H as (H1 & H2 & H3).
    destruct (Rlt_dec (nth best pre 0) x) as [Hlt|Hge].
    + rewrite Rltb_true by auto.
      assert (Hx : nth (List.length pre) (pre ++ [x]) 0 = x) by (rewrite app_nth2, Nat.sub_diag by lia; reflexivity).
      rewrite <- HL. replace (Fin x) with (Fin (nth (List.length pre) (pre ++ [x]) 0)) by (rewrite Hx; auto).
      apply IH; [lia|]. split; [lia|]. split.
      * intros j Hj. rewrite Hx. destruct (Nat.eq_dec j (List.length pre)) as [->|]; [rewrite Hx; lra|].
        rewrite app_nth1 by lia. specialize (H2 j ltac:(lia)). lra.
      * intros j Hj. rewrite Hx, app_nth1 by lia. specialize (H2 j ltac:(lia)). lra.
    + rewrite Rltb_false by lra.
      assert (Hx : nth best (pre ++ [x]) 0 = nth best pre 0) by (rewrite app_nth1 by lia; auto).
      rewrite <- HL, <- Hx. apply IH; [lia|]. split; [lia|]. rewrite Hx. split.
      * intros j Hj. destruct (Nat.eq_dec j (List.length pre)) as [->|].
        -- rewrite app_nth2, Nat.sub_diag by lia. cbn. lra.
        -- rewrite app_nth1 by lia. apply H2. lia.
      * intros j Hj. rewrite app_nth1 by lia. auto.
Qed.
Lemma is_argmax_ext : forall n f g k, (forall i, (i < n)%nat -> f i = g i) -> is_argmax n f k -> is_argmax n g k.
Proof.
  intros n f g k He (H1 & H2 & H3). split; [auto|]. split; intros j Hj; rewrite <- !He by lia; auto.
Qed.
Lemma np_argmax_fvec : forall n f, (0 < n)%nat -> exists k, np_argmax (fvec n f) = Ok k /\ is_argmax n f k.
Proof.
  intros n f Hn. destruct n; [lia|]. rewrite fvec_S. cbn [np_argmax].
  set (l := map (fun i => f (S i)) (seq 0 n)).
  assert (El : fvec n (fun i => f (S i)) = map Fin l) by (unfold l; rewrite map_map; reflexivity).
  rewrite El. exists (arg_scan fgtb (map Fin l) 1 0 (Fin (f O))). split; [reflexivity|].
  assert (K : is_argmax 1 (fun i => nth i [f O] 0) 0).
  { split; [lia|]. split; intros j Hj; [assert (j = O) as -> by lia; lra|lia]. }
  pose proof (arg_scan_max l [f O] 0 ltac:(cbn; lia) K) as H. cbn [nth List.length app] in H.
  unfold l in H at 1. rewrite map_length, seq_length in H. eapply is_argmax_ext; [|exact H].
  intros i Hi. destruct i; [reflexivity|]. cbn [nth]. unfold l. rewrite nth_map_seq by lia. auto.
Qed.
Lemma is_argmax_unique : forall n f k k', is_argmax n f k -> is_argmax n f k' -> k = k'.
Proof.
  intros n f k k' (A1 & A2 & A3) (B1 & B2 & B3).
  destruct (Nat.lt_trichotomy k k') as [H|[H|H]]; auto; exfalso.
  - specialize (B3 k H). specialize (A2 k' B1). lra.
  - specialize (A3 k' H). specialize (B2 k A1). lra.
Qed.

Lemma round3_near : forall r, near_milli r (IZR (ZnearestE (r * 1000)) / 1000).
Proof.
  intros r. split; [eexists; reflexivity|].
  pose proof (Znearest_half (fun x => negb (Z.even x)) (r * 1000)) as H.
  replace (IZR (ZnearestE (r * 1000)) / 1000 - r) with (- (r * 1000 - IZR (ZnearestE (r * 1000))) / 1000) by field.
  unfold Rdiv. rewrite Rabs_mult, Rabs_Ropp, (Rabs_pos_eq (/ 1000)) by lra. lra.
Qed.

(** ** one frame *)
Definition freq3 (nfft : nat) (fs : Z) (k : nat) : R :=
  IZR (ZnearestE (signed_bin (S (nfft / 2)) k * IZR fs / INR (S (nfft / 2)) * 1000)) / 1000.
Lemma dominant_of_fvec : forall n fs L f, (1 <= n)%nat -> fs <> 0%Z ->
  exists k, is_argmax (S (n / 2)) (spec_power n L f) k /\
    dominant_of (Z.of_nat n) fs (fvec L f)
    = Ok (Fin (signed_bin (S (n / 2)) k * IZR fs / INR (S (n / 2)))).
Proof.
  intros n fs L f Hn Hfs. unfold dominant_of, np_rfft. rewrite (proj2 (Z.ltb_ge _ _)) by lia.
  rewrite Nat2Z.id. cbn [rbind map nth]. rewrite !map_map.
  assert (HN : 0 < INR n) by (apply lt_0_INR; lia).
  set (c := 1 / IZR (Z.of_nat n)). assert (Hc : 0 < c).
  { unfold c. rewrite <- INR_IZR. apply Rdiv_lt_0_compat; lra. }
  assert (E : map (fun x => fmul (Fin c) (fpown (fmul (Fin c) (cabs (dft_bin n (crop_pad n (fvec L f)) x))) 2))
                  (seq 0 (S (n / 2)))
              = fvec (S (n / 2)) (fun k => c ^ 3 * spec_sq n L f k)).
  { unfold fvec at 2. apply map_ext. intros k. rewrite dft_abs. cbn [fmul fpown]. f_equal.
    unfold spec_mag. set (q := spec_sq n L f k).
    replace (c * (c * sqrt q * (c * sqrt q * 1))) with (c ^ 3 * (sqrt q * sqrt q)) by ring.
    unfold q. rewrite sqrt_sqrt by apply spec_sq_nonneg. reflexivity. }
  rewrite E, fvec_length, fftfreq_fvec by (auto; lia). cbn [rbind].
  destruct (np_argmax_fvec (S (n / 2)) (fun k => c ^ 3 * spec_sq n L f k) ltac:(lia)) as (k & Hk & Hm).
  rewrite Hk. cbn [rbind]. exists k. destruct Hm as (M1 & M2 & M3).
  assert (Hc3 : 0 < c ^ 3) by (apply pow_lt; auto).
  assert (Hp : forall i, spec_power n L f i = / (INR n * c ^ 3) * (c ^ 3 * spec_sq n L f i)).
  { intros. unfold spec_power. field. split; lra. }
  assert (Hi : 0 < / (INR n * c ^ 3)) by (apply Rinv_0_lt_compat, Rmult_lt_0_compat; auto).
  split.
  - split; [auto|]. split; intros j Hj; rewrite !Hp.
    + apply Rmult_le_compat_l; [lra|]. apply M2; auto.
    + apply Rmult_lt_compat_l; [lra|]. apply M3; auto.
  - rewrite (py_nth_nat _ _ _ NaN) by (rewrite fvec_length; auto). rewrite fvec_nth by auto. reflexivity.
Qed.

Lemma mapM_choose : forall A B (P : nat -> A -> Prop) (g : A -> B) (f : nat -> result B) n s,
  (forall i, (s <= i < s + n)%nat -> exists k, P i k /\ f i = Ok (g k)) -> (exists a : A, True) ->
  exists k, (forall i, (s <= i < s + n)%nat -> P i (k i)) /\ mapM f (seq s n) = Ok (map (fun i => g (k i)) (seq s n)).
Proof.
  intros A B P g f n. induction n; intros s H [a0 _].
  - exists (fun _ => a0). split; [intros; lia|reflexivity].
  - destruct (H s ltac:(lia)) as (k0 & P0 & E0).
    destruct (IHn (S s)) as (k & Pk & Ek); [intros i Hi; apply H; lia|exists a0; auto|].
    exists (fun i => if Nat.eqb i s then k0 else k i). split.
    + intros i Hi. destruct (Nat.eqb_spec i s) as [->|]; [auto|]. apply Pk. lia.
    + cbn [seq mapM map]. rewrite E0, Ek. cbn [rbind]. rewrite Nat.eqb_refl. do 2 f_equal.
      apply map_ext_in. intros i Hi. apply in_seq in Hi. destruct (Nat.eqb_spec i s); [lia|auto].
Qed.

(** ** the whole function *)
Lemma cut_windows : forall `{Env} N x fs wl wh wt L hop, cut_config fs wl wh wt N L hop ->
  (do (frames, frame_length) <- framing (fvec N x) fs wl wh; windowing frames frame_length wt)
  = Ok (fmat (frame_count N L hop) L (spec_frame wt L hop x)).
Proof.
  intros E N x fs wl wh wt L hop (Hfs & Hw & HL & Hh & H0 & HN & Hwt).
  rewrite (framing_fvec _ _ _ _ _ L hop) by auto. cbn [rbind].
  rewrite windowing_fmat by (auto; lia). reflexivity.
Qed.
Lemma get_dominant_raw : forall `{Env} N x fs wl wh wt L hop n, cut_config fs wl wh wt N L hop -> (1 <= n)%nat ->
  exists k, (forall i, (i < frame_count N L hop)%nat ->
               is_argmax (S (n / 2)) (spec_power n L (spec_frame wt L hop x i)) (k i)) /\
    get_dominant_frequencies (fvec N x) fs None (Z.of_nat n) wl wh wt false
    = Ok (fvec (frame_count N L hop) (fun i => freq3 n fs (k i))).
Proof.
  intros E N x fs wl wh wt L hop n HC Hn. unfold get_dominant_frequencies.
  pose proof (cut_windows N x fs wl wh wt L hop HC) as HW.
  destruct (framing (fvec N x) fs wl wh) as [[fr fl]|e]; cbn [rbind] in HW |- *; [|discriminate].
  rewrite HW. cbn [rbind]. unfold fmat. rewrite mapM_map.
  destruct (mapM_choose nat F
    (fun i k => is_argmax (S (n / 2)) (spec_power n L (spec_frame wt L hop x i)) k)
    (fun k => Fin (signed_bin (S (n / 2)) k * IZR fs / INR (S (n / 2))))
    (fun i => dominant_of (Z.of_nat n) fs (fvec L (spec_frame wt L hop x i))) (frame_count N L hop) 0) as (k & Hk & Ek).
  - intros i Hi. apply dominant_of_fvec; auto. destruct HC. lia.
  - exists O. auto.
  - exists k. split; [intros i Hi; apply Hk; lia|]. rewrite Ek. cbn [rbind]. rewrite map_map. reflexivity.
Qed.

(** ** the filter for non-negative values *)
Lemma only_positive_ok : forall `{Env} sig fs bu nfft wl wh wt,
  get_dominant_frequencies sig fs bu nfft wl wh wt true
  = rmap (filter (fun v => fgeb v f0)) (get_dominant_frequencies sig fs bu nfft wl wh wt false).
Proof.
  intros. unfold get_dominant_frequencies.
  destruct (framing _ fs wl wh) as [[fr fl]|]; cbn [rbind rmap]; [|auto].
  destruct (windowing fr fl wt); cbn [rbind rmap]; [|auto].
  destruct (mapM (dominant_of nfft fs) a); cbn [rbind rmap]; auto.
Qed.
Lemma fftfreq_finite : forall n fs l, fftfreq n fs = Ok l -> (0 < n)%nat /\ fs <> 0%Z /\
  l = fvec n (fun k => signed_bin n k * IZR fs / INR n).
Proof.
  intros n fs l H. destruct (Z.eq_dec fs 0) as [->|Hf]; [discriminate H|].
  destruct n; [unfold fftfreq in H; rewrite (proj2 (Z.eqb_neq _ _)) in H by auto; discriminate H|].
  rewrite fftfreq_fvec in H by (auto; lia). apply Ok_inj in H. split; [lia|]. split; auto.
Qed.
Lemma dominant_of_form : forall nfft fs w v, dominant_of nfft fs w = Ok v ->
  (1 <= nfft)%Z /\ fs <> 0%Z /\ exists k, (k < S (Z.to_nat nfft / 2))%nat /\
  v = Fin (signed_bin (S (Z.to_nat nfft / 2)) k * IZR fs / INR (S (Z.to_nat nfft / 2))).
Proof.
  intros nfft fs w v H. unfold dominant_of, np_rfft in H. destruct (Z.ltb_spec nfft 1) as [Hl|Hl]; [discriminate|].
  cbn [rbind map nth] in H. rewrite !map_length, seq_length in H.
  destruct (fftfreq _ fs) as [l|] eqn:Hf; cbn [rbind] in H; [|discriminate].
  apply fftfreq_finite in Hf as (_ & Hfs & ->).
  destruct (np_argmax _) as [k|] eqn:Hk; cbn [rbind] in H; [|discriminate].
  split; [auto|]. split; [auto|]. set (M := S (Z.to_nat nfft / 2)) in *.
  destruct (Nat.ltb_spec k M) as [Hkm|Hkm].
  - rewrite (py_nth_nat _ _ _ NaN) in H by (rewrite fvec_length; auto).
    rewrite fvec_nth in H by auto. apply Ok_inj in H. exists k. split; auto.
  - rewrite py_nth_nat_high in H by (rewrite fvec_length; auto). discriminate.
Qed.
Lemma filter_near : forall r q, near_milli r q -> 0 <= r -> 0 <= q.
Proof.
  intros r q ((z & ->) & Hq) Hr. apply Rabs_le_inv in Hq.
  assert (-1 < IZR z) by lra. assert (-1 < z)%Z by (apply lt_IZR; lra).
  assert (0 <= z)%Z by lia. apply IZR_le in H1. lra.
Qed.
Lemma dominant_values : forall `{Env} sig fs bu nfft wl wh wt v,
  get_dominant_frequencies sig fs bu nfft wl wh wt false = Ok v ->
  (1 <= nfft)%Z /\ (exists fr L, framing (match bu with Some (b, a) => lfilter b a sig | None => sig end) fs wl wh = Ok (fr, L)
     /\ List.length v = List.length fr) /\
  Forall (fun q => exists k, (k < S (Z.to_nat nfft / 2))%nat /\ q = Fin (freq3 (Z.to_nat nfft) fs k)) v.
Proof.
  intros E sig fs bu nfft wl wh wt v H. unfold get_dominant_frequencies in H.
  destruct (framing _ fs wl wh) as [[fr fl]|] eqn:Hf; cbn [rbind] in H; [|discriminate].
  destruct (windowing fr fl wt) as [w|] eqn:Hw; cbn [rbind] in H; [|discriminate].
  destruct (mapM (dominant_of nfft fs) w) as [d|] eqn:Hd; cbn [rbind] in H; [|discriminate].
  apply Ok_inj in H. subst v.
  pose proof Hf as Hf'. unfold framing in Hf'. apply framing_strided_inv in Hf' as (_ & _ & _ & Hne & _).
  pose proof (mapM_length _ _ _ _ _ Hw) as Lw. pose proof (mapM_length _ _ _ _ _ Hd) as Ld.
  assert (HF : Forall (fun q => (1 <= nfft)%Z /\ exists k, (k < S (Z.to_nat nfft / 2))%nat /\
             q = Fin (signed_bin (S (Z.to_nat nfft / 2)) k * IZR fs / INR (S (Z.to_nat nfft / 2)))) d).
  { apply Forall_forall. intros q Hq. destruct (mapM_In_rev _ _ _ _ _ _ Hd Hq) as (r & _ & Hr).
    apply dominant_of_form in Hr as (A & _ & B). split; auto. }
  split; [|split].
  - destruct d as [|q d]; [destruct fr; [congruence|cbn in *; lia]|]. inversion HF; subst; tauto.
  - exists fr, fl. split; [auto|]. rewrite map_length. lia.
  - apply Forall_map. eapply Forall_impl; [|exact HF]. intros q (_ & k & Hk & ->). exists k. split; auto.
Qed.

Lemma freq3_range : forall n fs k, (0 < fs)%Z -> (k < S (n / 2))%nat ->
  near_milli (signed_bin (S (n / 2)) k * IZR fs / INR (S (n / 2))) (freq3 n fs k) /\
  Rabs (freq3 n fs k) <= IZR fs / 2 + / 2000.
Proof.
  intros n fs k Hfs Hk. pose proof (round3_near (signed_bin (S (n / 2)) k * IZR fs / INR (S (n / 2)))) as Hn.
  split; [exact Hn|]. destruct Hn as [_ Hn].
  assert (HM : 0 < INR (S (n / 2))) by (apply lt_0_INR; lia).
  assert (Hf : 0 < IZR fs) by (apply IZR_lt; auto).
  assert (Hb : Rabs (signed_bin (S (n / 2)) k * IZR fs / INR (S (n / 2))) <= IZR fs / 2).
  { unfold Rdiv. rewrite !Rabs_mult, signed_bin_abs, (Rabs_pos_eq (IZR fs)), (Rabs_pos_eq (/ _)) by
      (auto; try lra; left; apply Rinv_0_lt_compat; auto).
    assert (folded_bin (S (n / 2)) k * 2 <= INR (S (n / 2))).
    { unfold folded_bin. rewrite <- (INR_IZR_INZ 2) || idtac. replace 2 with (INR 2) by (cbn; lra). rewrite <- mult_INR. apply le_INR. lia. }
    apply Rmult_le_reg_r with (INR (S (n / 2))); auto. rewrite Rmult_assoc, Rinv_l, Rmult_1_r by lra. nra. }
  unfold freq3. apply Rabs_le_inv in Hb. apply Rabs_le_inv in Hn. apply Rabs_le. lra.
Qed.
Lemma signed_bin_half : forall M k, (k < M)%nat -> (signed_bin M k < 0 <-> (M <= 2 * k)%nat).
Proof.
  intros M k Hk. unfold signed_bin. destruct (Nat.ltb_spec (2 * k) M).
  - split; [intros H0; pose proof (pos_INR k); lra|lia].
  - split; [auto|]. intros _. assert (INR k < INR M) by (apply lt_INR; auto). lra.
Qed.

(** ** NaN *)
Lemma fsum_NaN : forall l, In NaN l -> fsum l = NaN.
Proof.
  induction l as [|x l IH]; [contradiction|]. intros [->|H]; unfold fsum; cbn [fold_right]; [reflexivity|].
  change (fold_right fadd f0 l) with (fsum l). rewrite IH by auto. destruct x; reflexivity.
Qed.
Lemma arg_scan_NaN : forall b l i best, arg_scan b l i best NaN = best.
Proof. induction l; intros; cbn [arg_scan fisnan negb andb]; auto. Qed.
Lemma dominant_of_NaN : forall n fs w t, (t < n)%nat -> (t < List.length w)%nat -> nth t w f0 = NaN -> fs <> 0%Z ->
  dominant_of (Z.of_nat n) fs w = Ok (Fin 0).
Proof.
  intros n fs w t Ht Hw HN Hfs. unfold dominant_of, np_rfft. rewrite (proj2 (Z.ltb_ge _ _)) by lia.
  rewrite Nat2Z.id. cbn [rbind map nth]. rewrite !map_length, seq_length, !map_map.
  rewrite fftfreq_fvec by (auto; lia). cbn [rbind seq map np_argmax].
  assert (E : dft_bin n (crop_pad n w) 0 = (NaN, NaN)).
  { assert (Hin : forall g : nat -> R, In NaN (map (fun j => fmul (nth j (crop_pad n w) NaN) (Fin (g j))) (seq 0 n))).
    { intros g. apply in_map_iff. exists t. split; [|apply in_seq; lia].
      unfold crop_pad. rewrite app_nth1 by (rewrite firstn_length; lia). rewrite firstn_nth_lt by lia.
      rewrite (nth_indep _ NaN f0) by lia. rewrite HN. reflexivity. }
    unfold dft_bin. f_equal; apply fsum_NaN.
    - apply (Hin (fun j => cos (2 * PI * INR (j * 0) / INR n))).
    - apply (Hin (fun j => - sin (2 * PI * INR (j * 0) / INR n))). }
  rewrite E. cbn [cabs fst snd fmul fadd fsqrt fpown]. rewrite arg_scan_NaN. cbn [rbind Z.of_nat].
  rewrite fvec_S. cbn [py_nth]. unfold py_nth. cbn [Z.ltb Z.compare Z.leb andb]. unfold zlen. cbn [List.length].
  rewrite (proj2 (Z.ltb_lt _ _)) by lia. cbn [Z.to_nat nth_error]. do 2 f_equal.
  unfold signed_bin. destruct (Nat.ltb_spec (2 * 0) (S (n / 2))); [change (INR 0) with 0; unfold Rdiv; ring|lia].
Qed.
Lemma dominant_NaN : forall `{Env} sig fs nfft wl wh wt v fr L i t,
  get_dominant_frequencies sig fs None nfft wl wh wt false = Ok v -> framing sig fs wl wh = Ok (fr, L) ->
  In wt window_names -> (i < List.length fr)%nat -> (t < List.length (nth i fr []))%nat -> (Z.of_nat t < nfft)%Z ->
  nth t (nth i fr []) f0 = NaN -> nth i v NaN = Fin 0.
Proof.
  intros E sig fs nfft wl wh wt v fr L i t H Hf Hwt Hi Ht Htn HN.
  pose proof (framing_content _ _ _ _ _ _ Hf) as (HL & _ & Hrows & _).
  assert (HLt : (1 <= L)%Z).
  { rewrite Forall_forall in Hrows. specialize (Hrows _ (nth_In fr [] Hi)). unfold zlen in Hrows. lia. }
  destruct (windowing_spec fr L wt HLt Hrows Hwt) as (w & Hw & [Lw Sw] & Vw).
  unfold get_dominant_frequencies in H. rewrite Hf in H. cbn [rbind] in H. rewrite Hw in H. cbn [rbind] in H.
  destruct (mapM (dominant_of nfft fs) w) as [d|] eqn:Hd; cbn [rbind] in H; [|discriminate].
  apply Ok_inj in H. subst v.
  assert (Hn : nth t (nth i w []) NaN = NaN).
  { assert (Hlt : (t < Z.to_nat L)%nat).
    { rewrite Forall_forall in Hrows. specialize (Hrows _ (nth_In fr [] Hi)). unfold zlen in Hrows. lia. }
    rewrite Vw by auto. rewrite (nth_indep _ NaN f0) by auto. rewrite HN. reflexivity. }
  pose proof (mapM_nth _ _ _ _ _ [] NaN i Hd ltac:(lia)) as Hv.
  assert (Hfs : fs <> 0%Z) by (apply dominant_of_form in Hv; tauto).
  assert (Hwl : (t < List.length (nth i w []))%nat).
  { rewrite Forall_forall in Sw, Hrows. rewrite (Sw (nth i w [])) by (apply nth_In; lia).
    specialize (Hrows _ (nth_In fr [] Hi)). unfold zlen in Hrows. lia. }
  rewrite <- (Z2Nat.id nfft) in Hv by lia.
  rewrite (dominant_of_NaN _ _ _ t) in Hv; auto; [|lia|rewrite (nth_indep _ f0 NaN) by auto; auto].
  apply Ok_inj in Hv. rewrite (nth_map F F fround3 d i NaN NaN) by (rewrite (mapM_length _ _ _ _ _ Hd); lia).
  rewrite <- Hv. cbn [fround3]. f_equal. rewrite Rmult_0_l. rewrite (Znearest_imp _ 0 0); [lra|]. rewrite Rminus_0_r, Rabs_R0. lra.
Qed.

(** ** signals whose spectrum is known *)
Lemma spec_sq_dot : forall n L f k, let a := spec_re n L f k in let b := spec_im n L f k in
  spec_sq n L f k
  = bigsum (Nat.min L n) (fun t => f t * (a * cos (2 * PI * INR (t * k) / INR n) - b * sin (2 * PI * INR (t * k) / INR n))).
Proof.
  intros n L f k a b. unfold spec_sq. fold a b.
  transitivity (a * spec_re n L f k + b * spec_im n L f k); [fold a b; ring|].
  unfold spec_re, spec_im. rewrite <- !bigsum_scal, <- bigsum_plus. apply bigsum_ext. intros. ring.
Qed.
Lemma proj_bound : forall a b c s, c * c + s * s = 1 -> Rabs (a * c - b * s) <= sqrt (a ^ 2 + b ^ 2).
Proof.
  intros a b c s H. rewrite <- sqrt_Rsqr_abs. apply sqrt_le_1_alt. unfold Rsqr.
  assert (0 <= (a * s + b * c) ^ 2) by apply pow2_ge_0. nra.
Qed.
Lemma cos2_sin2 : forall u, cos u * cos u + sin u * sin u = 1.
Proof. intros. pose proof (sin2_cos2 u) as H. unfold Rsqr in H. lra. Qed.
Definition l1 (n L : nat) (f : nat -> R) : R := bigsum (Nat.min L n) (fun t => Rabs (f t)).
Lemma l1_nonneg : forall n L f, 0 <= l1 n L f.
Proof. intros. apply bigsum_nonneg. intros. apply Rabs_pos. Qed.
(** every bin is at most the sum of the absolute values *)
Lemma spec_mag_le : forall n L f k, spec_mag n L f k <= l1 n L f.
Proof.
  intros n L f k. set (r := spec_mag n L f k).
  assert (Hr : 0 <= r) by apply sqrt_pos.
  assert (H : r * r <= l1 n L f * r).
  { unfold r at 1 2, spec_mag. rewrite sqrt_sqrt by apply spec_sq_nonneg. rewrite spec_sq_dot. unfold l1.
    rewrite <- bigsum_scal_r. apply bigsum_le. intros t Ht.
    eapply Rle_trans; [apply Rle_abs|]. rewrite Rabs_mult. apply Rmult_le_compat_l; [apply Rabs_pos|].
    apply proj_bound, cos2_sin2. }
  pose proof (l1_nonneg n L f). destruct (Req_dec r 0) as [->|]; [auto|]. nra.
Qed.
Lemma spec_sq_le : forall n L f k, spec_sq n L f k <= l1 n L f ^ 2.
Proof.
  intros. pose proof (spec_mag_le n L f k) as H. assert (0 <= spec_mag n L f k) by apply sqrt_pos.
  rewrite <- (sqrt_sqrt (spec_sq n L f k)) by apply spec_sq_nonneg.
  change (sqrt (spec_sq n L f k)) with (spec_mag n L f k). nra.
Qed.
(** equality forces every sample to point the same way *)
Lemma bigsum_le_eq : forall n f g, (forall i, (i < n)%nat -> f i <= g i) -> bigsum n g <= bigsum n f ->
  forall i, (i < n)%nat -> f i = g i.
Proof.
  intros n f g H He i Hi.
  assert (K : bigsum n (fun i => g i - f i) = 0).
  { apply Rle_antisym; [rewrite bigsum_minus; lra|]. apply bigsum_nonneg. intros k Hk. specialize (H k Hk). lra. }
  assert (Hz : g i - f i = 0); [|lra].
  apply (bigsum_eq0 n (fun i => g i - f i)); auto. intros k Hk. specialize (H k Hk). lra.
Qed.
Lemma spec_mag_eq : forall n L f k, l1 n L f <= spec_mag n L f k -> forall t, (t < Nat.min L n)%nat ->
  f t * (spec_re n L f k * cos (2 * PI * INR (t * k) / INR n) - spec_im n L f k * sin (2 * PI * INR (t * k) / INR n))
  = Rabs (f t) * spec_mag n L f k.
Proof.
  intros n L f k H t Ht.
  apply (bigsum_le_eq (Nat.min L n)
    (fun t => f t * (spec_re n L f k * cos (2 * PI * INR (t * k) / INR n) - spec_im n L f k * sin (2 * PI * INR (t * k) / INR n)))
    (fun t => Rabs (f t) * spec_mag n L f k)); auto.
  - intros i Hi. eapply Rle_trans; [apply Rle_abs|]. rewrite Rabs_mult. apply Rmult_le_compat_l; [apply Rabs_pos|].
    apply proj_bound, cos2_sin2.
  - rewrite bigsum_scal_r, <- spec_sq_dot. fold (l1 n L f). assert (0 <= spec_mag n L f k) by apply sqrt_pos.
    rewrite <- (sqrt_sqrt (spec_sq n L f k)) by apply spec_sq_nonneg.
    change (sqrt (spec_sq n L f k)) with (spec_mag n L f k). nra.
Qed.

(** a frame of non-negative samples peaks at bin 0 *)
Lemma spec_sq_dc : forall n L f, (forall t, (t < Nat.min L n)%nat -> 0 <= f t) -> spec_sq n L f 0 = l1 n L f ^ 2.
Proof.
  intros n L f H. unfold spec_sq, spec_re, spec_im, l1.
  rewrite (bigsum_ext _ _ f) by (intros; rewrite Nat.mul_0_r; cbn [INR]; unfold Rdiv; rewrite !Rmult_0_r, Rmult_0_l, cos_0; ring).
  rewrite (bigsum_zero _ (fun t => f t * - sin (2 * PI * INR (t * 0) / INR n)))
    by (intros; rewrite Nat.mul_0_r; cbn [INR]; unfold Rdiv; rewrite !Rmult_0_r, Rmult_0_l, sin_0; ring).
  rewrite (bigsum_ext _ (fun t => Rabs (f t)) f) by (intros; apply Rabs_pos_eq; auto). ring.
Qed.
Lemma argmax_dc : forall n L f k, (1 <= n)%nat -> (forall t, (t < Nat.min L n)%nat -> 0 <= f t) ->
  is_argmax (S (n / 2)) (spec_power n L f) k -> k = O.
Proof.
  intros n L f k Hn Hf Hk. eapply is_argmax_unique; [exact Hk|].
  assert (HN : 0 < / INR n) by (apply Rinv_0_lt_compat, lt_0_INR; lia).
  split; [lia|]. split; [|lia]. intros j Hj. unfold spec_power, Rdiv. apply Rmult_le_compat_r; [lra|].
  rewrite spec_sq_dc by auto. apply spec_sq_le.
Qed.

(** an alternating frame peaks at bin n/2 *)
Lemma cos_PI_nat : forall t, cos (PI * INR t) = (-1) ^ t.
Proof.
  induction t; [cbn [INR pow]; rewrite Rmult_0_r; apply cos_0|].
  rewrite S_INR. replace (PI * (INR t + 1)) with (PI * INR t + PI) by ring. rewrite neg_cos, IHt. cbn [pow]. ring.
Qed.
Lemma sin_PI_nat : forall t, sin (PI * INR t) = 0.
Proof.
  induction t; [cbn [INR]; rewrite Rmult_0_r; apply sin_0|].
  rewrite S_INR. replace (PI * (INR t + 1)) with (PI * INR t + PI) by ring. rewrite neg_sin, IHt. ring.
Qed.
Lemma pow_m1_sq : forall t, (-1) ^ t * (-1) ^ t = 1.
Proof. intros. rewrite <- Rpow_mult_distr. replace (-1 * -1) with 1 by ring. apply pow1. Qed.
Lemma Rabs_m1 : forall t, Rabs ((-1) ^ t) = 1.
Proof. intros. rewrite <- RPow_abs. replace (Rabs (-1)) with 1 by (rewrite Rabs_left; lra). apply pow1. Qed.
Lemma argmax_nyquist : forall h L f w c k, (1 <= h)%nat -> (2 <= L)%nat -> c <> 0 ->
  (forall t, (t < L)%nat -> 0 <= w t) -> 0 < w O -> 0 < w 1%nat ->
  (forall t, (t < L)%nat -> f t = w t * ((-1) ^ t * c)) ->
  is_argmax (S (2 * h / 2)) (spec_power (2 * h) L f) k -> k = h.
Proof.
  intros h L f w c k Hh HL Hc Hw Hw0 Hw1 Hf Hk. set (n := (2 * h)%nat) in *.
  assert (Hn2 : (n / 2 = h)%nat) by (unfold n; rewrite Nat.mul_comm; apply Nat.div_mul; lia). rewrite Hn2 in Hk.
  assert (HN : 0 < INR n) by (apply lt_0_INR; lia).
  assert (Habs : forall t, (t < L)%nat -> Rabs (f t) = w t * Rabs c).
  { intros t Ht. rewrite Hf by auto. rewrite !Rabs_mult, Rabs_m1, (Rabs_pos_eq (w t)) by auto. ring. }
  assert (Hl1 : 0 < l1 n L f).
  { unfold l1. apply (bigsum_pos _ _ O); [intros; apply Rabs_pos|lia|]. rewrite Habs by lia.
    apply Rmult_lt_0_compat; auto. apply Rabs_pos_lt; auto. }
  assert (Hang : forall t, 2 * PI * INR (t * h) / INR n = PI * INR t).
  { intros t. unfold n. rewrite !mult_INR. change (INR 2) with 2. field. apply not_0_INR. lia. }
  assert (Ehh : spec_sq n L f h = l1 n L f ^ 2).
  { unfold spec_sq, spec_re, spec_im.
    rewrite (bigsum_zero _ (fun t => f t * - sin (2 * PI * INR (t * h) / INR n))) by (intros; rewrite Hang, sin_PI_nat; ring).
    rewrite (bigsum_ext _ _ (fun t => Rabs (f t) * (c / Rabs c))).
    - rewrite bigsum_scal_r. fold (l1 n L f). assert (Rabs c <> 0) by (apply Rabs_no_R0; auto).
      replace ((l1 n L f * (c / Rabs c)) ^ 2 + 0 ^ 2) with (l1 n L f ^ 2 * (c * c / (Rabs c * Rabs c))) by (field; auto).
      rewrite <- (Rabs_mult c c), (Rabs_pos_eq (c * c)) by nra. field. auto.
    - intros t Ht. rewrite Hang, cos_PI_nat, Habs, Hf by lia. assert (Rabs c <> 0) by (apply Rabs_no_R0; auto).
      replace (w t * ((-1) ^ t * c) * (-1) ^ t) with (w t * c * ((-1) ^ t * (-1) ^ t)) by ring. rewrite pow_m1_sq. field. auto. }
  assert (Hmax : forall j, spec_power n L f j <= spec_power n L f h).
  { intros j. unfold spec_power, Rdiv. apply Rmult_le_compat_r; [left; apply Rinv_0_lt_compat; auto|]. rewrite Ehh. apply spec_sq_le. }
  destruct Hk as (K1 & K2 & K3). destruct (Nat.eq_dec k h) as [|Hne]; auto. exfalso.
  assert (Hkh : (k < h)%nat) by lia.
  specialize (K2 h ltac:(lia)). pose proof (Hmax k) as Hm.
  assert (Ek : spec_sq n L f k = l1 n L f ^ 2).
  { rewrite <- Ehh. unfold spec_power in K2, Hm. assert (spec_sq n L f k / INR n = spec_sq n L f h / INR n) by lra.
    unfold Rdiv in H. apply Rmult_eq_reg_r in H; auto. apply Rinv_neq_0_compat. lra. }
  assert (Em : spec_mag n L f k = l1 n L f).
  { unfold spec_mag. rewrite Ek. apply sqrt_pow2. lra. }
  pose proof (spec_mag_eq n L f k ltac:(lra)) as Q.
  assert (Q0 := Q O ltac:(lia)). assert (Q1 := Q 1%nat ltac:(lia)).
  rewrite Habs, Hf in Q0, Q1 by lia. rewrite Em in Q0, Q1.
  rewrite Nat.mul_0_l in Q0. rewrite Nat.mul_1_l in Q1. cbn [INR] in Q0.
  replace (2 * PI * 0 / INR n) with 0 in Q0 by (unfold Rdiv; ring). rewrite cos_0, sin_0 in Q0. cbn [pow] in Q0, Q1.
  set (a := spec_re n L f k) in *. set (b := spec_im n L f k) in *. set (r := l1 n L f) in *.
  assert (A0 : c * a = Rabs c * r) by nra.
  assert (Hr2 : a ^ 2 + b ^ 2 = r ^ 2) by (rewrite <- Ek; reflexivity).
  assert (Hcc : Rabs c * Rabs c = c * c) by (rewrite <- Rabs_mult; apply Rabs_pos_eq; nra).
  assert (Ha2 : a ^ 2 = r ^ 2).
  { apply Rmult_eq_reg_l with (c * c); [|nra]. transitivity ((c * a) * (c * a)); [ring|]. rewrite A0.
    transitivity (Rabs c * Rabs c * (r * r)); [ring|]. rewrite Hcc. ring. }
  assert (Hb : b = 0) by (apply Rsqr_0_uniq; unfold Rsqr; lra).
  rewrite Hb in Q1. set (th := 2 * PI * INR k / INR n) in *.
  assert (Hcos : cos th = -1).
  { assert (w 1%nat * (- (Rabs c * r) * cos th) = w 1%nat * (Rabs c * r)) by (rewrite <- A0 at 1; transitivity (w 1%nat * Rabs c * r); [rewrite <- Q1; ring|ring]).
    assert (Hp : 0 < Rabs c * r) by (apply Rmult_lt_0_compat; auto; apply Rabs_pos_lt; auto).
    apply Rmult_eq_reg_l with (- (w 1%nat * (Rabs c * r))); [lra|]. assert (0 < w 1%nat * (Rabs c * r)) by (apply Rmult_lt_0_compat; auto). lra. }
  assert (Hth : 0 <= th < PI).
  { assert (HH : INR k < INR h) by (apply lt_INR; auto). pose proof (pos_INR k). pose proof PI_RGT_0.
    assert (E : th = PI * (INR k / INR h)).
    { unfold th, n. rewrite mult_INR. change (INR 2) with 2. field. apply not_0_INR. lia. }
    assert (0 < INR h) by (apply lt_0_INR; lia).
    assert (0 <= INR k / INR h < 1).
    { split; [apply Rmult_le_pos; [lra|left; apply Rinv_0_lt_compat; lra]|]. apply Rmult_lt_reg_r with (INR h); auto. unfold Rdiv. rewrite Rmult_assoc, Rinv_l; lra. }
    rewrite E. split; nra. }
  assert (cos PI < cos th) by (apply cos_decreasing_1; pose proof PI_RGT_0; lra).
  rewrite cos_PI in H. lra.
Qed.

(** ** recursive filters *)
Fixpoint iir_hist (d : nat) (b a x : nat -> R) (n : nat) : list R :=
  match n with
  | O => []
  | S m => let h := iir_hist d b a x m in
           (bigsum (S d) (fun j => b j * past x m j) - bigsum d (fun j => a (S j) * nth j h 0)) :: h
  end.
Lemma iir_exists : forall d b a x, exists y, iir_response d b a x y.
Proof.
  intros d b a x. set (y := fun n => nth 0 (iir_hist d b a x (S n)) 0). exists y. intros n.
  assert (Hh : forall m j, nth j (iir_hist d b a x m) 0 = past y m (S j)).
  { induction m; intros j; [destruct j; reflexivity|]. destruct j.
    - unfold past. cbn [Nat.leb]. unfold y. replace (S (S m - 1)) with (S m) by lia. reflexivity.
    - cbn [iir_hist nth]. rewrite IHm. unfold past.
      change (Nat.leb (S (S j)) (S m)) with (Nat.leb (S j) m). change (S m - S (S j))%nat with (m - S j)%nat. reflexivity. }
  assert (Ey : y n = bigsum (S d) (fun j => b j * past x n j) - bigsum d (fun j => a (S j) * nth j (iir_hist d b a x n) 0)) by reflexivity.
  rewrite Ey. rewrite (bigsum_ext d (fun j => a (S j) * nth j (iir_hist d b a x n) 0) (fun j => a (S j) * past y n (S j)))
    by (intros; rewrite Hh; auto). ring.
Qed.
Lemma iir_unique : forall d b a x y y', iir_response d b a x y -> iir_response d b a x y' -> forall n, y n = y' n.
Proof.
  intros d b a x y y' H H' n. induction n as [n IH] using lt_wf_ind.
  pose proof (H n) as E. pose proof (H' n) as E'.
  rewrite (bigsum_ext d (fun j => a (S j) * past y n (S j)) (fun j => a (S j) * past y' n (S j))) in E; [lra|].
  intros j Hj. f_equal. unfold past. destruct (Nat.leb_spec (S j) n); auto. apply IH. lia.
Qed.
Definition iir_z (d : nat) (b a x y : nat -> R) (n k : nat) : R :=
  bigsum (d - k) (fun m => b (k + 1 + m)%nat * past x n (S m) - a (k + 1 + m)%nat * past y n (S m)).
Lemma iir_z_S : forall d b a x y n k, (k < d)%nat ->
  iir_z d b a x y (S n) k = b (S k) * x n - a (S k) * y n + (if Nat.ltb (S k) d then iir_z d b a x y n (S k) else 0).
Proof.
  intros d b a x y n k Hk. unfold iir_z. replace (d - k)%nat with (S (d - S k)) by lia.
  rewrite bigsum_S_l. unfold past at 1 2. cbn [Nat.leb].
  replace (k + 1 + 0)%nat with (S k) by lia. replace (S n - 1)%nat with n by lia. f_equal.
  destruct (Nat.ltb_spec (S k) d).
  - apply bigsum_ext. intros m Hm. replace (k + 1 + S m)%nat with (S k + 1 + m)%nat by lia. reflexivity.
  - replace (d - S k)%nat with O by lia. reflexivity.
Qed.
Lemma iir_z_out : forall d b a x y n, iir_response d b a x y -> y n = b O * x n + iir_z d b a x y n 0.
Proof.
  intros d b a x y n H. specialize (H n). rewrite bigsum_S_l in H. unfold iir_z. rewrite Nat.sub_0_r.
  rewrite bigsum_minus. cbn [Nat.add]. unfold past at 2 in H. cbn [Nat.leb] in H. rewrite Nat.sub_0_r in H. lra.
Qed.
Lemma df2t_iir : forall d b a x y n, (1 <= d)%nat -> iir_response d b a x y ->
  df2t_step (fvec (S d) b) (fvec (S d) a) (fvec d (iir_z d b a x y n)) (Fin (x n))
  = (Fin (y n), fvec d (iir_z d b a x y (S n))).
Proof.
  intros d b a x y n Hd H. unfold df2t_step. rewrite !fvec_nth, fvec_length by lia. cbn [fmul fadd].
  rewrite <- (iir_z_out _ _ _ _ _ _ H). f_equal. unfold fvec at 5. apply map_ext_in. intros k Hk. apply in_seq in Hk.
  rewrite fvec_nth by lia. rewrite iir_z_S by lia.
  assert (Ea : nth_error (fvec (S d) a) (S k) = Some (Fin (a (S k)))).
  { rewrite (nth_error_nth' _ NaN) by (rewrite fvec_length; lia). rewrite fvec_nth by lia. auto. }
  rewrite Ea. cbn [fmul]. destruct (Nat.ltb_spec (S k) d).
  - rewrite fvec_nth by lia. unfold fsub. cbn [fadd fneg]. f_equal. ring.
  - unfold fsub. cbn [fadd fneg]. f_equal. ring.
Qed.
Lemma lfilter_iir_run : forall d b a x y N n, (1 <= d)%nat -> iir_response d b a x y ->
  fst (lfilter_state (fvec (S d) b) (fvec (S d) a) (fvec d (iir_z d b a x y n)) (fvec N (fun i => x (n + i)%nat)))
  = fvec N (fun i => y (n + i)%nat).
Proof.
  intros d b a x y N. induction N; intros n Hd H; [reflexivity|]. rewrite (fvec_S N (fun i => x (n + i)%nat)), (fvec_S N (fun i => y (n + i)%nat)). cbn [lfilter_state].
  rewrite Nat.add_0_r, df2t_iir by auto.
  assert (E : fvec N (fun i => x (n + S i)%nat) = fvec N (fun i => x (S n + i)%nat)) by (apply fvec_ext; intros; f_equal; lia).
  rewrite E. specialize (IHN (S n) Hd H).
  destruct (lfilter_state _ _ _ (fvec N (fun i => x (S n + i)%nat))) as [ys zf]. cbn [fst] in IHN |- *. rewrite IHN.
  f_equal. apply fvec_ext. intros. f_equal. lia.
Qed.
Lemma lfilter_fvec : forall d b a x y N, (1 <= d)%nat -> iir_response d b a x y ->
  lfilter (fvec (S d) b) (fvec (S d) a) (fvec N x) = fvec N y.
Proof.
  intros d b a x y N Hd H. unfold lfilter. rewrite fvec_length. replace (S d - 1)%nat with d by lia.
  unfold f0. rewrite fvec_repeat.
  rewrite (fvec_ext d (fun _ => 0) (iir_z d b a x y 0)).
  - exact (lfilter_iir_run d b a x y N 0 Hd H).
  - intros i Hi. symmetry. unfold iir_z. apply bigsum_zero. intros m Hm. unfold past. cbn [Nat.leb]. ring.
Qed.
Lemma iir_gain : forall d b a x y g, iir_response d b a x y -> iir_response d b a (fun t => g * x t) (fun t => g * y t).
Proof.
  intros d b a x y g H n. specialize (H n).
  assert (P : forall f j, past (fun t => g * f t) n j = g * past f n j).
  { intros. unfold past. destruct (Nat.leb j n); ring. }
  rewrite (bigsum_ext _ _ (fun j => g * (a (S j) * past y n (S j)))) by (intros; rewrite P; ring).
  rewrite (bigsum_ext (S d) _ (fun j => g * (b j * past x n j))) by (intros; rewrite P; ring).
  rewrite !bigsum_scal, <- H. ring.
Qed.

(** ** gain *)
Lemma spec_power_gain : forall n L f g k, spec_power n L (fun t => g * f t) k = g ^ 2 * spec_power n L f k.
Proof.
  intros. unfold spec_power, spec_sq, spec_re, spec_im.
  rewrite (bigsum_ext _ (fun t => g * f t * cos _) (fun t => g * (f t * cos (2 * PI * INR (t * k) / INR n)))) by (intros; ring).
  rewrite (bigsum_ext _ (fun t => g * f t * - sin _) (fun t => g * (f t * - sin (2 * PI * INR (t * k) / INR n)))) by (intros; ring).
  rewrite !bigsum_scal. unfold Rdiv. ring.
Qed.
Lemma spec_power_ext : forall n L f g k, (forall t, (t < L)%nat -> f t = g t) -> spec_power n L f k = spec_power n L g k.
Proof.
  intros n L f g k H. unfold spec_power, spec_sq, spec_re, spec_im.
  rewrite (bigsum_ext _ (fun t => f t * cos _) (fun t => g t * cos (2 * PI * INR (t * k) / INR n))) by (intros; rewrite H by lia; auto).
  rewrite (bigsum_ext _ (fun t => f t * - sin _) (fun t => g t * - sin (2 * PI * INR (t * k) / INR n))) by (intros; rewrite H by lia; auto).
  reflexivity.
Qed.
Lemma dominant_gain : forall `{Env} N x fs wl wh wt L hop n g p, cut_config fs wl wh wt N L hop -> (1 <= n)%nat -> g <> 0 ->
  get_dominant_frequencies (fvec N (fun t => g * x t)) fs None (Z.of_nat n) wl wh wt p
  = get_dominant_frequencies (fvec N x) fs None (Z.of_nat n) wl wh wt p.
Proof.
  intros E N x fs wl wh wt L hop n g p HC Hn Hg.
  destruct (get_dominant_raw N x fs wl wh wt L hop n HC Hn) as (k & Hk & Ek).
  destruct (get_dominant_raw N (fun t => g * x t) fs wl wh wt L hop n HC Hn) as (k' & Hk' & Ek').
  assert (K : get_dominant_frequencies (fvec N (fun t => g * x t)) fs None (Z.of_nat n) wl wh wt false
              = get_dominant_frequencies (fvec N x) fs None (Z.of_nat n) wl wh wt false).
  { rewrite Ek, Ek'. f_equal. apply fvec_ext. intros i Hi. f_equal.
    eapply is_argmax_unique; [apply Hk'; auto|]. destruct (Hk i Hi) as (A & B & C).
    assert (Hg2 : 0 < g ^ 2) by (apply pow2_pos; auto).
    assert (P : forall j, spec_power n L (spec_frame wt L hop (fun t => g * x t) i) j
                          = g ^ 2 * spec_power n L (spec_frame wt L hop x i) j).
    { intros j. rewrite <- spec_power_gain. apply spec_power_ext. intros t Ht. unfold spec_frame. ring. }
    split; [auto|]. split; intros j Hj; rewrite !P; [apply Rmult_le_compat_l|apply Rmult_lt_compat_l]; auto; lra. }
  destruct p; [rewrite !only_positive_ok, K; reflexivity|exact K].
Qed.

(** ** reported and true frequency *)
Lemma reported_ratio : forall n k fs, (2 * k < S (n / 2))%nat -> (1 <= n)%nat ->
  signed_bin (S (n / 2)) k * IZR fs / INR (S (n / 2)) = INR n / INR (S (n / 2)) * (INR k * IZR fs / INR n).
Proof.
  intros n k fs Hk Hn. unfold signed_bin. destruct (Nat.ltb_spec (2 * k) (S (n / 2))); [|lia].
  field. split; apply not_0_INR; lia.
Qed.
Lemma reported_true : forall n k fs, (0 < fs)%Z -> (2 <= n)%nat -> (k <= n / 2)%nat ->
  (signed_bin (S (n / 2)) k * IZR fs / INR (S (n / 2)) = INR k * IZR fs / INR n <-> k = O).
Proof.
  intros n k fs Hfs Hn Hk. apply IZR_lt in Hfs. set (M := S (n / 2)).
  assert (HN : 0 < INR n) by (apply lt_0_INR; lia). assert (HM : 0 < INR M) by (apply lt_0_INR; unfold M; lia).
  split; intros H.
  - destruct (Nat.eq_dec k 0); [auto|]. exfalso. assert (Hk0 : 0 < INR k) by (apply lt_0_INR; lia).
    assert (Ht : 0 < INR k * IZR fs / INR n) by (apply Rdiv_lt_0_compat; auto; nra).
    unfold signed_bin in H. destruct (Nat.ltb_spec (2 * k) M) as [Hl|Hl].
    + assert (HMn : INR M < INR n).
      { apply lt_INR. unfold M in *. pose proof (Nat.div_mod n 2 ltac:(lia)). pose proof (Nat.mod_upper_bound n 2 ltac:(lia)). lia. }
      assert (E : INR k * IZR fs * INR n = INR k * IZR fs * INR M).
      { apply Rmult_eq_reg_r with (/ INR n * / INR M); [|apply Rmult_integral_contrapositive; split; apply Rinv_neq_0_compat; lra].
        unfold Rdiv in H. transitivity (INR k * IZR fs * / INR M); [field; lra|]. rewrite H. field. lra. }
      apply Rmult_eq_reg_l in E; nra.
    + assert (INR k < INR M) by (apply lt_INR; unfold M; lia).
      assert ((INR k - INR M) * IZR fs / INR M < 0); [|lra].
      assert (0 < (INR M - INR k) * IZR fs / INR M) by (apply Rdiv_lt_0_compat; auto; nra).
      replace ((INR k - INR M) * IZR fs / INR M) with (- ((INR M - INR k) * IZR fs / INR M)) by (field; lra). lra.
  - subst k. unfold signed_bin. destruct (Nat.ltb_spec (2 * 0) M); [|unfold M in *; lia]. change (INR 0) with 0. unfold Rdiv. ring.
Qed.

Lemma dominant_dc : forall `{Env} N x fs wl wh wt L hop n p, cut_config fs wl wh wt N L hop -> (1 <= n)%nat ->
  (forall t, (t < N)%nat -> 0 <= x t) ->
  get_dominant_frequencies (fvec N x) fs None (Z.of_nat n) wl wh wt p = Ok (fvec (frame_count N L hop) (fun _ => 0)).
Proof.
  intros E N x fs wl wh wt L hop n p HC Hn Hx.
  assert (K : get_dominant_frequencies (fvec N x) fs None (Z.of_nat n) wl wh wt false = Ok (fvec (frame_count N L hop) (fun _ => 0))).
  { destruct (get_dominant_raw N x fs wl wh wt L hop n HC Hn) as (k & Hk & ->). f_equal. apply fvec_ext. intros i Hi.
    destruct HC as (Hfs & _ & _ & _ & H0 & HL & _).
    rewrite (argmax_dc n L (spec_frame wt L hop x i) (k i)); auto.
    - unfold freq3. replace (signed_bin (S (n / 2)) 0 * IZR fs / INR (S (n / 2)) * 1000) with 0.
      + rewrite (Znearest_imp _ 0 0); [lra|]. rewrite Rminus_0_r, Rabs_R0. lra.
      + unfold signed_bin. destruct (Nat.ltb_spec (2 * 0) (S (n / 2))); [|lia]. change (INR 0) with 0. unfold Rdiv. ring.
    - intros t Ht. unfold spec_frame. apply Rmult_le_pos.
      + apply spec_window_bounds. lia.
      + apply Hx. unfold frame_count in Hi. assert (i * hop <= N - L)%nat; [|lia].
        assert (i <= (N - L) / hop)%nat by lia. rewrite (Nat.mul_comm i). eapply Nat.le_trans; [apply Nat.mul_le_mono_l; eauto|].
        apply Nat.mul_div_le. lia. }
  destruct p; [|exact K]. rewrite only_positive_ok, K. cbn [rmap]. f_equal.
  unfold fvec. induction (seq 0 (frame_count N L hop)); [reflexivity|]. cbn [map filter]. unfold fgeb at 1. cbn [fleb f0].
  rewrite Rleb_true by lra. f_equal. exact IHl.
Qed.
Lemma dominant_nyquist : forall `{Env} N c fs wl wh L hop h, cut_config fs wl wh "hamming" N L hop ->
  (1 <= h)%nat -> (2 <= L)%nat -> c <> 0 -> (Z.of_nat (S h) < 2000 * fs)%Z ->
  get_dominant_frequencies (fvec N (fun t => (-1) ^ t * c)) fs None (Z.of_nat (2 * h)) wl wh "hamming" true = Ok [].
Proof.
  intros E N c fs wl wh L hop h HC Hh HL Hc Hf.
  rewrite only_positive_ok.
  destruct (get_dominant_raw N (fun t => (-1) ^ t * c) fs wl wh "hamming" L hop (2 * h) HC ltac:(lia)) as (k & Hk & ->).
  cbn [rmap]. f_equal. destruct HC as (Hfs & _).
  rewrite (fvec_ext _ _ (fun _ => freq3 (2 * h) fs h)).
  - assert (Hneg : freq3 (2 * h) fs h < 0).
    { unfold freq3. replace (2 * h / 2)%nat with h by (rewrite Nat.mul_comm, Nat.div_mul; lia).
      unfold signed_bin. destruct (Nat.ltb_spec (2 * h) (S h)); [lia|].
      set (r := (INR h - INR (S h)) * IZR fs / INR (S h) * 1000).
      assert (HM : 0 < INR (S h)) by (apply lt_0_INR; lia).
      assert (Hr : r < - / 2).
      { unfold r. rewrite S_INR in *. replace (INR h - (INR h + 1)) with (-1) by ring.
        apply IZR_lt in Hf. rewrite <- INR_IZR, mult_IZR, S_INR in Hf.
        replace (-1 * IZR fs / (INR h + 1) * 1000) with (- (2000 * IZR fs / (INR h + 1)) * / 2) by (field; lra).
        assert (1 < 2000 * IZR fs / (INR h + 1)); [|lra].
        apply Rmult_lt_reg_r with (INR h + 1); auto. unfold Rdiv. rewrite Rmult_assoc, Rinv_l; lra. }
      pose proof (Znearest_half (fun x => negb (Z.even x)) r) as Hz. apply Rabs_le_inv in Hz.
      assert (IZR (ZnearestE r) < 0) by lra. lra. }
    unfold fvec. induction (seq 0 (frame_count N L hop)); [reflexivity|]. cbn [map filter]. unfold fgeb at 1. cbn [fleb f0].
    rewrite Rleb_false by lra. exact IHl.
  - intros i Hi. f_equal. specialize (Hk i Hi).
    eapply (argmax_nyquist h L _ (spec_window "hamming" L) ((-1) ^ (i * hop) * c)); [auto|auto| | | | | |exact Hk].
    + apply Rmult_integral_contrapositive. split; auto. apply pow_nonzero. lra.
    + intros t Ht. apply spec_window_bounds. auto.
    + pose proof (spec_hamming_lower L 0). lra.
    + pose proof (spec_hamming_lower L 1). lra.
    + intros t Ht. unfold spec_frame. rewrite pow_add. ring.
Qed.
