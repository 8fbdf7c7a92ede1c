(** * Facts about lpc and lpcc on integer samples *)
From Coq Require Import Reals ZArith List String Bool Lia Lra Psatz.
From Flocq Require Import Core.Raux.
From Verif Require Import Base BaseFacts SpecBase SpecMat SpecFeatures BigSum MatFacts Preprocessing PreprocessingFacts
  Cepstral Features Extractors FeaturesFacts LinAlg Lpc SpecLpc LpcFacts LpcTheory LpcMore LpcLaws LpcPcm SpecPcm.
Import ListNotations.
Local Open Scope R_scope.

Lemma IZR_isum : forall n f, IZR (isum n f) = bigsum n (fun t => IZR (f t)).
Proof. induction n; intros f; [reflexivity|]. cbn [isum]. rewrite plus_IZR, IHn, bigsum_S. reflexivity. Qed.
Lemma acf_iacf : forall L x d, acf L (fun t => IZR (x t)) d = IZR (iacf L x d).
Proof. intros. unfold acf, iacf. rewrite IZR_isum. apply bigsum_ext. intros. rewrite mult_IZR. reflexivity. Qed.
Lemma iacf_0 : forall L x d, (L <= d)%nat -> iacf L x d = 0%Z.
Proof. intros. unfold iacf. replace (L - d)%nat with O by lia. reflexivity. Qed.

(** ** wrapping *)
Lemma wrap_stands : forall t z, (1 <= bits_of t)%Z -> stands_for t (wrap t z) z.
Proof.
  intros t z Hb. destruct t as [b|b]; cbn [bits_of] in Hb; unfold stands_for; cbn [wrap in_type bits_of].
  - assert (H2 : (2 ^ b = 2 * 2 ^ (b - 1))%Z) by (rewrite <- Z.pow_succ_r by lia; f_equal; lia).
    assert (0 < 2 ^ (b - 1))%Z by (apply Z.pow_pos_nonneg; lia).
    pose proof (Z.mod_pos_bound (z + 2 ^ (b - 1)) (2 ^ b) ltac:(lia)). split; [lia|].
    exists ((z + 2 ^ (b - 1)) / 2 ^ b)%Z. pose proof (Z.div_mod (z + 2 ^ (b - 1)) (2 ^ b) ltac:(lia)). lia.
  - assert (0 < 2 ^ b)%Z by (apply Z.pow_pos_nonneg; lia).
    pose proof (Z.mod_pos_bound z (2 ^ b) ltac:(lia)). split; [lia|].
    exists (z / 2 ^ b)%Z. pose proof (Z.div_mod z (2 ^ b) ltac:(lia)). lia.
Qed.
Lemma stands_unique : forall t z v w, (1 <= bits_of t)%Z -> stands_for t v z -> stands_for t w z -> v = w.
Proof.
  intros t z v w Hb [Hv (k & Ek)] [Hw (l & El)].
  assert (E : (v - w = (l - k) * 2 ^ bits_of t)%Z) by lia.
  assert (H0 : (0 < 2 ^ bits_of t)%Z) by (apply Z.pow_pos_nonneg; lia).
  assert (Hd : (- 2 ^ bits_of t < v - w < 2 ^ bits_of t)%Z).
  { destruct t as [b|b]; cbn [bits_of in_type] in *; [|lia].
    assert (H2 : (2 ^ b = 2 * 2 ^ (b - 1))%Z) by (rewrite <- Z.pow_succ_r by lia; f_equal; lia). lia. }
  assert (l - k = 0)%Z by nia. nia.
Qed.
Lemma wrap_of_stands : forall t z w, (1 <= bits_of t)%Z -> stands_for t w z -> wrap t z = w.
Proof. intros t z w Hb H. apply (stands_unique t z); auto. apply wrap_stands; auto. Qed.
Lemma wrap_id : forall t z, (1 <= bits_of t)%Z -> in_type t z -> wrap t z = z.
Proof. intros t z Hb H. apply wrap_of_stands; auto. split; [exact H|]. exists 0%Z. lia. Qed.
Lemma wrap_0 : forall t, (1 <= bits_of t)%Z -> wrap t 0 = 0%Z.
Proof.
  intros t Hb. apply wrap_id; auto. destruct t as [b|b]; cbn in *; [|split; [lia|apply Z.pow_pos_nonneg; lia]].
  assert (0 < 2 ^ (b - 1))%Z by (apply Z.pow_pos_nonneg; lia). lia.
Qed.
Lemma wrapF_int : forall t z, wrapF t (Fin (IZR z)) = Fin (IZR (wrap t z)).
Proof. intros. unfold wrapF. rewrite Zfloor_IZR. reflexivity. Qed.

(** ** the helper on an integer frame *)
(** the wrapped autocorrelation *)
Definition wacf (t : itype) (L : nat) (x : nat -> Z) (d : nat) : R := IZR (wrap t (iacf L x d)).

Lemma wrapped_corr : forall t L x, (0 < L)%nat ->
  map (wrapF t) (fvec (2 * L - 1) (fun k => acf L (fun s => IZR (x s)) (dist (L - 1) k)))
  = fvec (2 * L - 1) (fun k => wacf t L x (dist (L - 1) k)).
Proof.
  intros. unfold fvec. rewrite map_map. apply map_ext. intros k. rewrite acf_iacf, wrapF_int. reflexivity.
Qed.
Lemma pcm_r : forall t L p x, (1 <= bits_of t)%Z -> (0 < L)%nat ->
  let part := py_drop (Z.of_nat L - 1) (py_take (Z.of_nat L + Z.of_nat p) (fvec (2 * L - 1) (fun k => wacf t L x (dist (L - 1) k)))) in
  part ++ repeat f0 (Z.to_nat (Z.of_nat p + 1) - List.length part) = fvec (S p) (wacf t L x).
Proof.
  intros t L p x Hb HL.
  pose proof (lpc_r L p (fun s => IZR (x s)) HL) as H. cbv zeta in H |- *. rewrite <- (wrapped_corr t L x HL).
  assert (Ed : forall i (l : list F), py_drop i (map (wrapF t) l) = map (wrapF t) (py_drop i l)).
  { intros i l. unfold py_drop, zlen. rewrite map_length. destruct (i <? 0)%Z; apply skipn_map. }
  assert (Et : forall i (l : list F), py_take i (map (wrapF t) l) = map (wrapF t) (py_take i l)).
  { intros i l. unfold py_take, zlen. rewrite map_length. destruct (i <? 0)%Z; apply firstn_map. }
  rewrite Et, Ed, map_length. set (part := py_drop _ _) in *.
  assert (Ez : repeat f0 (Z.to_nat (Z.of_nat p + 1) - Datatypes.length part)
             = map (wrapF t) (repeat f0 (Z.to_nat (Z.of_nat p + 1) - Datatypes.length part))).
  { assert (Em : forall g k (v : F), map g (repeat v k) = repeat (g v : F) k) by (intros g k v; induction k; cbn; congruence).
    rewrite Em. f_equal. change f0 with (Fin (IZR 0)). rewrite wrapF_int, wrap_0 by exact Hb. reflexivity. }
  rewrite Ez, <- map_app, H. unfold fvec. rewrite map_map. apply map_ext. intros k.
  rewrite acf_iacf, wrapF_int. reflexivity.
Qed.

Lemma pcm_helper : forall t L p x, (1 <= bits_of t)%Z -> (0 < L)%nat -> (0 < p)%nat ->
  lpc_helper_pcm t (fvec L (fun s => IZR (x s))) (Z.of_nat p) =
  (do inverse <- linalg_inv (fmat p p (fun i j => wacf t L x (dist i j)));
   let a := f1 :: map (fun row => fdot row (fvec p (fun k => IZR (wrap t (- wrap t (iacf L x (S k))))))) inverse in
   let e := fadd (Fin (wacf t L x (L - 1)))
                 (fsum (map2 fmul (fvec (2 * L - 2) (fun k => wacf t L x (dist (L - 1) (S k)))) a)) in
   Ok (a, fsqrt (fmul e e))).
Proof.
  intros t L p x Hb HL Hp. unfold lpc_helper_pcm. destruct (Z.ltb_spec (Z.of_nat p + 1) 0); [lia|].
  rewrite correlate_fvec by exact HL. cbn [rbind]. unfold zlen. rewrite fvec_length.
  rewrite wrapped_corr by exact HL.
  pose proof (pcm_r t L p x Hb HL) as Hr. cbv zeta in Hr |- *. rewrite Hr.
  rewrite removelast_fvec, toeplitz_fvec.
  destruct (linalg_inv _) as [inv|e]; [|reflexivity]. cbn [rbind].
  rewrite fvec_S. cbn [tl].
  assert (Er : map (fun v => wrapF t (fneg v)) (fvec p (fun i => wacf t L x (S i)))
             = fvec p (fun k => IZR (wrap t (- wrap t (iacf L x (S k)))))).
  { unfold fvec. rewrite map_map. apply map_ext. intros k. unfold wacf. cbn [fneg].
    rewrite <- opp_IZR, wrapF_int. reflexivity. }
  rewrite Er. destruct (2 * L - 1)%nat as [|m] eqn:Em; [lia|].
  rewrite fvec_S. cbn [tl]. unfold py_nth, zlen. cbn [List.length].
  destruct (Z.ltb_spec 0 0); [lia|]. destruct (Z.leb_spec 0 0); [|lia].
  match goal with |- context [Z.ltb 0 ?n] => destruct (Z.ltb_spec 0 n); [|lia] end.
  cbn [andb Z.to_nat nth_error rbind].
  replace (2 * L - 2)%nat with m by lia.
  replace (dist (L - 1) 0) with (L - 1)%nat by (unfold dist; cbn [Nat.leb]; lia). reflexivity.
Qed.

(** ** quiet frames *)
Lemma isum_nonneg : forall n f, (forall i, (i < n)%nat -> (0 <= f i)%Z) -> (0 <= isum n f)%Z.
Proof. induction n; intros f H; cbn [isum]; [lia|]. pose proof (H n ltac:(lia)). specialize (IHn f ltac:(intros; apply H; lia)). lia. Qed.
Lemma isum_le : forall n f g, (forall i, (i < n)%nat -> (f i <= g i)%Z) -> (isum n f <= isum n g)%Z.
Proof. induction n; intros f g H; cbn [isum]; [lia|]. pose proof (H n ltac:(lia)). specialize (IHn f g ltac:(intros; apply H; lia)). lia. Qed.
Lemma isum_split : forall n m f, isum (n + m) f = (isum n f + isum m (fun i => f (n + i)%nat))%Z.
Proof. intros n m f. induction m; [rewrite Nat.add_0_r; cbn; lia|]. rewrite Nat.add_succ_r. cbn [isum]. rewrite IHm. lia. Qed.
Lemma isum_plus : forall n f g, isum n (fun i => (f i + g i)%Z) = (isum n f + isum n g)%Z.
Proof. induction n; intros; cbn [isum]; [reflexivity|]. rewrite IHn. lia. Qed.
Lemma isum_scal : forall n c f, isum n (fun i => (c * f i)%Z) = (c * isum n f)%Z.
Proof. induction n; intros; cbn [isum]; [lia|]. rewrite IHn. lia. Qed.
Lemma isum_ext : forall n f g, (forall i, (i < n)%nat -> f i = g i) -> isum n f = isum n g.
Proof. induction n; intros f g H; cbn [isum]; [reflexivity|]. rewrite (H n) by lia. f_equal. apply IHn. intros; apply H; lia. Qed.

Lemma iacf_bound : forall L x d, (Z.abs (iacf L x d) <= iacf L x 0)%Z.
Proof.
  intros L x d. destruct (Nat.le_gt_cases L d) as [H|H].
  - rewrite iacf_0 by exact H. cbn. unfold iacf. apply isum_nonneg. intros. rewrite Nat.add_0_r. apply Z.square_nonneg.
  - assert (E0 : iacf L x 0 = isum L (fun t => x t * x t)%Z).
    { unfold iacf. rewrite Nat.sub_0_r. apply isum_ext. intros. rewrite Nat.add_0_r. reflexivity. }
    rewrite E0. unfold iacf.
    set (A := isum (L - d) (fun t => x t * x t)%Z). set (B := isum (L - d) (fun t => x (t + d)%nat * x (t + d)%nat)%Z).
    assert (HA : (A <= isum L (fun t => x t * x t))%Z).
    { replace (isum L (fun t => x t * x t)%Z) with (isum (L - d + d) (fun t => x t * x t)%Z) by (f_equal; lia).
      rewrite isum_split. fold A.
      pose proof (isum_nonneg d (fun i => x (L - d + i)%nat * x (L - d + i)%nat)%Z ltac:(intros; apply Z.square_nonneg)). lia. }
    assert (HB : (B <= isum L (fun t => x t * x t))%Z).
    { replace (isum L (fun t => x t * x t)%Z) with (isum (d + (L - d)) (fun t => x t * x t)%Z) by (f_equal; lia).
      rewrite isum_split.
      pose proof (isum_nonneg d (fun i => x i * x i)%Z ltac:(intros; apply Z.square_nonneg)).
      assert (B = isum (L - d) (fun i => x (d + i)%nat * x (d + i)%nat)%Z) as ->; [|lia].
      apply isum_ext. intros. rewrite Nat.add_comm. reflexivity. }
    assert (K1 : (2 * isum (L - d) (fun t => x t * x (t + d)%nat) <= A + B)%Z).
    { unfold A, B. rewrite <- isum_plus, <- isum_scal. apply isum_le. intros i _.
      pose proof (Z.square_nonneg (x i - x (i + d)%nat)). lia. }
    assert (K2 : (2 * - isum (L - d) (fun t => x t * x (t + d)%nat) <= A + B)%Z).
    { unfold A, B. rewrite <- isum_plus. rewrite <- Z.mul_opp_comm. rewrite <- isum_scal. apply isum_le. intros i _.
      pose proof (Z.square_nonneg (x i + x (i + d)%nat)). lia. }
    lia.
Qed.

(** in an array of the type the autocorrelation of a quiet frame is what it should be *)
Definition quiet (b : Z) (L : nat) (x : nat -> Z) : Prop := (isum L (fun t => x t * x t) < 2 ^ (b - 1))%Z.
Lemma quiet_in : forall b L x d, (1 <= b)%Z -> quiet b L x ->
  in_type (Int b) (iacf L x d) /\ in_type (Int b) (- iacf L x d).
Proof.
  intros b L x d Hb Hq. pose proof (iacf_bound L x d) as H.
  assert (E0 : iacf L x 0 = isum L (fun t => x t * x t)%Z).
  { unfold iacf. rewrite Nat.sub_0_r. apply isum_ext. intros. rewrite Nat.add_0_r. reflexivity. }
  unfold quiet in Hq. cbn [in_type]. lia.
Qed.
Lemma corr_in : forall b L x, (1 <= b)%Z -> (0 < L)%nat -> quiet b L x ->
  map (wrapF (Int b)) (fvec (2 * L - 1) (fun k => acf L (fun s => IZR (x s)) (dist (L - 1) k)))
  = fvec (2 * L - 1) (fun k => acf L (fun s => IZR (x s)) (dist (L - 1) k)).
Proof.
  intros b L x Hb HL Hq. rewrite wrapped_corr by exact HL. apply fvec_ext. intros k _. unfold wacf.
  rewrite wrap_id, acf_iacf; [reflexivity|exact Hb|apply quiet_in; auto].
Qed.

Lemma quiet_helper : forall b L x order, (1 <= b)%Z -> (0 < L)%nat -> quiet b L x ->
  lpc_helper_pcm (Int b) (fvec L (fun s => IZR (x s))) order = lpc_helper (fvec L (fun s => IZR (x s))) order.
Proof.
  intros b L x order Hb HL Hq. unfold lpc_helper_pcm, lpc_helper. destruct (order + 1 <? 0)%Z; [reflexivity|].
  rewrite correlate_fvec by exact HL. cbn [rbind]. rewrite corr_in by assumption.
  destruct (linalg_inv _) as [inv|e]; [|reflexivity]. cbn [rbind]. cbv zeta.
  assert (Er : forall l, (forall v, In v l -> exists d, v = Fin (IZR (iacf L x d))) ->
            map (fun v => wrapF (Int b) (fneg v)) l = map fneg l).
  { intros l Hl. apply map_ext_in. intros v Hv. destruct (Hl v Hv) as (d & ->). cbn [fneg].
    rewrite <- opp_IZR, wrapF_int, wrap_id; [reflexivity|exact Hb|apply quiet_in; auto]. }
  rewrite Er; [reflexivity|]. intros v Hv.
  assert (Hin : forall (l : list F) w, In w (tl l) -> In w l) by (intros [|y t] w; cbn; auto).
  apply Hin in Hv. clear Hin. apply in_app_or in Hv as [Hv|Hv].
  - assert (Hin : In v (fvec (2 * L - 1) (fun k => acf L (fun s => IZR (x s)) (dist (L - 1) k)))).
    { revert Hv. unfold py_drop, py_take. generalize (fvec (2 * L - 1) (fun k => acf L (fun s => IZR (x s)) (dist (L - 1) k))).
      intros l. assert (Hs : forall n (l : list F) w, In w (skipn n l) -> In w l).
      { intros n l0 w Hw. rewrite <- (firstn_skipn n l0). apply in_or_app. right. exact Hw. }
      assert (Hf : forall n (l : list F) w, In w (firstn n l) -> In w l).
      { intros n l0 w Hw. rewrite <- (firstn_skipn n l0). apply in_or_app. left. exact Hw. }
      destruct (zlen _ - 1 <? 0)%Z, (zlen _ + order <? 0)%Z; intros Hv; apply Hs in Hv; apply Hf in Hv; exact Hv. }
    unfold fvec in Hin. apply in_map_iff in Hin as (k & <- & _). exists (dist (L - 1) k). rewrite acf_iacf. reflexivity.
  - apply repeat_spec in Hv. subst. exists L. rewrite iacf_0 by lia. reflexivity.
Qed.

(** ** the whole functions *)
Lemma mapM_ext_in : forall A B (g h : A -> result B) l, (forall y, In y l -> g y = h y) -> mapM g l = mapM h l.
Proof.
  intros A B g h l. induction l as [|y t IH]; intros H; [reflexivity|]. cbn [mapM].
  rewrite (H y) by (left; reflexivity). rewrite IH by (intros; apply H; right; assumption). reflexivity.
Qed.
Lemma ivec_fvec : forall N x, map fZ (ivec N x) = fvec N (fun t => IZR (x t)).
Proof. intros. unfold ivec, fvec. rewrite map_map. reflexivity. Qed.

Section Whole.
Context `{Env}.
Variables (a : sargs) (N L hop : nat) (x : nat -> Z).
Hypothesis (Hw : well_framed a N L hop) (Hpre : s_pre_emph a = false).
Let n := frame_count N L hop.

Lemma pcm_framed : framed (map fZ (ivec N x)) (s_fs a) false 0.97 (s_window a)
  = Ok (fmat n L (fun i s => IZR (iframe hop x i s)), fmat n L (fun i => frame_of a 0.97 L hop (fun t => IZR (x t)) i)).
Proof.
  rewrite ivec_fvec. pose proof (framed_fvec a N L hop (fun t => IZR (x t)) 0.97 Hw) as Hf. rewrite Hpre in Hf. exact Hf.
Qed.

Lemma pcm_quiet : forall b order coeff, (1 <= b)%Z -> (forall i, (i < n)%nat -> quiet b L (iframe hop x i)) ->
  lpc_pcm (Int b) (ivec N x) (s_fs a) order false coeff (s_window a)
  = lpc (map fZ (ivec N x)) (s_fs a) order false coeff (s_window a) /\
  forall lifter normalize,
  lpcc_pcm (Int b) (ivec N x) (s_fs a) order false coeff (s_window a) lifter normalize
  = lpcc (map fZ (ivec N x)) (s_fs a) order false coeff (s_window a) lifter normalize.
Proof.
  intros b order coeff Hb Hq. destruct Hw as (_ & _ & _ & _ & HL & _).
  assert (K : forall o row, In row (fmat n L (fun i s => IZR (iframe hop x i s))) ->
            lpc_helper_of (Int b) false row o = lpc_helper row o).
  { intros o row Hr. unfold fmat in Hr. apply in_map_iff in Hr as (i & <- & Hi). apply in_seq in Hi.
    apply quiet_helper; [exact Hb|lia|]. apply Hq. lia. }
  split.
  - unfold lpc_pcm, lpc. rewrite pcm_framed. cbn [rbind].
    destruct (order - 1 + 1 <? 0)%Z; [reflexivity|]. rewrite (mapM_ext_in _ _ _ _ _ (K (order - 1)%Z)). reflexivity.
  - intros li no. unfold lpcc_pcm, lpcc. rewrite pcm_framed. cbn [rbind].
    destruct (order - 1 + 1 <? 0)%Z; [reflexivity|].
    rewrite (mapM_ext_in _ _ (fun frame => do (a0, e) <- lpc_helper_of (Int b) false frame (order - 1);
                                            lpc2lpcc a0 e (order - 1 + 1))
                            (fun frame => do (a0, e) <- lpc_helper frame (order - 1);
                                            lpc2lpcc a0 e (order - 1 + 1))); [reflexivity|].
    intros row Hr. rewrite (K _ row Hr). reflexivity.
Qed.

(** samples that are multiples of 2^h, 2h >= bits *)
Lemma pcm_coarse : forall t h p coeff, (1 <= bits_of t <= 2 * h)%Z -> (1 <= p)%nat ->
  (forall k, (k < N)%nat -> exists q, x k = (q * 2 ^ h)%Z) ->
  lpc_pcm t (ivec N x) (s_fs a) (Z.of_nat (S p)) false coeff (s_window a) = Raise LinAlgError /\
  forall lifter normalize,
  lpcc_pcm t (ivec N x) (s_fs a) (Z.of_nat (S p)) false coeff (s_window a) lifter normalize = Raise LinAlgError.
Proof.
  intros t h p coeff Hb Hp Hx. pose proof Hw as (_ & _ & _ & Hhop & HL & _).
  assert (Hn : (0 < n)%nat) by (unfold n, frame_count; lia).
  assert (Hwa : forall i d, (i < n)%nat -> wrap t (iacf L (iframe hop x i) d) = 0%Z).
  { intros i d Hi. apply wrap_of_stands; [lia|]. split.
    - destruct t as [b|b]; cbn in *; [|split; [lia|apply Z.pow_pos_nonneg; lia]].
      assert (0 < 2 ^ (b - 1))%Z by (apply Z.pow_pos_nonneg; lia). lia.
    - assert (Hk : forall m, (m <= L - d)%nat -> exists k, isum m (fun s => iframe hop x i s * iframe hop x i (s + d)%nat)%Z = (k * 2 ^ bits_of t)%Z).
      { induction m as [|m IH]; intros Hm; [exists 0%Z; reflexivity|]. destruct IH as [k Ek]; [lia|]. cbn [isum]. rewrite Ek.
        assert (Hlast : forall s, (s < L)%nat -> (i * hop + s < N)%nat).
        { intros s Hs. unfold n, frame_count in Hi. assert (i <= (N - L) / hop)%nat by lia.
          assert (hop * ((N - L) / hop) <= N - L)%nat by (apply Nat.mul_div_le; lia). nia. }
        destruct (Hx (i * hop + m)%nat) as [q1 E1]; [apply Hlast; lia|].
        destruct (Hx (i * hop + (m + d))%nat) as [q2 E2]; [apply Hlast; lia|].
        unfold iframe. rewrite E1, E2. exists (k + q1 * q2 * 2 ^ (2 * h - bits_of t))%Z.
        assert (Ep : (2 ^ h * 2 ^ h = 2 ^ (2 * h - bits_of t) * 2 ^ bits_of t)%Z).
        { rewrite <- !Z.pow_add_r by lia. f_equal. lia. }
        rewrite Z.mul_add_distr_r. f_equal. rewrite <- !Z.mul_assoc, <- Ep. ring. }
      destruct (Hk (L - d)%nat ltac:(lia)) as [k Ek]. exists k. unfold iacf. rewrite Ek. lia. }
  assert (K : forall row, In row (fmat n L (fun i s => IZR (iframe hop x i s))) ->
            lpc_helper_of t false row (Z.of_nat p) = Raise LinAlgError).
  { intros row Hr. unfold fmat in Hr. apply in_map_iff in Hr as (i & <- & Hi). apply in_seq in Hi.
    unfold lpc_helper_of. rewrite pcm_helper by lia.
    rewrite (linalg_inv_singular p _ (fun _ => 1)); [reflexivity| |].
    - exists O. split; [lia|lra].
    - intros k Hk. apply bigsum_zero. intros j Hj. unfold wacf. rewrite Hwa by lia. ring. }
  assert (Hin : exists row, In row (fmat n L (fun i s => IZR (iframe hop x i s)))).
  { exists (fvec L (fun s => IZR (iframe hop x 0 s))). apply in_map_iff. exists O. split; [reflexivity|]. apply in_seq. lia. }
  destruct Hin as [row0 Hrow0]. split.
  - unfold lpc_pcm. rewrite pcm_framed. cbn [rbind].
    replace (Z.of_nat (S p) - 1)%Z with (Z.of_nat p) by lia. destruct (Z.ltb_spec (Z.of_nat p + 1) 0); [lia|].
    rewrite (mapM_first_raise _ _ _ LinAlgError); [reflexivity| |eauto].
    intros row Hr. left. apply K. exact Hr.
  - intros li no. unfold lpcc_pcm. rewrite pcm_framed. cbn [rbind].
    replace (Z.of_nat (S p) - 1)%Z with (Z.of_nat p) by lia. destruct (Z.ltb_spec (Z.of_nat p + 1) 0); [lia|].
    rewrite (mapM_first_raise _ _ _ LinAlgError); [reflexivity| |].
    + intros row Hr. left. rewrite (K row Hr). reflexivity.
    + exists row0. split; [exact Hrow0|]. rewrite (K row0 Hrow0). reflexivity.
Qed.

(** what is solved instead of the normal equations *)
Lemma pcm_solves : forall t p coeff A E, (1 <= bits_of t)%Z -> (1 <= p)%nat ->
  lpc_pcm t (ivec N x) (s_fs a) (Z.of_nat (S p)) false coeff (s_window a) = Ok (fmat n (S p) A, fmat n 1 E) ->
  forall i, (i < n)%nat -> exists w u, A i O = 1 /\
    (forall d, stands_for t (w d) (iacf L (iframe hop x i) d)) /\ (forall d, stands_for t (u d) (- w d)) /\
    forall k, (1 <= k <= p)%nat -> bigsum p (fun j => IZR (w (dist k (S j))) * A i (S j)) = IZR (u k).
Proof.
  intros t p coeff A E Hb Hp Hcall i Hi. pose proof Hw as (_ & _ & _ & _ & HL & _).
  unfold lpc_pcm in Hcall. rewrite pcm_framed in Hcall. cbn [rbind] in Hcall.
  replace (Z.of_nat (S p) - 1)%Z with (Z.of_nat p) in Hcall by lia.
  destruct (Z.ltb_spec (Z.of_nat p + 1) 0); [lia|].
  destruct (mapM _ _) as [rows|e] eqn:Em; [|discriminate]. cbn [rbind] in Hcall. injection Hcall as HA HE.
  pose proof (mapM_length _ _ _ _ _ Em) as Hlen. rewrite fmat_length in Hlen.
  pose proof (mapM_row _ _ _ _ _ i [] ([], NaN) Em) as Hrow.
  rewrite fmat_nth in Hrow by exact Hi. specialize (Hrow ltac:(lia)).
  unfold lpc_helper_of in Hrow. rewrite pcm_helper in Hrow by lia.
  set (W := fun i0 j => wacf t L (iframe hop x i) (dist i0 j)) in *.
  destruct (linalg_inv (fmat p p W)) as [inv|e] eqn:Ei; [|discriminate].
  cbn [rbind] in Hrow. injection Hrow as Hrow.
  assert (HAi : fvec (S p) (A i) = fst (nth i rows ([], NaN))).
  { rewrite <- (fmat_nth n (S p) A i []) by exact Hi. rewrite <- HA.
    rewrite (nth_map _ _ _ _ _ ([], NaN)); [reflexivity|]. lia. }
  rewrite <- Hrow in HAi. cbn [fst] in HAi.
  exists (fun d => wrap t (iacf L (iframe hop x i) d)), (fun d => wrap t (- wrap t (iacf L (iframe hop x i) d))).
  rewrite fvec_S in HAi. injection HAi as H1 Hphi.
  split; [congruence|]. split; [intros; apply wrap_stands; exact Hb|]. split; [intros; apply wrap_stands; exact Hb|].
  (* the matrix is regular, for otherwise it would not have been inverted *)
  assert (Hreg : forall v, (forall k, (k < p)%nat -> bigsum p (fun j => W k j * v j) = 0) -> forall k, (k < p)%nat -> v k = 0).
  { intros v Hv k Hk. destruct (Req_EM_T (v k) 0) as [E0|E0]; [exact E0|]. exfalso.
    rewrite (linalg_inv_singular p W v) in Ei; [discriminate|eauto|exact Hv]. }
  destruct (linalg_inv_regular p W ltac:(lia) Hreg) as (B & HB & Hinv).
  rewrite HB in Ei. injection Ei as <-.
  set (rhs := fun k => IZR (wrap t (- wrap t (iacf L (iframe hop x i) (S k))))) in *.
  assert (Hphi' : forall j, (j < p)%nat -> A i (S j) = bigsum p (fun k => B j k * rhs k)).
  { intros j Hj. assert (G : fvec p (fun j => A i (S j)) = fvec p (fun j => bigsum p (fun k => B j k * rhs k))).
    { etransitivity; [exact Hphi|]. unfold fmat. rewrite map_map. unfold fvec at 3. apply map_ext. intros q. apply fdot_fvec. }
    apply (fvec_inj _ _ _ G j Hj). }
  intros k Hk. destruct k as [|k]; [lia|].
  rewrite (bigsum_ext p _ (fun j => W k j * bigsum p (fun k => B j k * rhs k))).
  - rewrite (Hinv rhs k) by lia. reflexivity.
  - intros j Hj. rewrite dist_S. rewrite Hphi' by exact Hj. reflexivity.
Qed.
End Whole.

(** a regular matrix of wrapped autocorrelations *)
Lemma pcm_regular : forall t L p x, (1 <= bits_of t)%Z -> (0 < L)%nat -> (0 < p)%nat ->
  (forall v, (forall k, (k < p)%nat -> bigsum p (fun j => wacf t L x (dist k j) * v j) = 0) ->
             forall k, (k < p)%nat -> v k = 0) ->
  exists a e, lpc_helper_pcm t (fvec L (fun s => IZR (x s))) (Z.of_nat p) = Ok (fvec (S p) a, Fin e) /\ a O = 1 /\
    forall k, (k < p)%nat -> bigsum p (fun j => wacf t L x (dist k j) * a (S j)) = IZR (wrap t (- wrap t (iacf L x (S k)))).
Proof.
  intros t L p x Hb HL Hp Hreg. rewrite pcm_helper by assumption.
  destruct (linalg_inv_regular p _ Hp Hreg) as (B & HB & Hinv). rewrite HB. cbn [rbind]. cbv zeta.
  set (rhs := fun k => IZR (wrap t (- wrap t (iacf L x (S k))))).
  set (a := fun k => match k with O => 1 | S i => bigsum p (fun k => B i k * rhs k) end).
  assert (Ea : f1 :: map (fun row => fdot row (fvec p rhs)) (fmat p p B) = fvec (S p) a).
  { rewrite fvec_S. f_equal. unfold fmat. rewrite map_map. unfold fvec at 2. apply map_ext. intros q. apply fdot_fvec. }
  rewrite Ea, fdot_min. cbn [fadd]. rewrite fsqrt_sq. exists a. eexists. split; [reflexivity|]. split; [reflexivity|].
  intros k Hk. exact (Hinv rhs k Hk).
Qed.

(** a predictor of order 1 for samples 256, 1, 0, 0, ... of int16 *)
Lemma pcm_unstable_frame : forall L, (2 <= L)%nat -> exists a e,
  lpc_helper_pcm (Int 16) (fvec L (fun s => IZR (nth s [256; 1]%Z 0%Z))) 1 = Ok (fvec 2 a, Fin e) /\ poly_root 1 a 256 0.
Proof.
  intros L HL. set (x := fun s => nth s [256; 1]%Z 0%Z).
  assert (Ht : forall m, isum m (fun i => (x (S (S i)) * x (S (S i)))%Z) = 0%Z).
  { induction m; cbn [isum]; [reflexivity|]. rewrite IHm. unfold x. destruct m; reflexivity. }
  assert (Ht1 : forall m, isum m (fun i => (x (S i) * x (S (S i)))%Z) = 0%Z).
  { induction m; cbn [isum]; [reflexivity|]. rewrite IHm. unfold x. destruct m as [|[|m]]; reflexivity. }
  assert (E0 : iacf L x 0 = 65537%Z).
  { unfold iacf. replace (L - 0)%nat with (2 + (L - 2))%nat by lia. rewrite isum_split.
    rewrite (isum_ext (L - 2) _ (fun i => (x (S (S i)) * x (S (S i)))%Z)), Ht by (intros; rewrite Nat.add_0_r; reflexivity).
    reflexivity. }
  assert (E1 : iacf L x 1 = 256%Z).
  { unfold iacf. replace (L - 1)%nat with (1 + (L - 2))%nat by lia. rewrite isum_split.
    rewrite (isum_ext (L - 2) _ (fun i => (x (S i) * x (S (S i)))%Z)), Ht1 by (intros; rewrite Nat.add_1_r; reflexivity).
    reflexivity. }
  assert (W0 : wacf (Int 16) L x (dist 0 0) = 1) by (unfold wacf; change (dist 0 0) with O; rewrite E0; reflexivity).
  destruct (pcm_regular (Int 16) L 1 x) as (a & e & Ha & H1 & Hk); [cbn; lia|lia|lia| |].
  - intros v Hv k Hk. assert (k = O) as -> by lia. specialize (Hv O ltac:(lia)). cbn [bigsum] in Hv. rewrite W0 in Hv. lra.
  - exists a, e. split; [exact Ha|]. specialize (Hk O ltac:(lia)). rewrite E1 in Hk. cbn [bigsum] in Hk. rewrite W0 in Hk.
    change (wrap (Int 16) (- wrap (Int 16) 256)) with (-256)%Z in Hk. unfold poly_root. cbn. rewrite H1. lra.
Qed.
