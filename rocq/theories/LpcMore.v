(** * Facts about the model of lpc.py *)
From Coq Require Import Reals ZArith List String Bool Lia Lra Psatz.
From Verif Require Import Base BaseFacts SpecBase SpecMat SpecFeatures BigSum MatFacts Preprocessing PreprocessingFacts
  Cepstral Features Extractors FeaturesFacts FeaturesMore FeaturesLaws LinAlg Lpc SpecLpc LpcFacts LpcTheory.
Import ListNotations.
Local Open Scope R_scope.

(** ** the correlation of a finite frame *)
Lemma acf_0 : forall L f d, (L <= d)%nat -> acf L f d = 0.
Proof. intros. unfold acf. replace (L - d)%nat with O by lia. reflexivity. Qed.
Lemma map_seq_shift : forall B (g : nat -> B) a n, map g (seq a n) = map (fun i => g (a + i)%nat) (seq 0 n).
Proof.
  intros B g a n. induction n as [|n IH]; [reflexivity|].
  rewrite !seq_S, !map_app, IH. reflexivity.
Qed.
Lemma correlate_fvec : forall L f, (0 < L)%nat ->
  correlate_full (fvec L f) = Ok (fvec (2 * L - 1) (fun k => acf L f (dist (L - 1) k))).
Proof.
  intros L f HL. unfold correlate_full.
  destruct (fvec L f) as [|y t] eqn:E; [destruct L; [lia|]; rewrite fvec_S in E; discriminate|].
  rewrite <- E. clear E y t. rewrite fvec_length. f_equal. unfold fvec at 3. apply map_ext_in.
  intros k Hk. apply in_seq in Hk. cbv zeta.
  set (lo := (L - 1 - k)%nat). set (hi := Nat.min L (2 * L - 1 - k)).
  rewrite map_seq_shift.
  assert (Eh : (hi - lo)%nat = (L - dist (L - 1) k)%nat).
  { unfold hi, lo, dist. destruct (Nat.leb_spec k (L - 1)); lia. }
  rewrite Eh.
  rewrite (map_ext_in _ (fun i => Fin (f i * f (i + dist (L - 1) k)%nat))).
  - apply fsum_fvec.
  - intros i Hi. apply in_seq in Hi.
    assert (Hd : (dist (L - 1) k = if Nat.leb k (L - 1) then L - 1 - k else k - (L - 1))%nat) by reflexivity.
    rewrite Hd in Hi |- *. unfold lo. destruct (Nat.leb_spec k (L - 1)).
    + rewrite !fvec_nth by lia. cbn [fmul]. f_equal.
      replace (L - 1 - k + i + k - (L - 1))%nat with i by lia. f_equal. f_equal. lia.
    + rewrite !fvec_nth by lia. cbn [fmul]. f_equal.
      replace (L - 1 - k + i + k - (L - 1))%nat with (i + (k - (L - 1)))%nat by lia.
      replace (L - 1 - k + i)%nat with i by lia. ring.
Qed.

Lemma toeplitz_fvec : forall n r, toeplitz (fvec n r) = fmat n n (fun i j => r (dist i j)).
Proof.
  intros. unfold toeplitz, fmat. rewrite fvec_length. apply map_ext_in. intros i Hi. apply in_seq in Hi.
  unfold fvec at 2. apply map_ext_in. intros j Hj. apply in_seq in Hj.
  unfold dist. destruct (Nat.leb_spec j i); rewrite fvec_nth by lia; reflexivity.
Qed.
Lemma removelast_fvec : forall n r, removelast (fvec (S n) r) = fvec n r.
Proof.
  intros. rewrite removelast_firstn_len, fvec_length, fvec_firstn by lia. reflexivity.
Qed.

Lemma firstn_map2 : forall A B C (g : A -> B -> C) l m, map2 g l m = map2 g (firstn (List.length m) l) (firstn (List.length l) m).
Proof. induction l; destruct m; cbn; auto. f_equal. apply IHl. Qed.
Lemma fdot_min : forall n m v w, fsum (map2 fmul (fvec n v) (fvec m w)) = Fin (bigsum (Nat.min n m) (fun k => v k * w k)).
Proof.
  intros. rewrite firstn_map2, !fvec_length.
  destruct (Nat.le_ge_cases n m).
  - rewrite firstn_all2 by (rewrite fvec_length; lia). rewrite fvec_firstn by lia.
    rewrite Nat.min_l by lia. apply fdot_fvec.
  - rewrite fvec_firstn by lia. rewrite (firstn_all2 (n := n)) by (rewrite fvec_length; lia).
    rewrite Nat.min_r by lia. apply fdot_fvec.
Qed.

(** the autocorrelation vector of lines 74-80 *)
Lemma lpc_r : forall L p f, (0 < L)%nat ->
  let part := py_drop (Z.of_nat L - 1) (py_take (Z.of_nat L + Z.of_nat p) (fvec (2 * L - 1) (fun k => acf L f (dist (L - 1) k)))) in
  part ++ repeat f0 (Z.to_nat (Z.of_nat p + 1) - List.length part) = fvec (S p) (acf L f).
Proof.
  intros L p f HL. unfold py_drop, py_take.
  destruct (Z.ltb_spec (Z.of_nat L - 1) 0); [lia|]. destruct (Z.ltb_spec (Z.of_nat L + Z.of_nat p) 0); [lia|].
  replace (Z.to_nat (Z.of_nat L - 1)) with (L - 1)%nat by lia.
  replace (Z.to_nat (Z.of_nat L + Z.of_nat p)) with (L + p)%nat by lia.
  replace (Z.to_nat (Z.of_nat p + 1)) with (S p) by lia.
  destruct (Nat.le_gt_cases (L + p) (2 * L - 1)) as [Hs|Hb].
  - rewrite fvec_firstn, fvec_skipn by lia. cbv zeta. rewrite fvec_length.
    replace (L + p - (L - 1))%nat with (S p) by lia. rewrite Nat.sub_diag, app_nil_r.
    apply fvec_ext. intros i Hi. f_equal. unfold dist. destruct (Nat.leb_spec (L - 1 + i) (L - 1)); lia.
  - rewrite firstn_all2 by (rewrite fvec_length; lia). rewrite fvec_skipn by lia. cbv zeta. rewrite fvec_length.
    replace (2 * L - 1 - (L - 1))%nat with L by lia.
    replace (S p) with (L + (S p - L))%nat at 2 by lia. rewrite fvec_app. f_equal.
    + apply fvec_ext. intros i Hi. f_equal. unfold dist. destruct (Nat.leb_spec (L - 1 + i) (L - 1)); lia.
    + unfold f0. rewrite fvec_repeat. apply fvec_ext. intros. symmetry. apply acf_0. lia.
Qed.

Lemma fsqrt_sq : forall e, fsqrt (fmul (Fin e) (Fin e)) = Fin (Rabs e).
Proof.
  intros. cbn [fmul]. rewrite fsqrt_nonneg by (pose proof (Rle_0_sqr e); unfold Rsqr in *; lra).
  f_equal. apply sqrt_Rsqr_abs.
Qed.

Lemma lpc_helper_sounding : forall L p f, (0 < L)%nat -> (0 < p)%nat -> sounding L f ->
  exists a, normal_equations L p f a /\
    lpc_helper (fvec L f) (Z.of_nat p) = Ok (fvec (S p) a, Fin (lpc_error L p f a)).
Proof.
  intros L p f HL Hp Hf.
  destruct (linalg_inv_regular p (fun i j => acf L f (dist i j)) Hp (fun v => toeplitz_kernel L p f v Hf))
    as (B & HB & Hinv).
  set (phi := fun i => bigsum p (fun k => B i k * - acf L f (S k))).
  set (a := fun k => match k with O => 1 | S i => phi i end).
  exists a. split.
  - split; [reflexivity|]. intros i Hi. rewrite bigsum_S_l. cbn [a]. destruct i as [|i]; [lia|].
    rewrite (bigsum_ext p _ (fun j => acf L f (dist i j) * bigsum p (fun k => B j k * - acf L f (S k)))).
    2:{ intros. rewrite dist_S. reflexivity. }
    rewrite (Hinv (fun k => - acf L f (S k)) i) by lia.
    unfold dist. cbn [Nat.leb]. rewrite Nat.sub_0_r. ring.
  - unfold lpc_helper. destruct (Z.ltb_spec (Z.of_nat p + 1) 0); [lia|].
    rewrite correlate_fvec by exact HL. cbn [rbind]. unfold zlen. rewrite fvec_length.
    pose proof (lpc_r L p f HL) as Hr. cbv zeta in Hr |- *. rewrite Hr.
    rewrite removelast_fvec, toeplitz_fvec, HB. cbn [rbind].
    rewrite fvec_S. cbn [tl].
    rewrite (fvec_map p _ fneg Ropp) by reflexivity.
    assert (Ephi : map (fun row => fdot row (fvec p (fun i => - acf L f (S i)))) (fmat p p B) = fvec p phi).
    { unfold fmat. rewrite map_map. unfold fvec at 3. apply map_ext. intros i. apply fdot_fvec. }
    rewrite Ephi. change f1 with (Fin (a O)).
    assert (Ea : Fin (a O) :: fvec p phi = fvec (S p) a) by (rewrite fvec_S; reflexivity).
    rewrite Ea. destruct (2 * L - 1)%nat as [|m] eqn:Em; [lia|].
    rewrite fvec_S. cbn [tl]. unfold py_nth. cbn [zlen List.length]. unfold zlen. cbn [List.length].
    destruct (Z.ltb_spec 0 0); [lia|]. destruct (Z.leb_spec 0 0); [|lia].
    destruct (Z.ltb_spec 0 (Z.of_nat (S (List.length (fvec m (fun i => acf L f (dist (L - 1) (S i)))))))); [|lia].
    cbn [andb Z.to_nat nth_error rbind]. rewrite fdot_min. cbn [fadd]. rewrite fsqrt_sq.
    unfold lpc_error. replace (2 * L - 2)%nat with m by lia. reflexivity.
Qed.

Lemma lpc_helper_silent : forall L p f, (0 < L)%nat -> (0 < p)%nat -> ~ sounding L f ->
  lpc_helper (fvec L f) (Z.of_nat p) = Raise LinAlgError.
Proof.
  intros L p f HL Hp Hf.
  assert (Hz : forall t, (t < L)%nat -> f t = 0).
  { intros t Ht. destruct (Req_EM_T (f t) 0) as [E|E]; [exact E|]. exfalso. apply Hf. exists t. auto. }
  unfold lpc_helper. destruct (Z.ltb_spec (Z.of_nat p + 1) 0); [lia|].
  rewrite correlate_fvec by exact HL. cbn [rbind]. unfold zlen. rewrite fvec_length.
  pose proof (lpc_r L p f HL) as Hr. cbv zeta in Hr |- *. rewrite Hr.
  rewrite removelast_fvec, toeplitz_fvec.
  rewrite (linalg_inv_singular p _ (fun _ => 1)); [reflexivity| |].
  - exists O. split; [exact Hp|lra].
  - intros i Hi. apply bigsum_zero. intros j Hj. unfold acf.
    rewrite (bigsum_zero (L - dist i j)); [ring|]. intros t Ht. rewrite (Hz t) by lia. ring.
Qed.

(** a non-finite sample is refused *)
Lemma nonfinite_sq : forall v, ~ finite v -> ~ finite (fmul v v).
Proof. intros v H (r & E). apply H. destruct v; cbn in E; try discriminate. eexists; reflexivity. Qed.
Lemma lpc_helper_nonfinite : forall frame order, (1 <= order)%Z -> frame <> [] -> ~ Forall finite frame ->
  lpc_helper frame order = Raise ValueError.
Proof.
  intros frame order Ho Hne Hn. unfold lpc_helper. destruct (Z.ltb_spec (order + 1) 0); [lia|].
  unfold correlate_full. destruct frame as [|y t] eqn:E; [congruence|]. rewrite <- E in *.
  set (L := List.length frame). assert (HL : (0 < L)%nat) by (unfold L; rewrite E; cbn; lia).
  clear E y t. cbn [rbind].
  match goal with |- context[map ?g (seq 0 (2 * L - 1))] => set (g0 := g); set (ac := map g0 (seq 0 (2 * L - 1))) end.
  assert (Hac : List.length ac = (2 * L - 1)%nat) by (unfold ac; rewrite map_length, seq_length; reflexivity).
  assert (Hg : ~ finite (g0 (L - 1)%nat)).
  { unfold g0. replace (L - 1 - (L - 1))%nat with O by lia.
    replace (Nat.min L (2 * L - 1 - (L - 1)) - 0)%nat with L by lia.
    rewrite (map_ext_in _ (fun j => fmul (nth j frame NaN) (nth j frame NaN))).
    2:{ intros j Hj. replace (j + (L - 1) - (L - 1))%nat with j by lia. reflexivity. }
    apply Exists_Forall_neg in Hn; [|intros v; destruct v; try (left; eexists; reflexivity); right; intros (r & Hr); discriminate].
    apply Exists_exists in Hn as (v & Hv & Hnf). apply (In_nth _ _ NaN) in Hv as (i & Hi & <-).
    eapply nonfinite_fsum; [|apply nonfinite_sq; exact Hnf].
    apply in_map_iff. exists i. split; [reflexivity|]. apply in_seq. unfold L. lia. }
  unfold zlen. fold L. cbv zeta.
  set (part := py_drop (Z.of_nat L - 1) (py_take (Z.of_nat L + order) ac)).
  assert (Hpart : exists rest, part = g0 (L - 1)%nat :: rest).
  { unfold part, py_drop, py_take. destruct (Z.ltb_spec (Z.of_nat L - 1) 0); [lia|].
    destruct (Z.ltb_spec (Z.of_nat L + order) 0); [lia|].
    replace (Z.to_nat (Z.of_nat L - 1)) with (L - 1)%nat by lia.
    set (l := firstn _ ac).
    assert (Hl : (L - 1 < List.length l)%nat) by (unfold l; rewrite firstn_length, Hac; lia).
    assert (Hn0 : nth (L - 1) l NaN = g0 (L - 1)%nat).
    { unfold l. rewrite firstn_nth_lt by lia. unfold ac.
      rewrite (nth_map_seq _ g0) by lia. reflexivity. }
    destruct (skipn (L - 1) l) as [|z r] eqn:Es.
    - pose proof (skipn_length (L - 1) l) as Hsl. rewrite Es in Hsl. cbn in Hsl. lia.
    - exists r. f_equal. rewrite <- Hn0. pose proof (skipn_nth_add _ l (L - 1) 0 NaN) as K.
      rewrite Es in K. cbn [nth] in K. rewrite Nat.add_0_r in K. exact K. }
  destruct Hpart as [rest Hpart].
  set (r := part ++ _). 
  assert (Hr : exists r', removelast r = g0 (L - 1)%nat :: r').
  { unfold r. rewrite Hpart. cbn [List.length].
    destruct rest as [|z rest'].
    - cbn [List.length app]. destruct (Z.to_nat (order + 1) - 1)%nat as [|k] eqn:Ek; [lia|].
      cbn [repeat removelast]. eexists. reflexivity.
    - cbn [app removelast]. eexists. reflexivity. }
  destruct Hr as [r' Hr]. rewrite Hr.
  unfold linalg_inv, toeplitz. cbn [List.length]. cbn [seq map].
  cbn [Nat.leb Nat.sub nth forallb].
  assert (finiteb (g0 (L - 1)%nat) = false) as ->.
  { destruct (g0 (L - 1)%nat) eqn:Eg; try reflexivity. exfalso. apply Hg. rewrite ?Eg. eexists; reflexivity. }
  reflexivity.
Qed.

(** ** lpc2lpcc *)
Lemma py_nth_ok : forall A (l : list A) i d, (0 <= i < zlen l)%Z -> py_nth l i = Ok (nth (Z.to_nat i) l d).
Proof.
  intros A l i d Hi. unfold py_nth. destruct (Z.ltb_spec i 0); [lia|].
  destruct (Z.leb_spec 0 i); [|lia]. destruct (Z.ltb_spec i (zlen l)); [|lia]. cbn [andb].
  rewrite (nth_error_nth' l d) by (unfold zlen in *; lia). reflexivity.
Qed.
Lemma py_set_ok : forall A (l : list A) i x, (0 <= i < zlen l)%Z -> py_set l i x = Ok (upd l (Z.to_nat i) x).
Proof.
  intros A l i x Hi. unfold py_set. destruct (Z.ltb_spec i 0); [lia|].
  destruct (Z.leb_spec 0 i); [|lia]. destruct (Z.ltb_spec i (zlen l)); [|lia]. reflexivity.
Qed.
Lemma py_set_high : forall A (l : list A) i x, (zlen l <= i)%Z -> py_set l i x = Raise IndexError.
Proof.
  intros A l i x Hi. unfold py_set. pose proof (zlen_nonneg _ l). destruct (Z.ltb_spec i 0); [lia|].
  destruct (Z.leb_spec 0 i); [|lia]. destruct (Z.ltb_spec i (zlen l)); [lia|]. reflexivity.
Qed.
Lemma py_nth_high : forall A (l : list A) i, (zlen l <= i)%Z -> py_nth l i = Raise IndexError.
Proof.
  intros A l i Hi. unfold py_nth. pose proof (zlen_nonneg _ l). destruct (Z.ltb_spec i 0); [lia|].
  destruct (Z.leb_spec 0 i); [|lia]. destruct (Z.ltb_spec i (zlen l)); [lia|]. reflexivity.
Qed.
Lemma foldM_app : forall A B (g : B -> A -> result B) l m b,
  foldM g (l ++ m) b = (do b' <- foldM g l b; foldM g m b').
Proof. induction l as [|x t IH]; intros m b; [reflexivity|]. cbn [app foldM]. destruct (g b x); [apply IH|reflexivity]. Qed.
Lemma zrange_S : forall a n, zrange a (a + Z.of_nat (S n)) = zrange a (a + Z.of_nat n) ++ [(a + Z.of_nat n)%Z].
Proof.
  intros. unfold zrange. replace (Z.to_nat (a + Z.of_nat (S n) - a)) with (S n) by lia.
  replace (Z.to_nat (a + Z.of_nat n - a)) with n by lia. rewrite seq_S, map_app. reflexivity.
Qed.

Lemma upd_fvec_app : forall n (v : nat -> R) x t,
  upd (fvec n v ++ x :: t) n (Fin (v n)) = fvec (S n) v ++ t.
Proof.
  intros. replace (S n) with (n + 1)%nat by lia. rewrite fvec_app, <- app_assoc.
  assert (H : forall l : list F, upd (l ++ x :: t) (List.length l) (Fin (v n)) = l ++ Fin (v n) :: t).
  { induction l; cbn; [reflexivity|]. f_equal. exact IHl. }
  rewrite <- (fvec_length n v) at 2. rewrite H. f_equal. cbn. rewrite Nat.add_0_r. reflexivity.
Qed.

Lemma first_loop : forall p a e n, (p <= n)%nat -> (1 <= p)%nat -> forall q, (q < p)%nat ->
  let c v := match v with O => e | S _ => coded_cepstrum a v end in
  foldM (fun c m => do am <- py_nth (fvec p a) m;
                    do ts <- mapM (fun k => do cm <- py_nth c m; do ak <- py_nth (fvec p a) (m - k);
                                            Ok (fmul (fmul (Fin (IZR k / IZR m)) cm) ak)) (zrange 1 m);
                    py_set c m (fadd am (fsum ts))) (zrange 1 (1 + Z.of_nat q)) (Fin e :: repeat f1 (n - 1))
  = Ok (fvec (S q) c ++ repeat f1 (n - S q)).
Proof.
  intros p a e n Hn Hp. cbv zeta. set (c := fun v => match v with O => e | S _ => coded_cepstrum a v end).
  induction q as [|q IH]; intros Hq.
  - change (zrange 1 (1 + Z.of_nat 0)) with (@nil Z). cbn [foldM]. rewrite fvec_S. cbn. reflexivity.
  - rewrite zrange_S, foldM_app, IH by lia. cbn [rbind foldM].
    replace (1 + Z.of_nat q)%Z with (Z.of_nat (S q)) by lia.
    destruct (n - S q)%nat as [|r] eqn:Er; [lia|]. cbn [repeat].
    rewrite (py_nth_ok _ _ _ NaN) by (unfold zlen; rewrite fvec_length; lia). rewrite Nat2Z.id, fvec_nth by lia.
    cbn [rbind].
    rewrite (mapM_ok_map _ _ _ (fun k => Fin (IZR k / IZR (Z.of_nat (S q)) * a (S q - Z.to_nat k)%nat))).
    + cbn [rbind]. rewrite py_set_ok by (unfold zlen; rewrite app_length, fvec_length; cbn; lia).
      rewrite Nat2Z.id. unfold zrange. rewrite map_map.
      replace (Z.to_nat (Z.of_nat (S q) - 1)) with q by lia.
      change (map (fun x => Fin (IZR (1 + Z.of_nat x) / IZR (Z.of_nat (S q)) * a (S q - Z.to_nat (1 + Z.of_nat x))%nat)) (seq 0 q))
        with (fvec q (fun x => IZR (1 + Z.of_nat x) / IZR (Z.of_nat (S q)) * a (S q - Z.to_nat (1 + Z.of_nat x))%nat)).
      rewrite fsum_fvec. cbn [fadd].
      assert (Ec : a (S q) + bigsum q (fun x => IZR (1 + Z.of_nat x) / IZR (Z.of_nat (S q)) * a (S q - Z.to_nat (1 + Z.of_nat x))%nat) = c (S q)).
      { unfold c, coded_cepstrum. f_equal. replace (S q - 1)%nat with q by lia. apply bigsum_ext. intros i Hi.
        rewrite !INR_IZR. replace (1 + Z.of_nat i)%Z with (Z.of_nat (S i)) by lia. rewrite Nat2Z.id. reflexivity. }
      rewrite Ec, upd_fvec_app. cbn [rbind]. replace (n - S (S q))%nat with r by lia. reflexivity.
    + intros k Hk. apply zrange_In in Hk.
      rewrite (py_nth_ok _ _ _ NaN) by (unfold zlen; rewrite app_length, fvec_length; cbn; lia).
      rewrite Nat2Z.id, app_nth2 by (rewrite fvec_length; lia). rewrite fvec_length, Nat.sub_diag. cbn [nth rbind].
      rewrite (py_nth_ok _ _ _ NaN) by (unfold zlen; rewrite fvec_length; lia). cbn [rbind].
      rewrite fvec_nth by lia. cbn [fmul f1]. rewrite Rmult_1_r.
      do 2 f_equal. f_equal. f_equal. lia.
Qed.

Lemma zh_log : forall e, 0 <= e -> flog (zero_handling1 (Fin e)) = Fin (spec_log e).
Proof. intros. apply flog_zh. assumption. Qed.

Lemma lpc2lpcc_ok : forall p a e n, (1 <= p)%nat -> (n = p \/ n = S p)%nat -> 0 <= e ->
  lpc2lpcc (fvec p a) (Fin e) (Z.of_nat n)
  = Ok (fvec n (fun m => if Nat.eqb m 0 then spec_log e else if Nat.ltb m p then coded_cepstrum a m else 1)).
Proof.
  intros p a e n Hp Hn He. unfold lpc2lpcc. rewrite zh_log by exact He.
  rewrite Nat2Z.id. destruct n as [|n']; [lia|]. cbn [repeat].
  rewrite py_set_ok by (unfold zlen; cbn; lia). cbn [upd Z.to_nat rbind]. unfold zlen at 1. rewrite fvec_length.
  pose proof (first_loop p a (spec_log e) (S n') ltac:(lia) Hp (p - 1) ltac:(lia)) as Hl. cbv zeta in Hl.
  replace (1 + Z.of_nat (p - 1))%Z with (Z.of_nat p) in Hl by lia.
  replace (S n' - 1)%nat with n' in Hl by lia. rewrite Hl. cbn [rbind].
  replace (S (p - 1)) with p by lia. unfold zlen. rewrite fvec_length.
  set (c := fun v => match v with O => spec_log e | S _ => coded_cepstrum a v end).
  set (d := fun m => if Nat.eqb m 0 then spec_log e else if Nat.ltb m p then coded_cepstrum a m else 1).
  assert (Ecd : fvec p c = fvec p d).
  { apply fvec_ext. intros i Hi. unfold c, d. destruct i; [reflexivity|]. cbn [Nat.eqb].
    destruct (Nat.ltb_spec (S i) p); [reflexivity|lia]. }
  rewrite Ecd. destruct Hn as [Hn|Hn].
  - destruct (Z.ltb_spec (Z.of_nat p) (Z.of_nat (S n'))); [lia|]. rewrite Hn, Nat.sub_diag, app_nil_r. reflexivity.
  - destruct (Z.ltb_spec (Z.of_nat p) (Z.of_nat (S n'))); [|lia]. rewrite Hn.
    replace (zrange (Z.of_nat p + 1) (Z.of_nat (S p))) with (@nil Z)
      by (unfold zrange; replace (Z.to_nat (Z.of_nat (S p) - (Z.of_nat p + 1))) with O by lia; reflexivity).
    cbn [foldM]. replace (S p - p)%nat with 1%nat by lia. cbn [repeat].
    replace (S p) with (p + 1)%nat by lia. rewrite fvec_app. do 2 f_equal. cbn. unfold d, f1.
    rewrite Nat.add_0_r. destruct (Nat.eqb_spec p 0); [lia|]. rewrite Nat.ltb_irrefl. reflexivity.
Qed.

Lemma first_loop_short : forall (a : list F) (p n : nat) c, List.length c = n -> List.length a = p -> (1 <= n < p)%nat ->
  forall q, exists r, foldM (fun c m => do am <- py_nth a m;
                    do ts <- mapM (fun k => do cm <- py_nth c m; do ak <- py_nth a (m - k);
                                            Ok (fmul (fmul (Fin (IZR k / IZR m)) cm) ak)) (zrange 1 m);
                    py_set c m (fadd am (fsum ts))) (zrange 1 (1 + Z.of_nat q)) c = r /\
    ((q < n)%nat -> exists c', r = Ok c' /\ List.length c' = n) /\
    ((n <= q < p)%nat -> r = Raise IndexError).
Proof.
  intros a p n c Hc Ha Hn. induction q as [|q (r & Hr & H1 & H2)].
  - eexists. split; [reflexivity|]. change (zrange 1 (1 + Z.of_nat 0)) with (@nil Z). cbn [foldM].
    split; [|lia]. intros _. eexists. split; [reflexivity|exact Hc].
  - eexists. split; [reflexivity|]. rewrite zrange_S, foldM_app, Hr.
    replace (1 + Z.of_nat q)%Z with (Z.of_nat (S q)) by lia.
    split.
    + intros Hq. destruct H1 as (c' & -> & Hc'); [lia|]. cbn [rbind foldM].
      rewrite (py_nth_ok _ _ _ NaN) by (unfold zlen; lia). cbn [rbind].
      rewrite (mapM_ok_map _ _ _ (fun k => fmul (fmul (Fin (IZR k / IZR (Z.of_nat (S q)))) (nth (S q) c' NaN))
                                              (nth (Z.to_nat (Z.of_nat (S q) - k)) a NaN))).
      * cbn [rbind]. rewrite py_set_ok by (unfold zlen; lia). eexists. split; [reflexivity|]. rewrite upd_length. exact Hc'.
      * intros k Hk. apply zrange_In in Hk. rewrite (py_nth_ok _ c' _ NaN) by (unfold zlen; lia). cbn [rbind].
        rewrite (py_nth_ok _ a _ NaN) by (unfold zlen; lia). cbn [rbind]. rewrite Nat2Z.id. reflexivity.
    + intros Hq. destruct (Nat.lt_ge_cases q n) as [Hlt|Hge].
      * destruct (H1 Hlt) as (c' & -> & Hc'). cbn [rbind foldM].
        rewrite (py_nth_ok _ _ _ NaN) by (unfold zlen; lia). cbn [rbind].
        match goal with |- context[mapM ?g ?l] => destruct (mapM g l) as [ts|e] eqn:Em end; cbn [rbind].
        -- rewrite py_set_high by (unfold zlen; lia). reflexivity.
        -- apply mapM_raise in Em as (k & Hk & Em). cbv beta in Em. apply zrange_In in Hk.
           rewrite py_nth_high in Em by (unfold zlen; lia). cbn [rbind] in Em. congruence.
      * rewrite H2 by lia. reflexivity.
Qed.

Lemma lpc2lpcc_short : forall a e n, (n < zlen a)%Z -> lpc2lpcc a e n = Raise IndexError.
Proof.
  intros a e n Hn. unfold lpc2lpcc.
  destruct (Z.le_gt_cases n 0) as [H0|H0].
  - replace (Z.to_nat n) with O by lia. cbn [repeat]. rewrite py_set_high by (unfold zlen; cbn; lia). reflexivity.
  - rewrite py_set_ok by (unfold zlen; rewrite repeat_length; lia). cbn [rbind].
    set (c := upd _ _ _).
    destruct (first_loop_short a (List.length a) (Z.to_nat n) c) with (q := (List.length a - 1)%nat) as (r & Hr & _ & H2).
    + unfold c. rewrite upd_length, repeat_length. reflexivity.
    + reflexivity.
    + unfold zlen in Hn. lia.
    + unfold zlen in *. replace (1 + Z.of_nat (List.length a - 1))%Z with (Z.of_nat (List.length a)) in Hr by lia.
      rewrite Hr, H2 by lia. reflexivity.
Qed.

Lemma lpc2lpcc_long : forall a e n, a <> [] -> (zlen a + 1 < n)%Z -> lpc2lpcc a e n = Raise IndexError.
Proof.
  intros a e n Ha Hn. unfold lpc2lpcc. pose proof (zlen_nonneg _ a) as Hz.
  assert (Hp : (1 <= zlen a)%Z) by (destruct a; [congruence|unfold zlen; cbn; lia]).
  rewrite py_set_ok by (unfold zlen in *; rewrite repeat_length; lia). cbn [rbind].
  set (c0 := upd _ _ _).
  assert (Hc0 : zlen c0 = n) by (unfold c0, zlen; rewrite upd_length, repeat_length; lia).
  assert (Hloop : forall q, (Z.of_nat q < zlen a)%Z -> exists c', foldM (fun c m => do am <- py_nth a m;
                    do ts <- mapM (fun k => do cm <- py_nth c m; do ak <- py_nth a (m - k);
                                            Ok (fmul (fmul (Fin (IZR k / IZR m)) cm) ak)) (zrange 1 m);
                    py_set c m (fadd am (fsum ts))) (zrange 1 (1 + Z.of_nat q)) c0 = Ok c' /\ zlen c' = n).
  { induction q as [|q IH]; intros Hq.
    - exists c0. split; [reflexivity|exact Hc0].
    - destruct IH as (c' & Hc & Hl); [lia|]. rewrite zrange_S, foldM_app, Hc. cbn [rbind foldM].
      rewrite (py_nth_ok _ _ _ NaN) by lia. cbn [rbind].
      rewrite (mapM_ok_map _ _ _ (fun k => fmul (fmul (Fin (IZR k / IZR (1 + Z.of_nat q))) (nth (Z.to_nat (1 + Z.of_nat q)) c' NaN))
                                              (nth (Z.to_nat (1 + Z.of_nat q - k)) a NaN))).
      + cbn [rbind]. rewrite py_set_ok by lia. eexists. split; [reflexivity|]. unfold zlen. rewrite upd_length. exact Hl.
      + intros k Hk. apply zrange_In in Hk. rewrite (py_nth_ok _ c' _ NaN) by lia. cbn [rbind].
        rewrite (py_nth_ok _ a _ NaN) by lia. reflexivity. }
  destruct (Hloop (Z.to_nat (zlen a - 1)) ltac:(lia)) as (c' & Hc & Hl).
  replace (1 + Z.of_nat (Z.to_nat (zlen a - 1)))%Z with (zlen a) in Hc by lia. rewrite Hc. cbn [rbind].
  destruct (Z.ltb_spec (zlen a) n); [|lia].
  assert (Er : exists t, zrange (zlen a + 1) n = (zlen a + 1)%Z :: t).
  { unfold zrange. destruct (Z.to_nat (n - (zlen a + 1))) as [|k] eqn:Ek; [lia|]. cbn [seq map].
    rewrite Z.add_0_r. eexists. reflexivity. }
  destruct Er as [t ->]. cbn [foldM].
  assert (Er2 : exists t2, zrange (zlen a + 1 - zlen a) (zlen a + 1) = 1%Z :: t2).
  { unfold zrange. destruct (Z.to_nat (zlen a + 1 - (zlen a + 1 - zlen a))) as [|k] eqn:Ek; [lia|]. cbn [seq map].
    replace (zlen a + 1 - zlen a + Z.of_nat 0)%Z with 1%Z by lia. eexists. reflexivity. }
  destruct Er2 as [t2 ->]. cbn [mapM]. rewrite (py_nth_ok _ c' _ NaN) by lia. cbn [rbind].
  rewrite (py_nth_high _ a) by lia. reflexivity.
Qed.
