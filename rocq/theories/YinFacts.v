(** * Lemmas about the YIN pitch estimator *)
From Coq Require Import Reals ZArith List String Bool Lia Lra Psatz.
From Flocq Require Import Core.Raux.
From Verif Require Import Base BaseFacts SpecBase SpecMat BigSum MatFacts SpecBanks SpecFeatures LpcMore Yin SpecYin.
Import ListNotations.
Local Open Scope R_scope.

(** ** library functions on finite data *)
Lemma cumsum_fvec : forall n v, cumsum (fvec n v) = fvec n (fun k => bigsum (S k) v).
Proof.
  intros. unfold cumsum. rewrite fvec_length. unfold fvec at 2. apply map_ext_in. intros k Hk. apply in_seq in Hk.
  rewrite fvec_firstn by lia. apply fsum_fvec.
Qed.
Lemma cumsum_length : forall l, List.length (cumsum l) = List.length l.
Proof. intros. unfold cumsum. rewrite map_length, seq_length. reflexivity. Qed.

Lemma forallb_finite_fvec : forall n v, forallb finiteb (fvec n v) = true.
Proof. intros. apply forallb_forall. intros x Hx. unfold fvec in Hx. apply in_map_iff in Hx as (i & <- & _). reflexivity. Qed.

Lemma fftconvolve_fvec : forall na nb a b, (1 <= na)%nat -> (1 <= nb)%nat ->
  fftconvolve (fvec na a) (fvec nb b)
  = fvec (na + nb - 1) (fun k => let lo := (k - (nb - 1))%nat in
                         bigsum (Nat.min (S k) na - lo) (fun i => a (lo + i)%nat * b (k - (lo + i))%nat)).
Proof.
  intros na nb a b Ha Hb. unfold fftconvolve.
  destruct (fvec na a) eqn:Ea; [apply (f_equal (@List.length F)) in Ea; rewrite fvec_length in Ea; cbn in Ea; lia|].
  destruct (fvec nb b) eqn:Eb; [apply (f_equal (@List.length F)) in Eb; rewrite fvec_length in Eb; cbn in Eb; lia|].
  rewrite <- Ea, <- Eb. rewrite !forallb_finite_fvec, !fvec_length. cbn [andb].
  unfold fvec at 3. apply map_ext_in. intros k Hk. apply in_seq in Hk. cbv zeta.
  rewrite <- (fsum_fvec (Nat.min (S k) na - (k - (nb - 1)))). f_equal. unfold fvec at 3.
  rewrite map_seq_shift.
  apply map_ext_in. intros i Hi. apply in_seq in Hi. rewrite !fvec_nth by lia. reflexivity.
Qed.

(** ** the difference function *)
Lemma square_sum : forall L f tau, (tau <= L)%nat ->
  yin_d L f tau = bigsum (L - tau) (fun j => f j * f j) + (bigsum L (fun j => f j * f j) - bigsum tau (fun j => f j * f j))
                  - 2 * bigsum (L - tau) (fun j => f j * f (j + tau)%nat).
Proof.
  intros L f tau Ht. replace (bigsum L (fun j => f j * f j)) with (bigsum (tau + (L - tau)) (fun j => f j * f j)) by (f_equal; lia).
  rewrite bigsum_split. unfold yin_d.
  replace (bigsum (L - tau) (fun i => f (tau + i)%nat * f (tau + i)%nat))
    with (bigsum (L - tau) (fun i => f (i + tau)%nat * f (i + tau)%nat)) by (apply bigsum_ext; intros; rewrite (Nat.add_comm i); reflexivity).
  rewrite <- bigsum_scal.
  replace (bigsum (L - tau) (fun j => f j * f j) +
    (bigsum tau (fun j => f j * f j) + bigsum (L - tau) (fun i => f (i + tau)%nat * f (i + tau)%nat) - bigsum tau (fun j => f j * f j)))
    with (bigsum (L - tau) (fun j => f j * f j) + bigsum (L - tau) (fun i => f (i + tau)%nat * f (i + tau)%nat)) by ring.
  rewrite <- bigsum_plus, <- bigsum_minus. apply bigsum_ext. intros. ring.
Qed.

Lemma compute_difference_all : forall L f T,
  compute_difference (fvec L f) T = py_take T (fvec L (yin_d L f)).
Proof.
  intros L f T. unfold compute_difference. rewrite fvec_length.
  destruct L as [|L'].
  { unfold py_drop. destruct T; reflexivity. }
  set (L := S L'). rewrite (fvec_map2 L f f fmul Rmult) by reflexivity. rewrite cumsum_fvec.
  set (q := fun j => f j * f j). change (fun i => f i * f i) with q.
  assert (EC : f0 :: fvec L (fun k => bigsum (S k) q) = fvec (S L) (fun k => bigsum k q)) by (rewrite fvec_S; reflexivity).
  rewrite EC. cbn [skipn]. rewrite fvec_nth by lia. rewrite (fvec_firstn L) by lia.
  rewrite (fvec_map L _ _ (fun c => bigsum L q - c)) by reflexivity.
  rewrite fvec_S. cbn [skipn]. rewrite fvec_rev, (fvec_rev L f), fftconvolve_fvec by lia.
  unfold py_drop. destruct (Z.ltb_spec (Z.of_nat L - 1) 0); [lia|].
  rewrite fvec_skipn by lia. replace (L + L - 1 - Z.to_nat (Z.of_nat L - 1))%nat with L by lia.
  rewrite (fvec_map L _ _ (fun x => 2 * x)) by reflexivity.
  rewrite (fvec_map2 L _ _ fadd Rplus) by reflexivity. rewrite (fvec_map2 L _ _ fsub Rminus) by reflexivity.
  assert (ED : forall tau, (tau < L)%nat ->
    bigsum (S (L - 1 - tau)) q + (bigsum L q - bigsum tau q) -
    2 * (let lo := (Z.to_nat (Z.of_nat L - 1) + tau - (L - 1))%nat in
         bigsum (Nat.min (S (Z.to_nat (Z.of_nat L - 1) + tau)) L - lo)
           (fun i => f (lo + i)%nat * f (L - 1 - (Z.to_nat (Z.of_nat L - 1) + tau - (lo + i)))%nat)) = yin_d L f tau).
  { intros tau Ht. rewrite square_sum by lia. fold q. replace (S (L - 1 - tau))%nat with (L - tau)%nat by lia.
    f_equal. f_equal. cbv zeta. replace (Z.to_nat (Z.of_nat L - 1)) with (L - 1)%nat by lia.
    replace (Nat.min (S (L - 1 + tau)) L - (L - 1 + tau - (L - 1)))%nat with (L - tau)%nat by lia.
    apply bigsum_ext. intros j Hj. rewrite Rmult_comm. f_equal; f_equal; lia. }
  rewrite (fvec_ext L _ (yin_d L f)); [reflexivity|exact ED].
Qed.

Lemma compute_difference_fvec : forall L f T, (0 <= T)%Z ->
  compute_difference (fvec L f) T = fvec (Nat.min (Z.to_nat T) L) (yin_d L f).
Proof.
  intros L f T HT. rewrite compute_difference_all. unfold py_take. destruct (Z.ltb_spec T 0); [lia|].
  destruct (Nat.le_ge_cases (Z.to_nat T) L).
  - rewrite Nat.min_l by auto. apply fvec_firstn. auto.
  - rewrite Nat.min_r by auto. rewrite firstn_all2 by (rewrite fvec_length; auto). reflexivity.
Qed.

Lemma yin_d_nonneg : forall L f tau, 0 <= yin_d L f tau.
Proof. intros. apply bigsum_nonneg. intros. apply pow2_ge_0. Qed.
Lemma yin_d_0 : forall L f, yin_d L f 0 = 0.
Proof. intros. apply bigsum_zero. intros. rewrite Nat.add_0_r. ring. Qed.

(** ** cumulative mean normalisation *)
Lemma zrange1_fvec : forall T, map fZ (zrange 1 (Z.of_nat (S T))) = fvec T (fun k => INR (S k)).
Proof.
  intros. unfold zrange, fvec. rewrite map_map. replace (Z.to_nat (Z.of_nat (S T) - 1)) with T by lia.
  apply map_ext. intros k. unfold fZ. f_equal. rewrite INR_IZR. f_equal. lia.
Qed.

Definition yin_curve (T : nat) (d : nat -> R) : list F := map (yin_c d) (seq 0 T).

(** any d >= 0 *)
Lemma compute_cmnd_fvec : forall T d, (forall k, (1 <= k <= T)%nat -> 0 <= d k) ->
  compute_cmnd (fvec (S T) d) (Z.of_nat (S T)) = Ok (yin_curve (S T) d).
Proof.
  intros T d Hd. unfold compute_cmnd. rewrite fvec_S. cbn [skipn]. rewrite zrange1_fvec, cumsum_fvec.
  unfold bcast at 1. rewrite !fvec_length, Nat.eqb_refl. cbn [rbind].
  rewrite (fvec_map2 T _ _ fmul Rmult) by reflexivity.
  unfold bcast. rewrite !fvec_length, Nat.eqb_refl. cbn [rbind]. f_equal. unfold yin_curve. cbn [seq map]. f_equal.
  rewrite <- seq_shift, map_map. unfold fvec. rewrite map2_map_same. apply map_ext_in. intros k Hk. apply in_seq in Hk.
  unfold yin_c. cbn [Nat.eqb]. unfold yin_sum.
  unfold fdiv. destruct (Req_EM_T (bigsum (S k) (fun i => d (S i))) 0) as [E|E]; [|reflexivity].
  assert (d (S k) = 0) as ->.
  { apply (bigsum_eq0 (S k) (fun i => d (S i))); [|exact E|lia]. intros i Hi. apply Hd. lia. }
  rewrite Rmult_0_l. unfold finfmul. destruct (Req_EM_T 0 0); [reflexivity|lra].
Qed.

Lemma compute_cmnd_mismatch : forall d T, let m := zlen (skipn 1 d) in
  (m <> Z.max 0 (T - 1))%Z -> (m <> 1)%Z -> (T <> 2)%Z -> compute_cmnd d T = Raise ValueError.
Proof.
  intros d T m H0 H1 H2. unfold compute_cmnd. unfold m in H0, H1. clear m. set (l := skipn 1 d) in *.
  assert (K : forall r : list F, zlen r = Z.max 0 (T - 1) -> bcast fmul l r = Raise ValueError).
  { intros r Hr. unfold bcast. destruct (Nat.eqb_spec (List.length l) (List.length r)).
    - exfalso. unfold zlen in *. lia.
    - destruct l as [|a [|b l']]; destruct r as [|u [|v r']]; unfold zlen in *; cbn [List.length] in *; try reflexivity; lia. }
  rewrite K; [reflexivity|]. unfold zlen, zrange. rewrite !map_length, seq_length. lia.
Qed.

Lemma yin_curve_length : forall T d, List.length (yin_curve T d) = T.
Proof. intros. unfold yin_curve. rewrite map_length, seq_length. reflexivity. Qed.
Lemma yin_curve_nth : forall T d t x, (t < T)%nat -> nth t (yin_curve T d) x = yin_c d t.
Proof. intros. unfold yin_curve. apply nth_map_seq. auto. Qed.

(** ** the search *)
Lemma py_nth_nat : forall A (l : list A) k d, (k < List.length l)%nat -> py_nth l (Z.of_nat k) = Ok (nth k l d).
Proof.
  intros A l k d Hk. unfold py_nth. destruct (Z.ltb_spec (Z.of_nat k) 0); [lia|].
  unfold zlen. destruct (Z.leb_spec 0 (Z.of_nat k)); [|lia]. destruct (Z.ltb_spec (Z.of_nat k) (Z.of_nat (List.length l))); [|lia].
  cbn [andb]. rewrite Nat2Z.id. rewrite (nth_error_nth' l d) by auto. reflexivity.
Qed.
Lemma py_nth_nat_high : forall A (l : list A) k, (List.length l <= k)%nat -> py_nth l (Z.of_nat k) = Raise IndexError.
Proof.
  intros A l k Hk. unfold py_nth. destruct (Z.ltb_spec (Z.of_nat k) 0); [lia|].
  unfold zlen. destruct (Z.ltb_spec (Z.of_nat k) (Z.of_nat (List.length l))); [lia|].
  rewrite andb_false_r. reflexivity.
Qed.

Lemma descend_ok : forall fuel c tau hi, (tau < hi)%nat -> (hi <= List.length c)%nat -> (hi - tau <= S fuel)%nat ->
  exists p, descend fuel c (Z.of_nat tau) (Z.of_nat hi) = Ok (Z.of_nat p) /\ (tau <= p < hi)%nat /\
    (forall t, (tau <= t < p)%nat -> fltb (nth (S t) c NaN) (nth t c NaN) = true) /\
    ((S p < hi)%nat -> fltb (nth (S p) c NaN) (nth p c NaN) = false).
Proof.
  induction fuel as [|n IH]; intros c tau hi Ht Hh Hf.
  - exists tau. cbn [descend]. split; [reflexivity|]. split; [lia|]. split; intros; lia.
  - cbn [descend]. replace (Z.of_nat tau + 1)%Z with (Z.of_nat (S tau)) by lia.
    destruct (Z.ltb_spec (Z.of_nat (S tau)) (Z.of_nat hi)) as [Hl|Hl].
    + rewrite (py_nth_nat _ c (S tau) NaN), (py_nth_nat _ c tau NaN) by lia. cbn [rbind].
      destruct (fltb (nth (S tau) c NaN) (nth tau c NaN)) eqn:E.
      * destruct (IH c (S tau) hi) as (p & Hp & Hr & Hd & Hs); try lia.
        exists p. split; [exact Hp|]. split; [lia|]. split; [|exact Hs].
        intros t Ht'. destruct (Nat.eq_dec t tau) as [->|]; [exact E|]. apply Hd. lia.
      * exists tau. split; [reflexivity|]. split; [lia|]. split; [intros; lia|]. auto.
    + exists tau. split; [reflexivity|]. split; [lia|]. split; intros; lia.
Qed.

Lemma search_ok : forall fuel c tau hi th, (hi <= List.length c)%nat -> (hi - tau <= fuel)%nat ->
  let v t := nth t c NaN in
  (search fuel c (Z.of_nat tau) (Z.of_nat hi) th = Ok 0%Z /\ yin_unvoiced v tau hi th) \/
  (exists s p, search fuel c (Z.of_nat tau) (Z.of_nat hi) th = Ok (Z.of_nat p) /\ yin_lag v tau hi th s p).
Proof.
  induction fuel as [|n IH]; intros c tau hi th Hh Hf v.
  - left. split; [reflexivity|]. intros t Ht. lia.
  - cbn [search]. destruct (Z.ltb_spec (Z.of_nat tau) (Z.of_nat hi)) as [Hl|Hl].
    2:{ left. split; [reflexivity|]. intros t Ht. lia. }
    rewrite (py_nth_nat _ c tau NaN) by lia. cbn [rbind]. destruct (fltb (nth tau c NaN) (Fin th)) eqn:E.
    + right. destruct (descend_ok (S n) c tau hi) as (p & Hp & Hr & Hd & Hs); try lia.
      exists tau, p. split; [exact Hp|]. split; [lia|]. split; [lia|]. split; [exact E|]. split; [intros; lia|]. split; auto.
    + replace (Z.of_nat tau + 1)%Z with (Z.of_nat (S tau)) by lia.
      destruct (IH c (S tau) hi th) as [[H1 H2]|(s & p & H1 & H2)]; try lia.
      * left. split; [exact H1|]. intros t Ht. destruct (Nat.eq_dec t tau) as [->|]; [exact E|]. apply H2. lia.
      * right. exists s, p. split; [exact H1|]. destruct H2 as (A & B & C & D & G & I). split; [lia|]. split; [lia|].
        split; [exact C|]. split; [|split; auto]. intros t Ht. destruct (Nat.eq_dec t tau) as [->|]; [exact E|]. apply D. lia.
Qed.

Lemma get_pitch_ok : forall c lo hi th, (hi <= List.length c)%nat ->
  let v t := nth t c NaN in
  (get_pitch c (Z.of_nat lo) (Z.of_nat hi) th = Ok 0%Z /\ yin_unvoiced v lo hi th) \/
  (exists s p, get_pitch c (Z.of_nat lo) (Z.of_nat hi) th = Ok (Z.of_nat p) /\ yin_lag v lo hi th s p).
Proof. intros c lo hi th Hh v. apply search_ok; lia. Qed.

Lemma yin_lag_unique : forall c lo hi th s p s' p', yin_lag c lo hi th s p -> yin_lag c lo hi th s' p' -> s = s' /\ p = p'.
Proof.
  intros c lo hi th s p s' p' (A & B & C & D & G & I) (A' & B' & C' & D' & G' & I').
  assert (s = s').
  { destruct (Nat.lt_trichotomy s s') as [K|[K|K]]; [|exact K|].
    - specialize (D' s ltac:(lia)). congruence.
    - specialize (D s' ltac:(lia)). congruence. }
  split; [assumption|]. subst s'. destruct (Nat.lt_trichotomy p p') as [K|[K|K]]; [|exact K|].
  - specialize (G' p ltac:(lia)). specialize (I ltac:(lia)). congruence.
  - specialize (G p' ltac:(lia)). specialize (I' ltac:(lia)). congruence.
Qed.
Lemma yin_lag_voiced : forall c lo hi th s p, yin_lag c lo hi th s p -> ~ yin_unvoiced c lo hi th.
Proof. intros c lo hi th s p (A & B & C & _) Hu. rewrite Hu in C by lia. discriminate. Qed.

(** a curve too short for the range *)
Lemma get_pitch_short : forall c lo hi th, (List.length c < hi)%nat -> (lo < hi)%nat ->
  yin_unvoiced (fun t => nth t c NaN) lo (List.length c) th ->
  get_pitch c (Z.of_nat lo) (Z.of_nat hi) th = Raise IndexError.
Proof.
  intros c lo hi th Hc Hl Hu. unfold get_pitch. replace (Z.to_nat (Z.of_nat hi - Z.of_nat lo)) with (hi - lo)%nat by lia.
  remember (hi - lo)%nat as n. revert lo Hl Hu Heqn. induction n as [|n IH]; intros lo Hl Hu En; [lia|].
  cbn [search]. destruct (Z.ltb_spec (Z.of_nat lo) (Z.of_nat hi)); [|lia].
  destruct (Nat.lt_ge_cases lo (List.length c)) as [K|K].
  - rewrite (py_nth_nat _ c lo NaN) by lia. cbn [rbind]. rewrite Hu by lia.
    replace (Z.of_nat lo + 1)%Z with (Z.of_nat (S lo)) by lia. apply IH; try lia. intros t Ht. apply Hu. lia.
  - rewrite py_nth_nat_high by lia. reflexivity.
Qed.

(** ** argmin *)

Lemma fltb_irrefl : forall x, fltb x x = false.
Proof. intros [r| | |]; cbn; auto. apply Rltb_false. lra. Qed.
Lemma fltb_trans : forall x y z, fltb x y = true -> fltb y z = true -> fltb x z = true.
Proof.
  intros [a| | |] [b| | |] [c| | |]; cbn; auto; try discriminate. unfold Rltb.
  destruct (Rlt_dec a b), (Rlt_dec b c), (Rlt_dec a c); auto; try discriminate. lra.
Qed.
Lemma fltb_not_lt_trans : forall x y z, x <> NaN -> y <> NaN -> z <> NaN ->
  fltb x y = false -> fltb z y = true -> fltb z x = true.
Proof.
  intros [a| | |] [b| | |] [c| | |]; cbn; intros; auto; try congruence. unfold Rltb in *.
  destruct (Rlt_dec a b), (Rlt_dec c b), (Rlt_dec c a); auto; try discriminate. lra.
Qed.
Lemma fisnan_true : forall x, fisnan x = true <-> x = NaN.
Proof. intros [r| | |]; cbn; split; congruence. Qed.
Lemma fisnan_false : forall x, fisnan x = false <-> x <> NaN.
Proof. intros [r| | |]; cbn; split; congruence. Qed.

Lemma arg_scan_min : forall l pre best v, let c := pre ++ l in
  (best < List.length pre)%nat -> v = nth best c NaN -> is_argmin (fun t => nth t c NaN) (List.length pre) best ->
  is_argmin (fun t => nth t c NaN) (List.length c) (arg_scan fltb l (List.length pre) best v).
Proof.
  induction l as [|x l IH]; intros pre best v c Hb Hv Hm.
  - cbn [arg_scan]. unfold c in *. rewrite app_nil_r in *. exact Hm.
  - cbn [arg_scan].
    assert (Hx : nth (List.length pre) c NaN = x) by (unfold c; rewrite app_nth2, Nat.sub_diag by lia; reflexivity).
    assert (Ec : c = (pre ++ [x]) ++ l) by (unfold c; rewrite <- app_assoc; reflexivity).
    assert (El : List.length (pre ++ [x]) = S (List.length pre)) by (rewrite app_length; cbn; lia).
    specialize (IH (pre ++ [x])). rewrite <- Ec in IH. cbv zeta in IH. rewrite El in IH.
    destruct Hm as [_ Hm].
    destruct (negb (fisnan v) && (fisnan x || fltb x v)) eqn:E.
    + apply andb_prop in E as [E1 E2]. apply negb_true_iff, fisnan_false in E1.
      destruct Hm as [[Hn _]|[Ha Hs]]; [congruence|].
      apply IH; [lia|auto|]. split; [lia|]. rewrite Hx.
      apply orb_prop in E2 as [E2|E2].
      * left. split; [apply fisnan_true; auto|]. intros t Ht. apply Ha. auto.
      * right. assert (Nx : x <> NaN) by (intros ->; discriminate E2).
        assert (Lt : forall t, (t < List.length pre)%nat -> fltb x (nth t c NaN) = true).
        { intros t Ht. destruct (Ha t Ht) as [A1 A2]. rewrite <- Hv in A2.
          apply (fltb_not_lt_trans (nth t c NaN) v x); auto. }
        split; [|exact Lt]. intros t Ht. destruct (Nat.eq_dec t (List.length pre)) as [->|Hne].
        -- rewrite Hx. split; [auto|apply fltb_irrefl].
        -- split; [apply Ha; lia|]. destruct (fltb (nth t c NaN) x) eqn:K; [|reflexivity].
           pose proof (fltb_trans _ _ _ K (Lt t ltac:(lia))). rewrite fltb_irrefl in H. discriminate.
    + apply IH; [lia|auto|]. split; [lia|].
      destruct Hm as [[Hn Hm]|[Ha Hs]]; [left; auto|]. right. split; [|auto].
      assert (Nv : v <> NaN) by (rewrite Hv; apply Ha; auto). apply fisnan_false in Nv. rewrite Nv in E. cbn [negb andb] in E.
      apply orb_false_elim in E as [E1 E2].
      intros t Ht. destruct (Nat.eq_dec t (List.length pre)) as [->|Hne]; [|apply Ha; lia].
      rewrite Hx, <- Hv. split; [apply fisnan_false; auto|auto].
Qed.

Lemma np_argmin_ok : forall c, c <> [] -> exists a, np_argmin c = Ok a /\ is_argmin (fun t => nth t c NaN) (List.length c) a.
Proof.
  intros [|x t] Hc; [congruence|]. eexists. split; [reflexivity|].
  apply (arg_scan_min t [x] O x); [cbn; lia|reflexivity|]. split; [cbn; lia|]. cbn.
  destruct (fisnan x) eqn:E; [left|right].
  - split; [apply fisnan_true; auto|intros; lia].
  - split; [|intros; lia]. intros u Hu. assert (u = O) as -> by lia. split; [apply fisnan_false; auto|apply fltb_irrefl].
Qed.
Lemma is_argmin_unique : forall c n a b, is_argmin c n a -> is_argmin c n b -> a = b.
Proof.
  intros c n a b [Ha [[A1 A2]|[A1 A2]]] [Hb [[B1 B2]|[B1 B2]]].
  - destruct (Nat.lt_trichotomy a b) as [K|[K|K]]; auto; exfalso; [apply (B2 a)|apply (A2 b)]; auto.
  - exfalso. apply (B1 a); auto.
  - exfalso. apply (A1 b); auto.
  - destruct (Nat.lt_trichotomy a b) as [K|[K|K]]; auto; exfalso.
    + specialize (B2 a K). destruct (A1 b Hb). congruence.
    + specialize (A2 b K). destruct (B1 a Ha). congruence.
Qed.

(** ** Python's min *)
Lemma py_min_fold : forall l b, b <> NaN ->
  let m := fold_left (fun b y => if fltb y b then y else b) l b in
  m <> NaN /\ (m = b \/ In m l) /\ fltb b m = false /\ (forall y, In y l -> fltb y m = false).
Proof.
  induction l as [|y l IH]; intros b Hb m.
  - cbn in m. subst m. split; [auto|]. split; [auto|]. split; [apply fltb_irrefl|]. intros ? [].
  - cbn [fold_left] in m. destruct (fltb y b) eqn:E.
    + assert (Ny : y <> NaN) by (intros ->; discriminate E).
      destruct (IH y Ny) as (A & B & C & D). fold m in A, B, C, D. split; [auto|]. split.
      { right. destruct B as [->|B]; [left; auto|right; auto]. }
      split.
      { destruct (fltb b m) eqn:K; [|reflexivity]. pose proof (fltb_trans _ _ _ E K). congruence. }
      intros z [<-|Hz]; auto.
    + destruct (IH b Hb) as (A & B & C & D). fold m in A, B, C, D. split; [auto|]. split.
      { destruct B as [B|B]; [left; auto|right; right; auto]. }
      split; [auto|]. intros z [<-|Hz]; [|auto].
      destruct (fltb y m) eqn:K; [|reflexivity].
      assert (Ny : y <> NaN) by (intros ->; discriminate K).
      pose proof (fltb_not_lt_trans b m y Hb A Ny C K). congruence.
Qed.
Lemma py_min_ok : forall c, c <> [] -> nth 0 c NaN <> NaN ->
  exists m, py_min c = Ok m /\ m <> NaN /\ In m c /\ forall t, (t < List.length c)%nat -> fltb (nth t c NaN) m = false.
Proof.
  intros [|x t] Hc H0; [congruence|]. cbn in H0. destruct (py_min_fold t x H0) as (A & B & C & D).
  eexists. split; [reflexivity|]. split; [exact A|]. split; [destruct B as [->|B]; [left; auto|right; auto]|].
  intros [|u] Hu; cbn; [exact C|]. apply D. apply nth_In. cbn in Hu. lia.
Qed.

(** ** one frame *)
Lemma yin_curve_bounded : forall d k, (forall k, 0 <= d k) -> yin_c d k <> NaN -> exists r, yin_c d k = Fin r /\ 0 <= r.
Proof.
  intros d k Hd Hn. unfold yin_c in *. destruct (Nat.eqb_spec k 0); [exists 1; split; [auto|lra]|].
  destruct (Req_EM_T (yin_sum d k) 0); [congruence|]. eexists. split; [reflexivity|].
  assert (0 <= yin_sum d k) by (apply bigsum_nonneg; auto).
  apply Rmult_le_pos; [apply Rmult_le_pos; [auto|apply pos_INR]|]. left. apply Rinv_0_lt_compat. lra.
Qed.

(** what a frame yields; [T] the length of the curve, [lo] the least lag *)
Lemma yin_frame_ok : forall L f fs lo T th, (S T <= L)%nat ->
  let d := yin_d L f in
  exists P H A, yin_frame (fvec L f) fs (Z.of_nat lo) (Z.of_nat (S T)) th = Ok (P, H, A) /\
    (exists a, is_argmin (yin_c d) (S T) a /\ A = if Nat.ltb lo a then Fin (IZR fs / INR a) else Fin 0) /\
    ((exists s p, yin_lag (yin_c d) lo (S T) th s p /\ (1 <= p)%nat /\ P = Fin (IZR fs / INR p) /\ H = yin_c d p) \/
     ((yin_unvoiced (yin_c d) lo (S T) th \/ exists s, yin_lag (yin_c d) lo (S T) th s 0) /\ P = Fin 0 /\
       H <> NaN /\ (exists t, (t <= T)%nat /\ H = yin_c d t) /\ forall t, (t <= T)%nat -> fltb (yin_c d t) H = false)).
Proof.
  intros L f fs lo T th HL d. unfold yin_frame. rewrite compute_difference_fvec by lia.
  rewrite Nat2Z.id, Nat.min_l by lia. fold d.
  rewrite compute_cmnd_fvec by (intros; apply yin_d_nonneg). cbn [rbind].
  set (c := yin_curve (S T) d). assert (Lc : List.length c = S T) by apply yin_curve_length.
  assert (Nc : c <> []) by (intros E; rewrite E in Lc; discriminate).
  assert (Cn : forall t, (t < S T)%nat -> nth t c NaN = yin_c d t) by (intros; apply yin_curve_nth; auto).
  destruct (np_argmin_ok c Nc) as (a & Ha & Hm). rewrite Lc in Hm.
  assert (Hm' : is_argmin (yin_c d) (S T) a).
  { destruct Hm as [H0 Hm]. split; [auto|]. rewrite Cn in Hm by auto. destruct Hm as [[A1 A2]|[A1 A2]]; [left|right].
    - split; [auto|]. intros t Ht. rewrite <- (Cn t) by lia. auto.
    - split; intros t Ht; rewrite <- (Cn t) by lia; auto. }
  assert (EA : (if (Z.of_nat lo <? Z.of_nat a)%Z then fdiv (fZ fs) (fnat a) else f0) = if Nat.ltb lo a then Fin (IZR fs / INR a) else Fin 0).
  { destruct (Z.ltb_spec (Z.of_nat lo) (Z.of_nat a)), (Nat.ltb_spec lo a); try lia; [|reflexivity].
    apply fdiv_Fin. apply not_0_INR. lia. }
  assert (Tr : forall s p, yin_lag (fun t => nth t c NaN) lo (S T) th s p -> yin_lag (yin_c d) lo (S T) th s p).
  { intros s p (A & B & C & D & G & I). split; [auto|]. split; [auto|]. rewrite <- Cn by lia. split; [auto|].
    split; [intros t Ht; rewrite <- Cn by lia; auto|]. split; [intros t Ht; rewrite <- !Cn by lia; auto|].
    intros Hp. rewrite <- !Cn by lia. auto. }
  assert (Lo : exists H, py_min c = Ok H /\ H <> NaN /\ (exists t, (t <= T)%nat /\ H = yin_c d t) /\ forall t, (t <= T)%nat -> fltb (yin_c d t) H = false).
  { destruct (py_min_ok c Nc) as (m & H1 & H2 & H3 & H4); [rewrite Cn by lia; cbn; discriminate|].
    exists m. split; [auto|]. split; [auto|]. split.
    - apply (In_nth _ _ NaN) in H3 as (t & Ht & <-). rewrite Lc in Ht. exists t. split; [lia|]. apply Cn. auto.
    - intros t Ht. rewrite <- Cn by lia. apply H4. lia. }
  destruct (get_pitch_ok c lo (S T) th) as [[H1 H2]|(s & p & H1 & H2)]; [lia| |].
  - rewrite H1, Ha. cbn [rbind Z.eqb negb]. destruct Lo as (H & E1 & E2 & E3 & E4). rewrite E1. cbn [rbind].
    do 3 eexists. split; [reflexivity|]. split; [exists a; rewrite EA; auto|]. right.
    split; [left; intros t Ht; rewrite <- Cn by lia; apply H2; auto|]. split; [reflexivity|]. auto.
  - rewrite H1, Ha. cbn [rbind]. destruct p as [|p'].
    + cbn [Z.of_nat Z.eqb negb]. destruct Lo as (H & E1 & E2 & E3 & E4). rewrite E1. cbn [rbind].
      do 3 eexists. split; [reflexivity|]. split; [exists a; rewrite EA; auto|]. right.
      split; [right; exists s; apply Tr; auto|]. split; [reflexivity|]. auto.
    + destruct (Z.eqb_spec (Z.of_nat (S p')) 0); [lia|]. cbn [negb].
      destruct (H2) as (A & B & _). rewrite (py_nth_nat _ c (S p') NaN) by lia. cbn [rbind].
      do 3 eexists. split; [reflexivity|]. split; [exists a; rewrite EA; auto|]. left.
      exists s, (S p'). split; [apply Tr; auto|]. split; [lia|]. split; [|apply Cn; lia].
      unfold fZ. rewrite fdiv_Fin by (apply not_0_IZR; lia). rewrite INR_IZR. reflexivity.
Qed.

(** ** whole signals *)
Lemma range_step_ok : forall N L hop, (1 <= hop)%nat ->
  range_step (Z.of_nat N - Z.of_nat L) (Z.of_nat hop) = Ok (map (fun i => (Z.of_nat i * Z.of_nat hop)%Z) (seq 0 (yin_frames N L hop))).
Proof.
  intros N L hop Hh. unfold range_step. destruct (Z.eqb_spec (Z.of_nat hop) 0); [lia|].
  destruct (Z.ltb_spec 0 (Z.of_nat hop)); [|lia]. do 3 f_equal. unfold yin_frames.
  destruct (Nat.le_ge_cases L N) as [K|K].
  - replace (Z.of_nat N - Z.of_nat L + Z.of_nat hop - 1)%Z with (Z.of_nat (N - L + (hop - 1))) by lia.
    rewrite <- Nat2Z.inj_div by lia. apply Nat2Z.id.
  - replace (N - L)%nat with O by lia. rewrite Nat.add_0_l, (Nat.div_small (hop - 1) hop) by lia.
    destruct (Z.eq_dec (Z.of_nat N) (Z.of_nat L)) as [E|E].
    + rewrite E, Z.sub_diag, Z.add_0_l. rewrite Z.div_small by lia. reflexivity.
    + assert ((Z.of_nat N - Z.of_nat L + Z.of_nat hop - 1) / Z.of_nat hop < 1)%Z by (apply Z.div_lt_upper_bound; lia). lia.
Qed.

Lemma yin_frames_lt : forall N L hop i, (1 <= hop)%nat -> (i < yin_frames N L hop)%nat -> (i * hop + L < N)%nat.
Proof.
  intros N L hop i Hh Hi. unfold yin_frames in Hi.
  assert (K : (hop * ((N - L + (hop - 1)) / hop) <= N - L + (hop - 1))%nat) by (apply Nat.mul_div_le; lia).
  assert (hop * S i <= N - L + (hop - 1))%nat by nia. nia.
Qed.

Lemma py_slice_fvec : forall N x a n, (a + n <= N)%nat ->
  py_slice (Z.of_nat a) (Z.of_nat a + Z.of_nat n) (fvec N x) = fvec n (fun t => x (a + t)%nat).
Proof.
  intros N x a n Ha. unfold py_slice, slice_index. destruct (Z.ltb_spec (Z.of_nat a) 0); [lia|].
  destruct (Z.ltb_spec (Z.of_nat a + Z.of_nat n) 0); [lia|]. rewrite fvec_skipn by lia.
  rewrite fvec_firstn by lia. replace (Z.to_nat (Z.of_nat a + Z.of_nat n) - Z.to_nat (Z.of_nat a))%nat with n by lia.
  rewrite Nat2Z.id. reflexivity.
Qed.

Lemma compute_yin_frames : forall `{Env} N x fs wl wh low high th L hop lo T,
  yin_config fs wl wh low high L hop lo T ->
  let n := yin_frames N L hop in
  forall out, mapM (fun i => yin_frame (fvec L (yin_x hop x i)) fs (Z.of_nat lo) (Z.of_nat (S T)) th) (seq 0 n) = out ->
  compute_yin (fvec N x) fs wl wh low high th
  = do o <- out;
    Ok (map (fun o => fst (fst o)) o, map (fun o => snd (fst o)) o, map snd o,
        fvec n (fun i => INR (i * hop) / IZR fs)).
Proof.
  intros E N x fs wl wh low high th L hop lo T (Hf & Hl & Hh & E1 & E2 & H1 & E3 & E4) n out Ho.
  unfold compute_yin. destruct (Req_EM_T high 0); [contradiction|]. destruct (Req_EM_T low 0); [contradiction|].
  rewrite E1, E2, E3, E4. unfold zlen at 1. rewrite fvec_length, range_step_ok by auto. fold n. cbn [rbind].
  rewrite mapM_map.
  rewrite (mapM_ok_map _ _ _ (fun i => Fin (INR (i * hop) / IZR fs))).
  2:{ intros i Hi. destruct (Z.eqb_spec fs 0); [lia|]. f_equal. unfold fZ. rewrite fdiv_Fin by (apply not_0_IZR; lia).
      rewrite INR_IZR, Nat2Z.inj_mul. reflexivity. }
  cbn [rbind]. rewrite map_map, mapM_map.
  rewrite (mapM_ext _ _ _ (fun i => yin_frame (fvec L (yin_x hop x i)) fs (Z.of_nat lo) (Z.of_nat (S T)) th)).
  - rewrite Ho. reflexivity.
  - intros i Hi. apply in_seq in Hi. rewrite <- Nat2Z.inj_mul. rewrite py_slice_fvec; [reflexivity|].
    pose proof (yin_frames_lt N L hop i H1). lia.
Qed.

Lemma compute_yin_ok : forall `{Env} N x fs wl wh low high th L hop lo T,
  yin_config fs wl wh low high L hop lo T -> (S T <= L)%nat ->
  let n := yin_frames N L hop in
  exists P H A, compute_yin (fvec N x) fs wl wh low high th
    = Ok (map P (seq 0 n), map H (seq 0 n), map A (seq 0 n), fvec n (fun i => INR (i * hop) / IZR fs)) /\
  forall i, (i < n)%nat -> let c := yin_c (yin_d L (yin_x hop x i)) in
    (exists a, is_argmin c (S T) a /\ A i = if Nat.ltb lo a then Fin (IZR fs / INR a) else Fin 0) /\
    ((exists s p, yin_lag c lo (S T) th s p /\ (1 <= p)%nat /\ P i = Fin (IZR fs / INR p) /\ H i = c p) \/
     ((yin_unvoiced c lo (S T) th \/ exists s, yin_lag c lo (S T) th s 0) /\ P i = Fin 0 /\
       H i <> NaN /\ (exists t, (t <= T)%nat /\ H i = c t) /\ forall t, (t <= T)%nat -> fltb (c t) (H i) = false)).
Proof.
  intros E N x fs wl wh low high th L hop lo T Hc HL n.
  set (fr i := yin_frame (fvec L (yin_x hop x i)) fs (Z.of_nat lo) (Z.of_nat (S T)) th).
  set (g i := match fr i with Ok o => o | Raise _ => (NaN, NaN, NaN) end).
  assert (K : forall i, fr i = Ok (g i)).
  { intros i. destruct (yin_frame_ok L (yin_x hop x i) fs lo T th HL) as (P & H & A & E1 & _). unfold g, fr. rewrite E1. reflexivity. }
  assert (M : mapM fr (seq 0 n) = Ok (map g (seq 0 n))) by (apply mapM_ok_map; auto).
  exists (fun i => fst (fst (g i))), (fun i => snd (fst (g i))), (fun i => snd (g i)).
  rewrite (compute_yin_frames N x fs wl wh low high th L hop lo T Hc _ M). cbn [rbind]. rewrite !map_map.
  split; [reflexivity|]. intros i Hi.
  destruct (yin_frame_ok L (yin_x hop x i) fs lo T th HL) as (P & H & A & E1 & E2). fold (fr i) in E1. rewrite K in E1.
  apply Ok_inj in E1. rewrite E1. exact E2.
Qed.

(** ** invariance *)
Lemma Forall_py_slice : forall A (Q : A -> Prop) l a b, Forall Q l -> Forall Q (py_slice a b l).
Proof.
  intros A Q l a b Hl. unfold py_slice. rewrite <- (firstn_skipn (slice_index l a) l) in Hl at 1.
  apply Forall_app in Hl as [_ Hl]. remember (skipn (slice_index l a) l) as m.
  rewrite <- (firstn_skipn (slice_index l b - slice_index l a) m) in Hl. apply Forall_app in Hl. tauto.
Qed.
Lemma py_slice_map : forall A B (f : A -> B) l a b, py_slice a b (map f l) = map f (py_slice a b l).
Proof.
  intros. unfold py_slice, slice_index. rewrite zlen_map, <- firstn_map. f_equal.
  generalize (Z.to_nat (if (a <? 0)%Z then (zlen l + a)%Z else a)) as k. induction l as [|x l IH]; intros [|k]; cbn; auto.
Qed.

Lemma compute_yin_map : forall `{Env} g sig fs wl wh low high th,
  (forall frame lo T, Forall finite frame -> yin_frame (map g frame) fs lo T th = yin_frame frame fs lo T th) ->
  Forall finite sig ->
  compute_yin (map g sig) fs wl wh low high th = compute_yin sig fs wl wh low high th.
Proof.
  intros E g sig fs wl wh low high th Hg Hs. unfold compute_yin. destruct (Req_EM_T high 0); [reflexivity|].
  destruct (Req_EM_T low 0); [reflexivity|]. rewrite zlen_map. destruct (range_step _ _) as [ts|]; [|reflexivity].
  cbn [rbind]. destruct (mapM _ ts) as [tm|]; [|reflexivity]. cbn [rbind].
  rewrite !mapM_map. rewrite (mapM_ext _ _ _ (fun t => yin_frame (py_slice t (t + Ztrunc (rnd (wl * IZR fs))) sig) fs
     (Ztrunc (rnd (IZR fs / high))) (Ztrunc (rnd (IZR fs / low))) th)); [reflexivity|].
  intros t Ht. rewrite py_slice_map. apply Hg. apply Forall_py_slice. exact Hs.
Qed.

Lemma yin_d_offset : forall L f c tau, yin_d L (fun t => f t + c) tau = yin_d L f tau.
Proof. intros. apply bigsum_ext. intros. ring. Qed.
Lemma yin_d_gain : forall L f g tau, yin_d L (fun t => g * f t) tau = g ^ 2 * yin_d L f tau.
Proof. intros. unfold yin_d. rewrite <- bigsum_scal. apply bigsum_ext. intros. ring. Qed.

Lemma yin_offset : forall `{Env} c sig fs wl wh low high th, Forall finite sig ->
  compute_yin (map (fun v => fadd v (Fin c)) sig) fs wl wh low high th = compute_yin sig fs wl wh low high th.
Proof.
  intros E c sig fs wl wh low high th. apply compute_yin_map. intros frame lo T Hf.
  apply finite_fvec in Hf. rewrite Hf. set (L := List.length frame). set (f := fun i => toR (nth i frame NaN)). clearbody L f.
  rewrite (fvec_map L f _ (fun v => v + c)) by reflexivity. unfold yin_frame. rewrite !compute_difference_all.
  rewrite (fvec_ext L (yin_d L (fun i => f i + c)) (yin_d L f)); [reflexivity|]. intros. apply yin_d_offset.
Qed.

(** scaling the difference function *)
Lemma bcast_scale_num : forall k (d r : list F), Forall finite d -> Forall finite r ->
  bcast fmul (map (fmul (Fin k)) d) r = rmap (map (fmul (Fin k))) (bcast fmul d r) /\
  forall q, bcast fmul d r = Ok q -> Forall finite q.
Proof.
  intros k d r Hd Hr.
  assert (A : forall a b, finite a -> finite b -> fmul (fmul (Fin k) a) b = fmul (Fin k) (fmul a b)).
  { intros a b [x ->] [y ->]. cbn. f_equal. ring. }
  assert (B : forall d r, Forall finite d -> Forall finite r ->
     map2 fmul (map (fmul (Fin k)) d) r = map (fmul (Fin k)) (map2 fmul d r)).
  { intros d1 r1 H1. revert r1. induction H1 as [|u d1 Hu H1 IH]; intros [|v r1] H2; cbn [map map2]; auto.
    inversion H2; subst. rewrite A, IH by auto. reflexivity. }
  assert (C : forall d r, Forall finite d -> Forall finite r -> Forall finite (map2 fmul d r)).
  { intros d1 r1 H1. revert r1. induction H1 as [|u d1 Hu H1 IH]; intros [|v r1] H2; cbn; auto.
    inversion H2; subst. constructor; auto. apply finite_fmul; auto. }
  unfold bcast. rewrite map_length. destruct (Nat.eqb (List.length d) (List.length r)) eqn:El.
  - cbn [rmap]. rewrite B by auto. split; [reflexivity|]. intros q Hq. apply Ok_inj in Hq. subst. auto.
  - destruct d as [|u [|u' d]].
    + cbn [map]. destruct r as [|v [|v' r]]; cbn; split; try reflexivity; try discriminate; intros q Hq; apply Ok_inj in Hq; subst; constructor.
    + cbn [map rmap]. split.
      * f_equal. rewrite map_map. apply map_ext_in. intros v Hv. apply A; [inversion Hd; auto|]. rewrite Forall_forall in Hr. auto.
      * intros q Hq. apply Ok_inj in Hq. subst. apply Forall_forall. intros z Hz. apply in_map_iff in Hz as (v & <- & Hv).
        apply finite_fmul; [inversion Hd; auto|]. rewrite Forall_forall in Hr. auto.
    + cbn [map]. destruct r as [|v [|v' r]]; cbn [rmap]; try (split; [reflexivity|discriminate]).
      split.
      * f_equal. change (map (fun a => fmul a v) (map (fmul (Fin k)) (u :: u' :: d)) = map (fmul (Fin k)) (map (fun a => fmul a v) (u :: u' :: d))).
        rewrite !map_map. apply map_ext_in. intros a Ha. apply A; [rewrite Forall_forall in Hd; auto|inversion Hr; auto].
      * intros q Hq. apply Ok_inj in Hq. subst.
        change (Forall finite (map (fun a => fmul a v) (u :: u' :: d))). apply Forall_forall. intros z Hz.
        apply in_map_iff in Hz as (a & <- & Ha). apply finite_fmul; [rewrite Forall_forall in Hd; auto|inversion Hr; auto].
Qed.

Lemma fdiv_scale : forall k a b, 0 < k -> finite a -> finite b -> fdiv (fmul (Fin k) a) (fmul (Fin k) b) = fdiv a b.
Proof.
  intros k a b Hk [x ->] [y ->]. cbn. destruct (Req_EM_T y 0) as [->|Hy].
  - destruct (Req_EM_T (k * 0) 0); [|lra]. unfold finfmul.
    destruct (Req_EM_T x 0) as [->|Hx].
    + destruct (Req_EM_T (k * 0) 0); [reflexivity|lra].
    + destruct (Req_EM_T (k * x) 0) as [E|E]; [apply Rmult_integral in E; lra|].
      destruct (Rlt_dec 0 x), (Rlt_dec 0 (k * x)); auto; exfalso; nra.
  - destruct (Req_EM_T (k * y) 0) as [E|E]; [apply Rmult_integral in E; lra|]. f_equal. field. lra.
Qed.

Lemma bcast_scale_div : forall k (q c : list F), 0 < k -> Forall finite q -> Forall finite c ->
  bcast fdiv (map (fmul (Fin k)) q) (map (fmul (Fin k)) c) = bcast fdiv q c.
Proof.
  intros k q c Hk Hq Hc.
  assert (B : forall d r, Forall finite d -> Forall finite r ->
     map2 fdiv (map (fmul (Fin k)) d) (map (fmul (Fin k)) r) = map2 fdiv d r).
  { intros d1 r1 H1. revert r1. induction H1 as [|u d1 Hu H1 IH]; intros [|v r1] H2; cbn [map map2]; auto.
    inversion H2; subst. rewrite fdiv_scale, IH by auto. reflexivity. }
  unfold bcast. rewrite !map_length. destruct (Nat.eqb (List.length q) (List.length c)); [rewrite B by auto; reflexivity|].
  destruct q as [|u [|u' q]].
  - destruct c as [|v [|v' c]]; reflexivity.
  - cbn [map]. f_equal. rewrite map_map. apply map_ext_in. intros v Hv. apply fdiv_scale; auto; [inversion Hq; auto|]. rewrite Forall_forall in Hc; auto.
  - destruct c as [|v [|v' c]]; try reflexivity. cbn [map]. f_equal.
    change (map (fun a => fdiv a (fmul (Fin k) v)) (map (fmul (Fin k)) (u :: u' :: q)) = map (fun a => fdiv a v) (u :: u' :: q)).
    rewrite map_map. apply map_ext_in. intros a Ha. apply fdiv_scale; auto; [rewrite Forall_forall in Hq; auto|inversion Hc; auto].
Qed.

Lemma compute_cmnd_gain : forall d T k, Forall finite d -> 0 < k ->
  compute_cmnd (map (fmul (Fin k)) d) T = compute_cmnd d T.
Proof.
  intros d T k Hd Hk. unfold compute_cmnd.
  assert (Es : skipn 1 (map (fmul (Fin k)) d) = map (fmul (Fin k)) (skipn 1 d)) by (destruct d; reflexivity). rewrite Es.
  assert (Hs : Forall finite (skipn 1 d)) by (destruct d; [constructor|inversion Hd; auto]). set (e := skipn 1 d) in *.
  assert (Hr : Forall finite (map fZ (zrange 1 T))).
  { apply Forall_forall. intros z Hz. apply in_map_iff in Hz as (u & <- & _). apply finite_Fin. }
  destruct (bcast_scale_num k e _ Hs Hr) as [E1 E2]. rewrite E1. destruct (bcast fmul e (map fZ (zrange 1 T))) as [q|]; [|reflexivity].
  cbn [rmap rbind]. specialize (E2 q eq_refl).
  apply finite_fvec in Hs. set (n := List.length e) in *. set (v := fun i => toR (nth i e NaN)) in *. rewrite Hs.
  rewrite (fvec_map n v _ (fun x => k * x)) by reflexivity. rewrite !cumsum_fvec.
  rewrite (fvec_ext n (fun i => bigsum (S i) (fun i => k * v i)) (fun i => k * bigsum (S i) v)) by (intros; apply bigsum_scal).
  rewrite <- (fvec_map n (fun i => bigsum (S i) v) (fmul (Fin k)) (fun x => k * x)) by reflexivity.
  rewrite bcast_scale_div; auto. apply fvec_finite.
Qed.

Lemma yin_gain : forall `{Env} g sig fs wl wh low high th, Forall finite sig -> g <> 0 ->
  compute_yin (map (fmul (Fin g)) sig) fs wl wh low high th = compute_yin sig fs wl wh low high th.
Proof.
  intros E g sig fs wl wh low high th Hs Hg. apply compute_yin_map; auto. intros frame lo T Hf.
  apply finite_fvec in Hf. rewrite Hf. set (L := List.length frame). set (f := fun i => toR (nth i frame NaN)). clearbody L f.
  rewrite (fvec_map L f _ (fun v => g * v)) by reflexivity. unfold yin_frame. rewrite !compute_difference_all.
  rewrite (fvec_ext L (yin_d L (fun i => g * f i)) (fun k => g ^ 2 * yin_d L f k)) by (intros; apply yin_d_gain).
  rewrite <- (fvec_map L (yin_d L f) (fmul (Fin (g ^ 2))) (fun x => g ^ 2 * x)) by reflexivity.
  assert (Et : forall A B (h : A -> B) l, py_take T (map h l) = map h (py_take T l)).
  { intros. unfold py_take. rewrite zlen_map. destruct (T <? 0)%Z; apply firstn_map. }
  rewrite Et, compute_cmnd_gain; [reflexivity| |].
  - assert (Kf : forall n, Forall finite (firstn n (fvec L (yin_d L f)))).
    { intros n. pose proof (fvec_finite L (yin_d L f)) as K. rewrite <- (firstn_skipn n (fvec L (yin_d L f))) in K.
      apply Forall_app in K. tauto. }
    unfold py_take. destruct (T <? 0)%Z; apply Kf.
  - assert (0 < g * g) by (destruct (Rlt_or_le g 0); [nra|]; assert (0 < g) by lra; nra). lra.
Qed.

(** ** a window shorter than the longest period *)
Lemma yin_mismatch : forall `{Env} N x fs wl wh low high th L hop lo T,
  yin_config fs wl wh low high L hop lo T -> (L < N)%nat -> (L < S T)%nat -> (L <> 2)%nat -> (2 <= T)%nat ->
  compute_yin (fvec N x) fs wl wh low high th = Raise ValueError.
Proof.
  intros E N x fs wl wh low high th L hop lo T Hc HN HT H2 HT2.
  assert (Hh : (1 <= hop)%nat) by apply Hc.
  rewrite (compute_yin_frames N x fs wl wh low high th L hop lo T Hc _ eq_refl).
  assert (Hn : (1 <= yin_frames N L hop)%nat).
  { unfold yin_frames. apply Nat.div_le_lower_bound; lia. }
  rewrite mapM_Forall_const_raise with (e := ValueError); [reflexivity| |].
  - destruct (yin_frames N L hop); [lia|discriminate].
  - intros i _. unfold yin_frame. rewrite compute_difference_fvec by lia. rewrite Nat2Z.id, Nat.min_r by lia.
    rewrite compute_cmnd_mismatch; [reflexivity| | |lia].
    + destruct L as [|L']; [cbn [fvec seq map skipn]; unfold zlen; cbn [List.length]; lia|]. rewrite fvec_S. cbn [skipn]. unfold zlen. rewrite fvec_length. lia.
    + destruct L as [|L']; [cbn [fvec seq map skipn]; unfold zlen; cbn [List.length]; lia|]. rewrite fvec_S. cbn [skipn]. unfold zlen. rewrite fvec_length. lia.
Qed.

(** ** constant frames *)
Lemma yin_constant : forall `{Env} N x fs wl wh low high th L hop lo T,
  yin_config fs wl wh low high L hop lo T -> (S T <= L)%nat -> (1 <= lo)%nat -> (1 <= T)%nat ->
  let n := yin_frames N L hop in
  forall P H A tm, compute_yin (fvec N x) fs wl wh low high th = Ok (P, H, A, tm) ->
  forall i, (i < n)%nat -> (forall t, (t < L)%nat -> yin_x hop x i t = yin_x hop x i 0) ->
  nth i P NaN = Fin 0 /\ nth i H NaN = Fin 1 /\ nth i A NaN = Fin 0.
Proof.
  intros E N x fs wl wh low high th L hop lo T Hc HL Hlo HT n P0 H0 A0 tm Hy i Hi Hk.
  destruct (compute_yin_ok N x fs wl wh low high th L hop lo T Hc HL) as (P & H & A & E1 & E2). fold n in E1, E2.
  rewrite E1 in Hy. apply Ok_inj in Hy. injection Hy as <- <- <- _. rewrite !nth_map_seq by auto.
  destruct (E2 i Hi) as ((a & Ha & EA) & Hp). cbv zeta in *. set (d := yin_d L (yin_x hop x i)) in *.
  assert (Hd : forall k, d k = 0).
  { intros k. apply bigsum_zero. intros j Hj. rewrite (Hk j), (Hk (j + k)%nat) by lia. ring. }
  assert (Hn : forall k, (1 <= k)%nat -> yin_c d k = NaN).
  { intros k Hk1. unfold yin_c. destruct (Nat.eqb_spec k 0); [lia|].
    destruct (Req_EM_T (yin_sum d k) 0) as [|K]; [reflexivity|]. exfalso. apply K. apply bigsum_zero. intros. apply Hd. }
  assert (a = 1%nat) as ->.
  { apply (is_argmin_unique (yin_c d) (S T)); [exact Ha|]. split; [lia|]. left. split; [apply Hn; lia|].
    intros t Ht. assert (t = O) as -> by lia. cbn. discriminate. }
  destruct (Nat.ltb_spec lo 1); [lia|].
  destruct Hp as [(s & p & Hl & Hp & _)|(_ & EP & HN & (t & Ht & Et) & _)].
  - exfalso. destruct Hl as (B1 & B2 & B3 & _). rewrite Hn in B3 by lia. discriminate.
  - split; [exact EP|]. split; [|exact EA]. destruct t as [|t]; [rewrite Et; reflexivity|].
    rewrite Hn in Et by lia. congruence.
Qed.

(** ** periodic frames *)
Lemma pow2_pos : forall r, r <> 0 -> 0 < r ^ 2.
Proof. intros r Hr. pose proof (Rsqr_pos_lt r Hr). unfold Rsqr in *. lra. Qed.
Lemma yin_c_nonneg : forall L f k v, fltb (yin_c (yin_d L f) k) (Fin v) = true -> 0 < v.
Proof.
  intros L f k v Hv. destruct (yin_curve_bounded (yin_d L f) k) as (r & Er & Hr).
  - intros. apply yin_d_nonneg.
  - intros K. rewrite K in Hv. discriminate.
  - rewrite Er in Hv. cbn in Hv. unfold Rltb in Hv. destruct (Rlt_dec r v); [lra|discriminate].
Qed.

Lemma yin_periodic : forall `{Env} N x fs wl wh low high th L hop lo T p,
  yin_config fs wl wh low high L hop lo T -> (S T <= L)%nat -> (1 <= lo <= p)%nat -> (p <= T)%nat -> 0 < th ->
  let n := yin_frames N L hop in
  forall P H A tm, compute_yin (fvec N x) fs wl wh low high th = Ok (P, H, A, tm) ->
  forall i, (i < n)%nat -> (forall t, (t + p < L)%nat -> yin_x hop x i (t + p) = yin_x hop x i t) ->
  (exists u, (S u < L)%nat /\ yin_x hop x i u <> yin_x hop x i (S u)) ->
  exists q, (lo <= q <= p)%nat /\ nth i P NaN = Fin (IZR fs / INR q).
Proof.
  intros E N x fs wl wh low high th L hop lo T p Hc HL Hlo Hp Hth n P0 H0 A0 tm Hy i Hi Hk (u & Hu & Hne).
  destruct (compute_yin_ok N x fs wl wh low high th L hop lo T Hc HL) as (P & H & A & E1 & E2). fold n in E1, E2.
  rewrite E1 in Hy. apply Ok_inj in Hy. injection Hy as <- _ _ _. rewrite !nth_map_seq by auto.
  destruct (E2 i Hi) as (_ & Hq). cbv zeta in *. set (d := yin_d L (yin_x hop x i)) in *.
  assert (Hs : 0 < yin_sum d p).
  { apply (bigsum_pos p (fun k => d (S k)) 0); [intros; apply yin_d_nonneg|lia|].
    apply (bigsum_pos (L - 1) _ u); [intros; apply pow2_ge_0|lia|]. rewrite Nat.add_1_r.
    apply pow2_pos. lra. }
  assert (Hz : yin_c d p = Fin 0).
  { unfold yin_c. destruct (Nat.eqb_spec p 0); [lia|]. destruct (Req_EM_T (yin_sum d p) 0); [lra|].
    assert (d p = 0) as ->. { apply bigsum_zero. intros j Hj. rewrite Hk by lia. ring. }
    f_equal. field. lra. }
  assert (Hv : fltb (yin_c d p) (Fin th) = true) by (rewrite Hz; cbn; apply Rltb_true; auto).
  destruct Hq as [(s & q & Hl & Hq & EP & _)|([Hun|(s & Hl)] & _)].
  - exists q. split; [|exact EP]. destruct Hl as (B1 & B2 & B3 & B4 & B5 & B6). split; [lia|].
    destruct (Nat.le_gt_cases q p) as [K|K]; [exact K|exfalso].
    assert (s <= p)%nat. { destruct (Nat.le_gt_cases s p) as [K1|K1]; [exact K1|exfalso]. rewrite B4 in Hv by lia. discriminate. }
    specialize (B5 p ltac:(lia)). rewrite Hz in B5. apply yin_c_nonneg in B5. lra.
  - exfalso. rewrite Hun in Hv by lia. discriminate.
  - exfalso. destruct Hl as (B1 & _). lia.
Qed.

(** ** frequency range *)
Lemma sane_below : forall r q p, sane_rounding r -> (Z.of_nat p < Ztrunc (r q))%Z -> (Z.of_nat p <= 4503599627370496)%Z -> INR p < q.
Proof.
  intros r q p [R1 R2] Ht Hp. apply Rnot_le_lt. intros Hle.
  assert (E : r (INR p) = INR p).
  { specialize (R2 (2 * Z.of_nat p)%Z ltac:(lia)). rewrite mult_IZR in R2. rewrite INR_IZR.
    replace (2 * IZR (Z.of_nat p) / 2) with (IZR (Z.of_nat p)) in R2 by field. exact R2. }
  specialize (R1 _ _ Hle). rewrite E in R1.
  assert (Ztrunc (r q) <= Z.of_nat p)%Z; [|lia].
  rewrite INR_IZR in R1. apply Ztrunc_le in R1. rewrite Ztrunc_IZR in R1. exact R1.
Qed.
Lemma sane_above : forall r q p, sane_rounding r -> 0 <= q -> (Ztrunc (r q) <= Z.of_nat p)%Z -> (Z.of_nat p < 4503599627370496)%Z -> q < INR p + 1.
Proof.
  intros r q p Hr Hq Ht Hp. assert (Hr' := Hr). destruct Hr as [R1 R2]. apply Rnot_le_lt. intros Hle.
  assert (E : r (INR p + 1) = INR p + 1).
  { specialize (R2 (2 * (Z.of_nat p + 1))%Z ltac:(lia)). rewrite mult_IZR, plus_IZR in R2. rewrite INR_IZR.
    replace (2 * (IZR (Z.of_nat p) + 1) / 2) with (IZR (Z.of_nat p) + 1) in R2 by field. exact R2. }
  specialize (R1 _ _ Hle). rewrite E in R1. apply Ztrunc_le in R1. rewrite INR_IZR, <- plus_IZR, Ztrunc_IZR in R1. lia.
Qed.

Lemma yin_frames_drop : forall N L hop, (1 <= hop <= N)%nat -> yin_frames (N - hop) L hop = (yin_frames N L hop - 1)%nat.
Proof.
  intros N L hop Hh. unfold yin_frames. destruct (Nat.le_gt_cases (L + hop) N) as [K|K].
  - replace (N - L + (hop - 1))%nat with (N - hop - L + (hop - 1) + 1 * hop)%nat by lia. rewrite Nat.div_add by lia. lia.
  - replace (N - hop - L)%nat with O by lia. rewrite Nat.add_0_l, Nat.div_small by lia.
    assert ((N - L + (hop - 1)) / hop < 2)%nat by (apply Nat.div_lt_upper_bound; lia). lia.
Qed.

Lemma yin_shift : forall `{Env} N x fs wl wh low high th L hop lo T,
  yin_config fs wl wh low high L hop lo T -> (hop <= N)%nat ->
  forall P H A tm, compute_yin (fvec N x) fs wl wh low high th = Ok (P, H, A, tm) ->
  exists tm', compute_yin (skipn hop (fvec N x)) fs wl wh low high th = Ok (skipn 1 P, skipn 1 H, skipn 1 A, tm').
Proof.
  intros E N x fs wl wh low high th L hop lo T Hc HN P H A tm Hy. assert (Hh : (1 <= hop)%nat) by apply Hc.
  rewrite (compute_yin_frames N x fs wl wh low high th L hop lo T Hc _ eq_refl) in Hy.
  rewrite fvec_skipn by auto.
  rewrite (compute_yin_frames (N - hop) _ fs wl wh low high th L hop lo T Hc _ eq_refl).
  rewrite yin_frames_drop by lia. set (n := yin_frames N L hop) in *.
  set (fr := fun i => yin_frame (fvec L (yin_x hop x i)) fs (Z.of_nat lo) (Z.of_nat (S T)) th) in *.
  rewrite (mapM_ext _ _ _ (fun i => fr (S i))).
  2:{ intros i _. unfold fr. f_equal. apply fvec_ext. intros t Ht. unfold yin_x. f_equal. lia. }
  destruct n as [|n].
  - cbn in Hy. apply Ok_inj in Hy. injection Hy as <- <- <- _. cbn. eauto.
  - rewrite Nat.sub_succ, Nat.sub_0_r. rewrite <- (mapM_map _ _ _ fr S). rewrite seq_shift.
    cbn [seq mapM] in Hy. destruct (fr O) as [o|]; [|discriminate]. cbn [rbind] in Hy.
    destruct (mapM fr (seq 1 n)) as [os|]; [|discriminate]. cbn [rbind] in *.
    apply Ok_inj in Hy. injection Hy as <- <- <- _. cbn. eauto.
Qed.

Lemma pulse_train : forall p o, (2 <= p)%nat -> exists u, (S u <= p)%nat /\
  (if Nat.eqb ((o + u) mod p) 0 then 1 else 0) <> (if Nat.eqb ((o + S u) mod p) 0 then 1 else 0).
Proof.
  intros p o Hp. assert (Hm : (o mod p < p)%nat) by (apply Nat.mod_upper_bound; lia).
  pose proof (Nat.div_mod o p ltac:(lia)) as Ho.
  set (r := o mod p) in *.
  assert (K : exists u, (S u <= p)%nat /\ (o + u) mod p = O).
  { destruct (Nat.eq_dec r 0) as [E|E].
    - exists O. split; [lia|]. rewrite Nat.add_0_r. exact E.
    - exists (p - r)%nat. split; [lia|]. replace (o + (p - r))%nat with ((o / p + 1) * p)%nat by nia. apply Nat.mod_mul. lia. }
  destruct K as (u & Hu & Eu). exists u. split; [exact Hu|]. rewrite Eu. cbn [Nat.eqb].
  replace (o + S u)%nat with (1 + (o + u))%nat by lia. rewrite <- Nat.add_mod_idemp_r, Eu, Nat.add_0_r, Nat.mod_1_l by lia.
  cbn. lra.
Qed.

Lemma difference_nonneg : forall frame T, Forall finite frame ->
  Forall (fun v => exists r, v = Fin r /\ 0 <= r) (compute_difference frame T) /\
  ((1 <= T)%Z -> frame <> [] -> nth 0 (compute_difference frame T) NaN = Fin 0).
Proof.
  intros frame T Hf. assert (Hl := Hf). apply finite_fvec in Hf. rewrite Hf.
  rewrite compute_difference_all. set (L := List.length frame). set (f := fun i => toR (nth i frame NaN)). split.
  - assert (K : Forall (fun v => exists r, v = Fin r /\ 0 <= r) (fvec L (yin_d L f))).
    { apply Forall_forall. intros v Hv. unfold fvec in Hv. apply in_map_iff in Hv as (k & <- & _).
      eexists. split; [reflexivity|apply yin_d_nonneg]. }
    assert (K2 : forall n, Forall (fun v => exists r, v = Fin r /\ 0 <= r) (firstn n (fvec L (yin_d L f)))).
    { intros n. rewrite <- (firstn_skipn n (fvec L (yin_d L f))) in K. apply Forall_app in K. tauto. }
    unfold py_take. destruct (T <? 0)%Z; apply K2.
  - intros HT Hne. assert (1 <= L)%nat.
    { unfold L. destruct frame; [cbn in Hne; congruence|cbn; lia]. }
    unfold py_take. destruct (Z.ltb_spec T 0); [lia|]. rewrite firstn_nth_lt by lia. rewrite fvec_nth by lia.
    rewrite yin_d_0. reflexivity.
Qed.

Lemma yin_c_range : forall d tau r, (forall k, 0 <= d k) -> yin_c d tau = Fin r ->
  0 <= r <= Rmax 1 (INR tau) /\ (tau = 1%nat -> r = 1).
Proof.
  intros d tau r Hd Hc. unfold yin_c in Hc. destruct (Nat.eqb_spec tau 0) as [->|Hne].
  - apply Fin_inj in Hc. subst. split; [|lia]. split; [lra|apply Rmax_l].
  - destruct (Req_EM_T (yin_sum d tau) 0) as [|Hs]; [discriminate|]. apply Fin_inj in Hc. subst.
    assert (Hp : 0 < yin_sum d tau).
    { assert (0 <= yin_sum d tau) by (apply bigsum_nonneg; auto). lra. }
    assert (Hle : d tau <= yin_sum d tau).
    { destruct tau as [|k]; [lia|]. apply (bigsum_ge_term (S k) (fun u => d (S u)) k); auto. }
    assert (Hi : 0 < INR tau) by (apply lt_0_INR; lia).
    split.
    + split.
      * apply Rmult_le_pos; [apply Rmult_le_pos; [auto|lra]|]. left. apply Rinv_0_lt_compat. auto.
      * eapply Rle_trans; [|apply Rmax_r]. apply (Rmult_le_reg_r (yin_sum d tau)); [auto|].
        unfold Rdiv. rewrite Rmult_assoc, Rinv_l, Rmult_1_r by lra. rewrite Rmult_comm. apply Rmult_le_compat_l; lra.
    + intros ->. unfold yin_sum in *. cbn [bigsum INR] in *. rewrite Rplus_0_l in *. field. lra.
Qed.

Lemma yin_pitch_range : forall `{Env} N x fs wl wh low high th L hop lo T, sane_rounding rnd ->
  yin_config fs wl wh low high L hop lo T -> (S T <= L)%nat -> 0 < low -> 0 < high < IZR fs -> (1 <= lo)%nat ->
  (Z.of_nat (S T) <= 4503599627370496)%Z ->
  forall P H A tm, compute_yin (fvec N x) fs wl wh low high th = Ok (P, H, A, tm) ->
  forall v, In v P -> v = Fin 0 \/ exists r, v = Fin r /\ low < r /\ r < high * (IZR fs / (IZR fs - high)).
Proof.
  intros E N x fs wl wh low high th L hop lo T Hr Hc HL Hlow Hhigh Hlo HT P0 H0 A0 tm Hy v Hv.
  destruct (compute_yin_ok N x fs wl wh low high th L hop lo T Hc HL) as (P & H & A & E1 & E2).
  rewrite E1 in Hy. apply Ok_inj in Hy. injection Hy as <- _ _ _.
  apply in_map_iff in Hv as (i & <- & Hi). apply in_seq in Hi.
  destruct (E2 i ltac:(lia)) as (_ & [(s & p & Hl & Hp & EP & _)|(_ & EP & _)]); [right|left; exact EP].
  exists (IZR fs / INR p). split; [exact EP|]. destruct Hl as (B1 & B2 & _).
  destruct Hc as (Hfs & _ & _ & _ & _ & _ & Elo & EhT).
  assert (0 < IZR fs) by (apply IZR_lt; auto).
  assert (Pp : 0 < INR p) by (apply lt_0_INR; lia).
  assert (F1 : INR p < IZR fs / low) by (apply (sane_below rnd); auto; lia).
  destruct (Nat.lt_ge_cases p lo) as [K|K]; [lia|].
  assert (F2 : IZR fs / high < INR p + 1).
  { apply (sane_above rnd); auto; try lia. apply Rmult_le_pos; [lra|]. left. apply Rinv_0_lt_compat. lra. }
  assert (Hq : IZR fs / high * high = IZR fs) by (field; lra).
  assert (Hw : IZR fs / low * low = IZR fs) by (field; lra).
  assert (Hz : IZR fs / INR p * INR p = IZR fs) by (field; lra).
  split.
  - apply (Rmult_lt_reg_r (INR p)); [auto|]. rewrite Hz, <- Hw, (Rmult_comm low). apply Rmult_lt_compat_r; auto.
  - apply (Rmult_lt_reg_r (INR p)); [auto|]. rewrite Hz.
    assert (F3 : IZR fs - high < high * INR p).
    { assert (IZR fs / high * high < (INR p + 1) * high) by (apply Rmult_lt_compat_r; lra). lra. }
    replace (high * (IZR fs / (IZR fs - high)) * INR p) with (IZR fs * (high * INR p / (IZR fs - high))) by (field; lra).
    rewrite <- (Rmult_1_r (IZR fs)) at 1. apply Rmult_lt_compat_l; [auto|].
    apply (Rmult_lt_reg_r (IZR fs - high)); [lra|]. unfold Rdiv. rewrite Rmult_assoc, Rinv_l by lra. lra.
Qed.

Lemma yin_high_refuted : forall N fs wl wh low high th L hop lo T,
  @yin_config exact_env fs wl wh low high L hop lo T -> (S T <= L)%nat -> (2 <= lo <= T)%nat -> 0 < th -> 0 < high ->
  IZR fs / high <> INR lo ->
  let x t := if Nat.eqb (t mod lo) 0 then 1 else 0 in
  exists P H A tm, @compute_yin exact_env (fvec N x) fs wl wh low high th = Ok (P, H, A, tm) /\
    List.length P = yin_frames N L hop /\
    Forall (fun v => v = Fin (IZR fs / INR lo)) P /\ high < IZR fs / INR lo.
Proof.
  intros N fs wl wh low high th L hop lo T Hc HL Hlo Hth Hh Hne x.
  destruct (@compute_yin_ok exact_env N x fs wl wh low high th L hop lo T Hc HL) as (P & H & A & E1 & _).
  do 4 eexists. split; [exact E1|]. split; [rewrite map_length, seq_length; reflexivity|]. split.
  - apply Forall_forall. intros v Hv. apply (In_nth _ _ NaN) in Hv as (i & Hi & <-). rewrite map_length, seq_length in Hi.
    destruct (@yin_periodic exact_env N x fs wl wh low high th L hop lo T lo Hc HL ltac:(lia) ltac:(lia) Hth _ _ _ _ E1 i Hi) as (q & Hq & EP).
    + intros t Ht. unfold yin_x, x. replace (i * hop + (t + lo))%nat with (i * hop + t + 1 * lo)%nat by lia.
      rewrite Nat.mod_add by lia. reflexivity.
    + destruct (pulse_train lo (i * hop) ltac:(lia)) as (u & Hu & Hn). exists u. split; [lia|exact Hn].
    + assert (q = lo) as -> by lia. exact EP.
  - destruct Hc as (Hfs & _ & _ & _ & _ & _ & Elo & _). cbn [rnd exact_env] in Elo.
    assert (0 < IZR fs) by (apply IZR_lt; auto).
    assert (Pl : 0 < INR lo) by (apply lt_0_INR; lia).
    assert (Hq : 0 <= IZR fs / high) by (apply Rmult_le_pos; [lra|left; apply Rinv_0_lt_compat; auto]).
    rewrite Ztrunc_floor in Elo by auto. pose proof (Zfloor_lb (IZR fs / high)) as K. rewrite Elo, <- INR_IZR in K.
    assert (K2 : INR lo < IZR fs / high) by lra.
    apply (Rmult_lt_reg_r (INR lo)); [auto|].
    replace (IZR fs / INR lo * INR lo) with (IZR fs / high * high) by (field; split; lra).
    rewrite Rmult_comm. apply Rmult_lt_compat_r; auto.
Qed.

Lemma yin_last_window : forall L hop k, (1 <= hop)%nat ->
  yin_frames (L + k * hop) L hop = k /\ frame_count (L + k * hop) L hop = S k.
Proof.
  intros L hop k Hh. unfold yin_frames, frame_count. replace (L + k * hop - L)%nat with (k * hop)%nat by lia. split.
  - rewrite Nat.add_comm, Nat.div_add, Nat.div_small by lia. lia.
  - rewrite Nat.div_mul by lia. lia.
Qed.
