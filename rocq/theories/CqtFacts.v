(** * Lemmas about the constant-Q transform *)
From Coq Require Import Reals ZArith List String Bool Lia Lra Psatz.
From Flocq Require Import Core.Raux.
From Coquelicot Require Import Complex.
From Verif Require Import Base BaseFacts Cplx CplxFacts SpecBase SpecMat SpecFeatures SpecSpectral SpecCqt BigSum MatFacts
  Preprocessing PreprocessingFacts WindowFacts Cepstral Fourier DctFacts Features Extractors FeaturesFacts FeaturesMore
  FeaturesLaws FeaturesPhase SpFeatsFacts Cqt.
Import ListNotations.
Local Open Scope R_scope.

(** ** finite complex sums *)
Definition cis (t : R) : C := (cos t, sin t).
Definition Cbig (n : nat) (f : nat -> C) : C := (bigsum n (fun i => fst (f i)), bigsum n (fun i => snd (f i))).
Lemma cis_add : forall a b, Cmult (cis a) (cis b) = cis (a + b).
Proof. intros. unfold cis, Cmult. cbn [fst snd]. rewrite cos_plus, sin_plus. f_equal; ring. Qed.
Lemma cis_conj : forall a, Cconj (cis a) = cis (- a).
Proof. intros. unfold cis, Cconj. cbn [fst snd]. rewrite cos_neg, sin_neg. auto. Qed.
Lemma cis_0 : cis 0 = RtoC 1.
Proof. unfold cis. rewrite cos_0, sin_0. auto. Qed.
Lemma Cbig_ext : forall n f g, (forall i, (i < n)%nat -> f i = g i) -> Cbig n f = Cbig n g.
Proof. intros. unfold Cbig. f_equal; apply bigsum_ext; intros; rewrite H; auto. Qed.
Lemma Cbig_scal : forall n c f, Cbig n (fun i => Cmult c (f i)) = Cmult c (Cbig n f).
Proof.
  intros n c f. unfold Cbig, Cmult. cbn [fst snd].
  rewrite bigsum_minus, bigsum_plus, !bigsum_scal. auto.
Qed.
Lemma Cbig_plus : forall n f g, Cbig n (fun i => Cplus (f i) (g i)) = Cplus (Cbig n f) (Cbig n g).
Proof. intros. unfold Cbig, Cplus. cbn [fst snd]. rewrite !bigsum_plus. auto. Qed.
Lemma Cbig_swap : forall n m f, Cbig n (fun i => Cbig m (fun j => f i j)) = Cbig m (fun j => Cbig n (fun i => f i j)).
Proof. intros. unfold Cbig. cbn [fst snd]. f_equal; apply bigsum_swap. Qed.
Lemma Cbig_delta : forall n k z, (k < n)%nat -> Cbig n (fun i => if Nat.eqb i k then z i else RtoC 0) = z k.
Proof.
  intros n k z Hk. unfold Cbig. rewrite (surjective_pairing (z k)). f_equal.
  - rewrite (bigsum_ext _ _ (fun i => if Nat.eqb i k then fst (z i) else 0)) by (intros; destruct (Nat.eqb i k); auto).
    apply bigsum_delta; auto.
  - rewrite (bigsum_ext _ _ (fun i => if Nat.eqb i k then snd (z i) else 0)) by (intros; destruct (Nat.eqb i k); auto).
    apply bigsum_delta; auto.
Qed.
Lemma Cbig_conj : forall n f, Cbig n (fun i => Cconj (f i)) = Cconj (Cbig n f).
Proof. intros. unfold Cbig, Cconj. cbn [fst snd]. rewrite bigsum_opp. auto. Qed.
Lemma Cbig_mod : forall n f, Cmod (Cbig n f) <= bigsum n (fun i => Cmod (f i)).
Proof. intros. apply (spec_abs_triangle n (fun i => fst (f i)) (fun i => snd (f i))). Qed.
Lemma Cbig_split : forall a b f, Cbig (a + b) f = Cplus (Cbig a f) (Cbig b (fun i => f (a + i)%nat)).
Proof. intros. unfold Cbig, Cplus. cbn [fst snd]. rewrite !bigsum_split. auto. Qed.
Lemma Cbig_zero : forall n f, (forall i, (i < n)%nat -> f i = RtoC 0) -> Cbig n f = RtoC 0.
Proof. intros. unfold Cbig. rewrite !bigsum_zero; auto; intros; rewrite H; auto. Qed.
Lemma csum_emb : forall n f, csum (map (fun i => emb (f i)) (seq 0 n)) = emb (Cbig n f).
Proof.
  intros n f. pose proof (csum_cvec n (fun i => fst (f i)) (fun i => snd (f i))) as E. exact E.
Qed.

(** ** orthogonality and Parseval for complex vectors *)
Lemma sin_sum : forall n d, (0 < n)%nat -> bigsum n (fun k => sin (2 * PI * INR k * IZR d / INR n)) = 0.
Proof.
  intros n d Hn. assert (HN : 0 < INR n) by (apply lt_0_INR; auto).
  assert (E : bigsum n (fun k => sin (2 * PI * INR k * IZR d / INR n)) = - bigsum n (fun k => sin (2 * PI * INR k * IZR d / INR n))); [|lra].
  destruct n as [|m]; [lia|]. rewrite bigsum_S_l. change (INR 0) with 0.
  replace (2 * PI * 0 * IZR d / INR (S m)) with 0 by (field; lra). rewrite sin_0, !Rplus_0_l, <- bigsum_opp.
  rewrite bigsum_rev. apply bigsum_ext. intros i Hi.
  replace (2 * PI * INR (S (m - 1 - i)) * IZR d / INR (S m))
    with (- (2 * PI * INR (S i) * IZR d / INR (S m)) + IZR (2 * d) * PI).
  - rewrite sin_plus, sin_IZR_PI, cos_even_PI, sin_neg. ring.
  - rewrite mult_IZR. replace (S (m - 1 - i)) with (S m - S i)%nat by lia. rewrite minus_INR by lia. field. lra.
Qed.
Lemma cis_orth : forall n t s, (t < n)%nat -> (s < n)%nat ->
  Cbig n (fun k => cis (2 * PI * INR k * (INR t - INR s) / INR n)) = RtoC (if Nat.eqb t s then INR n else 0).
Proof.
  intros n t s Ht Hs. unfold Cbig, cis, RtoC. cbn [fst snd].
  assert (HN : 0 < INR n) by (apply lt_0_INR; lia).
  assert (Ed : INR t - INR s = IZR (Z.of_nat t - Z.of_nat s)) by (rewrite minus_IZR, <- !INR_IZR_INZ; auto).
  rewrite Ed. f_equal; [|apply sin_sum; lia].
  transitivity (Seven n (2 * (Z.of_nat t - Z.of_nat s))).
  - unfold Seven. apply bigsum_ext. intros k _. f_equal. rewrite mult_IZR. field. lra.
  - destruct (Nat.eqb_spec t s) as [->|Hne].
    + rewrite Z.sub_diag, Z.mul_0_r, Seven_0. auto.
    + rewrite Seven_even; [auto|lia|lia|]. rewrite Z.even_mul. auto.
Qed.
Lemma Cconj_mult : forall a b, Cconj (Cmult a b) = Cmult (Cconj a) (Cconj b).
Proof. intros [a a'] [b b']. unfold Cconj, Cmult. cbn [fst snd]. f_equal; ring. Qed.
Definition dftC (n : nat) (x : nat -> C) (k : nat) : C :=
  Cbig n (fun t => Cmult (x t) (cis (- (2 * PI * INR (t * k) / INR n)))).
Lemma parseval_inner : forall n x a, (0 < n)%nat ->
  Cbig n (fun k => Cmult (dftC n x k) (Cconj (dftC n a k)))
  = Cmult (RtoC (INR n)) (Cbig n (fun t => Cmult (x t) (Cconj (a t)))).
Proof.
  intros n x a Hn.
  rewrite (Cbig_ext n _ (fun k => Cbig n (fun t => Cbig n (fun s =>
     Cmult (Cmult (x t) (Cconj (a s))) (cis (2 * PI * INR k * (INR s - INR t) / INR n)))))).
  - rewrite Cbig_swap, <- Cbig_scal. apply Cbig_ext. intros t Ht. rewrite Cbig_swap.
    rewrite (Cbig_ext n _ (fun s => if Nat.eqb s t then Cmult (RtoC (INR n)) (Cmult (x t) (Cconj (a s))) else RtoC 0)).
    + rewrite Cbig_delta by auto. auto.
    + intros s Hs. rewrite Cbig_scal, cis_orth by auto. destruct (Nat.eqb s t); ring.
  - intros k Hk. unfold dftC at 1. rewrite Cmult_comm, <- Cbig_scal. apply Cbig_ext. intros t Ht.
    unfold dftC. rewrite <- Cbig_conj. rewrite Cmult_comm, <- Cbig_scal. apply Cbig_ext. intros s Hs.
    rewrite Cconj_mult, cis_conj.
    transitivity (Cmult (Cmult (x t) (Cconj (a s))) (Cmult (cis (- (2 * PI * INR (t * k) / INR n))) (cis (- - (2 * PI * INR (s * k) / INR n))))); [ring|].
    rewrite cis_add. do 2 f_equal. rewrite !mult_INR. unfold Rdiv. ring.
Qed.

(** ** which frequencies are used *)
Lemma zrange_seq : forall n, zrange 0 (Z.of_nat n) = map Z.of_nat (seq 0 n).
Proof. intros. unfold zrange. rewrite Z.sub_0_r, Nat2Z.id. apply map_ext. intros; lia. Qed.
Lemma tmp_freqs_seq : forall f0 O B, (0 < B)%nat ->
  tmp_cqt_freqs f0 (Z.of_nat O) (Z.of_nat B) = map (cqt_freq f0 B) (seq 0 (O * B)).
Proof.
  intros f0 O B HB. unfold tmp_cqt_freqs. rewrite !zrange_seq. induction O as [|O IH]; auto.
  rewrite seq_S, map_app, flat_map_app, IH. cbn [map flat_map Nat.add]. rewrite app_nil_r.
  replace (S O * B)%nat with (O * B + B)%nat by lia.
  rewrite (seq_app (O * B)), map_app. f_equal. rewrite map_map. cbn [Nat.add].
  assert (G : forall k b, map (cqt_freq f0 B) (seq (O * B + b) k)
     = map (fun x => f0 * Rpower 2 (IZR (Z.of_nat O * Z.of_nat B + Z.of_nat x) / IZR (Z.of_nat B))) (seq b k)).
  { induction k as [|k IHk]; intros b; auto. cbn [seq map]. f_equal.
    - unfold cqt_freq. do 3 f_equal.
      + rewrite INR_IZR_INZ. f_equal. lia.
      + apply INR_IZR_INZ.
    - rewrite <- IHk. do 2 f_equal. lia. }
  rewrite <- (Nat.add_0_r (O * B)), G. auto.
Qed.
Lemma filter_seq_convex : forall (p : nat -> bool) T,
  (forall i j k, (i <= j <= k)%nat -> (k < T)%nat -> p i = true -> p k = true -> p j = true) ->
  exists a c, filter p (seq 0 T) = seq a c /\ (a + c <= T)%nat /\
    forall i, (i < T)%nat -> (p i = true <-> (a <= i < a + c)%nat).
Proof.
  intros p T. induction T as [|T IH]; intros Hc.
  - exists O, O. repeat split; auto; intros; lia.
  - destruct IH as (a & c & E & Hl & Hi).
    { intros i j k Hj Hk. apply Hc; auto. }
    rewrite seq_S, filter_app, E. cbn [filter Nat.add]. destruct (p T) eqn:ET.
    + destruct c as [|c].
      * exists T, 1%nat. cbn [seq app]. split; auto. split; [lia|]. intros i Hlt.
        destruct (Nat.eq_dec i T); [subst; split; auto; lia|]. rewrite Hi by lia. lia.
      * assert (a + S c = T)%nat.
        { destruct (Nat.eq_dec (a + S c) T); auto. exfalso.
          assert (P1 : p a = true) by (apply Hi; lia).
          assert (P2 : p (a + S c)%nat = true) by (apply (Hc a (a + S c)%nat T); auto; lia).
          apply Hi in P2; lia. }
        exists a, (S (S c)). split; [|split; [lia|]].
        -- rewrite (seq_S (S c)). rewrite H. auto.
        -- intros i Hlt. destruct (Nat.eq_dec i T); [subst; split; auto; lia|].
           rewrite Hi by lia. lia.
    + exists a, c. rewrite app_nil_r. split; auto. split; [lia|]. intros i Hlt.
      destruct (Nat.eq_dec i T); [subst; rewrite ET; split; [discriminate|lia]|]. apply Hi. lia.
Qed.
Lemma filter_seq_up : forall (p : nat -> bool) a c,
  (forall i j, (a <= i <= j)%nat -> (j < a + c)%nat -> p i = true -> p j = true) ->
  exists d, (d <= c)%nat /\ filter p (seq a c) = seq (a + c - d) d /\
    forall i, (a <= i < a + c)%nat -> (p i = true <-> (a + c - d <= i)%nat).
Proof.
  intros p a c. induction c as [|c IH]; intros Hc.
  - exists O. repeat split; auto; lia.
  - destruct IH as (d & Hd & E & Hi). { intros i j Hj Hk. apply Hc; auto. lia. }
    rewrite seq_S, filter_app, E. cbn [filter]. destruct (p (a + c)%nat) eqn:ET.
    + exists (S d). split; [lia|]. split.
      * rewrite (seq_S d). replace (a + S c - S d)%nat with (a + c - d)%nat by lia.
        replace (a + c - d + d)%nat with (a + c)%nat by lia. auto.
      * intros i Hr. destruct (Nat.eq_dec i (a + c)); [subst; split; auto; lia|]. rewrite Hi by lia. lia.
    + exists O. split; [lia|]. assert (d = O).
      { destruct d as [|d]; auto. exfalso. assert (p (a + c - 1)%nat = true) by (apply Hi; lia).
        assert (p (a + c)%nat = true) by (apply (Hc (a + c - 1)%nat (a + c)%nat); auto; lia). congruence. }
      subst d. split; auto. intros i Hr. split; [|lia]. intros Hp.
      destruct (Nat.eq_dec i (a + c)); [subst; congruence|]. apply Hi in Hp; lia.
Qed.
Lemma filter_map : forall A B (g : A -> B) p l, filter p (map g l) = map g (filter (fun x => p (g x)) l).
Proof. intros. induction l as [|x l IH]; auto. cbn [map filter]. destruct (p (g x)); cbn [map]; rewrite IH; auto. Qed.

Lemma Rpower2_pos : forall x, 0 < Rpower 2 x.
Proof. intros. apply exp_pos. Qed.
Lemma cqt_freq_pos : forall f0 B i, 0 < f0 -> 0 < cqt_freq f0 B i.
Proof. intros. unfold cqt_freq. apply Rmult_lt_0_compat; auto. apply Rpower2_pos. Qed.
Lemma cqt_freq_mono : forall f0 B i j, 0 < f0 -> (0 < B)%nat -> (i <= j)%nat -> cqt_freq f0 B i <= cqt_freq f0 B j.
Proof.
  intros f0 B i j Hf HB Hij. unfold cqt_freq. apply Rmult_le_compat_l; [lra|].
  apply Rle_Rpower; [lra|]. assert (0 < INR B) by (apply lt_0_INR; auto).
  apply Rmult_le_compat_r; [left; apply Rinv_0_lt_compat; auto|]. apply le_INR; auto.
Qed.
Lemma cqt_quality_pos : forall q B, 0 < q -> (0 < B)%nat -> 0 < cqt_quality q B.
Proof.
  intros q B Hq HB. unfold cqt_quality. apply Rdiv_lt_0_compat; auto.
  assert (0 < INR B) by (apply lt_0_INR; auto).
  assert (Rpower 2 0 < Rpower 2 (1 / INR B)); [|rewrite Rpower_O in H0; lra].
  apply Rpower_lt; [lra|]. apply Rdiv_lt_0_compat; lra.
Qed.
Lemma win_len_pos : forall q B fs f, 0 < q -> (0 < B)%nat -> (0 < fs)%Z -> 0 < f ->
  (1 <= cqt_win_len (cqt_quality q B) fs f)%Z.
Proof.
  intros. unfold cqt_win_len. assert (0 < Zceil (cqt_quality q B * IZR fs / f))%Z; [|lia].
  apply lt_IZR. apply Rlt_le_trans with (cqt_quality q B * IZR fs / f); [|apply Zceil_ub].
  apply Rdiv_lt_0_compat; auto. apply Rmult_lt_0_compat; [apply cqt_quality_pos; auto|apply IZR_lt; auto].
Qed.
Lemma win_len_anti : forall Q fs f g, 0 < Q -> (0 < fs)%Z -> 0 < f -> f <= g ->
  (cqt_win_len Q fs g <= cqt_win_len Q fs f)%Z.
Proof.
  intros Q fs f g HQ Hfs Hf Hg. unfold cqt_win_len. apply Zceil_le. 
  apply Rmult_le_compat_l; [|apply Rinv_le_contravar; auto].
  apply Rmult_le_pos; [lra|]. left. apply IZR_lt; auto.
Qed.
Lemma win_len_spec : forall Q fs f N, (Q * IZR fs / f <= INR N < Q * IZR fs / f + 1) <-> cqt_win_len Q fs f = Z.of_nat N.
Proof.
  intros. unfold cqt_win_len. split.
  - intros [H1 H2]. apply Zceil_imp. rewrite minus_IZR, <- INR_IZR_INZ. lra.
  - intros E. pose proof (Zceil_ub (Q * IZR fs / f)) as U. pose proof (Zceil_lb (Q * IZR fs / f)) as L.
    rewrite E, <- INR_IZR_INZ in U, L. lra.
Qed.

Lemma Rleb_iff : forall x y, Rleb x y = true <-> x <= y.
Proof. intros. unfold Rleb. destruct (Rle_dec x y); split; auto; try discriminate; contradiction. Qed.

(** the frequencies in the band and, among them, those whose window fits *)
Lemma cqt_select : forall f0 q B O fs low high n,
  0 < f0 -> 0 < q -> (0 < B)%nat -> (0 < fs)%Z ->
  let len := fun i => cqt_win_len (cqt_quality q B) fs (cqt_freq f0 B i) in
  let fr := filter (fun f => Rleb low f && Rleb f high) (tmp_cqt_freqs f0 (Z.of_nat O) (Z.of_nat B)) in
  let wl := filter (fun N => N <=? Z.of_nat n)%Z (map (cqt_win_len (cqt_quality q B) fs) fr) in
  exists a c d, (d <= c)%nat /\ (a + c <= O * B)%nat /\ fr = map (cqt_freq f0 B) (seq a c) /\
    wl = map len (seq (a + c - d) d) /\
    (forall i, (i < O * B)%nat -> (low <= cqt_freq f0 B i <= high <-> (a <= i < a + c)%nat)) /\
    (forall i, (i < O * B)%nat -> ((exists N, cqt_used f0 q B fs low high n i N) <-> (a + c - d <= i < a + c)%nat)) /\
    (forall i, (a + c - d <= i < a + c)%nat -> exists N, len i = Z.of_nat N /\ (1 <= N)%nat /\ cqt_used f0 q B fs low high n i N).
Proof.
  intros f0 q B O fs low high n Hf Hq HB Hfs len fr wl.
  destruct (filter_seq_convex (fun i => Rleb low (cqt_freq f0 B i) && Rleb (cqt_freq f0 B i) high) (O * B)) as (a & c & E & Hl & Hi).
  { intros i j k Hj Hk P1 P2. apply andb_prop in P1, P2. destruct P1 as [P1 _], P2 as [_ P2].
    apply Rleb_iff in P1, P2. apply andb_true_intro. split; apply Rleb_iff.
    - apply Rle_trans with (cqt_freq f0 B i); auto. apply cqt_freq_mono; auto; lia.
    - apply Rle_trans with (cqt_freq f0 B k); auto. apply cqt_freq_mono; auto; lia. }
  destruct (filter_seq_up (fun i => (len i <=? Z.of_nat n)%Z) a c) as (d & Hd & E2 & Hi2).
  { intros i j Hj Hk P. apply Z.leb_le in P. apply Z.leb_le. apply Z.le_trans with (len i); auto.
    apply win_len_anti; auto; [apply cqt_quality_pos; auto|apply cqt_freq_pos; auto|apply cqt_freq_mono; auto; lia]. }
  assert (Efr : fr = map (cqt_freq f0 B) (seq a c)).
  { unfold fr. rewrite tmp_freqs_seq, filter_map, E by auto. auto. }
  assert (Hb : forall i, (i < O * B)%nat -> (low <= cqt_freq f0 B i <= high <-> (a <= i < a + c)%nat)).
  { intros i Hlt. rewrite <- Hi by auto. rewrite andb_true_iff, !Rleb_iff. tauto. }
  exists a, c, d. split; auto. split; auto. split; auto. split.
  { unfold wl. rewrite Efr, map_map, filter_map. fold len.
    rewrite (filter_ext _ (fun i => (len i <=? Z.of_nat n)%Z)) by auto. rewrite E2. auto. }
  split; auto.
  assert (HN : forall i, (a + c - d <= i < a + c)%nat -> exists N, len i = Z.of_nat N /\ (1 <= N)%nat /\ cqt_used f0 q B fs low high n i N).
  { intros i Hr. assert (Hlen : (1 <= len i)%Z) by (apply win_len_pos; auto; apply cqt_freq_pos; auto).
    exists (Z.to_nat (len i)). split; [lia|]. split; [lia|].
    split; [apply Hb; lia|]. split.
    - cbv zeta. apply win_len_spec. unfold len in *. lia.
    - assert (len i <= Z.of_nat n)%Z by (apply Z.leb_le; apply Hi2; lia). lia. }
  split; auto. intros i Hlt. split.
  - intros (N & U1 & U2 & U3). apply Hb in U1; auto. split; [|lia]. apply Hi2; auto.
    apply Z.leb_le. cbv zeta in U2. apply win_len_spec in U2. unfold len. lia.
  - intros Hr. destruct (HN i Hr) as (N & _ & _ & U). eauto.
Qed.
Lemma py_drop_neg : forall A (l : list A) d, (0 < d <= List.length l)%nat -> py_drop (-1 * Z.of_nat d) l = skipn (List.length l - d) l.
Proof.
  intros. unfold py_drop, zlen. destruct (Z.ltb_spec (-1 * Z.of_nat d) 0); [|lia]. f_equal. lia.
Qed.

(** ** the kernel and the transform of a frame *)
Definition atomC (wt : string) (fs : Z) (f : R) (N s t : nat) : C :=
  if (Nat.leb s t && Nat.ltb t (s + N))%bool
  then Cmult (RtoC (/ INR N)) (Cmult (RtoC (spec_window wt N (t - s))) (cis (2 * PI * (f / IZR fs) * INR (t - s))))
  else RtoC 0.
Definition thrC (thr : R) (z : C) : C := if Rleb (Cmod z) thr then RtoC 0 else z.
Definition kernC (thr : R) (n : nat) (wt : string) (fs : Z) (f : R) (N k : nat) : C :=
  Cmult (RtoC (/ INR n)) (Cconj (thrC thr (dftC n (atomC wt fs f N ((n - N) / 2)) k))).
Definition frameC (n L : nat) (x : nat -> R) (k : nat) : C := (spec_re n L x k, spec_im n L x k).
Definition cqtC (thr : R) (n : nat) (wt : string) (fs : Z) (L : nat) (x : nat -> R) (f : R) (N : nat) : C :=
  Cbig n (fun k => Cmult (frameC n L x k) (kernC thr n wt fs f N k)).

Lemma repeat_seq : forall A (d : A) n, repeat d n = map (fun _ => d) (seq 0 n).
Proof. intros. apply (list_eq_nth _ d). { rewrite repeat_length, map_length, seq_length; auto. }
  intros i Hi. rewrite repeat_length in Hi. rewrite nth_map_seq by auto. rewrite nth_repeat. auto. Qed.
Lemma atom_emb : forall fs n wt f N, (1 <= N <= n)%nat -> In wt window_names ->
  cqt_atom fs (Z.of_nat n) wt f (Z.of_nat N) = Ok (map (fun t => emb (atomC wt fs f N ((n - N) / 2) t)) (seq 0 n)).
Proof.
  intros fs n wt f N HN Hwt. unfold cqt_atom. rewrite Nat2Z.id.
  edestruct (windowing_row_known _ cscal (map (fun t => cexpi (Fin (2 * PI * (f / IZR fs) * INR t))) (seq 0 N)) (Z.of_nat N) wt)
    as (out & E & Hl & Hn).
  { lia. } { unfold zlen. rewrite map_length, seq_length. auto. } { apply known_window_iff; auto. }
  cbv zeta. rewrite E. cbn [rbind]. destruct (Z.ltb_spec (Z.of_nat N) 1); [lia|].
  rewrite map_length, seq_length in *.
  assert (Es : Z.to_nat (Z.quot (Z.of_nat n - Z.of_nat N) 2) = ((n - N) / 2)%nat).
  { rewrite Z.quot_div_nonneg by lia. rewrite <- Nat2Z.inj_sub by lia. change 2%Z with (Z.of_nat 2).
    rewrite <- Nat2Z.inj_div, Nat2Z.id. auto. }
  set (s := ((n - N) / 2)%nat) in *.
  assert (Hs : (s <= n - N)%nat) by (apply Nat.div_le_upper_bound; lia).
  assert (Ez : Z.quot (Z.of_nat n - Z.of_nat N) 2 = Z.of_nat s).
  { rewrite <- Es, Z2Nat.id; auto. apply Z.quot_pos; lia. }
  rewrite Ez, Nat2Z.id. clearbody s. clear Ez Es.
  replace (Z.to_nat (Z.of_nat n - Z.of_nat s - Z.of_nat N)) with (n - s - N)%nat by lia.
  f_equal. apply (list_eq_nth _ czero).
  { rewrite !app_length, !repeat_length, !map_length, seq_length. lia. }
  intros t Ht. rewrite !app_length, !repeat_length, map_length in Ht.
  rewrite nth_map_seq by lia. unfold atomC.
  destruct (Nat.leb_spec s t); cbn [andb].
  - rewrite app_nth2 by (rewrite repeat_length; lia). rewrite repeat_length.
    destruct (Nat.ltb_spec t (s + N)).
    + rewrite app_nth1 by (rewrite map_length; lia).
      rewrite nth_map with (d := czero) by lia. rewrite (Hn (t - s)%nat czero czero) by lia.
      rewrite nth_map_seq by lia. rewrite Nat2Z.id, cexpi_emb, !cscal_emb.
      f_equal. f_equal. rewrite <- INR_IZR_INZ. unfold Rdiv. rewrite Rmult_1_l. auto.
    + rewrite app_nth2 by (rewrite map_length; lia). rewrite nth_repeat. auto.
  - rewrite app_nth1 by (rewrite repeat_length; lia). rewrite nth_repeat. auto.
Qed.
Lemma cdft_emb : forall n a k, cdft_bin n (map (fun t => emb (a t)) (seq 0 n)) k = emb (dftC n a k).
Proof.
  intros. unfold cdft_bin, dftC. rewrite <- csum_emb. f_equal. apply map_ext_in. intros j Hj. apply in_seq in Hj.
  rewrite nth_map_seq by lia. rewrite cexpi_emb, cmul_emb. auto.
Qed.
Lemma kernel_emb : forall fs n wt thr f N, (1 <= N <= n)%nat -> In wt window_names ->
  cqt_kernel fs (Z.of_nat n) wt thr f (Z.of_nat N) = Ok (map (fun k => emb (kernC thr n wt fs f N k)) (seq 0 n)).
Proof.
  intros fs n wt thr f N HN Hwt. unfold cqt_kernel. rewrite atom_emb by auto. cbn [rbind].
  destruct (Z.ltb_spec (Z.of_nat n) 1); [lia|]. f_equal. rewrite Nat2Z.id. apply map_ext_in. intros k _.
  rewrite cdft_emb, cabs_emb. cbv zeta. unfold fleb, kernC, thrC. rewrite <- INR_IZR_INZ.
  destruct (Rleb _ thr).
  - change czero with (emb (RtoC 0)). rewrite cconj_emb, cscal_emb. do 2 f_equal. unfold Rdiv. rewrite Rmult_1_l. auto.
  - rewrite cconj_emb, cscal_emb. do 2 f_equal. unfold Rdiv. rewrite Rmult_1_l. auto.
Qed.
Lemma sparse_dot_emb : forall n X K, sparse_dot (map (fun k => emb (X k)) (seq 0 n)) (map (fun k => emb (K k)) (seq 0 n))
  = emb (Cbig n (fun k => Cmult (X k) (K k))).
Proof.
  intros. unfold sparse_dot. rewrite map2_map_same, <- csum_emb. f_equal. apply map_ext. intros k.
  destruct (is_czero (emb (K k))) eqn:E; [|apply cmul_emb].
  unfold is_czero, emb, feqb, f0, Reqb in E. cbn [fst snd] in E.
  destruct (K k) as [u v]. cbn [fst snd] in E.
  destruct (Req_EM_T u 0) as [->|]; [|discriminate]. destruct (Req_EM_T v 0) as [->|]; [|discriminate].
  change (0, 0) with (RtoC 0). rewrite Cmult_0_r. auto.
Qed.
Lemma fft_emb : forall m L x n, (1 <= n)%nat ->
  np_fft (fmat m L x) (Z.of_nat n) = Ok (map (fun i => map (fun k => emb (frameC n L (x i) k)) (seq 0 n)) (seq 0 m)).
Proof.
  intros. unfold np_fft. destruct (Z.ltb_spec (Z.of_nat n) 1); [lia|]. rewrite Nat2Z.id. f_equal.
  unfold fmat. rewrite map_map. apply map_ext. intros i. apply map_ext. intros k. apply dft_bin_fvec.
Qed.
Lemma transposed_seq : forall A (d : A) m P (g : nat -> nat -> A), (0 < m)%nat ->
  transposed d (map (fun i => map (g i) (seq 0 P)) (seq 0 m)) = map (fun p => map (fun i => g i p) (seq 0 m)) (seq 0 P).
Proof.
  intros A d m P g Hm. unfold transposed. destruct m as [|m]; [lia|].
  assert (E : ncols (map (fun i => map (g i) (seq 0 P)) (seq 0 (S m))) = P) by (cbn; rewrite map_length, seq_length; auto).
  rewrite E. apply map_ext_in. intros p Hp. apply in_seq in Hp. rewrite map_map. apply map_ext. intros i.
  rewrite nth_map_seq by lia. auto.
Qed.
Lemma skipn_seq : forall d a c, (d <= c)%nat -> skipn d (seq a c) = seq (a + d) (c - d).
Proof.
  induction d as [|d IH]; intros a c H. { cbn. rewrite Nat.add_0_r, Nat.sub_0_r. auto. }
  destruct c as [|c]; [lia|]. cbn [seq skipn]. rewrite IH by lia. f_equal; lia.
Qed.
Lemma py_nth_map_seq : forall A (g : nat -> A) a d k, (k < d)%nat -> py_nth (map g (seq a d)) (Z.of_nat k) = Ok (g (a + k)%nat).
Proof.
  intros A g a d k Hk. unfold py_nth, zlen. rewrite map_length, seq_length.
  destruct (Z.ltb_spec (Z.of_nat k) 0); [lia|].
  destruct (Z.leb_spec 0 (Z.of_nat k)); [|lia]. destruct (Z.ltb_spec (Z.of_nat k) (Z.of_nat d)); [|lia]. cbn [andb].
  rewrite Nat2Z.id, nth_error_map. rewrite (nth_error_nth' _ O) by (rewrite seq_length; auto). rewrite seq_nth by auto. auto.
Qed.

(** the transform of [m] frames of [L] samples *)
Lemma cqt_ok : forall f0 q B O fs low high n wt thr m L, cqt_config f0 q B fs n wt -> (0 < m)%nat ->
  let band := fun i => low <= cqt_freq f0 B i <= or_half high fs in
  let used := fun i => exists N, cqt_used f0 q B fs low (or_half high fs) n i N in
  (exists i, (i < O * B)%nat /\ used i) \/ (forall i, (i < O * B)%nat -> ~ band i) ->
  exists a P len, (a + P <= O * B)%nat /\
    (forall i, (i < O * B)%nat -> (used i <-> (a <= i < a + P)%nat)) /\
    (forall p, (p < P)%nat -> (1 <= len p)%nat /\ cqt_used f0 q B fs low (or_half high fs) n (a + p) (len p)) /\
    (forall x, compute_constant_qtransform (fmat m L x) fs low high (Z.of_nat n) (Z.of_nat O) (Z.of_nat B) wt thr f0 q
     = Ok (map (fun p => map (fun i => emb (cqtC thr n wt fs L (x i) (cqt_freq f0 B (a + p)) (len p))) (seq 0 m)) (seq 0 P))).
Proof.
  intros f0 q B O fs low high n wt thr m L (Hf & Hq & HB & Hfs & Hn & Hwt) Hm band used Hcase.
  destruct (cqt_select f0 q B O fs low (or_half high fs) n Hf Hq HB Hfs) as (a & c & d & Hd & Hc & Efr & Ewl & Hband & Hused & HN).
  assert (Hdc : d = 0%nat /\ c = 0%nat \/ (0 < d)%nat).
  { destruct d as [|d]; [|right; lia]. left. split; auto. destruct Hcase as [(i & Hi & U)|Hb].
    - apply Hused in U; auto. lia.
    - destruct c as [|c]; auto. exfalso. apply (Hb a); [lia|]. apply Hband; lia. }
  set (a' := (a + c - d)%nat).
  assert (Ea : (a' + d = a + c)%nat) by (unfold a'; lia).
  set (len := fun p => Z.to_nat (cqt_win_len (cqt_quality q B) fs (cqt_freq f0 B (a' + p)))).
  assert (Hlen : forall p, (p < d)%nat -> cqt_win_len (cqt_quality q B) fs (cqt_freq f0 B (a' + p)) = Z.of_nat (len p) /\
     (1 <= len p)%nat /\ cqt_used f0 q B fs low (or_half high fs) n (a' + p) (len p)).
  { intros p Hp. destruct (HN (a' + p)%nat) as (N & E1 & E2 & E3); [lia|].
    assert (len p = N) by (unfold len; rewrite E1, Nat2Z.id; auto). rewrite H. auto. }
  exists a', d, len. split; [lia|]. split. { intros. unfold used. rewrite Hused by auto. unfold a'. lia. }
  split. { intros p Hp. apply Hlen in Hp. tauto. }
  intros x. unfold compute_constant_qtransform, cqt_frames.
  assert (EQ : (if (Z.of_nat B =? 0)%Z then Raise ZeroDivisionError else Ok (q / (Rpower 2 (1 / IZR (Z.of_nat B)) - 1)))
     = Ok (cqt_quality q B)).
  { destruct (Z.eqb_spec (Z.of_nat B) 0); [lia|]. unfold cqt_quality. rewrite INR_IZR_INZ. auto. }
  cbv zeta. rewrite EQ. cbn [rbind]. rewrite Ewl.
  rewrite Efr. fold a'.
  destruct (Z.ltb_spec (Z.of_nat n) 0); [lia|].
  assert (Edrop : py_drop (-1 * zlen (map (fun i => cqt_win_len (cqt_quality q B) fs (cqt_freq f0 B i)) (seq a' d)))
      (map (cqt_freq f0 B) (seq a c)) = map (cqt_freq f0 B) (seq a' d)).
  { unfold zlen. rewrite map_length, seq_length. destruct Hdc as [[-> ->]|Hd0]; [reflexivity|].
    rewrite py_drop_neg by (rewrite map_length, seq_length; lia). rewrite map_length, seq_length, skipn_map.
    rewrite skipn_seq by lia. do 2 f_equal; unfold a'; lia. }
  rewrite Edrop. rewrite map_length, seq_length.
  rewrite (mapM_ok_map _ _ _ (fun p => map (fun k => emb (kernC thr n wt fs (cqt_freq f0 B (a' + p)) (len p) k)) (seq 0 n))).
  - cbn [rbind]. rewrite fft_emb by auto. cbn [rbind rmap]. f_equal.
    rewrite map_map.
    rewrite (map_ext _ (fun i => map (fun p => emb (cqtC thr n wt fs L (x i) (cqt_freq f0 B (a' + p)) (len p))) (seq 0 d))).
    + apply transposed_seq. auto.
    + intros i. rewrite map_map. apply map_ext. intros p. apply sparse_dot_emb.
  - intros p Hp. apply in_seq in Hp. rewrite py_nth_map_seq by lia. cbn [rbind].
    destruct (Hlen p) as (E1 & E2 & E3); [lia|]. rewrite E1.
    rewrite nth_map with (d := 0%nat) by (rewrite seq_length; lia). rewrite seq_nth by lia.
    apply kernel_emb; auto. destruct E3 as (_ & _ & E3). lia.
Qed.

Lemma cqt_none_fits : forall f0 q B O fs low high n wt thr m L x, cqt_config f0 q B fs n wt ->
  (exists i, (i < O * B)%nat /\ low <= cqt_freq f0 B i <= or_half high fs) ->
  (forall i N, (i < O * B)%nat -> ~ cqt_used f0 q B fs low (or_half high fs) n i N) ->
  compute_constant_qtransform (fmat m L x) fs low high (Z.of_nat n) (Z.of_nat O) (Z.of_nat B) wt thr f0 q = Raise IndexError.
Proof.
  intros f0 q B O fs low high n wt thr m L x (Hf & Hq & HB & Hfs & Hn & Hwt) (i & Hi & Hb) Hno.
  destruct (cqt_select f0 q B O fs low (or_half high fs) n Hf Hq HB Hfs) as (a & c & d & Hd & Hc & Efr & Ewl & Hband & Hused & HN).
  assert (d = 0%nat).
  { destruct d as [|d]; auto. exfalso. destruct (HN (a + c - S d)%nat) as (N & _ & _ & U); [lia|]. apply (Hno (a + c - S d)%nat N); auto. lia. }
  subst d. apply Hband in Hb; auto. destruct c as [|c]; [lia|].
  unfold compute_constant_qtransform, cqt_frames.
  assert (EQ : (if (Z.of_nat B =? 0)%Z then Raise ZeroDivisionError else Ok (q / (Rpower 2 (1 / IZR (Z.of_nat B)) - 1)))
     = Ok (cqt_quality q B)).
  { destruct (Z.eqb_spec (Z.of_nat B) 0); [lia|]. unfold cqt_quality. rewrite INR_IZR_INZ. auto. }
  cbv zeta. rewrite EQ. cbn [rbind]. rewrite Ewl, Efr. destruct (Z.ltb_spec (Z.of_nat n) 0); [lia|]. reflexivity.
Qed.

(** ** the transform without the threshold *)
Lemma frameC_dft : forall n L x k, frameC n L x k = dftC n (fun t => RtoC (padded L x t)) k.
Proof.
  intros. unfold frameC, dftC, Cbig, Cmult, RtoC, cis. cbn [fst snd]. unfold spec_re, spec_im. f_equal.
  - rewrite <- (bigsum_crop n (Nat.min L n) x (fun t => cos (2 * PI * INR (t * k) / INR n))) by lia.
    apply bigsum_ext. intros t Ht. rewrite cos_neg. unfold padded.
    destruct (Nat.ltb_spec t (Nat.min L n)), (Nat.ltb_spec t L); try lia; ring.
  - rewrite <- (bigsum_crop n (Nat.min L n) x (fun t => - sin (2 * PI * INR (t * k) / INR n))) by lia.
    apply bigsum_ext. intros t Ht. rewrite sin_neg. unfold padded.
    destruct (Nat.ltb_spec t (Nat.min L n)), (Nat.ltb_spec t L); try lia; ring.
Qed.
Lemma direct_brown : forall n wt fs f N x, (1 <= N <= n)%nat ->
  Cbig n (fun t => Cmult (RtoC (x t)) (Cconj (atomC wt fs f N ((n - N) / 2) t)))
  = (brown_re wt fs f N ((n - N) / 2) x, brown_im wt fs f N ((n - N) / 2) x).
Proof.
  intros n wt fs f N x HN. set (s := ((n - N) / 2)%nat).
  assert (Hs : (s <= n - N)%nat) by (apply Nat.div_le_upper_bound; lia). clearbody s.
  replace n with (s + (N + (n - s - N)))%nat by lia. rewrite Cbig_split, Cbig_split.
  rewrite (Cbig_zero s). 2:{ intros t Ht. unfold atomC. destruct (Nat.leb_spec s t); [lia|]. cbn [andb].
    unfold Cconj, Cmult, RtoC. cbn [fst snd]. f_equal; ring. }
  rewrite (Cbig_zero (n - s - N)). 2:{ intros t Ht. unfold atomC. destruct (Nat.ltb_spec (s + (N + t)) (s + N)); [lia|].
    rewrite andb_false_r. unfold Cconj, Cmult, RtoC. cbn [fst snd]. f_equal; ring. }
  rewrite Cplus_0_l, Cplus_0_r. unfold Cbig, brown_re, brown_im. rewrite <- !bigsum_scal.
  f_equal; apply bigsum_ext; intros t Ht; unfold atomC; (destruct (Nat.leb_spec s (s + t)); [|lia]);
    (destruct (Nat.ltb_spec (s + t) (s + N)); [|lia]); cbn [andb]; replace (s + t - s)%nat with t by lia;
    unfold Cconj, Cmult, RtoC, cis; cbn [fst snd];
    replace (2 * PI * (f / IZR fs) * INR t) with (2 * PI * f * INR t / IZR fs) by (unfold Rdiv; ring); ring.
Qed.
Lemma Cmod_conj' : forall z, Cmod (Cconj z) = Cmod z.
Proof. intros [a b]. unfold Cmod, Cconj. cbn [fst snd]. f_equal. ring. Qed.
Lemma thrC_err : forall thr z, Cmod (Cminus z (thrC thr z)) <= Rmax 0 thr.
Proof.
  intros. unfold thrC. destruct (Rleb (Cmod z) thr) eqn:E.
  - apply Rleb_iff in E. unfold Cminus. rewrite <- RtoC_opp, Ropp_0, Cplus_0_r. apply Rle_trans with thr; auto. apply Rmax_r.
  - unfold Cminus. rewrite Cplus_opp_r, Cmod_0. apply Rmax_l.
Qed.
Lemma sum_sq_cauchy : forall n u, (bigsum n u) ^ 2 <= INR n * bigsum n (fun k => u k ^ 2).
Proof.
  intros n u. destruct n as [|n]; [cbn; lra|].
  assert (HN : 0 < INR (S n)) by (apply lt_0_INR; lia). set (N := S n) in *.
  set (c := bigsum N u / INR N).
  assert (H : 0 <= bigsum N (fun k => (u k - c) ^ 2)) by (apply bigsum_nonneg; intros; apply pow2_ge_0).
  assert (E : bigsum N (fun k => (u k - c) ^ 2) = bigsum N (fun k => u k ^ 2) - bigsum N u ^ 2 / INR N).
  { rewrite (bigsum_ext N _ (fun k => u k ^ 2 + (- (2 * c) * u k + c ^ 2))) by (intros; ring).
    rewrite (bigsum_plus N (fun k => u k ^ 2)), (bigsum_plus N (fun k => - (2 * c) * u k)), bigsum_scal, bigsum_const.
    unfold c. field. lra. }
  rewrite E in H. assert (H2 : bigsum N u ^ 2 / INR N * INR N <= bigsum N (fun k => u k ^ 2) * INR N) by (apply Rmult_le_compat_r; lra).
  unfold Rdiv in H2. rewrite Rmult_assoc, Rinv_l, Rmult_1_r in H2; lra.
Qed.
Lemma frame_mags : forall n L x, (0 < n)%nat ->
  bigsum n (fun k => Cmod (frameC n L x k)) <= INR n * sqrt (bigsum (Nat.min L n) (fun t => x t ^ 2)).
Proof.
  intros n L x Hn. assert (HN : 0 < INR n) by (apply lt_0_INR; auto).
  set (S2 := bigsum (Nat.min L n) (fun t => x t ^ 2)).
  assert (HS : 0 <= S2) by (apply bigsum_nonneg; intros; apply pow2_ge_0).
  assert (Hp : bigsum n (fun k => Cmod (frameC n L x k) ^ 2) = INR n * S2).
  { unfold S2. rewrite <- parseval_full by lia. apply bigsum_ext. intros k _. unfold frameC, Cmod, spec_sq. cbn [fst snd].
    assert (Er : spec_re n L x k = spec_re n (Nat.min L n) x k) by (unfold spec_re; rewrite <- Nat.min_assoc, Nat.min_id; auto).
    assert (Ei : spec_im n L x k = spec_im n (Nat.min L n) x k) by (unfold spec_im; rewrite <- Nat.min_assoc, Nat.min_id; auto).
    rewrite Er, Ei. rewrite <- Rsqr_pow2. apply Rsqr_sqrt.
    apply Rplus_le_le_0_compat; apply pow2_ge_0. }
  pose proof (sum_sq_cauchy n (fun k => Cmod (frameC n L x k))) as HC. cbv beta in HC. rewrite Hp in HC.
  apply Rsqr_incr_0; [|apply bigsum_nonneg; intros; apply Cmod_ge_0|apply Rmult_le_pos; [lra|apply sqrt_pos]].
  rewrite !Rsqr_pow2, Rpow_mult_distr, <- (Rsqr_pow2 (sqrt S2)), Rsqr_sqrt by auto. lra.
Qed.
Lemma cqtC_brown : forall thr n wt fs L x f N, (1 <= N <= n)%nat ->
  Cmod (Cminus (cqtC thr n wt fs L x f N)
     (brown_re wt fs f N ((n - N) / 2) (padded L x), brown_im wt fs f N ((n - N) / 2) (padded L x)))
  <= Rmax 0 thr * sqrt (bigsum (Nat.min L n) (fun t => x t ^ 2)).
Proof.
  intros thr n wt fs L x f N HN. assert (Hn : 0 < INR n) by (apply lt_0_INR; lia).
  rewrite <- direct_brown by auto. unfold cqtC. set (K := dftC n (atomC wt fs f N ((n - N) / 2))).
  pose proof (parseval_inner n (fun t => RtoC (padded L x t)) (atomC wt fs f N ((n - N) / 2)) ltac:(lia)) as P.
  fold K in P.
  assert (E : Cminus (Cbig n (fun k => Cmult (frameC n L x k) (kernC thr n wt fs f N k)))
       (Cbig n (fun t => Cmult (RtoC (padded L x t)) (Cconj (atomC wt fs f N ((n - N) / 2) t))))
    = Cmult (RtoC (- / INR n)) (Cbig n (fun k => Cmult (frameC n L x k) (Cconj (Cminus (K k) (thrC thr (K k))))))).
  { transitivity (Cmult (RtoC (/ INR n)) (Cminus (Cbig n (fun k => Cmult (frameC n L x k) (Cconj (thrC thr (K k)))))
       (Cmult (RtoC (INR n)) (Cbig n (fun t => Cmult (RtoC (padded L x t)) (Cconj (atomC wt fs f N ((n - N) / 2) t))))))).
    - rewrite (Cbig_ext n _ (fun k => Cmult (RtoC (/ INR n)) (Cmult (frameC n L x k) (Cconj (thrC thr (K k)))))).
      2:{ intros k _. unfold kernC. fold K. ring. }
      rewrite Cbig_scal. rewrite RtoC_inv by lra. field. intros H. apply RtoC_inj in H. lra.
    - rewrite <- P.
      rewrite (Cbig_ext n (fun k => Cmult (dftC n _ k) (Cconj (K k))) (fun k => Cmult (frameC n L x k) (Cconj (K k))))
        by (intros; rewrite frameC_dft; auto).
      rewrite (Cbig_ext n (fun k => Cmult (frameC n L x k) (Cconj (Cminus (K k) (thrC thr (K k)))))
         (fun k => Cplus (Cmult (frameC n L x k) (Cconj (K k))) (Cmult (Copp (RtoC 1)) (Cmult (frameC n L x k) (Cconj (thrC thr (K k))))))).
      + rewrite Cbig_plus, Cbig_scal. rewrite !RtoC_opp. ring.
      + intros k _. replace (Cconj (Cminus (K k) (thrC thr (K k)))) with (Cminus (Cconj (K k)) (Cconj (thrC thr (K k)))).
        * ring.
        * unfold Cminus, Cconj, Cplus, Copp. cbn [fst snd]. f_equal; ring. }
  rewrite E, Cmod_mult, Cmod_R, Rabs_Ropp, Rabs_right by (left; apply Rinv_0_lt_compat; auto).
  assert (HM : 0 <= Rmax 0 thr) by apply Rmax_l.
  apply Rle_trans with (/ INR n * (Rmax 0 thr * bigsum n (fun k => Cmod (frameC n L x k)))).
  - apply Rmult_le_compat_l; [left; apply Rinv_0_lt_compat; auto|].
    apply Rle_trans with (bigsum n (fun k => Cmod (Cmult (frameC n L x k) (Cconj (Cminus (K k) (thrC thr (K k))))))); [apply Cbig_mod|].
    rewrite <- bigsum_scal. apply bigsum_le. intros k _. rewrite Cmod_mult, Cmod_conj', Rmult_comm.
    apply Rmult_le_compat_r; [apply Cmod_ge_0|apply thrC_err].
  - apply Rle_trans with (/ INR n * (Rmax 0 thr * (INR n * sqrt (bigsum (Nat.min L n) (fun t => x t ^ 2))))).
    + apply Rmult_le_compat_l; [left; apply Rinv_0_lt_compat; auto|]. apply Rmult_le_compat_l; auto. apply frame_mags. lia.
    + right. field. lra.
Qed.
Lemma cqtC_exact : forall thr n wt fs L x f N, thr <= 0 -> (1 <= N <= n)%nat ->
  cqtC thr n wt fs L x f N
  = (brown_re wt fs f N ((n - N) / 2) (padded L x), brown_im wt fs f N ((n - N) / 2) (padded L x)).
Proof.
  intros thr n wt fs L x f N Ht HN. pose proof (cqtC_brown thr n wt fs L x f N HN) as H.
  rewrite Rmax_left, Rmult_0_l in H by auto.
  assert (H0 : Cmod (Cminus (cqtC thr n wt fs L x f N)
     (brown_re wt fs f N ((n - N) / 2) (padded L x), brown_im wt fs f N ((n - N) / 2) (padded L x))) = 0)
    by (apply Rle_antisym; auto; apply Cmod_ge_0).
  apply Cmod_eq_0 in H0. rewrite <- (Cplus_0_r (cqtC thr n wt fs L x f N)).
  rewrite <- (Cplus_opp_r (brown_re wt fs f N ((n - N) / 2) (padded L x), brown_im wt fs f N ((n - N) / 2) (padded L x))).
  rewrite (Cplus_comm (_, _)), Cplus_assoc. unfold Cminus in H0. rewrite H0, Cplus_0_l. auto.
Qed.
Lemma cqtC_linear : forall thr n wt fs L x y f N a b,
  cqtC thr n wt fs L (fun t => a * x t + b * y t) f N
  = Cplus (Cmult (RtoC a) (cqtC thr n wt fs L x f N)) (Cmult (RtoC b) (cqtC thr n wt fs L y f N)).
Proof.
  intros. unfold cqtC. rewrite <- !Cbig_scal, <- Cbig_plus. apply Cbig_ext. intros k _.
  replace (frameC n L (fun t => a * x t + b * y t) k) with (Cplus (Cmult (RtoC a) (frameC n L x k)) (Cmult (RtoC b) (frameC n L y k))); [ring|].
  unfold frameC, Cplus, Cmult, RtoC. cbn [fst snd]. unfold spec_re, spec_im. f_equal.
  - rewrite !Rmult_0_l, !Rminus_0_r, <- !bigsum_scal, <- bigsum_plus. apply bigsum_ext. intros; ring.
  - rewrite !Rmult_0_l, !Rplus_0_r, <- !bigsum_scal, <- bigsum_plus. apply bigsum_ext. intros; ring.
Qed.

(** ** resampling *)
Lemma cos_phase_sum : forall n d A, (0 < n)%nat -> (Z.abs d < Z.of_nat n)%Z ->
  bigsum n (fun s => cos (A + 2 * PI * INR s * IZR d / INR n)) = if (d =? 0)%Z then INR n * cos A else 0.
Proof.
  intros n d A Hn Hd. assert (HN : 0 < INR n) by (apply lt_0_INR; auto).
  rewrite (bigsum_ext n _ (fun s => cos A * cos (2 * PI * INR s * IZR d / INR n) - sin A * sin (2 * PI * INR s * IZR d / INR n)))
    by (intros; apply cos_plus).
  rewrite bigsum_minus, !bigsum_scal, sin_sum by auto.
  assert (E : bigsum n (fun s => cos (2 * PI * INR s * IZR d / INR n)) = Seven n (2 * d)).
  { unfold Seven. apply bigsum_ext. intros k _. f_equal. rewrite mult_IZR. field. lra. }
  rewrite E. destruct (Z.eqb_spec d 0) as [->|Hne].
  - rewrite Z.mul_0_r, Seven_0. ring.
  - rewrite Seven_even; [ring|auto|lia|]. rewrite Z.even_mul. auto.
Qed.
Lemma fold_Rplus : forall n f, fold_right Rplus 0 (map f (seq 0 n)) = bigsum n f.
Proof.
  intros n f. assert (G : forall l c, fold_right Rplus c (map f l) = fold_right Rplus 0 (map f l) + c).
  { induction l as [|x l IH]; intros c; cbn [map fold_right]; [ring|]. rewrite IH. ring. }
  induction n as [|n IH]; auto. rewrite seq_S, map_app, fold_right_app, G, IH, bigsum_S. cbn [map fold_right Nat.add]. ring.
Qed.
Lemma rweight_bigsum : forall nx num t s, resample_weight nx num t s
  = / INR nx * bigsum (S (Nat.min num nx / 2)) (fun k => resample_bin nx num k * cos (2 * PI * INR k * (INR t / INR num - INR s / INR nx))).
Proof. intros. unfold resample_weight. rewrite fold_Rplus. reflexivity. Qed.
Lemma resample_fmat : forall m P y num, (0 < m)%nat -> (1 <= num)%nat ->
  resample (fmat m P y) (Z.of_nat num)
  = Ok (fmat num P (fun t j => bigsum m (fun s => y s j * resample_weight m num t s))).
Proof.
  intros m P y num Hm Hn. unfold resample. destruct (Z.ltb_spec (Z.of_nat num) 1); [lia|].
  rewrite Nat2Z.id, fmat_length, ncols_fmat by auto. f_equal. unfold fmat at 2. apply map_ext. intros t.
  unfold fvec. apply map_ext_in. intros j Hj. apply in_seq in Hj.
  rewrite column_fmat by lia. change (map (fun s => Fin (resample_weight m num t s)) (seq 0 m)) with (fvec m (resample_weight m num t)).
  rewrite fdot_fvec. auto.
Qed.
Lemma half_min : forall a b k, (0 < a)%nat -> (0 < b)%nat -> (k < S (Nat.min a b / 2))%nat -> (2 * k <= a)%nat /\ (2 * k <= b)%nat.
Proof.
  intros a b k Ha Hb Hk. pose proof (Nat.div_mod (Nat.min a b) 2 ltac:(lia)). lia.
Qed.
(** a harmonic below half the smaller size keeps its number of periods, amplitude and phase *)
Lemma resample_harmonic : forall nx num t k phi, (0 < nx)%nat -> (0 < num)%nat -> (2 * k < Nat.min num nx)%nat ->
  bigsum nx (fun s => cos (2 * PI * INR k * INR s / INR nx + phi) * resample_weight nx num t s)
  = cos (2 * PI * INR k * INR t / INR num + phi).
Proof.
  intros nx num t k phi Hx Hn Hk. assert (HX : 0 < INR nx) by (apply lt_0_INR; auto). assert (HM : 0 < INR num) by (apply lt_0_INR; auto).
  set (h := S (Nat.min num nx / 2)).
  rewrite (bigsum_ext nx _ (fun s => bigsum h (fun k' => / INR nx * (resample_bin nx num k' / 2) *
     (cos (2 * PI * INR k' * INR t / INR num + phi + 2 * PI * INR s * IZR (Z.of_nat k - Z.of_nat k') / INR nx)
      + cos (2 * PI * INR k' * INR t / INR num - phi + 2 * PI * INR s * IZR (- Z.of_nat k - Z.of_nat k') / INR nx))))).
  2:{ intros s _. rewrite rweight_bigsum. fold h. rewrite <- Rmult_assoc, (Rmult_comm (cos _)), Rmult_assoc, <- !bigsum_scal.
    apply bigsum_ext. intros k' _.
    set (u := 2 * PI * INR k * INR s / INR nx + phi). set (v := 2 * PI * INR k' * (INR t / INR num - INR s / INR nx)).
    replace (2 * PI * INR k' * INR t / INR num + phi + 2 * PI * INR s * IZR (Z.of_nat k - Z.of_nat k') / INR nx) with (v + u).
    2:{ unfold u, v. rewrite minus_IZR, <- !INR_IZR_INZ. field. lra. }
    replace (2 * PI * INR k' * INR t / INR num - phi + 2 * PI * INR s * IZR (- Z.of_nat k - Z.of_nat k') / INR nx) with (v - u).
    2:{ unfold u, v. rewrite minus_IZR, opp_IZR, <- !INR_IZR_INZ. field. lra. }
    rewrite cos_plus, cos_minus. field. lra. }
  rewrite bigsum_swap.
  rewrite (bigsum_ext h _ (fun k' => if Nat.eqb k' k then cos (2 * PI * INR k' * INR t / INR num + phi) else 0)).
  - rewrite bigsum_delta; auto. unfold h. pose proof (Nat.div_mod (Nat.min num nx) 2 ltac:(lia)).
    pose proof (Nat.mod_upper_bound (Nat.min num nx) 2 ltac:(lia)). lia.
  - intros k' Hk'. apply half_min in Hk'; auto. rewrite bigsum_scal, bigsum_plus, !cos_phase_sum by lia.
    destruct (Nat.eqb_spec k' k) as [->|Hne].
    + rewrite Z.sub_diag. cbn [Z.eqb]. unfold resample_bin. destruct (Nat.eqb_spec k 0) as [->|Hk0].
      * cbn [Z.of_nat Z.opp Z.sub Z.eqb Z.add]. change (INR 0) with 0.
        replace (2 * PI * 0 * INR t / INR num) with 0 by (field; lra). rewrite Rminus_0_l, Rplus_0_l, cos_neg. field. lra.
      * destruct (Z.eqb_spec (- Z.of_nat k - Z.of_nat k) 0); [lia|].
        destruct (Nat.eqb_spec (2 * k) (Nat.min num nx)); [lia|]. field. lra.
    + destruct (Z.eqb_spec (Z.of_nat k - Z.of_nat k') 0); [lia|].
      destruct (Z.eqb_spec (- Z.of_nat k - Z.of_nat k') 0); [lia|]. ring.
Qed.
Lemma resample_const : forall nx num t, (0 < nx)%nat -> (0 < num)%nat -> bigsum nx (resample_weight nx num t) = 1.
Proof.
  intros nx num t Hx Hn. pose proof (resample_harmonic nx num t 0 0 Hx Hn ltac:(lia)) as H. change (INR 0) with 0 in H.
  replace (2 * PI * 0 * INR t / INR num + 0) with 0 in H by (field; apply not_0_INR; lia). rewrite cos_0 in H.
  rewrite <- H. apply bigsum_ext. intros s _.
  replace (2 * PI * 0 * INR s / INR nx + 0) with 0 by (field; apply not_0_INR; lia). rewrite cos_0. ring.
Qed.
Lemma resample_mean : forall nx num s, (0 < nx)%nat -> (0 < num)%nat ->
  bigsum num (fun t => resample_weight nx num t s) = INR num / INR nx.
Proof.
  intros nx num s Hx Hn. assert (HX : 0 < INR nx) by (apply lt_0_INR; auto). assert (HM : 0 < INR num) by (apply lt_0_INR; auto).
  rewrite (bigsum_ext num _ (fun t => bigsum (S (Nat.min num nx / 2)) (fun k => / INR nx * resample_bin nx num k *
     cos (- (2 * PI * INR k * INR s / INR nx) + 2 * PI * INR t * IZR (Z.of_nat k) / INR num)))).
  2:{ intros t _. rewrite rweight_bigsum, <- bigsum_scal. apply bigsum_ext. intros k _. rewrite <- INR_IZR_INZ.
    replace (2 * PI * INR k * (INR t / INR num - INR s / INR nx)) with (- (2 * PI * INR k * INR s / INR nx) + 2 * PI * INR t * INR k / INR num) by (field; lra). ring. }
  rewrite bigsum_swap.
  rewrite (bigsum_ext _ _ (fun k => if Nat.eqb k 0 then INR num / INR nx else 0)).
  - rewrite (bigsum_delta _ 0%nat (fun _ => INR num / INR nx)); auto. lia.
  - intros k Hk. apply half_min in Hk; auto. rewrite bigsum_scal, cos_phase_sum by lia.
    destruct (Z.eqb_spec (Z.of_nat k) 0); destruct (Nat.eqb_spec k 0); try lia.
    + subst. unfold resample_bin. cbn [Nat.eqb]. change (INR 0) with 0.
      replace (- (2 * PI * 0 * INR s / INR nx)) with 0 by (field; lra). rewrite cos_0. field. lra.
    + ring.
Qed.
(** whole multiples of the number of rows interpolate *)
Lemma resample_interpolates : forall nx r t s, (0 < nx)%nat -> (0 < r)%nat -> (s < nx)%nat -> (t < nx)%nat ->
  resample_weight nx (r * nx) (r * t) s = if Nat.eqb s t then 1 else 0.
Proof.
  intros nx r t s Hx Hr Hs Ht. assert (HX : 0 < INR nx) by (apply lt_0_INR; auto). assert (HR : 0 < INR r) by (apply lt_0_INR; auto).
  rewrite rweight_bigsum. rewrite Nat.min_r by nia.
  set (d := (Z.of_nat t - Z.of_nat s)%Z).
  transitivity (/ INR nx * bigsum nx (fun k => cos (0 + 2 * PI * INR k * IZR d / INR nx))).
  - f_equal. rewrite (fold_spectrum nx _ Hx).
    + apply bigsum_ext. intros k _. f_equal.
      * unfold resample_bin, bin_weight. rewrite Nat.min_r by nia.
        destruct (Nat.eqb k 0); auto. cbn [orb]. destruct (Nat.eqb (2 * k) nx); auto.
        destruct (Nat.ltb_spec (r * nx) nx); [nia|auto].
      * f_equal. unfold d. rewrite !mult_INR, minus_IZR, <- !INR_IZR_INZ. field. lra.
    + intros k Hk. replace (0 + 2 * PI * INR (nx - k) * IZR d / INR nx) with (- (0 + 2 * PI * INR k * IZR d / INR nx) + IZR (2 * d) * PI).
      * rewrite cos_plus, sin_IZR_PI, cos_even_PI, cos_neg. ring.
      * rewrite mult_IZR, minus_INR by lia. field. lra.
  - rewrite cos_phase_sum by (unfold d; lia). unfold d.
    destruct (Z.eqb_spec (Z.of_nat t - Z.of_nat s) 0); destruct (Nat.eqb_spec s t); try lia.
    + rewrite cos_0. field. lra.
    + ring.
Qed.

(** ** cqcc *)
Lemma finish_no_energy : forall c nfft m n G, (0 < m)%nat -> (0 < n)%nat ->
  (1 <= c_dct_type c <= 4)%Z -> (c_dct_type c = 1%Z -> (2 <= n)%nat) -> (0 <= c_num_ceps c)%Z ->
  no_lifter c -> no_normalisation c ->
  finish (mkC (c_num_ceps c) (c_dct_type c) false (c_lifter c) (c_normalize c)) nfft (fmat m n G) []
  = Ok (fmat m (Nat.min (Z.to_nat (c_num_ceps c)) n) (fun i k => spec_dct (c_dct_type c) n (G i) k)).
Proof.
  intros c nfft m n G Hm Hn Ht Ht1 Hc Hl Hnm.
  transitivity (finish (mkC (c_num_ceps c) (c_dct_type c) false (c_lifter c) (c_normalize c)) 1 (fmat m n G)
     (fmat m 1 (fun i => spec_mag (Z.to_nat 1) 0 (fun _ => 0)))); [reflexivity|].
  rewrite (finish_fmat (mkC (c_num_ceps c) (c_dct_type c) false (c_lifter c) (c_normalize c)) 1 m n 0 0 (fun _ _ => 0) G); auto; try lia.
  discriminate.
Qed.
Definition cqt_logs (re im : nat -> nat -> R) (s p : nat) : R := spec_log (re p s ^ 2 + im p s ^ 2).
Lemma cqcc_of_cqt : forall `{Env} sig a ratio c P m re im num, cqt_spectrogram sig a = Ok (cmat P m re im) ->
  (0 < P)%nat -> (0 < m)%nat -> Ztrunc (rnd (INR m * ratio)) = Z.of_nat num -> (1 <= num)%nat ->
  (1 <= c_dct_type c <= 4)%Z -> (c_dct_type c = 1%Z -> (2 <= P)%nat) -> (0 <= c_num_ceps c)%Z ->
  no_lifter c -> no_normalisation c ->
  cqcc sig a ratio c = Ok (fmat num (Nat.min (Z.to_nat (c_num_ceps c)) P)
    (fun t k => spec_dct (c_dct_type c) P (fun p => bigsum m (fun s => cqt_logs re im s p * resample_weight m num t s)) k)).
Proof.
  intros E sig a ratio c P m re im num Hq HP Hm Hr Hn Ht Ht1 Hc Hl Hnm. unfold cqcc. rewrite Hq. cbn [rbind].
  assert (E1 : log_features (map (map (fun z => fpown (cabs z) 2)) (cmat P m re im)) = fmat P m (fun p s => cqt_logs re im s p)).
  { rewrite log_features_map. unfold cmat, fmat. rewrite !map_map. apply map_ext. intros p.
    unfold cvec, fvec. rewrite !map_map. apply map_ext. intros s.
    change (Fin (re p s), Fin (im p s)) with (emb (re p s, im p s)). rewrite cabs_emb, fpown_Fin, flog_zh by apply pow2_ge_0.
    unfold cqt_logs. do 2 f_equal. unfold Cmod. cbn [fst snd]. rewrite <- Rsqr_pow2. apply Rsqr_sqrt.
    apply Rplus_le_le_0_compat; apply pow2_ge_0. }
  rewrite E1.
  assert (E2 : transposed NaN (fmat P m (fun p s => cqt_logs re im s p)) = fmat m P (cqt_logs re im)).
  { unfold fmat, fvec. apply (transposed_seq _ NaN P m (fun p s => Fin (cqt_logs re im s p))). auto. }
  cbv zeta. rewrite E2, fmat_length, Hr, resample_fmat by auto. cbn [rbind].
  apply finish_no_energy; auto; lia.
Qed.

(** ** statements for the property file *)
Lemma cmat_emb : forall P m (g : nat -> nat -> C),
  map (fun p => map (fun i => emb (g p i)) (seq 0 m)) (seq 0 P) = cmat P m (fun p i => fst (g p i)) (fun p i => snd (g p i)).
Proof. reflexivity. Qed.
Lemma cqt_full : forall f0 q B O fs low high n wt m L, cqt_config f0 q B fs n wt -> (0 < m)%nat ->
  (exists i N, (i < O * B)%nat /\ cqt_used f0 q B fs low (or_half high fs) n i N) ->
  exists a P len, cqt_rows f0 q O B fs low (or_half high fs) n a P len /\
    forall thr x, compute_constant_qtransform (fmat m L x) fs low high (Z.of_nat n) (Z.of_nat O) (Z.of_nat B) wt thr f0 q
     = Ok (map (fun p => map (fun i => emb (cqtC thr n wt fs L (x i) (cqt_freq f0 B (a + p)) (len p))) (seq 0 m)) (seq 0 P)).
Proof.
  intros f0 q B O fs low high n wt m L Hc Hm (i0 & N0 & Hi0 & HU).
  destruct (cqt_ok f0 q B O fs low high n wt 0 m L Hc Hm) as (a & P & len & H1 & H2 & H3 & H4).
  { left. exists i0. split; auto. eexists; eauto. }
  exists a, P, len. split.
  - split; [|split; [auto|split; auto]]. assert (a <= i0 < a + P)%nat by (apply H2; auto; eexists; eauto). lia.
  - intros thr x. destruct (cqt_ok f0 q B O fs low high n wt thr m L Hc Hm) as (a' & P' & len' & H1' & H2' & H3' & H4').
    { left. exists i0. split; auto. eexists; eauto. }
    rewrite H4'.
    assert (HP : forall i, (i < O * B)%nat -> ((a <= i < a + P)%nat <-> (a' <= i < a' + P')%nat)).
    { intros i Hi. rewrite <- H2, <- H2' by auto. tauto. }
    assert (Hin : (a <= i0 < a + P)%nat) by (apply H2; auto; eexists; eauto).
    assert (Hin' : (a' <= i0 < a' + P')%nat) by (apply H2'; auto; eexists; eauto).
    assert (a = a').
    { assert (Q1 := proj1 (HP a ltac:(lia)) ltac:(lia)). assert (Q2 := proj2 (HP a' ltac:(lia)) ltac:(lia)). lia. }
    subst a'.
    assert (P = P').
    { assert (Q1 := proj1 (HP (a + P - 1)%nat ltac:(lia)) ltac:(lia)). assert (Q2 := proj2 (HP (a + P' - 1)%nat ltac:(lia)) ltac:(lia)). lia. }
    subst P'. f_equal. apply map_ext_in. intros p Hp. apply in_seq in Hp.
    assert (len' p = len p); [|rewrite H; auto].
    destruct (H3 p ltac:(lia)) as (_ & _ & U & _). destruct (H3' p ltac:(lia)) as (_ & _ & U' & _). cbv zeta in U, U'.
    apply win_len_spec in U, U'. lia.
Qed.
Lemma rows_len : forall f0 q O B fs low high n a P len p, cqt_rows f0 q O B fs low high n a P len -> (p < P)%nat -> (1 <= len p <= n)%nat.
Proof. intros f0 q O B fs low high n a P len p (_ & _ & _ & H) Hp. destruct (H p Hp) as (H1 & _ & _ & H2). lia. Qed.
Lemma cqt_brown : forall f0 q B O fs low high n wt m L, cqt_config f0 q B fs n wt -> (0 < m)%nat ->
  (exists i N, (i < O * B)%nat /\ cqt_used f0 q B fs low (or_half high fs) n i N) ->
  exists a P len, cqt_rows f0 q O B fs low (or_half high fs) n a P len /\
    forall thr x, thr <= 0 ->
     compute_constant_qtransform (fmat m L x) fs low high (Z.of_nat n) (Z.of_nat O) (Z.of_nat B) wt thr f0 q
     = Ok (cmat P m (fun p i => brown_re wt fs (cqt_freq f0 B (a + p)) (len p) ((n - len p) / 2) (padded L (x i)))
                    (fun p i => brown_im wt fs (cqt_freq f0 B (a + p)) (len p) ((n - len p) / 2) (padded L (x i)))).
Proof.
  intros f0 q B O fs low high n wt m L Hc Hm HU. destruct (cqt_full f0 q B O fs low high n wt m L Hc Hm HU) as (a & P & len & HR & HE).
  exists a, P, len. split; auto. intros thr x Ht. rewrite HE. f_equal. unfold cmat. apply map_ext_in. intros p Hp. apply in_seq in Hp.
  unfold cvec. apply map_ext. intros i. rewrite cqtC_exact; auto. apply (rows_len _ _ _ _ _ _ _ _ _ _ _ p HR). lia.
Qed.
Lemma cqt_error : forall f0 q B O fs low high n wt m L, cqt_config f0 q B fs n wt -> (0 < m)%nat ->
  (exists i N, (i < O * B)%nat /\ cqt_used f0 q B fs low (or_half high fs) n i N) ->
  exists a P len, cqt_rows f0 q O B fs low (or_half high fs) n a P len /\
    forall thr x, 0 <= thr -> exists re im,
     compute_constant_qtransform (fmat m L x) fs low high (Z.of_nat n) (Z.of_nat O) (Z.of_nat B) wt thr f0 q = Ok (cmat P m re im) /\
     forall p i, (p < P)%nat ->
       spec_abs (re p i - brown_re wt fs (cqt_freq f0 B (a + p)) (len p) ((n - len p) / 2) (padded L (x i)))
                (im p i - brown_im wt fs (cqt_freq f0 B (a + p)) (len p) ((n - len p) / 2) (padded L (x i)))
       <= thr * sqrt (bigsum (Nat.min L n) (fun t => x i t ^ 2)).
Proof.
  intros f0 q B O fs low high n wt m L Hc Hm HU. destruct (cqt_full f0 q B O fs low high n wt m L Hc Hm HU) as (a & P & len & HR & HE).
  exists a, P, len. split; auto. intros thr x Ht. rewrite HE, cmat_emb. do 2 eexists. split; [reflexivity|].
  intros p i Hp. cbv beta.
  pose proof (cqtC_brown thr n wt fs L (x i) (cqt_freq f0 B (a + p)) (len p) (rows_len _ _ _ _ _ _ _ _ _ _ _ p HR Hp)) as HB.
  rewrite Rmax_right in HB by auto. exact HB.
Qed.
Lemma cqt_linear : forall f0 q B O fs low high n wt thr m L x y c d, cqt_config f0 q B fs n wt -> (0 < m)%nat ->
  (exists i N, (i < O * B)%nat /\ cqt_used f0 q B fs low (or_half high fs) n i N) ->
  exists P re im re' im',
    compute_constant_qtransform (fmat m L x) fs low high (Z.of_nat n) (Z.of_nat O) (Z.of_nat B) wt thr f0 q = Ok (cmat P m re im) /\
    compute_constant_qtransform (fmat m L y) fs low high (Z.of_nat n) (Z.of_nat O) (Z.of_nat B) wt thr f0 q = Ok (cmat P m re' im') /\
    compute_constant_qtransform (fmat m L (fun i t => c * x i t + d * y i t)) fs low high (Z.of_nat n) (Z.of_nat O) (Z.of_nat B) wt thr f0 q
    = Ok (cmat P m (fun p i => c * re p i + d * re' p i) (fun p i => c * im p i + d * im' p i)).
Proof.
  intros f0 q B O fs low high n wt thr m L x y c d Hc Hm HU. destruct (cqt_full f0 q B O fs low high n wt m L Hc Hm HU) as (a & P & len & HR & HE).
  rewrite !HE, !cmat_emb. do 5 eexists. split; [reflexivity|]. split; [reflexivity|]. f_equal.
  unfold cmat. apply map_ext. intros p. unfold cvec. apply map_ext. intros i.
  rewrite (cqtC_linear thr n wt fs L (x i) (y i)). unfold Cplus, Cmult, RtoC. cbn [fst snd]. do 2 f_equal; ring.
Qed.
(** one frame's row does not depend on the other frames: columns are transforms of single frames *)
Lemma spectrogram_ok : forall `{Env} a N L hop n O B, cqt_ready a N L hop n O B ->
  exists b P len, cqt_rows (q_f0 a) (q_rate a) O B (q_fs a) (q_low a) (or_half (q_high a) (q_fs a)) n b P len /\
    forall x, cqt_spectrogram (fvec N x) a
    = Ok (map (fun p => map (fun i => emb (cqtC (q_threshold a) n (win_type (window_of (q_sargs a))) (q_fs a) L
            (frame_of (q_sargs a) (q_coeff a) L hop x i) (cqt_freq (q_f0 a) B (b + p)) (len p))) (seq 0 (frame_count N L hop))) (seq 0 P)).
Proof.
  intros E a N L hop n O B (Hw & En & EO & EB & Hh & Hc & HU).
  destruct (cqt_full (q_f0 a) (q_rate a) B O (q_fs a) (q_low a) (Some (or_half (q_high a) (q_fs a))) n
     (win_type (window_of (q_sargs a))) (frame_count N L hop) L Hc) as (b & P & len & HR & HE).
  { unfold frame_count. lia. }
  { replace (or_half (Some (or_half (q_high a) (q_fs a))) (q_fs a)) with (or_half (q_high a) (q_fs a)); auto.
    unfold or_half. destruct (q_high a) as [h|]; unfold Reqb; [destruct (Req_EM_T h 0)|]; auto.
    1,3: destruct (Req_EM_T (IZR (q_fs a) / 2) 0); auto. destruct (Req_EM_T h 0); auto. contradiction. }
  exists b, P, len. split.
  { replace (or_half (q_high a) (q_fs a)) with (or_half (Some (or_half (q_high a) (q_fs a))) (q_fs a)); auto.
    unfold or_half. destruct (q_high a) as [h|]; unfold Reqb; [destruct (Req_EM_T h 0)|]; auto.
    1,3: destruct (Req_EM_T (IZR (q_fs a) / 2) 0); auto. destruct (Req_EM_T h 0); auto. contradiction. }
  intros x. unfold cqt_spectrogram. cbv zeta. rewrite Rltb_false by auto.
  pose proof (framed_fvec (q_sargs a) N L hop x (q_coeff a) Hw) as EF. unfold q_sargs at 1 2 3 in EF. cbn [s_fs s_pre_emph s_window] in EF.
  rewrite EF. cbn [rbind]. rewrite En, EO, EB. exact (HE (q_threshold a) _).
Qed.
Lemma cqtC_ext : forall thr n wt fs L x y f N, (forall t, x t = y t) -> cqtC thr n wt fs L x f N = cqtC thr n wt fs L y f N.
Proof.
  intros. unfold cqtC. apply Cbig_ext. intros k _. f_equal. unfold frameC, spec_re, spec_im. f_equal; apply bigsum_ext; intros; rewrite H; auto.
Qed.
Lemma spectrogram_gain : forall `{Env} a N L hop n O B x g, cqt_ready a N L hop n O B ->
  exists P re im, (0 < P)%nat /\ cqt_spectrogram (fvec N x) a = Ok (cmat P (frame_count N L hop) re im) /\
    cqt_spectrogram (fvec N (fun t => g * x t)) a
    = Ok (cmat P (frame_count N L hop) (fun p i => g * re p i) (fun p i => g * im p i)).
Proof.
  intros E a N L hop n O B x g Hr. destruct (spectrogram_ok a N L hop n O B Hr) as (b & P & len & HR & HE).
  rewrite !HE, !cmat_emb. exists P. do 2 eexists. split; [apply HR|]. split; [reflexivity|]. f_equal.
  unfold cmat. apply map_ext. intros p. unfold cvec. apply map_ext. intros i.
  rewrite (cqtC_ext _ n _ (q_fs a) L _ (fun t => g * frame_of (q_sargs a) (q_coeff a) L hop x i t + 0 * 0)).
  2:{ intros t. rewrite frame_of_gain. ring. }
  rewrite (cqtC_linear _ n _ _ L (frame_of (q_sargs a) (q_coeff a) L hop x i) (fun _ => 0)).
  unfold Cplus, Cmult, RtoC. cbn [fst snd]. do 2 f_equal; ring.
Qed.
Lemma cqcc_gain : forall `{Env} a N L hop n O B x g ratio c P re im num, cqt_ready a N L hop n O B -> g <> 0 ->
  cqt_spectrogram (fvec N x) a = Ok (cmat P (frame_count N L hop) re im) ->
  (forall p i, (p < P)%nat -> (i < frame_count N L hop)%nat -> re p i <> 0 \/ im p i <> 0) ->
  Ztrunc (rnd (INR (frame_count N L hop) * ratio)) = Z.of_nat num -> (1 <= num)%nat ->
  c_dct_type c = 2%Z -> (0 <= c_num_ceps c)%Z -> no_lifter c -> no_normalisation c ->
  exists y, cqcc (fvec N x) a ratio c = Ok (fmat num (Nat.min (Z.to_nat (c_num_ceps c)) P) y) /\
    cqcc (fvec N (fun t => g * x t)) a ratio c
    = Ok (fmat num (Nat.min (Z.to_nat (c_num_ceps c)) P) (fun t k => y t k + (if Nat.eqb k 0 then 2 * ln (Rabs g) * sqrt (INR P) else 0))).
Proof.
  intros E a N L hop n O B x g ratio c P re im num Hr Hg HE Hnz Hnum Hn1 Ht Hc Hl Hnm.
  assert (Hm : (0 < frame_count N L hop)%nat) by (unfold frame_count; lia). set (m := frame_count N L hop) in *.
  destruct (spectrogram_gain a N L hop n O B x g Hr) as (P' & re' & im' & HP & E1 & E2). fold m in E1, E2.
  rewrite HE in E1. apply Ok_inj in E1.
  assert (P' = P). { apply (f_equal (@List.length _)) in E1. unfold cmat in E1. rewrite !map_length, !seq_length in E1. auto. }
  subst P'.
  assert (Eri : forall p i, (p < P)%nat -> (i < m)%nat -> re' p i = re p i /\ im' p i = im p i).
  { intros p i Hp Hi. apply (f_equal (fun M => nth i (nth p M []) czero)) in E1. unfold cmat, cvec in E1.
    rewrite !(nth_map_seq _ _ P) in E1 by auto. rewrite !nth_map_seq in E1 by auto. injection E1 as -> ->. auto. }
  eexists. split.
  - apply (cqcc_of_cqt _ a ratio c P m re im num HE); auto; lia.
  - rewrite (cqcc_of_cqt _ a ratio c P m _ _ num E2); auto; try lia. f_equal. apply fmat_ext. intros t k Ht' Hk. rewrite Ht.
    transitivity (spec_dct 2 P (fun p => 1 * bigsum m (fun s => cqt_logs re im s p * resample_weight m num t s) + 1 * (2 * ln (Rabs g))) k).
    + apply spec_dct_ext. intros p Hp. rewrite Rmult_1_l, Rmult_1_l.
      rewrite <- (Rmult_1_r (2 * ln (Rabs g))), <- (resample_const m num t) by lia.
      rewrite <- bigsum_scal, <- bigsum_plus. apply bigsum_ext. intros s Hs. rewrite <- Rmult_plus_distr_r. f_equal.
      unfold cqt_logs. destruct (Eri p s Hp Hs) as [-> ->].
      replace ((g * re p s) ^ 2 + (g * im p s) ^ 2) with (g ^ 2 * (re p s ^ 2 + im p s ^ 2)) by ring. apply ln_gain; auto.
      destruct (Hnz p s Hp Hs) as [Hz|Hz]; apply Rsqr_pos_lt in Hz; rewrite Rsqr_pow2 in Hz.
      * pose proof (pow2_ge_0 (im p s)). lra.
      * pose proof (pow2_ge_0 (re p s)). lra.
    + rewrite (spec_dct_linear 2 P 1 1 (fun p => bigsum m (fun s => cqt_logs re im s p * resample_weight m num t s)) (fun _ => 2 * ln (Rabs g))).
      rewrite spec_dct2_const by lia. rewrite !Rmult_1_l. auto.
Qed.
Lemma cqcc_no_rows : forall `{Env} sig a ratio c P m re im, cqt_spectrogram sig a = Ok (cmat P m re im) -> (0 < P)%nat ->
  (Ztrunc (rnd (INR m * ratio)) < 1)%Z -> cqcc sig a ratio c = Raise ValueError.
Proof.
  intros E sig a ratio c P m re im Hq HP Hr. unfold cqcc. rewrite Hq. cbn [rbind]. cbv zeta.
  assert (Hl : List.length (transposed NaN (log_features (map (map (fun z => fpown (cabs z) 2)) (cmat P m re im)))) = m).
  { unfold transposed. rewrite map_length, seq_length. destruct P as [|P]; [lia|].
    unfold cmat. cbn. unfold zero_handling. rewrite !map_length. apply cvec_length. }
  rewrite Hl. unfold resample. destruct (Z.ltb_spec (Ztrunc (rnd (INR m * ratio))) 1); [reflexivity|lia].
Qed.
Lemma brown_tone : forall wt fs f N s,
  brown_re wt fs f N s (fun t => cos (2 * PI * f * (INR t - INR s) / IZR fs))
  - brown_im wt fs f N s (fun t => sin (2 * PI * f * (INR t - INR s) / IZR fs))
  = / INR N * bigsum N (spec_window wt N).
Proof.
  intros. unfold brown_re, brown_im. rewrite <- Rmult_minus_distr_l. f_equal. rewrite <- bigsum_minus. apply bigsum_ext. intros t _.
  rewrite plus_INR. replace (INR s + INR t - INR s) with (INR t) by ring.
  pose proof (sin2_cos2 (2 * PI * f * INR t / IZR fs)) as E. unfold Rsqr in E. 
  transitivity (spec_window wt N t * (sin (2 * PI * f * INR t / IZR fs) * sin (2 * PI * f * INR t / IZR fs)
    + cos (2 * PI * f * INR t / IZR fs) * cos (2 * PI * f * INR t / IZR fs))); [ring|]. rewrite E. ring.
Qed.
Lemma brown_ext : forall wt fs f N s x y, (forall t, (t < N)%nat -> x (s + t)%nat = y (s + t)%nat) ->
  brown_re wt fs f N s x = brown_re wt fs f N s y /\ brown_im wt fs f N s x = brown_im wt fs f N s y.
Proof. intros. unfold brown_re, brown_im. split; f_equal; apply bigsum_ext; intros; rewrite H; auto. Qed.
Lemma cqt_tone : forall f0 q B O fs low high n wt m L, cqt_config f0 q B fs n wt -> (0 < m)%nat -> (n <= L)%nat ->
  (exists i N, (i < O * B)%nat /\ cqt_used f0 q B fs low (or_half high fs) n i N) ->
  exists a P len, cqt_rows f0 q O B fs low (or_half high fs) n a P len /\
    forall thr p, thr <= 0 -> (p < P)%nat ->
    let f := cqt_freq f0 B (a + p) in let s := ((n - len p) / 2)%nat in
    exists re im re' im',
     compute_constant_qtransform (fmat m L (fun _ t => cos (2 * PI * f * (INR t - INR s) / IZR fs)))
       fs low high (Z.of_nat n) (Z.of_nat O) (Z.of_nat B) wt thr f0 q = Ok (cmat P m re im) /\
     compute_constant_qtransform (fmat m L (fun _ t => sin (2 * PI * f * (INR t - INR s) / IZR fs)))
       fs low high (Z.of_nat n) (Z.of_nat O) (Z.of_nat B) wt thr f0 q = Ok (cmat P m re' im') /\
     forall i, re p i - im' p i = / INR (len p) * bigsum (len p) (spec_window wt (len p)).
Proof.
  intros f0 q B O fs low high n wt m L Hc Hm HL HU. destruct (cqt_brown f0 q B O fs low high n wt m L Hc Hm HU) as (a & P & len & HR & HE).
  exists a, P, len. split; auto. intros thr p Ht Hp f s. rewrite !HE by auto. do 4 eexists. split; [reflexivity|]. split; [reflexivity|].
  intros i. cbv beta. pose proof (rows_len _ _ _ _ _ _ _ _ _ _ _ p HR Hp) as Hlen.
  assert (Hs : (s <= n - len p)%nat) by (apply Nat.div_le_upper_bound; lia). fold f. fold s.
  rewrite <- (brown_tone wt fs f (len p) s). f_equal.
  - apply brown_ext. intros t Htl. unfold padded. destruct (Nat.ltb_spec (s + t) L); [auto|lia].
  - apply brown_ext. intros t Htl. unfold padded. destruct (Nat.ltb_spec (s + t) L); [auto|lia].
Qed.
