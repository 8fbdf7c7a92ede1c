(** * Lemmas about the model of preprocessing.py *)
From Coq Require Import Reals ZArith List String Bool Lia Lra Psatz Arith FunctionalExtensionality.
From Flocq Require Import Core.Raux.
From Coquelicot Require Import Rbar Series PSeries Lim_seq Hierarchy Rcomplements ElemFct.
From Verif Require Import Base BaseFacts SpecBase Preprocessing.
Import ListNotations.
Local Open Scope R_scope.

(** ** Framing *)
Definition flen `{Env} (fs : Z) (w : R) : Z := Ztrunc (rnd (w * IZR fs)).

Lemma read_buf_ok : forall buf k x, read_buf buf k = Ok x ->
  (0 <= k < zlen buf)%Z /\ x = nth (Z.to_nat k) buf NaN.
Proof.
  unfold read_buf; intros. destruct ((0 <=? k) && (k <? zlen buf))%Z eqn:E; [|discriminate].
  inversion H; subst. apply andb_true_iff in E. rewrite Z.leb_le, Z.ltb_lt in E. auto.
Qed.

Lemma read_buf_in : forall buf k, (0 <= k < zlen buf)%Z ->
  read_buf buf k = Ok (nth (Z.to_nat k) buf NaN).
Proof.
  unfold read_buf; intros. rewrite (proj2 (Z.leb_le 0 k)), (proj2 (Z.ltb_lt k _)) by lia. auto.
Qed.

Lemma read_buf_out : forall buf k, ~ (0 <= k < zlen buf)%Z ->
  read_buf buf k = Raise OutOfBoundsRead.
Proof.
  unfold read_buf; intros. destruct (Z.leb_spec 0 k); destruct (Z.ltb_spec k (zlen buf)); simpl; auto; lia.
Qed.

Lemma as_strided_ok : forall buf nr nc rs cs fr,
  as_strided buf nr nc rs cs = Ok fr ->
  (0 <= nr)%Z /\ (0 <= nc)%Z /\ has_shape fr (Z.to_nat nr) (Z.to_nat nc) /\
  forall i j, (0 <= i < nr)%Z -> (0 <= j < nc)%Z ->
    (0 <= i * rs + j * cs < zlen buf)%Z /\
    nth (Z.to_nat j) (nth (Z.to_nat i) fr []) NaN = nth (Z.to_nat (i * rs + j * cs)) buf NaN.
Proof.
  intros buf nr nc rs cs fr H. unfold as_strided in H.
  destruct ((nr <? 0) || (nc <? 0))%Z eqn:E; [discriminate|].
  apply orb_false_iff in E. rewrite !Z.ltb_ge in E. destruct E as [E1 E2].
  split; [auto|]. split; [auto|]. split.
  - split.
    + rewrite (mapM_length _ _ _ _ _ H), zrange_length. f_equal; lia.
    + apply Forall_forall. intros row Hr. destruct (mapM_In_rev _ _ _ _ _ _ H Hr) as (i & Hi & Hf).
      rewrite (mapM_length _ _ _ _ _ Hf), zrange_length. f_equal; lia.
  - intros i j Hi Hj.
    assert (Hi' : (Z.to_nat i < List.length (zrange 0 nr))%nat) by (rewrite zrange_length; lia).
    pose proof (mapM_nth _ _ _ _ _ 0%Z [] _ H Hi') as Hrow. cbv beta in Hrow.
    rewrite zrange_nth in Hrow by lia.
    assert (Hj' : (Z.to_nat j < List.length (zrange 0 nc))%nat) by (rewrite zrange_length; lia).
    pose proof (mapM_nth _ _ _ _ _ 0%Z NaN _ Hrow Hj') as Hx. cbv beta in Hx.
    rewrite zrange_nth in Hx by lia.
    rewrite !Z2Nat.id in Hx by lia. rewrite !Z.add_0_l in Hx.
    apply read_buf_ok in Hx. auto.
Qed.

Lemma as_strided_succeeds : forall buf nr nc rs cs,
  (0 <= nr)%Z -> (0 <= nc)%Z ->
  (forall i j, (0 <= i < nr)%Z -> (0 <= j < nc)%Z -> (0 <= i * rs + j * cs < zlen buf)%Z) ->
  exists fr, as_strided buf nr nc rs cs = Ok fr.
Proof.
  intros. unfold as_strided.
  rewrite (proj2 (Z.ltb_ge nr 0)), (proj2 (Z.ltb_ge nc 0)) by lia. simpl.
  eexists. erewrite mapM_ok_map; [reflexivity|].
  intros i Hi. apply mapM_ok_map. intros j Hj. apply zrange_In in Hi, Hj.
  apply read_buf_in. auto.
Qed.

Lemma as_strided_oob : forall buf nr nc rs cs i j,
  (0 <= i < nr)%Z -> (0 <= j < nc)%Z -> ~ (0 <= i * rs + j * cs < zlen buf)%Z ->
  as_strided buf nr nc rs cs = Raise OutOfBoundsRead.
Proof.
  intros. unfold as_strided.
  rewrite (proj2 (Z.ltb_ge nr 0)), (proj2 (Z.ltb_ge nc 0)) by lia. simpl.
  assert (Hrow : exists e, mapM (fun j => read_buf buf (i * rs + j * cs)) (zrange 0 nc) = Raise e).
  { apply (mapM_not_ok _ _ _ _ j OutOfBoundsRead). apply zrange_In; lia. apply read_buf_out; auto. }
  destruct Hrow as [e He].
  destruct (mapM_not_ok _ _ (fun i => mapM (fun j => read_buf buf (i * rs + j * cs)) (zrange 0 nc))
              (zrange 0 nr) i e) as [e' He']; [apply zrange_In; lia | auto |].
  rewrite He'. f_equal.
  apply mapM_raise in He'. destruct He' as (i0 & _ & Hi0).
  apply mapM_raise in Hi0. destruct Hi0 as (j0 & _ & Hj0).
  unfold read_buf in Hj0. destruct (_ && _)%bool in Hj0; congruence.
Qed.

(** inversion of a successful framing call *)
Lemma framing_strided_inv : forall `{Env} n sig fs wl wh frames L,
  framing_strided n sig fs wl wh = Ok (frames, L) ->
  wh <= wl /\ L = flen fs wl /\ flen fs wh <> 0%Z /\ frames <> [] /\
  as_strided sig ((zlen sig - L) / flen fs wh + 1) L (flen fs wh * n) n = Ok frames.
Proof.
  intros Env n sig fs wl wh frames L H. unfold framing_strided in H. fold (flen fs wl) (flen fs wh) in H.
  destruct (Rltb wl wh) eqn:E; [discriminate|].
  unfold Rltb in E. destruct (Rlt_dec wl wh); [discriminate|].
  rinv H. unfold stride_trick in H0.
  destruct (Z.eqb_spec (flen fs wh) 0); [discriminate|].
  destruct a as [|row rest] eqn:Ea; [discriminate|].
  pose proof (as_strided_ok _ _ _ _ _ _ H0) as (Hnr & Hnc & Hs & _).
  assert (Hl : zlen (last (row :: rest) []) = flen fs wl).
  { rewrite last_nth. unfold zlen. destruct Hs as [Hs1 Hs2].
    rewrite Forall_forall in Hs2. rewrite Hs2. lia. apply nth_In. simpl; lia. }
  rewrite Hl in H. rewrite Z.ltb_irrefl in H. inversion H; subst.
  repeat split; auto; try lra. congruence.
Qed.

Lemma framing_strided_eq : forall `{Env} n sig fs wl wh frames,
  wh <= wl -> flen fs wh <> 0%Z -> frames <> [] ->
  as_strided sig ((zlen sig - flen fs wl) / flen fs wh + 1) (flen fs wl) (flen fs wh * n) n = Ok frames ->
  framing_strided n sig fs wl wh = Ok (frames, flen fs wl).
Proof.
  intros Env n sig fs wl wh frames H1 H2 H3 H4. unfold framing_strided. fold (flen fs wl) (flen fs wh).
  rewrite Rltb_false by lra. unfold stride_trick.
  rewrite (proj2 (Z.eqb_neq _ _) H2). rewrite H4. simpl.
  destruct frames as [|row rest]; [congruence|].
  pose proof (as_strided_ok _ _ _ _ _ _ H4) as (Hnr & Hnc & Hs & _).
  assert (Hl : zlen (last (row :: rest) []) = flen fs wl).
  { rewrite last_nth. unfold zlen. destruct Hs as [Hs1 Hs2].
    rewrite Forall_forall in Hs2. rewrite Hs2. lia. apply nth_In. simpl; lia. }
  rewrite Hl, Z.ltb_irrefl. auto.
Qed.

Lemma framing_content : forall `{Env} sig fs wl wh frames L,
  framing sig fs wl wh = Ok (frames, L) ->
  let S := flen fs wh in
  L = flen fs wl /\
  zlen frames = ((zlen sig - L) / S + 1)%Z /\
  Forall (fun row => zlen row = L) frames /\
  forall i j, (0 <= i < zlen frames)%Z -> (0 <= j < L)%Z ->
    (0 <= i * S + j < zlen sig)%Z /\
    nth (Z.to_nat j) (nth (Z.to_nat i) frames []) NaN = nth (Z.to_nat (i * S + j)) sig NaN.
Proof.
  intros Env sig fs wl wh frames L H. cbv zeta. unfold framing in H.
  apply framing_strided_inv in H. destruct H as (H1 & H2 & H3 & H4 & H5).
  apply as_strided_ok in H5. destruct H5 as (Hnr & Hnc & [Hs1 Hs2] & Hc).
  assert (Hz : zlen frames = ((zlen sig - L) / flen fs wh + 1)%Z).
  { set (nr := ((zlen sig - L) / flen fs wh + 1)%Z) in *. clearbody nr. unfold zlen. lia. }
  split; [auto|]. split; [auto|]. split.
  - eapply Forall_impl; [|exact Hs2]. intros r Hr. cbv beta in *. unfold zlen. lia.
  - rewrite Hz. intros i j Hi Hj. specialize (Hc i j Hi Hj).
    rewrite !Z.mul_1_r in Hc. auto.
Qed.

Lemma div_nrows_pos : forall N L S, (0 < S)%Z -> (L <= N)%Z ->
  (1 <= (N - L) / S + 1)%Z.
Proof. intros. assert (0 <= (N - L) / S)%Z by (apply Z.div_pos; lia). lia. Qed.

(** the complete outcome table of framing on a mono signal *)
Lemma framing_param_error : forall `{Env} sig fs wl wh, wl < wh ->
  framing sig fs wl wh = Raise (ParameterError msg_win).
Proof. intros. unfold framing, framing_strided. rewrite Rltb_true; auto. Qed.

Lemma framing_zero_div : forall `{Env} sig fs wl wh, wh <= wl -> flen fs wh = 0%Z ->
  framing sig fs wl wh = Raise ZeroDivisionError.
Proof.
  intros Env sig fs wl wh H1 H2. unfold framing, framing_strided. rewrite Rltb_false by lra.
  unfold stride_trick. fold (flen fs wh). rewrite H2. reflexivity.
Qed.

Lemma framing_as : forall `{Env} sig fs wl wh, wh <= wl -> flen fs wh <> 0%Z ->
  framing sig fs wl wh =
  do frames <- as_strided sig ((zlen sig - flen fs wl) / flen fs wh + 1) (flen fs wl) (flen fs wh) 1;
  match frames with [] => Raise IndexError | _ => Ok (frames, flen fs wl) end.
Proof.
  intros Env sig fs wl wh H1 H2.
  destruct (as_strided sig ((zlen sig - flen fs wl) / flen fs wh + 1) (flen fs wl) (flen fs wh) 1) eqn:E.
  - cbn [rbind]. destruct a as [|r rest].
    + unfold framing, framing_strided. fold (flen fs wl) (flen fs wh).
      rewrite Rltb_false by lra. unfold stride_trick. rewrite (proj2 (Z.eqb_neq _ _) H2).
      rewrite Z.mul_1_r, E. reflexivity.
    + unfold framing. rewrite (framing_strided_eq _ _ _ _ _ (r :: rest)); auto. congruence.
      rewrite Z.mul_1_r; auto.
  - cbn [rbind]. unfold framing, framing_strided. fold (flen fs wl) (flen fs wh).
    rewrite Rltb_false by lra. unfold stride_trick. rewrite (proj2 (Z.eqb_neq _ _) H2).
    rewrite Z.mul_1_r, E. reflexivity.
Qed.

Lemma as_strided_value_error : forall buf nr nc rs cs, (nr < 0 \/ nc < 0)%Z ->
  as_strided buf nr nc rs cs = Raise ValueError.
Proof.
  intros. unfold as_strided.
  destruct (Z.ltb_spec nr 0); destruct (Z.ltb_spec nc 0); simpl; auto; lia.
Qed.

Lemma framing_outcomes : forall `{Env} sig fs wl wh,
  let L := flen fs wl in let S := flen fs wh in let N := zlen sig in
  wh <= wl -> (0 < S)%Z -> (0 <= L)%Z ->
  ((N < L - S)%Z -> framing sig fs wl wh = Raise ValueError) /\
  ((L - S <= N < L)%Z -> framing sig fs wl wh = Raise IndexError) /\
  ((L <= N)%Z -> exists frames, framing sig fs wl wh = Ok (frames, L) /\ frames <> []).
Proof.
  intros Env sig fs wl wh L S N H1 H2 H3.
  rewrite framing_as by (auto; fold S; lia). fold L S N.
  repeat split; intros HN.
  - rewrite as_strided_value_error; auto. left.
    assert ((N - L) / S < -1)%Z by (apply Z.div_lt_upper_bound; lia). lia.
  - replace ((N - L) / S)%Z with (-1)%Z.
    2:{ apply Z.div_unique with (r := (N - L + S)%Z); lia. }
    unfold as_strided. rewrite (proj2 (Z.ltb_ge L 0)) by lia. simpl. auto.
  - destruct (as_strided_succeeds sig ((N - L) / S + 1) L S 1) as [fr Hfr]; auto.
    + pose proof (div_nrows_pos N L S); lia.
    + intros i j Hi Hj.
      pose proof (Z.mul_div_le (N - L) S ltac:(lia)).
      assert (i <= (N - L) / S)%Z by lia.
      assert (i * S <= (N - L) / S * S)%Z by (apply Z.mul_le_mono_nonneg_r; lia).
      fold N. nia.
    + exists fr. rewrite Hfr. simpl.
      pose proof (as_strided_ok _ _ _ _ _ _ Hfr) as (_ & _ & [Hs _] & _).
      destruct fr; [|split; [auto|congruence]].
      simpl in Hs. pose proof (div_nrows_pos N L S). lia.
Qed.

Lemma framing_neg_len : forall `{Env} sig fs wl wh,
  wh <= wl -> flen fs wh <> 0%Z -> (flen fs wl < 0)%Z ->
  framing sig fs wl wh = Raise ValueError.
Proof.
  intros. rewrite framing_as by auto. rewrite as_strided_value_error; auto.
Qed.

Lemma framing_neg_hop : forall `{Env} sig fs wl wh,
  let L := flen fs wl in let S := flen fs wh in let N := zlen sig in
  wh <= wl -> (S < 0)%Z -> (0 <= L)%Z ->
  ((N < L)%Z -> framing sig fs wl wh = Raise OutOfBoundsRead) /\
  (N = L -> framing sig fs wl wh = Ok ([sig], L)) /\
  ((L < N <= L - S)%Z -> framing sig fs wl wh = Raise IndexError) /\
  ((L - S < N)%Z -> framing sig fs wl wh = Raise ValueError).
Proof.
  intros Env sig fs wl wh L S N H1 H2 H3.
  rewrite framing_as by (auto; fold S; lia). fold L S N.
  repeat split; intros HN.
  - assert (0 <= (N - L) / S)%Z.
    { rewrite <- Z.div_opp_opp by lia. apply Z.div_pos; lia. }
    assert (0 <= N)%Z by apply zlen_nonneg.
    rewrite (as_strided_oob _ _ _ _ _ 0 (L - 1)); [reflexivity|lia|lia|].
    fold N. lia.
  - rewrite HN, Z.sub_diag, Z.div_0_l by lia. simpl.
    unfold as_strided. rewrite (proj2 (Z.ltb_ge L 0)) by lia. simpl.
    erewrite mapM_ok_map with (g := fun j => nth (Z.to_nat j) sig NaN).
    + simpl. f_equal. f_equal. f_equal. unfold zrange. rewrite Z.sub_0_r.
      rewrite map_map. rewrite <- HN. unfold N, zlen. rewrite Nat2Z.id.
      erewrite map_ext; [apply map_seq_nth|]. intros. simpl. rewrite Nat2Z.id. auto.
    + intros j Hj. apply zrange_In in Hj. rewrite Z.mul_1_r. simpl. apply read_buf_in. fold N. lia.
  - replace ((N - L) / S)%Z with (-1)%Z.
    2:{ rewrite <- Z.div_opp_opp by lia. apply Z.div_unique with (r := (L - N - S)%Z); lia. }
    unfold as_strided. rewrite (proj2 (Z.ltb_ge L 0)) by lia. simpl. auto.
  - rewrite as_strided_value_error; auto. left.
    assert ((N - L) / S < -1)%Z; [|lia].
    rewrite <- Z.div_opp_opp by lia. apply Z.div_lt_upper_bound; lia.
Qed.

(** a mono signal with a positive hop is never read outside its buffer *)
Lemma framing_safe : forall `{Env} sig fs wl wh, (0 < flen fs wh)%Z ->
  framing sig fs wl wh <> Raise OutOfBoundsRead.
Proof.
  intros Env sig fs wl wh H. destruct (Rlt_dec wl wh).
  - rewrite framing_param_error by auto. congruence.
  - destruct (Z_lt_dec (flen fs wl) 0).
    + rewrite framing_neg_len by (auto; lra || lia). congruence.
    + pose proof (framing_outcomes sig fs wl wh ltac:(lra) H ltac:(lia)) as (Ha & Hb & Hc).
      destruct (Z_lt_dec (zlen sig) (flen fs wl - flen fs wh)); [rewrite Ha by auto; congruence|].
      destruct (Z_lt_dec (zlen sig) (flen fs wl)); [rewrite Hb by lia; congruence|].
      destruct Hc as (fr & -> & _); [lia|congruence].
Qed.

(** a signal with c >= 2 channels and a hop of at most (c-1)*N samples is read
    outside its buffer *)
Lemma framing_multi_unsafe : forall `{Env} c sig fs wl wh,
  let N := zlen sig in
  (2 <= c)%nat -> Forall (fun row => List.length row = c) sig ->
  wh <= wl -> (1 <= flen fs wh <= (Z.of_nat c - 1) * N)%Z ->
  (1 <= flen fs wl <= N * Z.of_nat c)%Z ->
  framing_multi c sig fs wl wh = Raise OutOfBoundsRead.
Proof.
  intros Env c sig fs wl wh N Hc Hrows Hw HS HL. unfold framing_multi, framing_strided.
  fold (flen fs wl) (flen fs wh). rewrite Rltb_false by lra.
  unfold stride_trick. rewrite (proj2 (Z.eqb_neq (flen fs wh) 0)) by lia.
  assert (Hlen : zlen (List.concat sig) = (N * Z.of_nat c)%Z).
  { unfold N, zlen. clear -Hrows. induction Hrows as [|r l Hr Hl IH]; [reflexivity|].
    cbn [List.concat List.length]. rewrite app_length, Nat2Z.inj_add, IH, Hr, Nat2Z.inj_succ. ring. }
  rewrite Hlen. set (S := flen fs wh) in *. set (L := flen fs wl) in *.
  set (r := ((N * Z.of_nat c - L) / S)%Z).
  assert (0 <= r)%Z by (apply Z.div_pos; lia).
  assert (Hr : (N * Z.of_nat c - L < S * r + S)%Z).
  { unfold r. pose proof (Z.mod_pos_bound (N * Z.of_nat c - L) S ltac:(lia)).
    pose proof (Z.div_mod (N * Z.of_nat c - L) S ltac:(lia)). lia. }
  rewrite (as_strided_oob _ _ _ _ _ r (L - 1)); [reflexivity|lia|lia|].
  rewrite Hlen. intros [_ Hlt].
  replace (r * (S * Z.of_nat c) + (L - 1) * Z.of_nat c)%Z with ((r * S + L - 1) * Z.of_nat c)%Z in Hlt by ring.
  apply Z.mul_lt_mono_pos_r in Hlt; [|lia]. nia.
Qed.

(** coverage *)
Lemma framing_coverage : forall `{Env} sig fs wl wh frames L,
  framing sig fs wl wh = Ok (frames, L) -> (0 < flen fs wh <= L)%Z ->
  let S := flen fs wh in let covered := ((zlen frames - 1) * S + L)%Z in
  covered = (zlen sig - (zlen sig - L) mod S)%Z /\
  (forall t, (0 <= t < covered)%Z -> exists i j,
     (0 <= i < zlen frames)%Z /\ (0 <= j < L)%Z /\ (i * S + j = t)%Z) /\
  (forall i j, (0 <= i < zlen frames)%Z -> (0 <= j < L)%Z -> (i * S + j < covered)%Z).
Proof.
  intros Env sig fs wl wh frames L H HS. cbv zeta.
  pose proof (framing_content _ _ _ _ _ _ H) as (HL & Hn & _ & _).
  set (S := flen fs wh) in *.
  pose proof H as H'. unfold framing in H'. apply framing_strided_inv in H'.
  destruct H' as (_ & _ & _ & Hne & _).
  assert (Hpos : (0 < zlen frames)%Z). { unfold zlen. destruct frames; [congruence|simpl; lia]. }
  pose proof (Z.div_mod (zlen sig - L) S ltac:(lia)).
  split; [|split].
  - rewrite Hn. lia.
  - intros t Ht. destruct (Z_lt_dec t ((zlen frames - 1) * S)).
    + exists (t / S)%Z, (t mod S)%Z.
      pose proof (Z.mod_pos_bound t S ltac:(lia)). pose proof (Z.div_mod t S ltac:(lia)).
      assert (0 <= t / S)%Z by (apply Z.div_pos; lia).
      assert (t / S < zlen frames - 1)%Z by (apply Z.div_lt_upper_bound; lia).
      repeat split; lia.
    + exists (zlen frames - 1)%Z, (t - (zlen frames - 1) * S)%Z. repeat split; lia.
  - intros. nia.
Qed.

(** ** Pre-emphasis *)
Lemma fmul_f1 : forall x, fmul f1 x = x.
Proof.
  intros [r| | |]; unfold f1; simpl; auto.
  - f_equal; lra.
  - unfold finfmul. destruct (Req_EM_T 1 0); [lra|]. destruct (Rlt_dec 0 1); auto; lra.
  - unfold finfmul. destruct (Req_EM_T (-(1)) 0); [lra|]. destruct (Rlt_dec 0 (-(1))); auto; lra.
Qed.
Lemma fadd_f0_r : forall x, fadd x f0 = x.
Proof. intros [r| | |]; simpl; auto. f_equal; lra. Qed.

Lemma fmul_neg_coeff : forall c x, fmul (fneg (Fin c)) x = fneg (fmul (Fin c) x).
Proof.
  intros c [r| | |]; simpl; auto.
  - f_equal; lra.
  - unfold finfmul. destruct (Req_EM_T (-c) 0), (Req_EM_T c 0); try lra; auto.
    destruct (Rlt_dec 0 (-c)), (Rlt_dec 0 c); auto; lra.
  - unfold finfmul. destruct (Req_EM_T (--c) 0), (Req_EM_T (-c) 0); try lra; auto.
    destruct (Rlt_dec 0 (--c)), (Rlt_dec 0 (-c)); auto; lra.
Qed.

Lemma pre_emphasis_spec : forall sig c y, pre_emphasis sig c = Ok y ->
  List.length y = List.length sig /\
  nth 0 y NaN = nth 0 sig NaN /\
  forall t, (S t < List.length sig)%nat ->
    nth (S t) y NaN = fsub (nth (S t) sig NaN) (fmul (Fin c) (nth t sig NaN)).
Proof.
  intros sig c y H. unfold pre_emphasis in H. destruct sig as [|x0 rest] eqn:Es; [discriminate|].
  rewrite <- Es in *. assert (Hl : (0 < List.length sig)%nat) by (subst; simpl; lia).
  assert (Hy : y = fir [f1; fneg (Fin c)] sig) by congruence. rewrite Hy. clear H Hy Es.
  unfold fir. split; [rewrite map_length, seq_length; auto|]. split.
  - rewrite nth_map_seq by auto.
    change (Nat.min 1 (List.length [f1; fneg (Fin c)])) with 1%nat.
    cbn [seq map nth Nat.sub]. unfold fsum; cbn [fold_right]. rewrite fmul_f1, fadd_f0_r; auto.
  - intros t Ht. rewrite nth_map_seq by auto.
    replace (Nat.min (S (S t)) (List.length [f1; fneg (Fin c)])) with 2%nat by (simpl; lia).
    cbn [seq map nth]. unfold fsum; cbn [fold_right]. rewrite fmul_f1, fadd_f0_r.
    replace (S t - 0)%nat with (S t) by lia. replace (S t - 1)%nat with t by lia.
    rewrite fmul_neg_coeff. auto.
Qed.

Lemma pre_emphasis_ok : forall sig c, sig <> [] -> exists y, pre_emphasis sig c = Ok y.
Proof. intros [|x l] c H; [congruence|]. eexists; reflexivity. Qed.

(** real version *)
Definition rpre (c : R) (x : list R) : list R :=
  map (fun t => match t with O => nth 0 x 0 | S u => nth (S u) x 0 - c * nth u x 0 end)
      (seq 0 (List.length x)).

Lemma pre_emphasis_real : forall x c, x <> [] ->
  pre_emphasis (map Fin x) c = Ok (map Fin (rpre c x)).
Proof.
  intros x c Hx. destruct (pre_emphasis_ok (map Fin x) c) as [y Hy].
  { destruct x; simpl; congruence. }
  rewrite Hy. f_equal. apply pre_emphasis_spec in Hy. destruct Hy as (H1 & H2 & H3).
  rewrite map_length in *. apply (list_eq_nth _ NaN).
  - rewrite map_length. unfold rpre. rewrite map_length, seq_length; auto.
  - intros i Hi. rewrite H1 in Hi.
    rewrite nth_map with (d := 0) by (unfold rpre; rewrite map_length, seq_length; auto).
    unfold rpre. rewrite nth_map_seq by auto.
    destruct i.
    + rewrite H2. rewrite nth_map with (d := 0); auto.
    + rewrite H3 by auto. rewrite !nth_map with (d := 0) by lia. simpl. f_equal; lra.
Qed.

Lemma pre_emphasis_prefix : forall sig c m, (0 < m)%nat -> sig <> [] ->
  pre_emphasis (firstn m sig) c = rmap (firstn m) (pre_emphasis sig c).
Proof.
  intros sig c m Hm Hs.
  destruct (pre_emphasis_ok sig c Hs) as [y Hy].
  destruct (pre_emphasis_ok (firstn m sig) c) as [y' Hy'].
  { destruct sig, m; simpl; congruence || lia. }
  rewrite Hy, Hy'. simpl. f_equal.
  apply pre_emphasis_spec in Hy. apply pre_emphasis_spec in Hy'.
  destruct Hy as (A1 & A2 & A3), Hy' as (B1 & B2 & B3).
  apply (list_eq_nth _ NaN).
  - rewrite B1, !firstn_length, A1; auto.
  - intros i Hi. rewrite B1, firstn_length in Hi.
    rewrite firstn_nth_lt by lia.
    destruct i.
    + rewrite B2, A2. apply firstn_nth_lt; lia.
    + rewrite B3 by (rewrite firstn_length; auto). rewrite A3 by lia.
      rewrite !firstn_nth_lt by lia. auto.
Qed.

(** ** zero_handling *)
Lemma eps_pos : 0 < eps.
Proof. unfold eps. apply Rinv_0_lt_compat. apply pow_lt; lra. Qed.

Lemma zero_handling1_spec : forall x,
  (x = Fin 0 -> zero_handling1 x = Fin eps) /\ (x <> Fin 0 -> zero_handling1 x = x).
Proof.
  intros x; unfold zero_handling1; split; intros.
  - subst; simpl. rewrite Reqb_refl. auto.
  - destruct x as [r| | |]; simpl; auto. unfold Reqb. destruct (Req_EM_T r 0); auto. congruence.
Qed.

Lemma zero_handling1_nz : forall x, zero_handling1 x <> Fin 0.
Proof.
  intros x. pose proof eps_pos. unfold zero_handling1. destruct x as [r| | |]; simpl; try congruence.
  unfold Reqb. destruct (Req_EM_T r 0); intro HH; inversion HH; subst; lra.
Qed.

Lemma zero_handling1_pos : forall r, 0 <= r -> exists s, 0 < s /\ zero_handling1 (Fin r) = Fin s.
Proof.
  intros r Hr. pose proof eps_pos. unfold zero_handling1; simpl. unfold Reqb.
  destruct (Req_EM_T r 0); [exists eps; auto | exists r; split; auto; lra].
Qed.

Lemma zero_handling_idem : forall x, zero_handling (zero_handling x) = zero_handling x.
Proof.
  intros. unfold zero_handling. rewrite map_map. apply map_ext.
  intros a. destruct (zero_handling1_spec (zero_handling1 a)) as [_ H].
  apply H. apply zero_handling1_nz.
Qed.

(** ** Windows *)
Lemma np_n_arg : forall M n, (2 <= M)%nat -> PI * np_n M n / (INR M - 1) = spec_theta M n - PI.
Proof.
  intros. unfold np_n, spec_theta. rewrite minus_INR by lia. simpl (INR 1).
  assert (INR M - 1 <> 0). { assert (2 <= INR M) by (apply (le_INR 2); auto). lra. }
  field; auto.
Qed.

Lemma cos_minus_PI : forall x, cos (x - PI) = - cos x.
Proof. intros. rewrite cos_minus, cos_PI, sin_PI. lra. Qed.

Lemma hanning_spec : forall M n, (2 <= M)%nat -> hanning_at M n = spec_hann M n.
Proof. intros. unfold hanning_at, spec_hann. rewrite np_n_arg, cos_minus_PI by auto. lra. Qed.
Lemma hamming_spec : forall M n, (2 <= M)%nat -> hamming_at M n = spec_hamming M n.
Proof. intros. unfold hamming_at, spec_hamming. rewrite np_n_arg, cos_minus_PI by auto. lra. Qed.
Lemma blackman_spec : forall M n, (2 <= M)%nat -> blackman_at M n = spec_blackman M n.
Proof.
  intros. unfold blackman_at, spec_blackman.
  replace (2.0 * PI * np_n M n / (INR M - 1)) with (2 * (PI * np_n M n / (INR M - 1))).
  2:{ replace 2.0 with 2 by lra. assert (2 <= INR M) by (apply (le_INR 2); auto). field. lra. }
  rewrite np_n_arg, cos_minus_PI by auto.
  replace (2 * (spec_theta M n - PI)) with (2 * spec_theta M n - 2 * PI) by ring.
  rewrite cos_minus, cos_2PI, sin_2PI. lra.
Qed.
Lemma bartlett_spec : forall M n, (2 <= M)%nat -> bartlett_at M n = spec_bartlett M n.
Proof.
  intros. unfold bartlett_at, spec_bartlett, np_n. rewrite minus_INR by lia. simpl (INR 1).
  assert (2 <= INR M) by (apply (le_INR 2); auto).
  set (d := INR M - 1). assert (0 < d) by (unfold d; lra).
  replace (2 * INR n / d - 1) with ((2 * INR n - d) / d) by (field; lra).
  destruct (Rle_dec (2 * INR n - d) 0).
  - rewrite Rabs_left1. lra. apply Rmult_le_reg_r with d; auto. unfold Rdiv.
    rewrite Rmult_assoc, Rinv_l by lra. lra.
  - rewrite Rabs_pos_eq. lra. apply Rlt_le, Rdiv_lt_0_compat; lra.
Qed.

Lemma i0_spec : forall x, i0 x = spec_I0 x.
Proof.
  intros. unfold i0, spec_I0, PSeries. apply Series_ext. intros k.
  rewrite pow_mult. unfold Rdiv at 2. rewrite Rmult_comm. f_equal. f_equal. ring.
Qed.

Lemma kaiser_spec : forall M n, (2 <= M)%nat -> kaiser_at 14 M n = spec_kaiser M n.
Proof.
  intros. unfold kaiser_at, spec_kaiser. rewrite !i0_spec.
  assert (2 <= INR M) by (apply (le_INR 2); auto).
  do 4 f_equal.
  rewrite minus_INR by lia. simpl (INR 1). field. lra.
Qed.

(** I0 is positive and increasing for non-negative arguments *)
Definition i0c (k : nat) : R := / (INR (fact k) * INR (fact k)).
Lemma i0c_pos : forall k, 0 < i0c k.
Proof.
  intros. unfold i0c. apply Rinv_0_lt_compat.
  assert (0 < INR (fact k)) by (apply lt_0_INR, lt_O_fact). apply Rmult_lt_0_compat; auto.
Qed.
Lemma i0c_le : forall k, i0c k <= / INR (fact k).
Proof.
  intros. unfold i0c. apply Rinv_le_contravar.
  - apply lt_0_INR, lt_O_fact.
  - assert (1 <= INR (fact k)) by (apply (le_INR 1), lt_O_fact). nra.
Qed.

Lemma ex_i0 : forall y, 0 <= y -> ex_series (fun k => i0c k * y ^ k).
Proof.
  intros y Hy. apply (ex_series_le (V := R_CompleteNormedModule)) with (b := fun k => / INR (fact k) * y ^ k).
  - intros k. unfold norm; simpl. unfold abs; simpl.
    pose proof (i0c_pos k). pose proof (pow_le y k Hy).
    rewrite Rabs_pos_eq by nra. apply Rmult_le_compat_r; auto. apply i0c_le.
  - exists (exp y). pose proof (is_exp_Reals y) as H. unfold is_pseries in H.
    apply is_series_ext with (2 := H). intros k. rewrite pow_n_pow.
    unfold scal; simpl. unfold mult; simpl. ring.
Qed.

Lemma i0_mono_sq : forall y z, 0 <= y <= z ->
  PSeries i0c y <= PSeries i0c z.
Proof.
  intros y z H. unfold PSeries. apply Series_le.
  - intros k. pose proof (i0c_pos k). pose proof (pow_le y k ltac:(lra)).
    split; [nra|]. apply Rmult_le_compat_l; [lra|]. apply pow_incr; lra.
  - apply ex_i0; lra.
Qed.

Lemma i0_ge_1 : forall y, 0 <= y -> 1 <= PSeries i0c y.
Proof.
  intros y Hy. apply Rle_trans with (PSeries i0c 0).
  - rewrite PSeries_0. unfold i0c; simpl. lra.
  - apply i0_mono_sq; lra.
Qed.

Lemma kaiser_bounds : forall M n, (2 <= M)%nat -> (n < M)%nat -> 0 < kaiser_at 14 M n <= 1.
Proof.
  intros M n HM Hn. unfold kaiser_at, i0. fold i0c.
  assert (HMr : 2 <= INR M) by (apply (le_INR 2); auto).
  set (a := (INR M - 1) / 2). assert (Ha : 0 < a) by (unfold a; lra).
  set (u := (INR n - a) / a).
  assert (Hu : -1 <= u <= 1).
  { assert (0 <= INR n) by apply pos_INR.
    assert (INR n <= INR M - 1). { assert (S n <= M)%nat by lia.
      apply le_INR in H0. rewrite S_INR in H0. lra. }
    unfold u. split.
    - apply Rmult_le_reg_r with a; auto. unfold Rdiv. rewrite Rmult_assoc, Rinv_l by lra. lra.
    - apply Rmult_le_reg_r with a; auto. unfold Rdiv. rewrite Rmult_assoc, Rinv_l by lra. unfold a; lra. }
  assert (Hs : 0 <= 1 - u ^ 2 <= 1) by nra.
  assert (Hq : 0 <= sqrt (1 - u ^ 2) <= 1).
  { split; [apply sqrt_pos|]. apply Rle_trans with (sqrt 1); [apply sqrt_le_1_alt; lra|rewrite sqrt_1; lra]. }
  set (s := sqrt (1 - u ^ 2)) in *.
  assert (H1 : 1 <= PSeries i0c ((14 * s / 2) ^ 2)) by (apply i0_ge_1, pow2_ge_0).
  assert (H2 : PSeries i0c ((14 * s / 2) ^ 2) <= PSeries i0c ((14 / 2) ^ 2)).
  { apply i0_mono_sq. split; [apply pow2_ge_0|].
    replace ((14 * s / 2) ^ 2) with (49 * (s * s)) by field.
    replace ((14 / 2) ^ 2) with 49 by field. nra. }
  split.
  - apply Rdiv_lt_0_compat; lra.
  - apply Rmult_le_reg_r with (PSeries i0c ((14 / 2) ^ 2)); [lra|].
    unfold Rdiv at 1. rewrite Rmult_assoc, Rinv_l by lra. lra.
Qed.

(** ** Pre-emphasis: linearity, identity, recovery *)
Lemma rpre_length : forall c x, List.length (rpre c x) = List.length x.
Proof. intros. unfold rpre. rewrite map_length, seq_length; auto. Qed.

Lemma rpre_nth : forall c x t, (t < List.length x)%nat ->
  nth t (rpre c x) 0 = match t with O => nth 0 x 0 | S u => nth (S u) x 0 - c * nth u x 0 end.
Proof. intros. unfold rpre. rewrite nth_map_seq; auto. Qed.

Lemma rpre_linear : forall c a b x z, List.length x = List.length z ->
  rpre c (map2 (fun u v => a * u + b * v) x z)
  = map2 (fun u v => a * u + b * v) (rpre c x) (rpre c z).
Proof.
  intros c a b x z Hl. apply (list_eq_nth _ 0).
  - rewrite rpre_length, !map2_length, !rpre_length; auto.
  - intros i Hi. rewrite rpre_length, map2_length in Hi.
    assert (Hm : List.length (map2 (fun u v => a * u + b * v) x z) = List.length x) by (rewrite map2_length; lia).
    rewrite rpre_nth by lia. destruct i;
      rewrite !map2_nth with (da := 0) (db := 0) by (rewrite ?rpre_length; lia);
      rewrite !rpre_nth by lia; auto. ring.
Qed.

Lemma pre_emphasis_linear : forall c a b x z, List.length x = List.length z -> x <> [] ->
  exists y1 y2,
    pre_emphasis (map Fin x) c = Ok (map Fin y1) /\
    pre_emphasis (map Fin z) c = Ok (map Fin y2) /\
    pre_emphasis (map Fin (map2 (fun u v => a * u + b * v) x z)) c
    = Ok (map Fin (map2 (fun u v => a * u + b * v) y1 y2)).
Proof.
  intros c a b x z Hl Hx. exists (rpre c x), (rpre c z).
  assert (z <> []) by (destruct x, z; simpl in *; congruence).
  rewrite !pre_emphasis_real; auto.
  - rewrite rpre_linear by auto. auto.
  - destruct x, z; simpl; congruence.
Qed.

Lemma pre_emphasis_zero : forall x, x <> [] -> pre_emphasis (map Fin x) 0 = Ok (map Fin x).
Proof.
  intros. rewrite pre_emphasis_real by auto. f_equal. f_equal. apply (list_eq_nth _ 0).
  - apply rpre_length.
  - intros i Hi. rewrite rpre_length in Hi. rewrite rpre_nth by auto. destruct i; auto. lra.
Qed.

(** rebuild the signal from its pre-emphasised version *)
Fixpoint deemph (c prev : R) (y : list R) : list R :=
  match y with [] => [] | v :: t => let x := v + c * prev in x :: deemph c x t end.

Lemma deemph_nth : forall c x y prev, List.length y = List.length x ->
  (forall t, (t < List.length x)%nat ->
     nth t y 0 = nth t x 0 - c * match t with O => prev | S u => nth u x 0 end) ->
  deemph c prev y = x.
Proof.
  induction x as [|x0 x IH]; intros y prev Hl H; destruct y as [|y0 y]; simpl in *; try lia; auto.
  assert (H0 := H O ltac:(lia)). simpl in H0. f_equal; [lra|].
  replace (y0 + c * prev) with x0 by lra.
  apply IH; [lia|]. intros t Ht. specialize (H (S t) ltac:(lia)). simpl in H.
  destruct t; auto.
Qed.

Lemma pre_emphasis_recover : forall c x y, x <> [] ->
  pre_emphasis (map Fin x) c = Ok (map Fin y) -> deemph c 0 y = x.
Proof.
  intros c x y Hx H. rewrite pre_emphasis_real in H by auto.
  assert (y = rpre c x) by (apply map_Fin_inj; congruence). subst y.
  apply deemph_nth. apply rpre_length. intros t Ht. rewrite rpre_nth by auto. destruct t; lra.
Qed.

(** zero_handling, whole vectors *)
Lemma zero_handling_spec : forall x,
  List.length (zero_handling x) = List.length x /\
  (forall i, (i < List.length x)%nat ->
     (nth i x NaN = Fin 0 -> nth i (zero_handling x) NaN = Fin (/ 2 ^ 52)) /\
     (nth i x NaN <> Fin 0 -> nth i (zero_handling x) NaN = nth i x NaN)) /\
  ~ In (Fin 0) (zero_handling x) /\
  zero_handling (zero_handling x) = zero_handling x /\
  (forall i r, nth i x NaN = Fin r -> 0 <= r -> finite (flog (nth i (zero_handling x) NaN))).
Proof.
  intros x. split; [apply map_length|]. split; [|split; [|split]].
  - intros i Hi. unfold zero_handling. rewrite nth_map with (d := NaN) by auto.
    split; intros; apply zero_handling1_spec; auto.
  - unfold zero_handling. rewrite in_map_iff. intros (y & Hy & _). apply zero_handling1_nz in Hy. auto.
  - apply zero_handling_idem.
  - intros i r Hi Hr. assert (i < List.length x)%nat.
    { destruct (le_lt_dec (List.length x) i); auto. rewrite nth_ge in Hi by auto. discriminate. }
    unfold zero_handling. rewrite nth_map with (d := NaN) by auto. rewrite Hi.
    destruct (zero_handling1_pos r Hr) as (s & Hs & ->). rewrite flog_pos by auto. auto.
Qed.

Lemma zero_handling_negative : forall x i r, nth i x NaN = Fin r -> r < 0 ->
  flog (nth i (zero_handling x) NaN) = NaN.
Proof.
  intros x i r Hi Hr. assert (i < List.length x)%nat.
  { destruct (le_lt_dec (List.length x) i); auto. rewrite nth_ge in Hi by auto. discriminate. }
  unfold zero_handling. rewrite nth_map with (d := NaN) by auto. rewrite Hi.
  destruct (zero_handling1_spec (Fin r)) as [_ ->].
  - simpl. destruct (Rlt_dec 0 r); [lra|]. destruct (Req_EM_T r 0); auto; lra.
  - intro HH; inversion HH; lra.
Qed.
