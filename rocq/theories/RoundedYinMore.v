(** * YIN in floating point: the curve, whole signals, periodic and constant windows *)
From Coq Require Import Reals ZArith List Lia Lra Psatz.
From Flocq Require Import Core.
From Verif Require Import Base BaseFacts SpecBase SpecMat BigSum MatFacts SpecFeatures LpcMore Yin SpecYin YinFacts Binary64 Rounded SpecRounded RoundedFacts RoundedWindows
  RoundedYin SpecRoundedYin RoundedYinFacts.
Import ListNotations.
Local Open Scope R_scope.

(** ** the curve of a window *)
Definition curve_of `{Env} (d : nat -> R) (tau : nat) : F :=
  if Nat.eqb tau 0 then Fin 1
  else rounded (fdiv (Fin (rnd (d tau * INR tau))) (Fin (running (fun v => d (S v)) tau))).

Lemma difference_list : forall (E : Env) conv L x T, (T <= L)%nat ->
  @compute_difference_of E conv (map x (seq 0 L)) (Z.of_nat T) = map (@difference_of E conv L (fun t => nth t (map x (seq 0 L)) 0)) (seq 0 T).
Proof.
  intros E conv L x T HT. unfold compute_difference_of. rewrite map_length, seq_length.
  unfold py_take. destruct (Z.ltb_spec (Z.of_nat T) 0); [lia|]. rewrite Nat2Z.id, firstn_map. f_equal.
  replace L with (T + (L - T))%nat by lia. rewrite seq_app, firstn_app, seq_length, Nat.sub_diag, firstn_O, app_nil_r.
  apply firstn_all2. rewrite seq_length. lia.
Qed.

Lemma running_ext : forall (E : Env) v w k, (forall j, (j < k)%nat -> v j = w j) -> @running E v k = @running E w k.
Proof.
  intros E v w k. induction k as [|m IH]; intros Hv; [reflexivity|]. cbn [running]. destruct m; [apply Hv; lia|].
  rewrite IH, Hv by (intros; auto). reflexivity.
Qed.

Lemma difference_ext : forall (E : Env) (conv : nat -> (nat -> R) -> nat -> R) L x y tau,
  (forall t, (t < L)%nat -> x t = y t) -> (tau <= L)%nat -> conv L x tau = conv L y tau ->
  @difference_of E conv L x tau = @difference_of E conv L y tau.
Proof.
  intros E conv L x y tau Hxy Ht Hc. unfold difference_of. rewrite Hc.
  rewrite !(running_ext E (fun t => rnd (x t * x t)) (fun t => rnd (y t * y t))); [reflexivity| | |];
    intros j Hj; rewrite Hxy by lia; reflexivity.
Qed.

Lemma cmnd_list : forall (E : Env) T d, @compute_cmnd_of E (map d (seq 0 (S T))) (Z.of_nat (S T)) = Ok (map (curve_of d) (seq 0 (S T))).
Proof.
  intros E T d. unfold compute_cmnd_of. cbn [seq map skipn]. rewrite <- seq_shift, map_map.
  rewrite zrange1_fvec, map_map. unfold bcast at 1. rewrite !map_length, !seq_length, fvec_length, Nat.eqb_refl. cbn [rbind].
  unfold fvec. rewrite map2_map_same.
  unfold bcast. rewrite !map_length, !seq_length, Nat.eqb_refl. cbn [rbind].
  rewrite map2_map_same, map_map. f_equal. unfold curve_of at 1. cbn [Nat.eqb]. f_equal. rewrite ?map_map. apply map_ext_in. intros k Hk. apply in_seq in Hk.
  unfold curve_of. cbn [Nat.eqb fmul rounded]. do 3 f_equal. apply running_ext. intros j Hj.
  rewrite (nth_map_seq _ (fun k => d (S k))) by lia. reflexivity.
Qed.

(** ** one window: get_pitch, np.argmin and min on any curve that starts with 1 *)
Lemma curve_frame : forall (E : Env) (c0 : nat -> F) fs lo T th, c0 O = Fin 1 ->
  let c := map c0 (seq 0 (S T)) in
  exists P H A,
    (do p <- get_pitch c (Z.of_nat lo) (Z.of_nat (S T)) th;
     do am <- np_argmin c;
     let argm := if (Z.of_nat lo <? Z.of_nat am)%Z then @rounded E (fdiv (fZ fs) (fnat am)) else f0 in
     if negb (p =? 0)%Z then do h <- py_nth c p; Ok (@rounded E (fdiv (fZ fs) (fZ p)), h, argm)
     else do h <- py_min c; Ok (f0, h, argm)) = Ok (P, H, A) /\
    (exists a, is_argmin c0 (S T) a /\ A = if Nat.ltb lo a then Fin (@rnd E (IZR fs / INR a)) else Fin 0) /\
    ((exists s p, yin_lag c0 lo (S T) th s p /\ (1 <= p)%nat /\ P = Fin (@rnd E (IZR fs / INR p)) /\ H = c0 p) \/
     ((yin_unvoiced c0 lo (S T) th \/ exists s, yin_lag c0 lo (S T) th s 0) /\ P = Fin 0 /\
       H <> NaN /\ (exists t, (t <= T)%nat /\ H = c0 t) /\ forall t, (t <= T)%nat -> fltb (c0 t) H = false)).
Proof.
  intros E c0 fs lo T th H00 c.
  assert (Lc : List.length c = S T) by (unfold c; rewrite map_length, seq_length; reflexivity).
  assert (Nc : c <> []) by (intros K; rewrite K in Lc; discriminate).
  assert (Cn : forall t, (t < S T)%nat -> nth t c NaN = c0 t) by (intros; unfold c; apply nth_map_seq; auto).
  destruct (np_argmin_ok c Nc) as (a & Ha & Hm). rewrite Lc in Hm.
  assert (Hm' : is_argmin c0 (S T) a).
  { destruct Hm as [H0 Hm]. split; [auto|]. rewrite Cn in Hm by auto. destruct Hm as [[A1 A2]|[A1 A2]]; [left|right].
    - split; [auto|]. intros t Ht. rewrite <- (Cn t) by lia. auto.
    - split; intros t Ht; rewrite <- (Cn t) by lia; auto. }
  assert (EA : (if (Z.of_nat lo <? Z.of_nat a)%Z then @rounded E (fdiv (fZ fs) (fnat a)) else f0) = if Nat.ltb lo a then Fin (@rnd E (IZR fs / INR a)) else Fin 0).
  { destruct (Z.ltb_spec (Z.of_nat lo) (Z.of_nat a)), (Nat.ltb_spec lo a); try lia; [|reflexivity].
    unfold fZ, fnat. rewrite fdiv_Fin by (apply not_0_INR; lia). reflexivity. }
  assert (Tr : forall s p, yin_lag (fun t => nth t c NaN) lo (S T) th s p -> yin_lag c0 lo (S T) th s p).
  { intros s p (A & B & C & D & G & I). split; [auto|]. split; [auto|]. rewrite <- Cn by lia. split; [auto|].
    split; [intros t Ht; rewrite <- Cn by lia; auto|]. split; [intros t Ht; rewrite <- !Cn by lia; auto|].
    intros Hp. rewrite <- !Cn by lia. auto. }
  assert (Lo : exists H, py_min c = Ok H /\ H <> NaN /\ (exists t, (t <= T)%nat /\ H = c0 t) /\ forall t, (t <= T)%nat -> fltb (c0 t) H = false).
  { destruct (py_min_ok c Nc) as (m & H1 & H2 & H3 & H4); [rewrite Cn by lia; rewrite H00; discriminate|].
    exists m. split; [auto|]. split; [auto|]. split.
    - apply (In_nth _ _ NaN) in H3 as (t & Ht & <-). rewrite Lc in Ht. exists t. split; [lia|]. apply Cn. auto.
    - intros t Ht. rewrite <- Cn by lia. apply H4. lia. }
  destruct (get_pitch_ok c lo (S T) th) as [[H1 H2]|(s & p & H1 & H2)]; [lia| |].
  - rewrite H1, Ha. cbn [rbind Z.eqb negb]. destruct Lo as (H & E1 & E2 & E3 & E4). rewrite E1. cbn [rbind].
    do 3 eexists. split; [reflexivity|]. split; [exists a; rewrite EA; auto|]. right.
    split; [left; intros t Ht; rewrite <- Cn by lia; apply H2; auto|]. split; [reflexivity|]. auto.
  - rewrite H1, Ha. cbn [rbind]. destruct p as [|p'].
    + cbn [Z.of_nat Z.eqb negb]. destruct Lo as (H & E1 & E2 & E3 & E4). rewrite E1. cbn [rbind].
      do 3 eexists. split; [reflexivity|]. split; [exists a; rewrite EA; auto|]. right.
      split; [right; exists s; apply Tr; auto|]. split; [reflexivity|]. auto.
    + destruct (Z.eqb_spec (Z.of_nat (S p')) 0); [lia|]. cbn [negb].
      destruct (H2) as (A & B & _). rewrite (py_nth_nat _ c (S p') NaN) by lia. cbn [rbind].
      do 3 eexists. split; [reflexivity|]. split; [exists a; rewrite EA; auto|]. left.
      exists s, (S p'). split; [apply Tr; auto|]. split; [lia|]. split; [|apply Cn; lia].
      unfold fZ. rewrite fdiv_Fin by (apply not_0_IZR; lia). rewrite INR_IZR. reflexivity.
Qed.

(** ** whole signals *)
Definition window_list (L hop : nat) (x : nat -> R) (i : nat) : list R := map (yin_x hop x i) (seq 0 L).
Definition window_fun (L hop : nat) (x : nat -> R) (i t : nat) : R := nth t (window_list L hop x i) 0.
Definition window_curve `{Env} conv (L hop : nat) (x : nat -> R) (i : nat) : nat -> F :=
  curve_of (difference_of conv L (window_fun L hop x i)).

Lemma window_fun_in : forall L hop x i t, (t < L)%nat -> window_fun L hop x i t = x (i * hop + t)%nat.
Proof. intros. unfold window_fun, window_list. rewrite (nth_map_seq _ (yin_x hop x i)) by assumption. reflexivity. Qed.

Lemma py_slice_seq : forall N (x : nat -> R) a n, (a + n <= N)%nat ->
  py_slice (Z.of_nat a) (Z.of_nat a + Z.of_nat n) (map x (seq 0 N)) = map (fun t => x (a + t)%nat) (seq 0 n).
Proof.
  intros N x a n Ha. unfold py_slice, slice_index. destruct (Z.ltb_spec (Z.of_nat a) 0); [lia|].
  destruct (Z.ltb_spec (Z.of_nat a + Z.of_nat n) 0); [lia|].
  replace (Z.to_nat (Z.of_nat a + Z.of_nat n) - Z.to_nat (Z.of_nat a))%nat with n by lia. rewrite Nat2Z.id.
  replace N with (a + (n + (N - a - n)))%nat by lia. rewrite seq_app, seq_app, !map_app, skipn_app, skipn_all2 by (rewrite map_length, seq_length; lia).
  rewrite map_length, seq_length, Nat.sub_diag, skipn_O. cbn [app]. rewrite firstn_app, firstn_all2 by (rewrite map_length, seq_length; lia).
  rewrite map_length, seq_length, Nat.sub_diag, firstn_O, app_nil_r. cbn [Nat.add].
  replace (seq a n) with (map (fun t => (a + t)%nat) (seq 0 n)).
  - rewrite map_map. reflexivity.
  - clear. revert a. induction n as [|n IH]; intros a; [reflexivity|]. cbn [seq map]. rewrite Nat.add_0_r. f_equal.
    rewrite <- (IH (S a)), <- seq_shift, map_map. apply map_ext. intros. lia.
Qed.

Lemma yin_of_ok : forall (E : Env) conv N x fs wl wh low high th L hop lo T,
  yin_config fs wl wh low high L hop lo T -> (S T <= L)%nat ->
  let n := yin_frames N L hop in
  exists P H A tm, @compute_yin_of E conv (map x (seq 0 N)) fs wl wh low high th
    = Ok (map P (seq 0 n), map H (seq 0 n), map A (seq 0 n), tm) /\
  forall i, (i < n)%nat -> let c := @window_curve E conv L hop x i in
    (exists a, is_argmin c (S T) a /\ A i = if Nat.ltb lo a then Fin (@rnd E (IZR fs / INR a)) else Fin 0) /\
    ((exists s p, yin_lag c lo (S T) th s p /\ (1 <= p)%nat /\ P i = Fin (@rnd E (IZR fs / INR p)) /\ H i = c p) \/
     ((yin_unvoiced c lo (S T) th \/ exists s, yin_lag c lo (S T) th s 0) /\ P i = Fin 0 /\
       H i <> NaN /\ (exists t, (t <= T)%nat /\ H i = c t) /\ forall t, (t <= T)%nat -> fltb (c t) (H i) = false)).
Proof.
  intros E conv N x fs wl wh low high th L hop lo T (Hf & Hl & Hh & E1 & E2 & H1 & E3 & E4) HL n.
  set (fr i := @yin_frame_of E conv (window_list L hop x i) fs (Z.of_nat lo) (Z.of_nat (S T)) th).
  set (g i := match fr i with Ok o => o | Raise _ => (NaN, NaN, NaN) end).
  assert (K : forall i, let c := @window_curve E conv L hop x i in fr i = Ok (g i) /\
    (exists a, is_argmin c (S T) a /\ snd (g i) = if Nat.ltb lo a then Fin (@rnd E (IZR fs / INR a)) else Fin 0) /\
    ((exists s p, yin_lag c lo (S T) th s p /\ (1 <= p)%nat /\ fst (fst (g i)) = Fin (@rnd E (IZR fs / INR p)) /\ snd (fst (g i)) = c p) \/
     ((yin_unvoiced c lo (S T) th \/ exists s, yin_lag c lo (S T) th s 0) /\ fst (fst (g i)) = Fin 0 /\
       snd (fst (g i)) <> NaN /\ (exists t, (t <= T)%nat /\ snd (fst (g i)) = c t) /\ forall t, (t <= T)%nat -> fltb (c t) (snd (fst (g i))) = false))).
  { intros i c. destruct (curve_frame E c fs lo T th eq_refl) as (P & H & A & Hk & Hr).
    assert (Efr : fr i = Ok (P, H, A)).
    { unfold fr, yin_frame_of, window_list. rewrite difference_list by exact HL.
      rewrite cmnd_list. cbn [rbind]. exact Hk. }
    unfold g. rewrite Efr. cbn [fst snd]. split; [reflexivity|exact Hr]. }
  exists (fun i => fst (fst (g i))), (fun i => snd (fst (g i))), (fun i => snd (g i)).
  eexists. split.
  - unfold compute_yin_of. destruct (Req_EM_T high 0); [contradiction|]. destruct (Req_EM_T low 0); [contradiction|].
    rewrite E1, E2, E3, E4. unfold zlen at 1. rewrite map_length, seq_length, range_step_ok by auto. fold n. cbn [rbind].
    rewrite mapM_map.
    rewrite (mapM_ok_map _ _ _ (fun i => @rounded E (fdiv (fZ (Z.of_nat i * Z.of_nat hop)) (fZ fs)))).
    2:{ intros i Hi. destruct (Z.eqb_spec fs 0); [lia|]. reflexivity. }
    cbn [rbind]. rewrite map_map, mapM_map.
    rewrite (mapM_ok_map _ _ _ g).
    + cbn [rbind]. rewrite !map_map. reflexivity.
    + intros i Hi. apply in_seq in Hi. rewrite <- Nat2Z.inj_mul. rewrite py_slice_seq by (pose proof (yin_frames_lt N L hop i H1); lia).
      exact (proj1 (K i)).
  - intros i _. exact (proj2 (K i)).
Qed.
