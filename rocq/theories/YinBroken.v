(** * YIN on signals with infinite or undefined samples (proofs for C178) *)
From Coq Require Import Reals ZArith List String Bool Lia Lra.
From Flocq Require Import Core.Raux.
From Verif Require Import Base BaseFacts SpecBase BigSum SpecMat MatFacts Preprocessing PreprocessingFacts WindowFacts Yin SpecYin SpecBroken YinFacts Dominant DominantFacts.
Import ListNotations.
Local Open Scope R_scope.

Lemma forallb_finite : forall l, forallb finiteb l = true -> Forall finite l.
Proof.
  intros l H. apply Forall_forall. intros v Hv. rewrite forallb_forall in H. specialize (H v Hv). destruct v; try discriminate. eexists; reflexivity.
Qed.
Lemma fftconvolve_broken : forall a, ~ Forall finite a -> fftconvolve a (rev a) = repeat NaN (List.length a + List.length a - 1).
Proof.
  intros a Ha. unfold fftconvolve. destruct a as [|v a]; [exfalso; apply Ha; constructor|].
  destruct (rev (v :: a)) as [|w b] eqn:Er; [apply (f_equal (@List.length F)) in Er; rewrite rev_length in Er; discriminate|].
  assert (Lb : List.length (w :: b) = List.length (v :: a)) by (rewrite <- Er; apply rev_length). rewrite Lb.
  destruct (forallb finiteb (v :: a)) eqn:Ef; [exfalso; apply Ha, forallb_finite, Ef|reflexivity].
Qed.
Lemma repeat_map_any : forall A B (f : A -> B) n v, map f (repeat v n) = repeat (f v) n.
Proof. induction n as [|n IH]; intros v; cbn; [|rewrite IH]; reflexivity. Qed.
Lemma map2_repeat_r : forall (op : F -> F -> F) l n, (forall v, op v NaN = NaN) -> (List.length l = n)%nat -> map2 op l (repeat NaN n) = repeat NaN n.
Proof. intros op l. induction l as [|v l IH]; intros [|n] Ho Hn; cbn in *; try discriminate; [reflexivity|]. rewrite Ho, IH by (auto; lia). reflexivity. Qed.
Lemma map2_len : forall A B C (f : A -> B -> C) l m, List.length l = List.length m -> List.length (map2 f l m) = List.length l.
Proof. intros A B C f l. induction l as [|v l IH]; intros [|w m] H; cbn in *; try discriminate; [reflexivity|]. rewrite IH by lia. reflexivity. Qed.
Lemma difference_broken : forall frame T, ~ Forall finite frame -> (T <= List.length frame)%nat -> compute_difference frame (Z.of_nat T) = repeat NaN T.
Proof.
  intros frame T Hf HT. unfold compute_difference. rewrite fftconvolve_broken by exact Hf. set (w := List.length frame) in *.
  assert (W : (1 <= w)%nat). { destruct frame; [exfalso; apply Hf; constructor|cbn in w; lia]. }
  set (cum := cumsum (map2 fmul frame frame)). assert (Lc : List.length cum = w) by (unfold cum; rewrite cumsum_length, map2_len; reflexivity).
  assert (D : py_drop (Z.of_nat w - 1) (repeat NaN (w + w - 1)) = repeat NaN w).
  { unfold py_drop. destruct (Z.ltb_spec (Z.of_nat w - 1) 0); [lia|]. replace (Z.to_nat (Z.of_nat w - 1)) with (w - 1)%nat by lia.
    replace (w + w - 1)%nat with ((w - 1) + w)%nat by lia. rewrite repeat_app, skipn_app, repeat_length, Nat.sub_diag.
    rewrite (skipn_all2 (repeat NaN (w - 1))) by (rewrite repeat_length; lia). reflexivity. }
  rewrite D, repeat_map_any. change (fmul (Fin 2) NaN) with NaN. rewrite map2_repeat_r.
  - unfold py_take. destruct (Z.ltb_spec (Z.of_nat T) 0); [lia|]. rewrite Nat2Z.id. replace w with (T + (w - T))%nat by lia. rewrite repeat_app, firstn_app, repeat_length, Nat.sub_diag. cbn [firstn].
    rewrite app_nil_r. apply firstn_all2. rewrite repeat_length. lia.
  - intros [| | |]; reflexivity.
  - rewrite map2_len; cbn [skipn]; rewrite rev_length; [exact Lc|]. rewrite map_length, firstn_length. cbn [List.length]. lia.
Qed.
Lemma cumsum_broken : forall n, cumsum (repeat NaN n) = repeat NaN n.
Proof.
  intros n. unfold cumsum. rewrite repeat_length. transitivity (map (fun _ : nat => NaN) (seq 0 n)).
  - apply map_ext_in. intros k Hk. apply in_seq in Hk. destruct n as [|n]; [lia|]. apply fsum_NaN. cbn. left. reflexivity.
  - rewrite <- (seq_length n 0) at 2. generalize (seq 0 n). intros l. induction l as [|z l IH]; [reflexivity|]. cbn. rewrite IH. reflexivity.
Qed.
Lemma map2_repeat_l : forall (op : F -> F -> F) l n, (forall v, op NaN v = NaN) -> (List.length l = n)%nat -> map2 op (repeat NaN n) l = repeat NaN n.
Proof. intros op l. induction l as [|v l IH]; intros [|n] Ho Hn; cbn in *; try discriminate; [reflexivity|]. rewrite Ho, IH by (auto; lia). reflexivity. Qed.
Lemma cmnd_broken : forall T, compute_cmnd (repeat NaN (S T)) (Z.of_nat (S T)) = Ok (Fin 1 :: repeat NaN T).
Proof.
  intros T. unfold compute_cmnd. change (skipn 1 (repeat NaN (S T))) with (repeat NaN T). rewrite zrange1_fvec.
  rewrite bcast_same by (rewrite fvec_length, repeat_length; reflexivity). cbn [rbind].
  rewrite map2_repeat_l; [|reflexivity|apply fvec_length]. rewrite cumsum_broken. rewrite bcast_same by reflexivity. cbn [rbind].
  rewrite map2_repeat_l; [reflexivity|reflexivity|apply repeat_length].
Qed.
Lemma nth_broken : forall T t, (1 <= t)%nat -> nth t (Fin 1 :: repeat NaN T) NaN = NaN.
Proof.
  intros T [|t] Ht; [lia|]. cbn. destruct (Nat.lt_ge_cases t T) as [K|K]; [apply nth_repeat|apply nth_overflow; rewrite repeat_length; exact K].
Qed.
Lemma frame_broken : forall frame fs lo T th, ~ Forall finite frame -> (S T <= List.length frame)%nat -> (1 <= lo)%nat ->
  yin_frame frame fs (Z.of_nat lo) (Z.of_nat (S T)) th = Ok (Fin 0, Fin 1, Fin 0).
Proof.
  intros frame fs lo T th Hf HT Hlo. unfold yin_frame. rewrite difference_broken by assumption. rewrite cmnd_broken. cbn [rbind].
  set (c := Fin 1 :: repeat NaN T). assert (Lc : List.length c = S T) by (cbn; rewrite repeat_length; reflexivity).
  assert (U : yin_unvoiced (fun t => nth t c NaN) lo (S T) th) by (intros t Ht; cbv beta; unfold c; rewrite nth_broken by lia; reflexivity).
  assert (Hp : get_pitch c (Z.of_nat lo) (Z.of_nat (S T)) th = Ok 0%Z).
  { destruct (get_pitch_ok c lo (S T) th) as [(K & _)|(s & p & _ & K)]; [lia|exact K|]. exfalso. exact (yin_lag_voiced _ _ _ _ _ _ K U). }
  rewrite Hp. cbn [rbind]. destruct (np_argmin_ok c) as (am & Ha & Hm); [discriminate|]. rewrite Ha. cbn [rbind].
  assert (A1 : (am <= 1)%nat).
  { destruct (Nat.le_gt_cases am 1) as [K|K]; [exact K|exfalso]. rewrite Lc in Hm. destruct Hm as (Hm & [(_ & K2)|(K2 & _)]).
    - apply (K2 1%nat K). unfold c. apply nth_broken. lia.
    - destruct (K2 1%nat ltac:(lia)) as (K3 & _). apply K3. unfold c. apply nth_broken. lia. }
  destruct (Z.ltb_spec (Z.of_nat lo) (Z.of_nat am)); [lia|]. cbn [Z.eqb negb].
  destruct (py_min_ok c) as (v & Hv & V1 & Vi & _); [discriminate|discriminate|]. rewrite Hv. cbn [rbind].
  destruct Vi as [<- |Vi]; [reflexivity|]. exfalso. apply V1, (repeat_spec T). exact Vi.
Qed.

(** whole signals *)
Lemma py_slice_list : forall A (l : list A) a n, (a + n <= List.length l)%nat -> py_slice (Z.of_nat a) (Z.of_nat a + Z.of_nat n) l = firstn n (skipn a l).
Proof.
  intros A l a n Ha. unfold py_slice, slice_index. destruct (Z.ltb_spec (Z.of_nat a) 0); [lia|]. destruct (Z.ltb_spec (Z.of_nat a + Z.of_nat n) 0); [lia|].
  replace (Z.to_nat (Z.of_nat a + Z.of_nat n) - Z.to_nat (Z.of_nat a))%nat with n by lia. rewrite Nat2Z.id. reflexivity.
Qed.
Lemma compute_yin_windows : forall `{Env} sig fs wl wh low high th L hop lo T,
  yin_config fs wl wh low high L hop lo T ->
  let n := yin_frames (List.length sig) L hop in
  compute_yin sig fs wl wh low high th
  = do o <- mapM (fun i => yin_frame (yin_window L hop sig i) fs (Z.of_nat lo) (Z.of_nat (S T)) th) (seq 0 n);
    Ok (map (fun o => fst (fst o)) o, map (fun o => snd (fst o)) o, map snd o, fvec n (fun i => INR (i * hop) / IZR fs)).
Proof.
  intros E sig fs wl wh low high th L hop lo T (Hf & Hl & Hh & E1 & E2 & H1 & E3 & E4) n.
  unfold compute_yin. destruct (Req_EM_T high 0); [contradiction|]. destruct (Req_EM_T low 0); [contradiction|].
  rewrite E1, E2, E3, E4. unfold zlen at 1. rewrite range_step_ok by auto. fold n. cbn [rbind].
  rewrite mapM_map.
  rewrite (mapM_ok_map _ _ _ (fun i => Fin (INR (i * hop) / IZR fs))).
  2:{ intros i Hi. destruct (Z.eqb_spec fs 0); [lia|]. f_equal. unfold fZ. rewrite fdiv_Fin by (apply not_0_IZR; lia).
      rewrite INR_IZR, Nat2Z.inj_mul. reflexivity. }
  cbn [rbind]. rewrite map_map, mapM_map.
  rewrite (mapM_ext _ _ _ (fun i => yin_frame (yin_window L hop sig i) fs (Z.of_nat lo) (Z.of_nat (S T)) th)); [reflexivity|].
  intros i Hi. apply in_seq in Hi. rewrite <- Nat2Z.inj_mul. rewrite py_slice_list; [reflexivity|].
  pose proof (yin_frames_lt (List.length sig) L hop i H1). lia.
Qed.
Lemma window_length : forall L hop sig i, (1 <= hop)%nat -> (i < yin_frames (List.length sig) L hop)%nat -> List.length (yin_window L hop sig i) = L.
Proof. intros L hop sig i Hh Hi. unfold yin_window. rewrite firstn_length, skipn_length. pose proof (yin_frames_lt _ _ _ _ Hh Hi). lia. Qed.
Lemma Forall_finite_fvec : forall l, Forall finite l -> exists f, l = fvec (List.length l) f.
Proof.
  intros l Hl. exists (fun t => match nth t l NaN with Fin r => r | _ => 0 end). apply (nth_ext _ _ NaN NaN); [symmetry; apply fvec_length|].
  intros t Ht. rewrite fvec_nth by exact Ht. rewrite Forall_forall in Hl. destruct (Hl (nth t l NaN)) as (r & Hr); [apply nth_In, Ht|]. rewrite Hr. reflexivity.
Qed.
Lemma finite_forall_dec : forall l, Forall finite l \/ ~ Forall finite l.
Proof.
  induction l as [|v l [IH|IH]]; [left; constructor| |right; intros K; apply IH; inversion K; assumption].
  destruct v; [left; constructor; [eexists; reflexivity|exact IH]| | |]; right; intros K; inversion K as [|? ? (r & Hr)]; discriminate.
Qed.
Lemma yin_c_fin : forall d t, yin_c d t <> NaN -> finite (yin_c d t).
Proof. intros d t H. unfold yin_c in *. destruct (Nat.eqb t 0); [eexists; reflexivity|]. destruct (Req_EM_T (yin_sum d t) 0); [contradiction H; reflexivity|eexists; reflexivity]. Qed.
Lemma frame_finite : forall frame fs lo T th, (S T <= List.length frame)%nat -> (1 <= lo)%nat ->
  exists p h a, yin_frame frame fs (Z.of_nat lo) (Z.of_nat (S T)) th = Ok (Fin p, Fin h, Fin a) /\ (~ Forall finite frame -> p = 0 /\ h = 1 /\ a = 0).
Proof.
  intros frame fs lo T th HT Hlo. destruct (finite_forall_dec frame) as [Hf|Hf]; [|exists 0, 1, 0; split; [apply frame_broken; assumption|auto]].
  destruct (Forall_finite_fvec frame Hf) as (f & Ef). rewrite Ef. destruct (yin_frame_ok (List.length frame) f fs lo T th HT) as (P & H & A & E1 & (am & _ & Ea) & HH).
  rewrite E1. assert (FA : exists a, A = Fin a) by (rewrite Ea; destruct (Nat.ltb lo am); eexists; reflexivity). destruct FA as (a & ->).
  assert (FH : exists p h, P = Fin p /\ H = Fin h).
  { destruct HH as [(s & p & (L1 & L2 & L3 & _ & L5 & _) & _ & -> & ->)|(_ & -> & Hn & (t & _ & ->) & _)].
    - assert (K : yin_c (yin_d (List.length frame) f) p <> NaN).
      { destruct (Nat.eq_dec s p) as [-> |Hs]; [intros K; rewrite K in L3; discriminate|]. specialize (L5 (p - 1)%nat ltac:(lia)). replace (S (p - 1)) with p in L5 by lia. intros K. rewrite K in L5. discriminate. }
      destruct (yin_c_fin _ _ K) as (h & ->). eexists _, _. split; reflexivity.
    - destruct (yin_c_fin _ _ Hn) as (h & ->). eexists _, _. split; reflexivity. }
  destruct FH as (p & h & -> & ->). exists p, h, a. split; [reflexivity|]. intros K. exfalso. apply K. rewrite <- Ef. exact Hf.
Qed.
Lemma yin_broken : forall `{Env} sig fs wl wh low high th L hop lo T,
  yin_config fs wl wh low high L hop lo T -> (S T <= L)%nat -> (1 <= lo)%nat ->
  let n := yin_frames (List.length sig) L hop in
  exists P H A, compute_yin sig fs wl wh low high th = Ok (fvec n P, fvec n H, fvec n A, fvec n (fun i => INR (i * hop) / IZR fs)) /\
  forall i, (i < n)%nat -> ~ Forall finite (yin_window L hop sig i) -> P i = 0 /\ H i = 1 /\ A i = 0.
Proof.
  intros E sig fs wl wh low high th L hop lo T Hc HT Hlo n. rewrite (compute_yin_windows sig fs wl wh low high th L hop lo T Hc). fold n.
  assert (Hh : (1 <= hop)%nat) by (destruct Hc; tauto).
  set (fr i := yin_frame (yin_window L hop sig i) fs (Z.of_nat lo) (Z.of_nat (S T)) th).
  set (num v := match v with Fin r => r | _ => 0 end). set (g i := match fr i with Ok o => o | Raise _ => (NaN, NaN, NaN) end).
  assert (K : forall i, (i < n)%nat -> exists p h a, fr i = Ok (Fin p, Fin h, Fin a) /\ (~ Forall finite (yin_window L hop sig i) -> p = 0 /\ h = 1 /\ a = 0)).
  { intros i Hi. apply (frame_finite (yin_window L hop sig i) fs lo T th); [|exact Hlo]. rewrite (window_length L hop sig i Hh Hi). exact HT. }
  exists (fun i => num (fst (fst (g i)))), (fun i => num (snd (fst (g i)))), (fun i => num (snd (g i))). split.
  - rewrite (mapM_ok_map _ _ _ g). 2:{ intros i Hi. apply in_seq in Hi. destruct (K i ltac:(lia)) as (p & h & a & Q & _). unfold g. change (fr i = Ok match fr i with Ok o => o | Raise _ => (NaN, NaN, NaN) end). rewrite Q. reflexivity. }
    cbn [rbind]. rewrite !map_map. unfold fvec at 1 2 3.
    assert (W : forall q q' : nat -> F, (forall i, (i < n)%nat -> q i = q' i) -> map q (seq 0 n) = map q' (seq 0 n)) by (intros q q' Hq; apply map_ext_in; intros i Hi; apply in_seq in Hi; apply Hq; lia).
    rewrite (W (fun x => fst (fst (g x))) (fun i => Fin (num (fst (fst (g i)))))), (W (fun x => snd (fst (g x))) (fun i => Fin (num (snd (fst (g i)))))), (W (fun x => snd (g x)) (fun i => Fin (num (snd (g i))))); [reflexivity| | |];
      intros i Hi; destruct (K i Hi) as (p & h & a & Q & _); unfold g; rewrite Q; reflexivity.
  - intros i Hi Hb. destruct (K i Hi) as (p & h & a & Q & V). unfold g. rewrite Q. cbn. auto.
Qed.
Lemma yin_local : forall `{Env} sig sig2 fs wl wh low high th L hop lo T P H A tm P2 H2 A2 tm2 i j,
  yin_config fs wl wh low high L hop lo T ->
  compute_yin sig fs wl wh low high th = Ok (P, H, A, tm) -> compute_yin sig2 fs wl wh low high th = Ok (P2, H2, A2, tm2) ->
  (i < yin_frames (List.length sig) L hop)%nat -> (j < yin_frames (List.length sig2) L hop)%nat -> yin_window L hop sig i = yin_window L hop sig2 j ->
  nth i P NaN = nth j P2 NaN /\ nth i H NaN = nth j H2 NaN /\ nth i A NaN = nth j A2 NaN.
Proof.
  intros E sig sig2 fs wl wh low high th L hop lo T P H A tm P2 H2 A2 tm2 i j Hc C1 C2 Hi Hj Hw.
  rewrite (compute_yin_windows sig fs wl wh low high th L hop lo T Hc) in C1. rewrite (compute_yin_windows sig2 fs wl wh low high th L hop lo T Hc) in C2.
  destruct (mapM _ _) as [o1|] eqn:M1 in C1; [|discriminate]. destruct (mapM _ _) as [o2|] eqn:M2 in C2; [|discriminate]. cbn [rbind] in C1, C2.
  injection C1 as <- <- <- _. injection C2 as <- <- <- _.
  assert (N1 : nth i o1 (NaN, NaN, NaN) = nth j o2 (NaN, NaN, NaN)).
  { pose proof (mapM_nth _ _ _ _ _ O (NaN, NaN, NaN) i M1 ltac:(rewrite seq_length; exact Hi)) as Q1. pose proof (mapM_nth _ _ _ _ _ O (NaN, NaN, NaN) j M2 ltac:(rewrite seq_length; exact Hj)) as Q2.
    rewrite seq_nth in Q1, Q2 by assumption. cbn [Nat.add] in Q1, Q2. rewrite Hw in Q1. rewrite Q1 in Q2. apply Ok_inj in Q2. exact Q2. }
  assert (W : forall (pr : F * F * F -> F), pr (NaN, NaN, NaN) = NaN -> nth i (map pr o1) NaN = nth j (map pr o2) NaN) by (intros pr Hpr; rewrite <- Hpr, !map_nth, N1; reflexivity).
  split; [apply W; reflexivity|]. split; apply W; reflexivity.
Qed.
