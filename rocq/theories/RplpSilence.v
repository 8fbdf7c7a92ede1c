(** * rplp of frames with an empty channel; one-channel frames *)
From Coq Require Import Reals ZArith List String Bool Lia Lra Psatz.
From Verif Require Import Base BaseFacts Cplx SpecBase SpecMat SpecFilters SpecBanks SpecFeatures SpecRplp BigSum MatFacts Preprocessing PreprocessingFacts
  Filters FiltersFacts Cepstral Fourier Features Extractors FeaturesFacts FeaturesMore FeaturesLaws LinAlg Lpc SpecLpc LpcFacts LpcTheory LpcMore LpcLaws
  Rplp RplpNames RplpFacts RplpLaws.
Import ListNotations.
Local Open Scope R_scope.

Lemma df2t_length : forall b a z x, List.length (snd (df2t_step b a z x)) = List.length z.
Proof. intros. unfold df2t_step. cbn [snd]. rewrite map_length, seq_length. auto. Qed.
Lemma lf_cons : forall b a z x t, lfilter_state b a z (x :: t)
  = (fst (df2t_step b a z x) :: fst (lfilter_state b a (snd (df2t_step b a z x)) t), snd (lfilter_state b a (snd (df2t_step b a z x)) t)).
Proof. intros. cbn [lfilter_state]. destruct (df2t_step b a z x) as [y z']. cbn [fst snd]. destruct (lfilter_state b a z' t). auto. Qed.
Lemma lf_length : forall b a xs z, List.length (fst (lfilter_state b a z xs)) = List.length xs /\ List.length (snd (lfilter_state b a z xs)) = List.length z.
Proof.
  induction xs as [|x t IH]; intros z; [auto|]. rewrite lf_cons. cbn [fst snd List.length].
  destruct (IH (snd (df2t_step b a z x))) as [-> ->]. rewrite df2t_length. auto.
Qed.
Lemma lf_out : forall b a xs z l, (l < List.length xs)%nat ->
  exists s, nth l (fst (lfilter_state b a z xs)) NaN = fadd (fmul (nth 0 b NaN) (nth l xs NaN)) s.
Proof.
  induction xs as [|x t IH]; intros z l Hl; [cbn in Hl; lia|]. rewrite lf_cons. destruct l as [|l]; cbn [fst nth].
  - eexists. reflexivity.
  - apply IH. cbn in Hl. lia.
Qed.
Lemma nth_skip : forall A (l : list A) k i d, nth i (skipn k l) d = nth (k + i) l d.
Proof. induction l as [|x l IH]; intros [|k] i d; cbn [skipn nth Nat.add]; auto; destruct i; auto. Qed.
Lemma nth_first : forall A (l : list A) k i d, (i < k)%nat -> nth i (firstn k l) d = nth i l d.
Proof. induction l as [|x l IH]; intros [|k] [|i] d Hi; cbn [firstn nth]; auto; try lia. apply IH. lia. Qed.
Lemma ninf_step : forall s, ~ finite (fadd (fmul (Fin 0.2) NInf) s).
Proof.
  intros s [r Hr]. cbn [fmul] in Hr. unfold finfmul in Hr. destruct (Req_EM_T _ 0); [lra|]. destruct (Rlt_dec 0 _); [lra|].
  destruct s; discriminate.
Qed.
Lemma nonfinite_zero : forall v, ~ finite v -> fmul v f0 = NaN.
Proof.
  intros [r| | |] Hv; cbn [fmul f0]; auto.
  - contradiction Hv. exists r. auto.
  - unfold finfmul. destruct (Req_EM_T 0 0); [auto|lra].
  - unfold finfmul. destruct (Req_EM_T (- 0) 0); [auto|lra].
Qed.

Lemma iir_ninf : forall xs z l, List.length z = 4%nat -> (l + 2 < List.length xs)%nat -> nth l xs NaN = NInf ->
  nth (l + 2) (fst (lfilter_state rasta_numer rasta_denom z xs)) f0 = NaN.
Proof.
  induction xs as [|x t IH]; intros z l Hz Hl Hx; [cbn in Hl; lia|]. rewrite lf_cons. cbn [fst].
  destruct l as [|l].
  - cbn [nth] in Hx. subst x. destruct t as [|x1 [|x2 t]]; cbn in Hl; try lia. rewrite !lf_cons. cbn [fst Nat.add nth].
    destruct z as [|z0 [|z1 [|z2 [|z3 [|]]]]]; try discriminate. rewrite rasta_numer_eq. unfold df2t_step. cbn [snd fst map nth seq List.length].
    replace (fmul (Fin 0) NInf) with NaN by (cbn [fmul]; unfold finfmul; destruct (Req_EM_T (- 0) 0); [auto|lra]).
    cbn [nth_error rasta_denom Nat.ltb Nat.leb fadd fsub]. unfold fsub. cbn [fadd]. rewrite ?fadd_NaN_r. cbn [fadd]. rewrite ?fadd_NaN_r. reflexivity.
  - cbn [Nat.add nth]. apply IH; [rewrite df2t_length; auto|cbn in Hl; lia|exact Hx].
Qed.

(** a log row that contains an infinity *)
Lemma rasta_row_out : forall z row, (4 <= List.length row)%nat -> List.length z = 4%nat -> exists y z', rasta_row z row = Ok (y, z') /\
  List.length z' = 4%nat /\ List.length y = List.length row /\ (nth 0 y f0 = f0 \/ nth 0 y f0 = NaN) /\
  (forall l, (l + 2 < List.length row)%nat -> nth l row NaN = NInf -> In NaN y).
Proof.
  intros z row Hr Hz. unfold rasta_row. destruct row as [|x0 rt] eqn:Erow; [cbn in Hr; lia|].
  replace (py_nth (x0 :: rt) 0) with (@Ok F x0) by reflexivity. cbn [rbind]. rewrite <- Erow in *. clear Erow rt.
  set (zs := map (fun v => fmul v x0) z). assert (Lz : List.length zs = 4%nat) by (unfold zs; rewrite map_length; auto).
  destruct (lf_length rasta_numer [f1] (firstn 4 row) zs) as [La Lb].
  assert (Lf : List.length (firstn 4 row) = 4%nat) by (rewrite firstn_length; lia).
  destruct (lfilter_state rasta_numer [f1] zs (firstn 4 row)) as [y1 z'] eqn:E1. cbn [fst snd] in La, Lb.
  destruct (lf_length rasta_numer rasta_denom (skipn 4 row) z') as [Lc _].
  destruct (lfilter_state rasta_numer rasta_denom z' (skipn 4 row)) as [y2 z2] eqn:E2. cbn [fst] in Lc.
  eexists _, z'. split; [reflexivity|]. rewrite skipn_length in Lc. split; [rewrite Lb; auto|]. split; [rewrite app_length, map_length; lia|]. split.
  - destruct y1 as [|w t]; [rewrite Lf in La; discriminate La|]. cbn [map app nth]. destruct w as [r| | |]; cbn [fmul f0]; auto;
      try (unfold f0; rewrite ?Rmult_0_r; auto; fail); right; unfold finfmul; [destruct (Req_EM_T 0 0)|destruct (Req_EM_T (- 0) 0)]; auto; lra.
  - intros l Hl Hx. destruct (le_lt_dec 4 l) as [H4|H4].
    + apply in_or_app. right.
      pose proof (iir_ninf (skipn 4 row) z' (l - 4)) as G. rewrite E2 in G. cbn [fst] in G. rewrite <- G.
      * apply nth_In. lia.
      * lia.
      * rewrite skipn_length. lia.
      * rewrite nth_skip. replace (4 + (l - 4))%nat with l by lia. auto.
    + apply in_or_app. left. apply in_map_iff. exists (nth l y1 NaN).
      pose proof (lf_out rasta_numer [f1] (firstn 4 row) zs l) as (s & G); [lia|]. rewrite E1 in G. cbn [fst] in G. split.
      * apply nonfinite_zero. rewrite G, nth_first by lia. rewrite Hx, rasta_numer_eq. cbn [map nth]. apply ninf_step.
      * apply nth_In. lia.
Qed.
Lemma rasta_rows_out : forall x z c, (4 <= c)%nat -> List.length z = 4%nat -> Forall (fun row => List.length row = c) x -> exists y, rasta_rows z x = Ok y /\
  List.length y = List.length x /\
  forall i, (i < List.length x)%nat -> List.length (nth i y []) = c /\ (nth 0 (nth i y []) f0 = f0 \/ nth 0 (nth i y []) f0 = NaN) /\
    (forall l, (l + 2 < c)%nat -> nth l (nth i x []) NaN = NInf -> In NaN (nth i y [])).
Proof.
  induction x as [|row t IH]; intros z c Hc Hz Hx.
  - exists []. split; [reflexivity|]. split; [reflexivity|]. intros i Hi. cbn in Hi. lia.
  - inversion Hx as [|? ? Hrow Ht]; subst. destruct (rasta_row_out z row) as (y & z' & E & Lz & Ly & H0 & Hn); auto.
    destruct (IH z' (List.length row)) as (ys & Es & Ls & G); auto. exists (y :: ys). cbn [rasta_rows]. rewrite E. cbn [rbind fst snd]. rewrite Es. cbn [rbind].
    split; [reflexivity|]. split; [cbn; lia|]. intros [|i] Hi; cbn [nth]; [auto|]. apply G. cbn in Hi. lia.
Qed.

(** what the later stages make of such rows *)
Lemma finf_pos : forall a, 0 < a -> finfmul a = PInf.
Proof. intros. unfold finfmul. destruct (Req_EM_T a 0); [lra|]. destruct (Rlt_dec 0 a); [auto|lra]. Qed.
Lemma compressed_cases : forall v, (exists r, 0 <= r /\ compressed (fexp v) = Fin r) \/ compressed (fexp v) = NaN.
Proof.
  intros [r| | |]; cbn [fexp].
  - left. rewrite compressed_Fin. eexists. split; [apply spec_loudness_nonneg|reflexivity].
  - right. unfold compressed, equal_loudness. cbn [fpown fmul]. rewrite !(finf_pos 1) by lra. cbn [fmul fadd fdiv fabs]. unfold fpow.
    destruct (Req_EM_T (1 / 3) 0); [lra|]. auto.
  - left. rewrite compressed_Fin. eexists. split; [apply spec_loudness_nonneg|reflexivity].
  - right. unfold compressed. cbn [equal_loudness fpown fmul fadd fdiv fabs]. unfold fpow. destruct (Req_EM_T (1 / 3) 0); [lra|]. auto.
Qed.
Lemma fsum_has_NaN : forall l, In NaN l -> fsum l = NaN.
Proof.
  induction l as [|x t IH]; intros Hl; [destruct Hl|]. unfold fsum. cbn [fold_right]. destruct Hl as [->|Hl]; [auto|].
  fold (fsum t). rewrite IH by auto. apply fadd_NaN_r.
Qed.
Lemma idft_NaN : forall n row k, (List.length row <= n)%nat -> In NaN row -> cabs (idft_bin n (crop_pad n row) k) = NaN.
Proof.
  intros n row k Hl Hi. apply (In_nth _ _ NaN) in Hi as (j & Hj & Ej).
  assert (N : nth j (crop_pad n row) NaN = NaN).
  { unfold crop_pad. rewrite firstn_all2 by lia. rewrite app_nth1 by auto. auto. }
  unfold idft_bin. rewrite !fsum_has_NaN; [reflexivity| |];
    apply in_map_iff; exists j; rewrite N; (split; [auto|apply in_seq; lia]).
Qed.
Lemma finite_or_NaN : forall row, Forall (fun v => (exists r, 0 <= r /\ v = Fin r) \/ v = NaN) row ->
  In NaN row \/ exists f, (forall j, 0 <= f j) /\ row = fvec (List.length row) f.
Proof.
  induction row as [|v t IH]; intros Hr; [right; exists (fun _ => 0); split; [intros; lra|reflexivity]|].
  inversion Hr as [|? ? Hv Ht]; subst. destruct Hv as [(r & Hr0 & ->)| ->]; [|left; left; auto].
  destruct (IH Ht) as [Hi|(f & Hf & E)]; [left; right; auto|]. right. exists (fun j => match j with O => r | S j => f j end).
  split; [intros [|j]; auto|]. cbn [List.length]. rewrite fvec_S. f_equal. exact E.
Qed.
Lemma plp_row_cases : forall order n row, (2 <= order)%Z -> (0 < List.length row <= n)%nat ->
  Forall (fun v => (exists r, 0 <= r /\ v = Fin r) \/ v = NaN) row -> nth 0 row f0 <> f0 ->
  let out := plp_row order (map cabs (map (idft_bin n (crop_pad n row)) (seq 0 n))) in
  (In NaN row -> out = Raise ValueError) /\ (out = Raise ValueError \/ exists y, out = Ok y).
Proof.
  intros order n row Ho Hl Hr H0 out.
  assert (HN : In NaN row -> out = Raise ValueError).
  { intros Hi. unfold out, plp_row. rewrite lpc_helper_nonfinite; auto; [lia| |].
    - destruct n; [lia|]. discriminate.
    - intros Hf. destruct n as [|n]; [lia|]. cbn [seq map] in Hf. inversion Hf as [|? ? Hv _]. rewrite idft_NaN in Hv by (auto; lia). destruct Hv. discriminate. }
  split; auto. destruct (finite_or_NaN row Hr) as [Hi|(f & Hf & Er)]; [auto|]. right.
  set (c := List.length row) in *. unfold out. rewrite map_map.
  rewrite (map_ext_in _ (fun k => Fin (spec_inverse n c f k))) by (intros; rewrite Er; apply idft_abs; lia).
  change (map (fun k => Fin (spec_inverse n c f k)) (seq 0 n)) with (fvec n (spec_inverse n c f)).
  destruct (plp_row_sounding (Z.to_nat (order - 1)) n (spec_inverse n c f)) as (A & _ & E); [lia|lia| |].
  - exists 0%nat. split; [lia|].
    assert (HN0 : 0 < INR n) by (apply lt_0_INR; lia).
    unfold spec_inverse. rewrite (bigsum_ext _ _ f).
    2:{ intros j Hj. rewrite Nat.mul_0_r. change (INR 0) with 0. replace (2 * PI * 0 / INR n) with 0 by (field; lra). rewrite cos_0. ring. }
    rewrite (bigsum_zero _ (fun j => f j * sin _)).
    2:{ intros j Hj. rewrite Nat.mul_0_r. change (INR 0) with 0. replace (2 * PI * 0 / INR n) with 0 by (field; lra). rewrite sin_0. ring. }
    replace (bigsum (Nat.min c n) f ^ 2 + 0 ^ 2) with (bigsum (Nat.min c n) f ^ 2) by ring. rewrite sqrt_pow2 by (apply bigsum_nonneg; auto).
    apply Rgt_not_eq. apply Rdiv_lt_0_compat; auto. apply (bigsum_pos _ _ 0%nat); [auto|lia|].
    rewrite Er, fvec_nth in H0 by lia. destruct (Rle_lt_or_eq_dec 0 (f 0%nat)); auto. rewrite <- e in H0. contradiction H0. reflexivity.
  - replace (Z.of_nat (S (Z.to_nat (order - 1)))) with order in E by lia. eauto.
Qed.


Lemma rplp_empty_channel : forall `{Env} a N L hop n B x order li no, well_framed a N L hop -> (1 <= s_nfft a)%Z ->
  (5 <= n <= Z.to_nat (s_nfft a))%nat -> spectro_bank Bark a = Ok (fmat n (S (half (s_nfft a))) B) ->
  (2 <= order <= s_nfilts a)%Z ->
  (exists i j, (i < frame_count N L hop)%nat /\ (j + 2 < n)%nat /\ channel_energy a L hop B x i j = 0) ->
  rplp (fvec N x) a order li no = Raise ValueError.
Proof.
  intros E a N L hop n B x order li no Hw Hn Hc HB Ho (i & l & Hi & Hl & Hz). unfold rplp.
  rewrite (rastaplp_gen a N L hop n B) by (auto; lia). unfold rasta_step, rasta_filter. set (fc := frame_count N L hop) in *.
  destruct lfilter_zi_rasta as (z & Lz & ->).
  set (lg := map (map flog) (fmat fc n (fun i => channel_energy a L hop B x i))).
  assert (Lg : List.length lg = fc) by (unfold lg; rewrite map_length, fmat_length; auto).
  assert (Hlg : forall k, (k < fc)%nat -> nth k lg [] = map flog (fvec n (channel_energy a L hop B x k))).
  { intros k Hk. unfold lg. rewrite (nth_map _ _ _ _ _ []) by (rewrite fmat_length; auto). rewrite fmat_nth by auto. auto. }
  destruct (rasta_rows_out lg (map Fin z) n) as (y & Ey & Ly & Hy); [lia|rewrite map_length; auto| |].
  { apply Forall_forall. intros row Hr. unfold lg in Hr. apply in_map_iff in Hr as (r0 & <- & Hr0). rewrite map_length.
    unfold fmat in Hr0. apply in_map_iff in Hr0 as (k & <- & _). apply fvec_length. }
  rewrite Ey. cbn [rbind]. unfold np_ifft. destruct (Z.ltb_spec (s_nfft a) 1); [lia|]. cbn [rbind]. destruct (Z.ltb_spec order 0); [lia|].
  rewrite (mapM_first_raise _ _ _ ValueError); [reflexivity| |].
  - intros row Hr. apply in_map_iff in Hr as (r1 & <- & Hr). apply in_map_iff in Hr as (r2 & <- & Hr). apply in_map_iff in Hr as (r3 & <- & Hr).
    apply in_map_iff in Hr as (r4 & <- & Hr). apply (In_nth _ _ []) in Hr as (k & Hk & <-). destruct (Hy k) as (L1 & H1 & _); [lia|].
    apply plp_row_cases; [lia|rewrite !map_length; lia| |].
    + rewrite map_map. apply Forall_forall. intros v Hv. apply in_map_iff in Hv as (u & <- & _). apply compressed_cases.
    + rewrite map_map, (nth_map _ _ _ _ _ f0) by lia. destruct H1 as [-> | ->].
      * cbn [f0 fexp]. rewrite compressed_Fin, exp_0. intros G. injection G as G. apply (proj1 (spec_loudness_zero _)) in G. lra.
      * cbn [fexp]. destruct (compressed_cases NaN) as [(r & _ & G)|G]; cbn [fexp] in G; [|rewrite G; discriminate].
        exfalso. unfold compressed in G. cbn [equal_loudness fpown fmul fadd fdiv fabs] in G. unfold fpow in G. destruct (Req_EM_T (1 / 3) 0); [lra|discriminate].
  - destruct (Hy i) as (L1 & H1 & H2); [lia|]. eexists. split.
    + apply in_map_iff. eexists. split; [reflexivity|]. apply in_map_iff. eexists. split; [reflexivity|]. apply in_map_iff. eexists. split; [reflexivity|].
      apply in_map_iff. exists (nth i y []). split; [reflexivity|]. apply nth_In. lia.
    + apply plp_row_cases; [lia|rewrite !map_length; lia| | |].
      * rewrite map_map. apply Forall_forall. intros v Hv. apply in_map_iff in Hv as (u & <- & _). apply compressed_cases.
      * rewrite map_map, (nth_map _ _ _ _ _ f0) by lia. destruct H1 as [-> | ->].
        -- cbn [f0 fexp]. rewrite compressed_Fin, exp_0. intros G. injection G as G. apply (proj1 (spec_loudness_zero _)) in G. lra.
        -- cbn [fexp]. destruct (compressed_cases NaN) as [(r & _ & G)|G]; cbn [fexp] in G; [|rewrite G; discriminate].
           exfalso. unfold compressed in G. cbn [equal_loudness fpown fmul fadd fdiv fabs] in G. unfold fpow in G. destruct (Req_EM_T (1 / 3) 0); [lra|discriminate].
      * rewrite map_map. apply in_map_iff. exists NaN. split.
        -- cbn [fexp]. unfold compressed. cbn [equal_loudness fpown fmul fadd fdiv fabs]. unfold fpow. destruct (Req_EM_T (1 / 3) 0); [lra|auto].
        -- apply (H2 l); [lia|]. rewrite Hlg by auto. rewrite (nth_map _ _ _ _ _ f0) by (rewrite fvec_length; lia). rewrite fvec_nth by lia. rewrite Hz.
           cbn [flog]. destruct (Rlt_dec 0 0); [lra|]. destruct (Req_EM_T 0 0); [auto|lra].
Qed.

(** ** frames that excite one channel only *)
Lemma plp_row_scaled : forall p M f g e, (0 < M)%nat -> (1 <= p)%nat -> sounding M f -> e <> 0 -> (forall t, (t < M)%nat -> g t = e * f t) ->
  exists u v, plp_row (Z.of_nat (S p)) (fvec M f) = Ok u /\ plp_row (Z.of_nat (S p)) (fvec M g) = Ok v /\
    forall m, (1 <= m <= p)%nat -> nth m u NaN = nth m v NaN.
Proof.
  intros p M f g e HM Hp Hs He Hg. rewrite (fvec_ext M g (fun t => e * f t)) by auto.
  assert (Hs' : sounding M (fun t => e * f t)) by (apply (sounding_gain M f _ e); auto).
  destruct (plp_row_sounding p M f HM Hp Hs) as (A & HA & EA).
  destruct (plp_row_sounding p M (fun t => e * f t) HM Hp Hs') as (A' & HA' & EA').
  rewrite EA, EA'. eexists _, _. split; [reflexivity|]. split; [reflexivity|]. intros m Hm. rewrite !fvec_nth by lia.
  destruct (Nat.eqb_spec m 0); [lia|]. f_equal.
  assert (EQ : forall k, (k <= p)%nat -> A' k = A k).
  { apply (normal_unique M p (fun t => e * f t)); auto. apply (normal_gain M p f _ e); auto. }
  unfold coded_cepstrum. rewrite EQ by lia. f_equal. apply bigsum_ext. intros k Hk. rewrite EQ by lia. auto.
Qed.
Lemma sequence_single : forall a L hop n B x i j, (1 <= s_nfft a)%Z -> one_channel n (channel_energy a L hop B x i) j -> (j < Z.to_nat (s_nfft a))%nat ->
  exists e, e <> 0 /\ forall t, plp_sequence a false L hop n B x i t = e.
Proof.
  intros a L hop n B x i j Hn (Hj & Hne & Hz) Hc. exists (spec_loudness (channel_energy a L hop B x i j) / INR (Z.to_nat (s_nfft a))). split.
  - assert (INR (Z.to_nat (s_nfft a)) <> 0) by (apply not_0_INR; lia). unfold Rdiv. apply Rmult_integral_contrapositive_currified; [|apply Rinv_neq_0_compat; auto].
    intros G. apply (proj1 (spec_loudness_zero _)) in G. auto.
  - intros t. unfold plp_sequence. rewrite (inverse_single n _ _ j); auto; [lia| |apply spec_loudness_nonneg].
    intros k Hk Hkj. cbn [spec_auditory]. rewrite Hz by auto. apply (proj2 (spec_loudness_zero 0)). auto.
Qed.
Lemma plp_one_channel : forall `{Env} a1 a2 N1 N2 L1 L2 hop1 hop2 n1 n2 B1 B2 x1 x2 p M1 M2 i1 i2 j1 j2,
  well_framed a1 N1 L1 hop1 -> well_framed a2 N2 L2 hop2 -> (1 <= s_nfft a1)%Z -> s_nfft a2 = s_nfft a1 ->
  spectro_bank Bark a1 = Ok (fmat n1 (S (half (s_nfft a1))) B1) -> spectro_bank Bark a2 = Ok (fmat n2 (S (half (s_nfft a2))) B2) ->
  (1 <= p)%nat ->
  plp (fvec N1 x1) a1 (Z.of_nat (S p)) None None = Ok M1 -> plp (fvec N2 x2) a2 (Z.of_nat (S p)) None None = Ok M2 ->
  (i1 < frame_count N1 L1 hop1)%nat -> (i2 < frame_count N2 L2 hop2)%nat ->
  (j1 < Z.to_nat (s_nfft a1))%nat -> (j2 < Z.to_nat (s_nfft a1))%nat ->
  one_channel n1 (channel_energy a1 L1 hop1 B1 x1 i1) j1 -> one_channel n2 (channel_energy a2 L2 hop2 B2 x2 i2) j2 ->
  forall m, (1 <= m <= p)%nat -> nth m (nth i1 M1 []) NaN = nth m (nth i2 M2 []) NaN.
Proof.
  intros E a1 a2 N1 N2 L1 L2 hop1 hop2 n1 n2 B1 B2 x1 x2 p M1 M2 i1 i2 j1 j2 Hw1 Hw2 Hn En HB1 HB2 Hp HM1 HM2 Hi1 Hi2 Hj1 Hj2 O1 O2 m Hm.
  destruct (rastaplp_row a1 N1 L1 hop1 n1 B1 x1 (Z.of_nat (S p)) false None M1 i1) as (u & U1 & U2); auto; try lia; try exact I; [destruct O1; lia|].
  destruct (rastaplp_row a2 N2 L2 hop2 n2 B2 x2 (Z.of_nat (S p)) false None M2 i2) as (v & V1 & V2); auto; try lia; try exact I; [destruct O2; lia|].
  destruct (sequence_single a1 L1 hop1 n1 B1 x1 i1 j1) as (e1 & He1 & Q1); auto.
  destruct (sequence_single a2 L2 hop2 n2 B2 x2 i2 j2) as (e2 & He2 & Q2); auto; try lia; try (rewrite En; auto).
  rewrite U2, V2. cbn [row_post]. rewrite En in V1. set (c := Z.to_nat (s_nfft a1)) in *.
  destruct (plp_row_scaled p c (plp_sequence a1 false L1 hop1 n1 B1 x1 i1) (plp_sequence a2 false L2 hop2 n2 B2 x2 i2) (e2 / e1)) as (u' & v' & HU & HV & G); auto.
  - unfold c. lia.
  - exists 0%nat. split; [unfold c; lia|]. rewrite Q1. auto.
  - unfold Rdiv. apply Rmult_integral_contrapositive_currified; [auto|apply Rinv_neq_0_compat; auto].
  - intros t Ht. rewrite Q1, Q2. field. auto.
  - rewrite U1 in HU. rewrite V1 in HV. apply Ok_inj in HU. apply Ok_inj in HV. subst. auto.
Qed.
