(** * Laws of lpc and lpcc *)
From Coq Require Import Reals ZArith List String Bool Lia Lra Psatz.
From Verif Require Import Base BaseFacts SpecBase SpecMat SpecFeatures BigSum MatFacts Preprocessing PreprocessingFacts
  WindowFacts Cepstral Features Extractors FeaturesFacts FeaturesMore FeaturesLaws LinAlg Lpc SpecLpc LpcFacts LpcTheory LpcMore.
Import ListNotations.
Local Open Scope R_scope.

Lemma finite_choice : forall A (d : A) (P : nat -> A -> Prop) n, (forall i, (i < n)%nat -> exists a, P i a) ->
  exists g, forall i, (i < n)%nat -> P i (g i).
Proof.
  intros A d P n. induction n as [|n IH]; intros H.
  - exists (fun _ => d). lia.
  - destruct IH as [g Hg]; [intros; apply H; lia|]. destruct (H n ltac:(lia)) as [a Ha].
    exists (fun i => if Nat.eqb i n then a else g i). intros i Hi. destruct (Nat.eqb_spec i n) as [->|]; [exact Ha|].
    apply Hg. lia.
Qed.

Lemma mapM_fmat : forall B (g : list F -> result B) (h : nat -> B) n L m,
  (forall i, (i < n)%nat -> g (fvec L (m i)) = Ok (h i)) -> mapM g (fmat n L m) = Ok (map h (seq 0 n)).
Proof.
  intros. unfold fmat. rewrite mapM_map. apply mapM_ok_map. intros i Hi. apply in_seq in Hi. apply H. lia.
Qed.
Lemma mapM_first_raise : forall A B (g : A -> result B) e l,
  (forall x, In x l -> g x = Raise e \/ exists y, g x = Ok y) -> (exists x, In x l /\ g x = Raise e) -> mapM g l = Raise e.
Proof.
  intros A B g e. induction l as [|x t IH]; intros H (y & Hy & Hr); [destruct Hy|].
  cbn [mapM]. destruct (H x (or_introl eq_refl)) as [E|[z E]]; rewrite E; cbn [rbind]; [reflexivity|].
  destruct Hy as [->|Hy]; [congruence|]. rewrite IH; [reflexivity| |eauto]. intros. apply H. right. assumption.
Qed.

Lemma sounding_dec : forall L f, sounding L f \/ ~ sounding L f.
Proof.
  intros L f. induction L as [|L [IH|IH]].
  - right. intros (t & Ht & _). lia.
  - left. destruct IH as (t & Ht & Hn). exists t. split; [lia|exact Hn].
  - destruct (Req_EM_T (f L) 0) as [E|E].
    + right. intros (t & Ht & Hn). destruct (Nat.eq_dec t L) as [->|]; [contradiction|]. apply IH. exists t. split; [lia|exact Hn].
    + left. exists L. split; [lia|exact E].
Qed.

Section Finite.
Context `{Env}.
Variables (a : sargs) (N L hop p : nat) (x : nat -> R).
Hypothesis (Hw : well_framed a N L hop) (Hp : (1 <= p)%nat).
Let n := frame_count N L hop.
Let fr := plain_frame a hop x.

Lemma lp_framed : framed (fvec N x) (s_fs a) (s_pre_emph a) 0.97 (s_window a)
  = Ok (fmat n L fr, fmat n L (fun i => frame_of a 0.97 L hop x i)).
Proof. apply framed_fvec. exact Hw. Qed.

Lemma lpc_sounding : (forall i, (i < n)%nat -> sounding L (fr i)) ->
  exists A, (forall i, (i < n)%nat -> normal_equations L p (fr i) (A i)) /\
    lpc (fvec N x) (s_fs a) (Z.of_nat (S p)) (s_pre_emph a) (s_coeff a) (s_window a)
    = Ok (fmat n (S p) A, fmat n 1 (fun i _ => lpc_error L p (fr i) (A i))).
Proof.
  intros Hs. destruct Hw as (_ & _ & _ & _ & HL & _).
  destruct (finite_choice (nat -> R) (fun _ => 0) (fun i b => normal_equations L p (fr i) b /\
     lpc_helper (fvec L (fr i)) (Z.of_nat p) = Ok (fvec (S p) b, Fin (lpc_error L p (fr i) b))) n) as [A HA].
  { intros i Hi. apply lpc_helper_sounding; auto; lia. }
  exists A. split; [intros; apply HA; assumption|].
  unfold lpc. rewrite lp_framed. cbn [rbind].
  replace (Z.of_nat (S p) - 1)%Z with (Z.of_nat p) by lia.
  destruct (Z.ltb_spec (Z.of_nat p + 1) 0); [lia|].
  rewrite (mapM_fmat _ _ (fun i => (fvec (S p) (A i), Fin (lpc_error L p (fr i) (A i))))) by (intros; apply HA; assumption).
  cbn [rbind]. rewrite !map_map. reflexivity.
Qed.

Lemma lpc_silent : (exists i, (i < n)%nat /\ ~ sounding L (fr i)) ->
  lpc (fvec N x) (s_fs a) (Z.of_nat (S p)) (s_pre_emph a) (s_coeff a) (s_window a) = Raise LinAlgError /\
  forall lifter normalize,
  lpcc (fvec N x) (s_fs a) (Z.of_nat (S p)) (s_pre_emph a) (s_coeff a) (s_window a) lifter normalize = Raise LinAlgError.
Proof.
  intros (i & Hi & Hs). destruct Hw as (_ & _ & _ & _ & HL & _).
  assert (HR : forall row, In row (fmat n L fr) -> lpc_helper row (Z.of_nat p) = Raise LinAlgError \/
             exists b e, lpc_helper row (Z.of_nat p) = Ok (fvec (S p) b, Fin e) /\ 0 <= e).
  { intros row Hr. unfold fmat in Hr. apply in_map_iff in Hr as (j & <- & Hj).
    destruct (sounding_dec L (fr j)) as [Hf|Hf].
    - right. destruct (lpc_helper_sounding L p (fr j)) as (b & _ & Hb); auto; try lia.
      eexists. eexists. split; [exact Hb|apply Rabs_pos].
    - left. apply lpc_helper_silent; auto; lia. }
  assert (HI : In (fvec L (fr i)) (fmat n L fr)) by (apply in_map_iff; exists i; split; [reflexivity|apply in_seq; lia]).
  assert (HE : lpc_helper (fvec L (fr i)) (Z.of_nat p) = Raise LinAlgError) by (apply lpc_helper_silent; auto; lia).
  split.
  - unfold lpc. rewrite lp_framed. cbn [rbind].
    replace (Z.of_nat (S p) - 1)%Z with (Z.of_nat p) by lia.
    destruct (Z.ltb_spec (Z.of_nat p + 1) 0); [lia|].
    rewrite (mapM_first_raise _ _ _ LinAlgError); [reflexivity| |eauto].
    intros row Hr. destruct (HR row Hr) as [E|(b & e & E & _)]; [left; exact E|right; eauto].
  - intros lifter normalize. unfold lpcc. rewrite lp_framed. cbn [rbind].
    replace (Z.of_nat (S p) - 1)%Z with (Z.of_nat p) by lia.
    destruct (Z.ltb_spec (Z.of_nat p + 1) 0); [lia|].
    rewrite (mapM_first_raise _ _ _ LinAlgError); [reflexivity| |].
    + intros row Hr. destruct (HR row Hr) as [E|(b & e & E & He)]; rewrite E; [left; reflexivity|right].
      cbn [rbind]. replace (Z.of_nat p + 1)%Z with (Z.of_nat (S p)) by lia.
      rewrite lpc2lpcc_ok by (auto; lia). eauto.
    + exists (fvec L (fr i)). split; [exact HI|]. rewrite HE. reflexivity.
Qed.

Lemma lpcc_sounding : (forall i, (i < n)%nat -> sounding L (fr i)) ->
  exists A, (forall i, (i < n)%nat -> normal_equations L p (fr i) (A i)) /\
    lpcc (fvec N x) (s_fs a) (Z.of_nat (S p)) (s_pre_emph a) (s_coeff a) (s_window a) None None
    = Ok (fmat n (S p) (fun i m => if Nat.eqb m 0 then spec_log (lpc_error L p (fr i) (A i))
                                   else coded_cepstrum (A i) m)).
Proof.
  intros Hs. destruct Hw as (_ & _ & _ & _ & HL & _).
  destruct (finite_choice (nat -> R) (fun _ => 0) (fun i b => normal_equations L p (fr i) b /\
     lpc_helper (fvec L (fr i)) (Z.of_nat p) = Ok (fvec (S p) b, Fin (lpc_error L p (fr i) b))) n) as [A HA].
  { intros i Hi. apply lpc_helper_sounding; auto; lia. }
  exists A. split; [intros; apply HA; assumption|].
  unfold lpcc. rewrite lp_framed. cbn [rbind].
  replace (Z.of_nat (S p) - 1)%Z with (Z.of_nat p) by lia.
  destruct (Z.ltb_spec (Z.of_nat p + 1) 0); [lia|].
  set (g := fun i m => if Nat.eqb m 0 then spec_log (lpc_error L p (fr i) (A i)) else coded_cepstrum (A i) m).
  rewrite (mapM_fmat _ _ (fun i => fvec (S p) (g i))).
  - reflexivity.
  - intros i Hi. rewrite (proj2 (HA i Hi)). cbn [rbind].
    replace (Z.of_nat p + 1)%Z with (Z.of_nat (S p)) by lia.
    rewrite lpc2lpcc_ok by (try lia; apply Rabs_pos). f_equal. apply fvec_ext. intros m Hm. unfold g.
    destruct (Nat.eqb m 0); [reflexivity|]. destruct (Nat.ltb_spec m (S p)); [reflexivity|lia].
Qed.
End Finite.

(** ** gain *)
Lemma acf_gain : forall L f g d, acf L (fun t => g * f t) d = g ^ 2 * acf L f d.
Proof. intros. unfold acf. rewrite <- bigsum_scal. apply bigsum_ext. intros. ring. Qed.
Lemma acf_ext : forall L f f' d, (forall t, (t < L)%nat -> f t = f' t) -> acf L f d = acf L f' d.
Proof. intros. unfold acf. apply bigsum_ext. intros. rewrite !H by lia. reflexivity. Qed.
Lemma plain_frame_gain : forall a hop x g i t, plain_frame a hop (fun k => g * x k) i t = g * plain_frame a hop x i t.
Proof.
  intros. unfold plain_frame, spec_pre. destruct (s_pre_emph a); [|reflexivity].
  destruct (i * hop + t)%nat; [reflexivity|]. ring.
Qed.
Lemma normal_gain : forall L p f f' g b, g <> 0 -> (forall t, f' t = g * f t) ->
  normal_equations L p f b -> normal_equations L p f' b.
Proof.
  intros L p f f' g b Hg Hf [H0 Hb]. split; [exact H0|]. intros i Hi.
  rewrite (bigsum_ext (S p) _ (fun j => g ^ 2 * (acf L f (dist i j) * b j))).
  - rewrite bigsum_scal, Hb by exact Hi. ring.
  - intros j Hj. rewrite (acf_ext L f' (fun t => g * f t)) by auto. rewrite acf_gain. ring.
Qed.
Lemma sounding_gain : forall L f f' g, g <> 0 -> (forall t, f' t = g * f t) -> sounding L f -> sounding L f'.
Proof.
  intros L f f' g Hg Hf (t & Ht & Hn). exists t. split; [exact Ht|]. rewrite Hf.
  apply Rmult_integral_contrapositive_currified; assumption.
Qed.
Lemma lpc_error_gain : forall L p f f' g b, (forall t, f' t = g * f t) ->
  lpc_error L p f' b = g ^ 2 * lpc_error L p f b.
Proof.
  intros L p f f' g b Hf. unfold lpc_error.
  rewrite <- (Rabs_pos_eq (g ^ 2)) by apply pow2_ge_0. rewrite <- Rabs_mult. f_equal.
  rewrite (acf_ext L f' (fun t => g * f t)), acf_gain by auto.
  rewrite Rmult_plus_distr_l, <- bigsum_scal. f_equal. apply bigsum_ext. intros.
  rewrite (acf_ext L f' (fun t => g * f t)), acf_gain by auto. ring.
Qed.

Lemma lpc_gain : forall `{Env} a N L hop p x g A E, well_framed a N L hop -> (1 <= p)%nat -> g <> 0 ->
  let call y := lpc (fvec N y) (s_fs a) (Z.of_nat (S p)) (s_pre_emph a) (s_coeff a) (s_window a) in
  let n := frame_count N L hop in
  call x = Ok (fmat n (S p) A, fmat n 1 E) ->
  call (fun t => g * x t) = Ok (fmat n (S p) A, fmat n 1 (fun i j => g ^ 2 * E i j)).
Proof.
  intros Env a N L hop p x g A E Hw Hp Hg call n Hx.
  assert (Hs : forall i, (i < n)%nat -> sounding L (plain_frame a hop x i)).
  { intros i Hi. destruct (sounding_dec L (plain_frame a hop x i)) as [S1|S1]; [exact S1|exfalso].
    destruct (lpc_silent a N L hop p x Hw Hp) as [K _]; [eauto|].
    unfold call in Hx. rewrite K in Hx. discriminate. }
  destruct (lpc_sounding a N L hop p x Hw Hp Hs) as (A1 & N1 & C1). unfold call in Hx. rewrite C1 in Hx.
  apply Ok_inj in Hx. injection Hx as HA HE.
  destruct (lpc_sounding a N L hop p (fun t => g * x t) Hw Hp) as (A2 & N2 & C2).
  { intros i Hi. apply (sounding_gain L (plain_frame a hop x i) _ g); auto. intros. apply plain_frame_gain. }
  unfold call. rewrite C2.
  assert (EA : forall i k, (i < n)%nat -> (k < S p)%nat -> A2 i k = A1 i k).
  { intros i k Hi Hk. apply (normal_unique L p (plain_frame a hop (fun t => g * x t) i)).
    - apply (sounding_gain L (plain_frame a hop x i) _ g); auto. intros. apply plain_frame_gain.
    - apply (normal_gain L p (plain_frame a hop x i) _ g); auto. intros. apply plain_frame_gain.
    - apply N2. exact Hi.
    - lia. }
  f_equal. f_equal.
  - fold n in HA |- *. rewrite <- HA. apply fmat_ext. exact EA.
  - fold n in HE |- *. apply fmat_ext. intros i j Hi Hj.
    rewrite <- (fmat_inj _ _ _ _ HE i j Hi Hj).
    rewrite (lpc_error_gain L p (plain_frame a hop x i) _ g) by (intros; apply plain_frame_gain).
    f_equal. unfold lpc_error. f_equal. f_equal. apply bigsum_ext. intros k Hk. rewrite EA by lia. reflexivity.
Qed.

Lemma lpcc_gain : forall `{Env} a N L hop p x g C, well_framed a N L hop -> (1 <= p)%nat -> g <> 0 ->
  let call y := lpcc (fvec N y) (s_fs a) (Z.of_nat (S p)) (s_pre_emph a) (s_coeff a) (s_window a) None None in
  let n := frame_count N L hop in
  call x = Ok (fmat n (S p) C) -> (forall i, (i < n)%nat -> C i O <> ln spec_eps) ->
  call (fun t => g * x t) = Ok (fmat n (S p) (fun i m => if Nat.eqb m 0 then C i m + 2 * ln (Rabs g) else C i m)).
Proof.
  intros Env a N L hop p x g C Hw Hp Hg call n Hx He.
  assert (Hs : forall i, (i < n)%nat -> sounding L (plain_frame a hop x i)).
  { intros i Hi. destruct (sounding_dec L (plain_frame a hop x i)) as [S1|S1]; [exact S1|exfalso].
    destruct (lpc_silent a N L hop p x Hw Hp) as [_ K]; [eauto|].
    unfold call in Hx. rewrite K in Hx. discriminate. }
  destruct (lpcc_sounding a N L hop p x Hw Hp Hs) as (A1 & N1 & C1). unfold call in Hx. rewrite C1 in Hx.
  apply Ok_inj in Hx. fold n in Hx.
  destruct (lpcc_sounding a N L hop p (fun t => g * x t) Hw Hp) as (A2 & N2 & C2).
  { intros i Hi. apply (sounding_gain L (plain_frame a hop x i) _ g); auto. intros. apply plain_frame_gain. }
  unfold call. rewrite C2.
  assert (EA : forall i k, (i < n)%nat -> (k < S p)%nat -> A2 i k = A1 i k).
  { intros i k Hi Hk. apply (normal_unique L p (plain_frame a hop (fun t => g * x t) i)).
    - apply (sounding_gain L (plain_frame a hop x i) _ g); auto. intros. apply plain_frame_gain.
    - apply (normal_gain L p (plain_frame a hop x i) _ g); auto. intros. apply plain_frame_gain.
    - apply N2. exact Hi.
    - lia. }
  f_equal. fold n. apply fmat_ext. intros i m Hi Hm.
  pose proof (fmat_inj _ _ _ _ Hx i m Hi Hm) as Ei. cbv beta in Ei.
  destruct (Nat.eqb_spec m 0) as [->|Hm0].
  - rewrite <- Ei. pose proof (He i Hi) as Hei. rewrite <- Ei in Hei.
    rewrite (lpc_error_gain L p (plain_frame a hop x i) _ g) by (intros; apply plain_frame_gain).
    assert (EE : lpc_error L p (plain_frame a hop x i) (A2 i) = lpc_error L p (plain_frame a hop x i) (A1 i)).
    { unfold lpc_error. f_equal. f_equal. apply bigsum_ext. intros k Hk. rewrite EA by lia. reflexivity. }
    rewrite EE. set (e := lpc_error L p (plain_frame a hop x i) (A1 i)) in *.
    assert (He0 : 0 <= e) by apply Rabs_pos.
    unfold spec_log in *. destruct (Req_EM_T e 0) as [E0|E0]; [exfalso; apply Hei; reflexivity|].
    assert (Hgp : 0 < Rabs g) by (apply Rabs_pos_lt; exact Hg).
    assert (Hg2 : g ^ 2 = Rabs g ^ 2) by (rewrite RPow_abs, Rabs_pos_eq; [reflexivity|apply pow2_ge_0]).
    assert (0 < g ^ 2) by (rewrite Hg2; apply pow_lt; exact Hgp).
    destruct (Req_EM_T (g ^ 2 * e) 0) as [E1|E1].
    + apply Rmult_integral in E1. exfalso. destruct E1; lra.
    + rewrite ln_mult by lra. rewrite Hg2, ln_pow by exact Hgp. cbn [INR]. ring.
  - rewrite <- Ei. unfold coded_cepstrum. rewrite EA by lia. f_equal. apply bigsum_ext. intros k Hk.
    rewrite EA by lia. reflexivity.
Qed.

(** ** everything lpc returns is finite *)
Lemma lpc_helper_finite : forall frame order b e, (1 <= order)%Z -> lpc_helper frame order = Ok (b, e) ->
  exists L p f a, frame = fvec L f /\ order = Z.of_nat p /\ (0 < L)%nat /\ sounding L f /\
    normal_equations L p f a /\ b = fvec (S p) a /\ e = Fin (lpc_error L p f a).
Proof.
  intros frame order b e Ho H0.
  assert (Hne : frame <> []).
  { intros ->. unfold lpc_helper in H0. destruct (Z.ltb_spec (order + 1) 0); [lia|]. discriminate. }
  assert (Hf : Forall finite frame).
  { apply Forall_forall. intros v Hv. destruct (finiteb v) eqn:Ev; [destruct v; try discriminate; eexists; reflexivity|].
    exfalso. rewrite lpc_helper_nonfinite in H0; [discriminate|exact Ho|exact Hne|].
    rewrite Forall_forall. intros K. destruct (K v Hv) as [r ->]. discriminate. }
  pose proof (finite_fvec _ Hf) as Ef. set (L := List.length frame) in *.
  set (f := fun i => toR (nth i frame NaN)) in *.
  assert (HL : (0 < L)%nat) by (unfold L; destruct frame; [congruence|cbn; lia]).
  assert (Eo : order = Z.of_nat (Z.to_nat order)) by lia.
  set (p := Z.to_nat order) in *. clearbody p. subst order.
  rewrite Ef in H0. destruct (sounding_dec L f) as [Hs|Hs].
  - destruct (lpc_helper_sounding L p f) as (a & Ha & Hh); auto; try lia.
    rewrite Hh in H0. apply Ok_inj in H0. injection H0 as <- <-.
    exists L, p, f, a. auto 10.
  - rewrite lpc_helper_silent in H0 by (auto; lia). discriminate.
Qed.
Lemma lpc_finite : forall `{Env} sig fs order pre coeff w A E, (2 <= order)%Z ->
  lpc sig fs order pre coeff w = Ok (A, E) ->
  Forall (Forall finite) A /\ Forall (Forall finite) E /\
  (List.length A = List.length E) /\ Forall (fun row => zlen row = order) A /\ Forall (fun row => List.length row = 1%nat) E.
Proof.
  intros Env sig fs order pre coeff w A E Ho H0. unfold lpc in H0.
  apply rbind_Ok in H0 as ((fr & ws) & _ & H0). destruct (Z.ltb_spec (order - 1 + 1) 0); [lia|].
  apply rbind_Ok in H0 as (rows & Hr & H0). apply Ok_inj in H0. injection H0 as <- <-.
  assert (K : forall ae, In ae rows -> exists p b e, order = Z.of_nat (S p) /\ ae = (fvec (S p) b, Fin e)).
  { intros [b e] Hae. apply (mapM_In_rev _ _ _ _ _ _ Hr) in Hae as (row & _ & Hh).
    apply lpc_helper_finite in Hh; [|lia]. destruct Hh as (L & p & f & a & _ & Hp & _ & _ & _ & -> & ->).
    exists p, a. eexists. split; [lia|reflexivity]. }
  repeat split.
  - apply Forall_forall. intros row Hrow. apply in_map_iff in Hrow as (ae & <- & Hae).
    destruct (K ae Hae) as (p & b & e & _ & ->). apply fvec_finite.
  - apply Forall_forall. intros row Hrow. apply in_map_iff in Hrow as (ae & <- & Hae).
    destruct (K ae Hae) as (p & b & e & _ & ->). constructor; [eexists; reflexivity|constructor].
  - rewrite !map_length. reflexivity.
  - apply Forall_forall. intros row Hrow. apply in_map_iff in Hrow as (ae & <- & Hae).
    destruct (K ae Hae) as (p & b & e & Hp & ->). cbn [fst]. unfold zlen. rewrite fvec_length. lia.
  - apply Forall_forall. intros row Hrow. apply in_map_iff in Hrow as (ae & <- & Hae). reflexivity.
Qed.

(** ** the window shape is irrelevant *)
Lemma windowing_names : forall fr M t t', In t window_names -> In t' window_names ->
  (exists e, windowing fr M t = Raise e /\ windowing fr M t' = Raise e) \/
  (exists u v, windowing fr M t = Ok u /\ windowing fr M t' = Ok v /\ List.length u = List.length v).
Proof.
  intros fr M t t' Ht Ht'. unfold windowing. induction fr as [|row fr IH].
  - right. exists [], []. auto.
  - cbn [mapM].
    assert (R : (exists e, windowing_row fmul row M t = Raise e /\ windowing_row fmul row M t' = Raise e) \/
                (exists u v, windowing_row fmul row M t = Ok u /\ windowing_row fmul row M t' = Ok v)).
    { unfold windowing_row.
      destruct (window_row fmul (mk_window hanning_at M) row); cbn [rbind]; [|left; eauto].
      destruct (window_row fmul (mk_window bartlett_at M) row); cbn [rbind]; [|left; eauto].
      destruct (window_row fmul (mk_window (kaiser_at 14) M) row); cbn [rbind]; [|left; eauto].
      destruct (window_row fmul (mk_window blackman_at M) row); cbn [rbind]; [|left; eauto].
      destruct (window_row fmul (mk_window hamming_at M) row); cbn [rbind]; [|left; eauto].
      right. cbn [window_names In] in Ht, Ht'.
      destruct Ht as [<-|[<-|[<-|[<-|[<-|[]]]]]]; destruct Ht' as [<-|[<-|[<-|[<-|[<-|[]]]]]];
        cbn; eexists; eexists; split; reflexivity. }
    destruct R as [(e & -> & ->)|(u & v & -> & ->)]; cbn [rbind]; [left; eauto|].
    destruct IH as [(e & -> & ->)|(us & vs & -> & -> & Hl)]; cbn [rbind]; [left; eauto|].
    right. eexists. eexists. split; [reflexivity|]. split; [reflexivity|]. cbn. congruence.
Qed.
Lemma framed_names : forall `{Env} sig fs pre c l h t t' B (k : list (list F) -> result B),
  In t window_names -> In t' window_names ->
  (do (fr, ws) <- framed sig fs pre c (Some (mkWindow l h t)); k fr) =
  (do (fr, ws) <- framed sig fs pre c (Some (mkWindow l h t')); k fr).
Proof.
  intros E sig fs pre c l h t t' B k Ht Ht'. unfold framed. cbn [win_len win_hop win_type].
  destruct (if pre then pre_emphasis sig c else Ok sig) as [s|e]; cbn [rbind]; [|reflexivity].
  destruct (framing s fs l h) as [[fr M]|e]; cbn [rbind]; [|reflexivity].
  destruct (windowing_names fr M t t' Ht Ht') as [(e & -> & ->)|(u & v & -> & -> & _)]; reflexivity.
Qed.
Lemma lpc_names : forall `{Env} sig fs order pre coeff l h t t', In t window_names -> In t' window_names ->
  lpc sig fs order pre coeff (Some (mkWindow l h t)) = lpc sig fs order pre coeff (Some (mkWindow l h t')).
Proof. intros. unfold lpc. apply (framed_names _ _ _ _ _ _ t t'); assumption. Qed.
Lemma lpcc_names : forall `{Env} sig fs order pre coeff l h t t' li no, In t window_names -> In t' window_names ->
  lpcc sig fs order pre coeff (Some (mkWindow l h t)) li no = lpcc sig fs order pre coeff (Some (mkWindow l h t')) li no.
Proof. intros. unfold lpcc. apply (framed_names _ _ _ _ _ _ t t'); assumption. Qed.

(** ** row locality *)
Lemma framed_agree : forall `{Env} a coeff sig sig2 fr ws fr2 ws2 i i2,
  let L := flen (s_fs a) (win_len (window_of a)) in
  let hop := flen (s_fs a) (win_hop (window_of a)) in
  framed sig (s_fs a) (s_pre_emph a) coeff (s_window a) = Ok (fr, ws) ->
  framed sig2 (s_fs a) (s_pre_emph a) coeff (s_window a) = Ok (fr2, ws2) ->
  (i < List.length fr)%nat -> (i2 < List.length fr2)%nat ->
  (s_pre_emph a = true -> (Z.of_nat i * hop = 0 <-> Z.of_nat i2 * hop = 0)%Z) ->
  (forall j, (-1 <= j < L)%Z -> (0 <= j \/ s_pre_emph a = true)%Z ->
     (0 <= Z.of_nat i * hop + j)%Z ->
     nth (Z.to_nat (Z.of_nat i * hop + j)) sig NaN = nth (Z.to_nat (Z.of_nat i2 * hop + j)) sig2 NaN) ->
  nth i fr [] = nth i2 fr2 [].
Proof.
  intros E a coeff sig sig2 fr ws fr2 ws2 i i2 L hop F1 F2 L1 L2 H0 Hag.
  destruct (framed_row _ _ _ _ _ i F1 L1) as [R1 V1].
  destruct (framed_row _ _ _ _ _ i2 F2 L2) as [R2 V2]. fold L hop in R1, V1, R2, V2.
  apply (list_eq_nth _ NaN); [congruence|]. intros j Hj. rewrite R1 in Hj.
  destruct (V1 j Hj) as [B1 X1]. destruct (V2 j Hj) as [B2 X2]. cbv zeta in *. rewrite X1, X2.
  destruct (s_pre_emph a) eqn:Ep.
  - specialize (H0 eq_refl).
    destruct (Z.eqb_spec (Z.of_nat i * hop + Z.of_nat j) 0) as [Z1|Z1];
      destruct (Z.eqb_spec (Z.of_nat i2 * hop + Z.of_nat j) 0) as [Z2|Z2].
    + pose proof (Hag (Z.of_nat j) ltac:(lia) ltac:(auto) ltac:(lia)) as Q. rewrite Z1, Z2 in Q. exact Q.
    + exfalso. destruct j as [|j']; [simpl in *; lia|].
      destruct (V1 0%nat ltac:(lia)) as [B1' _]. destruct (V2 0%nat ltac:(lia)) as [B2' _]. cbv zeta in *. lia.
    + exfalso. destruct j as [|j']; [simpl in *; lia|].
      destruct (V1 0%nat ltac:(lia)) as [B1' _]. destruct (V2 0%nat ltac:(lia)) as [B2' _]. cbv zeta in *. lia.
    + rewrite Hag by (auto; lia).
      replace (Z.of_nat i * hop + Z.of_nat j - 1)%Z with (Z.of_nat i * hop + (Z.of_nat j - 1))%Z by lia.
      rewrite Hag by (auto; lia).
      replace (Z.of_nat i2 * hop + Z.of_nat j - 1)%Z with (Z.of_nat i2 * hop + (Z.of_nat j - 1))%Z by lia. auto.
  - apply Hag; auto; lia.
Qed.

Lemma mapM_row : forall A B (g : A -> result B) l ys i d d', mapM g l = Ok ys -> (i < List.length ys)%nat ->
  g (nth i l d) = Ok (nth i ys d').
Proof. intros. apply mapM_nth; [assumption|]. apply mapM_length in H. lia. Qed.

Lemma lpc_row_eq : forall `{Env} a order sig sig2 A E A2 E2 i i2,
  let L := flen (s_fs a) (win_len (window_of a)) in
  let hop := flen (s_fs a) (win_hop (window_of a)) in
  let call s := lpc s (s_fs a) order (s_pre_emph a) (s_coeff a) (s_window a) in
  call sig = Ok (A, E) -> call sig2 = Ok (A2, E2) ->
  (i < List.length A)%nat -> (i2 < List.length A2)%nat ->
  (s_pre_emph a = true -> (Z.of_nat i * hop = 0 <-> Z.of_nat i2 * hop = 0)%Z) ->
  (forall j, (-1 <= j < L)%Z -> (0 <= j \/ s_pre_emph a = true)%Z ->
     (0 <= Z.of_nat i * hop + j)%Z ->
     nth (Z.to_nat (Z.of_nat i * hop + j)) sig NaN = nth (Z.to_nat (Z.of_nat i2 * hop + j)) sig2 NaN) ->
  nth i A [] = nth i2 A2 [] /\ nth i E [] = nth i2 E2 [].
Proof.
  intros Env a order sig sig2 A E A2 E2 i i2 L hop call H1 H2 Hi Hi2 H0 Hag. unfold call, lpc in H1, H2.
  apply rbind_Ok in H1 as ((fr & ws) & F1 & H1). apply rbind_Ok in H2 as ((fr2 & ws2) & F2 & H2).
  destruct (order - 1 + 1 <? 0)%Z; [discriminate|].
  apply rbind_Ok in H1 as (rows & M1 & H1). apply rbind_Ok in H2 as (rows2 & M2 & H2).
  apply Ok_inj in H1. apply Ok_inj in H2. injection H1 as <- <-. injection H2 as <- <-.
  rewrite map_length in Hi, Hi2. pose proof (mapM_length _ _ _ _ _ M1) as K1. pose proof (mapM_length _ _ _ _ _ M2) as K2.
  assert (Er : nth i fr [] = nth i2 fr2 []).
  { eapply framed_agree; eauto; lia. }
  pose proof (mapM_row _ _ _ _ _ i [] ([], NaN) M1 Hi) as G1. pose proof (mapM_row _ _ _ _ _ i2 [] ([], NaN) M2 Hi2) as G2.
  rewrite Er, G2 in G1. apply Ok_inj in G1.
  rewrite !(nth_map _ _ fst _ _ ([], NaN)) by assumption. rewrite !(nth_map _ _ (fun ae => [snd ae]) _ _ ([], NaN)) by assumption.
  rewrite G1. auto.
Qed.

Definition lp_lifter (li : option R) (m : list (list F)) : list (list F) :=
  match li with Some l => if Reqb l 0 then m else map (lift_row l) m | None => m end.

Lemma lpc_helper_length : forall frame order b e, lpc_helper frame order = Ok (b, e) ->
  (1 <= order)%Z -> zlen b = (order + 1)%Z.
Proof.
  intros frame order b e H Ho. apply lpc_helper_finite in H; [|exact Ho].
  destruct H as (L & p & f & a & _ & -> & _ & _ & _ & -> & _). unfold zlen. rewrite fvec_length. lia.
Qed.

Lemma lpcc_rows : forall `{Env} a order li no sig C, (2 <= order)%Z ->
  lpcc sig (s_fs a) order (s_pre_emph a) (s_coeff a) (s_window a) li no = Ok C ->
  exists fr ws rows, framed sig (s_fs a) (s_pre_emph a) 0.97 (s_window a) = Ok (fr, ws) /\
    mapM (fun frame => do (a, e) <- lpc_helper frame (order - 1); lpc2lpcc a e order) fr = Ok rows /\
    has_shape rows (List.length fr) (Z.to_nat order) /\ (0 < List.length fr)%nat /\
    (no = None \/ no = Some ""%string -> C = lp_lifter li rows) /\ has_shape C (List.length fr) (Z.to_nat order).
Proof.
  intros Env a order li no sig C Ho H. unfold lpcc in H.
  apply rbind_Ok in H as ((fr & ws) & F1 & H). replace (order - 1 + 1)%Z with order in H by lia.
  destruct (Z.ltb_spec order 0); [lia|].
  apply rbind_Ok in H as (rows & M1 & H). apply rbind_Ok in H as (C1 & L1 & H).
  pose proof F1 as F1'. apply framed_inv in F1' as (s' & _ & Hfr & _). apply framing_nonempty in Hfr.
  assert (Hlen : (0 < List.length fr)%nat) by (destruct fr; [congruence|cbn; lia]).
  assert (Hsh : has_shape rows (List.length fr) (Z.to_nat order)).
  { split; [apply mapM_length in M1; exact M1|]. apply Forall_forall. intros row Hrow.
    apply (mapM_In_rev _ _ _ _ _ _ M1) in Hrow as (frame & _ & Hrow).
    apply rbind_Ok in Hrow as ((b & e) & Hb & Hrow).
    apply lpc_helper_finite in Hb; [|lia]. destruct Hb as (L & p & f & a' & _ & Hp & _ & _ & _ & -> & ->).
    replace order with (Z.of_nat (S p)) in Hrow |- * by lia.
    rewrite lpc2lpcc_ok in Hrow by (try lia; apply Rabs_pos). apply Ok_inj in Hrow. subst row.
    rewrite fvec_length. lia. }
  assert (HC1 : C1 = lp_lifter li rows).
  { unfold lp_lifter. destruct li as [l|]; [|congruence]. destruct (Reqb l 0); [congruence|].
    eapply lifter_rows; eauto. }
  assert (HshC1 : has_shape C1 (List.length fr) (Z.to_nat order)).
  { rewrite HC1. unfold lp_lifter. destruct li as [l|]; [|exact Hsh]. destruct (Reqb l 0) eqn:El; [exact Hsh|].
    eapply shape_map; eauto. intros. rewrite lift_row_length. assumption. }
  exists fr, ws, rows. split; [exact F1|]. split; [exact M1|]. split; [exact Hsh|]. split; [exact Hlen|]. split.
  - intros [ -> | -> ]; cbn in H; congruence.
  - destruct no as [t|]; [|congruence]. destruct (String.eqb t ""); [congruence|].
    eapply normalize_shape; eauto.
Qed.

Lemma lpcc_row_eq : forall `{Env} a order li no sig sig2 C C2 i i2,
  let L := flen (s_fs a) (win_len (window_of a)) in
  let hop := flen (s_fs a) (win_hop (window_of a)) in
  let call s := lpcc s (s_fs a) order (s_pre_emph a) (s_coeff a) (s_window a) li no in
  (2 <= order)%Z -> no = None \/ no = Some ""%string ->
  call sig = Ok C -> call sig2 = Ok C2 ->
  (i < List.length C)%nat -> (i2 < List.length C2)%nat ->
  (s_pre_emph a = true -> (Z.of_nat i * hop = 0 <-> Z.of_nat i2 * hop = 0)%Z) ->
  (forall j, (-1 <= j < L)%Z -> (0 <= j \/ s_pre_emph a = true)%Z ->
     (0 <= Z.of_nat i * hop + j)%Z ->
     nth (Z.to_nat (Z.of_nat i * hop + j)) sig NaN = nth (Z.to_nat (Z.of_nat i2 * hop + j)) sig2 NaN) ->
  nth i C [] = nth i2 C2 [].
Proof.
  intros Env a order li no sig sig2 C C2 i i2 L hop call Ho Hno H1 H2 Hi Hi2 H0 Hag.
  apply lpcc_rows in H1 as (fr & ws & rows & F1 & M1 & S1 & _ & HC1 & SC1); [|exact Ho].
  apply lpcc_rows in H2 as (fr2 & ws2 & rows2 & F2 & M2 & S2 & _ & HC2 & SC2); [|exact Ho].
  rewrite (proj1 SC1) in Hi. rewrite (proj1 SC2) in Hi2.
  assert (Er : nth i fr [] = nth i2 fr2 []).
  { eapply framed_agree; eauto. }
  pose proof (mapM_row _ _ _ _ _ i [] [] M1 ltac:(rewrite (proj1 S1); exact Hi)) as G1.
  pose proof (mapM_row _ _ _ _ _ i2 [] [] M2 ltac:(rewrite (proj1 S2); exact Hi2)) as G2.
  rewrite Er, G2 in G1. apply Ok_inj in G1.
  rewrite HC1, HC2 by exact Hno. unfold lp_lifter. destruct li as [l|]; [|congruence].
  destruct (Reqb l 0); [congruence|].
  rewrite !(nth_map _ _ (lift_row l) _ _ []) by (first [rewrite (proj1 S1)|rewrite (proj1 S2)]; assumption).
  congruence.
Qed.

(** ** the reported error is not the prediction error *)
Lemma lpc_error_short : forall L p f a m, (forall t, (m <= t)%nat -> (t < L)%nat -> f t = 0) -> (m + p + 2 <= L)%nat ->
  lpc_error L p f a = 0.
Proof.
  intros L p f a m Hz Hm.
  assert (K : forall d, (m <= d)%nat -> acf L f d = 0).
  { intros d Hd. unfold acf. apply bigsum_zero. intros t Ht. rewrite (Hz (t + d)%nat) by lia. ring. }
  unfold lpc_error. rewrite K by (unfold dist; cbn; lia).
  rewrite (bigsum_zero (Nat.min (2 * L - 2) (S p))).
  - rewrite Rplus_0_r. apply Rabs_R0.
  - intros k Hk. rewrite K; [ring|]. unfold dist. destruct (Nat.leb_spec (S k) (L - 1)); lia.
Qed.

(** ** the recursion of the references *)
Lemma spec_cepstrum_stable : forall a n i, (i < n)%nat -> spec_cepstrum_upto a n i = spec_cepstrum a i.
Proof.
  intros a n. induction n as [|n IH]; intros i Hi; [lia|].
  destruct (Nat.eq_dec i n) as [->|Hne]; [reflexivity|].
  cbn [spec_cepstrum_upto]. destruct (Nat.eqb_spec i n); [contradiction|]. apply IH. lia.
Qed.
Lemma spec_cepstrum_rec : forall a m, (1 <= m)%nat ->
  spec_cepstrum a m = a m + bigsum (m - 1) (fun k => INR (S k) / INR m * spec_cepstrum a (S k) * a (m - S k)%nat).
Proof.
  intros a m Hm. unfold spec_cepstrum at 1. cbn [spec_cepstrum_upto]. rewrite Nat.eqb_refl.
  destruct (Nat.eqb_spec m 0); [lia|]. f_equal. apply bigsum_ext. intros k Hk.
  rewrite spec_cepstrum_stable by lia. reflexivity.
Qed.
Lemma cepstrum_1 : forall a, coded_cepstrum a 1 = spec_cepstrum a 1.
Proof. intros. rewrite spec_cepstrum_rec by lia. reflexivity. Qed.
Lemma cepstrum_2 : forall a, coded_cepstrum a 2 = spec_cepstrum a 2 <-> a 1%nat = 0 \/ a 1%nat = 1.
Proof.
  intros. rewrite spec_cepstrum_rec by lia. unfold coded_cepstrum. cbn [Nat.sub bigsum].
  rewrite <- cepstrum_1. unfold coded_cepstrum. cbn [Nat.sub bigsum INR].
  split.
  - intros H0. assert (a 1%nat * (a 1%nat - 1) = 0) by lra. apply Rmult_integral in H. destruct H; [left|right]; lra.
  - intros [ -> | -> ]; lra.
Qed.

Lemma framed_unknown : forall `{Env} a N L hop x c t, well_framed a N L hop -> ~ In t window_names ->
  framed (fvec N x) (s_fs a) (s_pre_emph a) c (Some (mkWindow (win_len (window_of a)) (win_hop (window_of a)) t)) = Raise KeyError.
Proof.
  intros E a N L hop x c t (Hw & HL & Hh & H0 & HN & _) Ht. unfold framed. rewrite pre_fvec by lia. cbn [rbind win_len win_hop win_type].
  rewrite (framing_fvec _ _ _ _ _ L hop) by auto. cbn [rbind].
  rewrite windowing_key_error; [reflexivity|lia| | |].
  - apply Forall_forall. intros r Hr. unfold fmat in Hr. apply in_map_iff in Hr as (i & <- & _).
    unfold zlen. rewrite fvec_length. reflexivity.
  - unfold fmat, frame_count. rewrite Nat.add_1_r. discriminate.
  - destruct (known_window t) eqn:Ek; [|reflexivity]. exfalso. apply Ht. apply known_window_iff. exact Ek.
Qed.

Lemma lpc_ok_sounding : forall `{Env} a N L hop p x A E, well_framed a N L hop -> (1 <= p)%nat ->
  lpc (fvec N x) (s_fs a) (Z.of_nat (S p)) (s_pre_emph a) (s_coeff a) (s_window a)
  = Ok (fmat (frame_count N L hop) (S p) A, fmat (frame_count N L hop) 1 E) ->
  forall i, (i < frame_count N L hop)%nat ->
    sounding L (plain_frame a hop x i) /\ normal_equations L p (plain_frame a hop x i) (A i) /\
    E i O = lpc_error L p (plain_frame a hop x i) (A i).
Proof.
  intros Env a N L hop p x A E Hw Hp Hx i Hi. set (n := frame_count N L hop) in *.
  assert (Hs : forall i, (i < n)%nat -> sounding L (plain_frame a hop x i)).
  { intros j Hj. destruct (sounding_dec L (plain_frame a hop x j)) as [S1|S1]; [exact S1|exfalso].
    destruct (lpc_silent a N L hop p x Hw Hp) as [K _]; [eauto|]. rewrite K in Hx. discriminate. }
  split; [auto|].
  destruct (lpc_sounding a N L hop p x Hw Hp Hs) as (A1 & N1 & C1). rewrite C1 in Hx.
  apply Ok_inj in Hx. injection Hx as HA HE. fold n in HA, HE.
  assert (EA : forall k, (k <= p)%nat -> A1 i k = A i k) by (intros k Hk; apply (fmat_inj _ _ _ _ HA i k Hi); lia).
  destruct (N1 i Hi) as [N0 N2]. split.
  - split; [rewrite <- EA by lia; exact N0|]. intros k Hk. rewrite <- (N2 k Hk). apply bigsum_ext. intros j Hj.
    rewrite EA by lia. reflexivity.
  - rewrite <- (fmat_inj _ _ _ _ HE i O Hi ltac:(lia)). unfold lpc_error. f_equal. f_equal. apply bigsum_ext. intros k Hk.
    rewrite EA by lia. reflexivity.
Qed.

Lemma lpc_stable : forall `{Env} a N L hop p x A E, well_framed a N L hop -> (1 <= p)%nat ->
  lpc (fvec N x) (s_fs a) (Z.of_nat (S p)) (s_pre_emph a) (s_coeff a) (s_window a)
  = Ok (fmat (frame_count N L hop) (S p) A, fmat (frame_count N L hop) 1 E) ->
  forall i re im, (i < frame_count N L hop)%nat -> poly_root p (A i) re im -> re ^ 2 + im ^ 2 < 1.
Proof.
  intros Env a N L hop p x A E Hw Hp Hx i re im Hi Hr.
  destruct (lpc_ok_sounding a N L hop p x A E Hw Hp Hx i Hi) as (Hs & Hn & _).
  exact (normal_stable L p _ (A i) re im Hs Hn Hr).
Qed.

Lemma lpc_error_wrong : forall `{Env} a N L hop p x m A E, well_framed a N L hop -> (1 <= p)%nat ->
  lpc (fvec N x) (s_fs a) (Z.of_nat (S p)) (s_pre_emph a) (s_coeff a) (s_window a)
  = Ok (fmat (frame_count N L hop) (S p) A, fmat (frame_count N L hop) 1 E) ->
  (m + p + 2 <= L)%nat -> (forall t, (m <= t < L)%nat -> plain_frame a hop x 0 t = 0) ->
  E O O = 0 /\ 0 < residual_energy L p (plain_frame a hop x 0) (A O).
Proof.
  intros Env a N L hop p x m A E Hw Hp Hx Hm Hz.
  destruct (lpc_ok_sounding a N L hop p x A E Hw Hp Hx O) as (Hs & [H0 Hn] & He).
  { unfold frame_count. lia. }
  split.
  - rewrite He. apply (lpc_error_short L p _ _ m); [|exact Hm]. intros. apply Hz. lia.
  - apply residual_energy_pos; [exact Hs|]. exists O. split; [lia|]. rewrite H0. lra.
Qed.
