(** * Closed form of plp and rplp *)
From Coq Require Import Reals ZArith List String Bool Lia Lra Psatz.
From Verif Require Import Base BaseFacts Cplx SpecBase SpecMat SpecFilters SpecBanks SpecFeatures SpecRplp BigSum MatFacts Preprocessing PreprocessingFacts
  Filters FiltersFacts Cepstral Fourier Features Extractors FeaturesFacts FeaturesMore FeaturesLaws LinAlg Lpc SpecLpc LpcFacts LpcTheory LpcMore LpcLaws
  Rplp RplpNames.
Import ListNotations.
Local Open Scope R_scope.

Lemma idft_abs : forall n c l k, (0 < n)%nat -> cabs (idft_bin n (crop_pad n (fvec c l)) k) = Fin (spec_inverse n c l k).
Proof.
  intros n c l k Hn. unfold idft_bin. rewrite crop_pad_fvec.
  assert (G : forall h : nat -> R, fsum (map (fun j => fmul (nth j (fvec n (fun t => if Nat.ltb t (Nat.min c n) then l t else 0)) NaN) (Fin (h j))) (seq 0 n))
     = Fin (bigsum (Nat.min c n) (fun j => l j * h j))).
  { intros h. rewrite (map_ext_in _ (fun j => Fin ((if Nat.ltb j (Nat.min c n) then l j else 0) * h j))).
    - change (map _ (seq 0 n)) with (fvec n (fun j => (if Nat.ltb j (Nat.min c n) then l j else 0) * h j)). rewrite fsum_fvec.
      f_equal. rewrite (bigsum_crop n (Nat.min c n)) by lia. reflexivity.
    - intros j Hj. apply in_seq in Hj. rewrite fvec_nth by lia. reflexivity. }
  rewrite (G (fun j => cos (2 * PI * INR (j * k) / INR n))), (G (fun j => sin (2 * PI * INR (j * k) / INR n))).
  unfold cabs, cscal. cbn [fst snd fmul fadd]. unfold spec_inverse.
  set (u := bigsum _ _). set (v := bigsum _ _). assert (0 < INR n) by (apply lt_0_INR; auto).
  replace (1 / INR n * u * (1 / INR n * u) + 1 / INR n * v * (1 / INR n * v)) with ((u ^ 2 + v ^ 2) * / (INR n ^ 2)) by (field; lra).
  assert (0 <= u ^ 2 + v ^ 2) by (pose proof (pow2_ge_0 u); pose proof (pow2_ge_0 v); lra).
  assert (0 < / INR n ^ 2) by (apply Rinv_0_lt_compat, pow_lt; auto).
  rewrite fsqrt_nonneg by (apply Rmult_le_pos; lra). f_equal. rewrite sqrt_mult_alt by auto. unfold Rdiv. f_equal.
  rewrite sqrt_inv, sqrt_pow2 by lra. reflexivity.
Qed.
Lemma ifft_fmat : forall m c l nfft, (1 <= nfft)%Z ->
  np_ifft (fmat m c l) nfft = Ok (map (fun row => map (idft_bin (Z.to_nat nfft) (crop_pad (Z.to_nat nfft) row)) (seq 0 (Z.to_nat nfft))) (fmat m c l)) /\
  map (map cabs) (map (fun row => map (idft_bin (Z.to_nat nfft) (crop_pad (Z.to_nat nfft) row)) (seq 0 (Z.to_nat nfft))) (fmat m c l))
  = fmat m (Z.to_nat nfft) (fun i => spec_inverse (Z.to_nat nfft) c (l i)).
Proof.
  intros m c l nfft H. split.
  - unfold np_ifft. destruct (Z.ltb_spec nfft 1); [lia|reflexivity].
  - unfold fmat. rewrite !map_map. apply map_ext. intros i. rewrite map_map. unfold fvec at 2. apply map_ext. intros k.
    apply idft_abs. lia.
Qed.

Lemma compressed_Fin : forall w, compressed (Fin w) = Fin (spec_loudness w).
Proof.
  intros w. unfold compressed, equal_loudness. rewrite !fpown_Fin. cbn [fadd fmul].
  rewrite fdiv_Fin by (apply Rgt_not_eq, loud_den). fold (loud_arg w). cbn [fabs].
  rewrite Rabs_pos_eq by apply loud_arg_nonneg. apply fpow_root; [lra|]. right. split; [apply loud_arg_nonneg|lra].
Qed.
Lemma spec_loudness_zero : forall w, spec_loudness w = 0 <-> w = 0.
Proof. intros. unfold spec_loudness. rewrite spec_root_zero. apply loud_arg_zero. Qed.

Lemma spec_rasta_ext : forall x y t, (forall k, (k <= t)%nat -> x k = y k) -> spec_rasta x t = spec_rasta y t.
Proof.
  intros x y t. induction t as [|t IH]; intros H; auto. cbn [spec_rasta]. destruct (Nat.ltb t 3); auto.
  rewrite IH by (intros; apply H; lia). rewrite !H by lia. reflexivity.
Qed.
Lemma spec_rasta_shift : forall x c t, spec_rasta (fun k => x k + c) t = spec_rasta x t.
Proof. intros x c t. induction t as [|t IH]; auto. cbn [spec_rasta]. destruct (Nat.ltb t 3); auto. rewrite IH. lra. Qed.

Lemma flog_pos' : forall w, 0 < w -> flog (Fin w) = Fin (ln w).
Proof. intros. unfold flog. destruct (Rlt_dec 0 w); [auto|lra]. Qed.

Lemma rasta_step_fmat : forall (r : bool) m n w, (if r then (5 <= n)%nat /\ forall i j, (i < m)%nat -> (j < n)%nat -> 0 < w i j else True) ->
  rasta_step r (fmat m n w) = Ok (fmat m n (fun i => spec_auditory r (w i))).
Proof.
  intros [|] m n w H; unfold rasta_step; [|reflexivity]. destruct H as [Hn Hw].
  assert (E : map (map flog) (fmat m n w) = fmat m n (fun i j => ln (w i j))).
  { unfold fmat. rewrite map_map. apply map_ext_in. intros i Hi. apply in_seq in Hi. unfold fvec. rewrite map_map. apply map_ext_in.
    intros j Hj. apply in_seq in Hj. apply flog_pos'. apply Hw; lia. }
  rewrite E, rasta_filter_eq by lia. cbn [rbind]. f_equal. unfold fmat. rewrite map_map. apply map_ext. intros i. unfold fvec.
  rewrite map_map. apply map_ext. intros j. reflexivity.
Qed.

(** what follows the inverse transform *)
Definition plp_post (lifter : option R) (normalize : option string) (lpccs : list (list F)) : result (list (list F)) :=
  do lpccs <- match lifter with Some l => lifter_ceps lpccs l | None => Ok lpccs end;
  match normalize with
  | Some t => if String.eqb t "" then Ok lpccs else normalize_ceps lpccs t
  | None => Ok lpccs
  end.
Lemma no_post_ok : forall li no m, no_post li no -> plp_post li no m = Ok m.
Proof.
  intros li no m [[->| ->] [->| ->]]; unfold plp_post; cbn [rbind]; auto; unfold lifter_ceps.
  - replace (Reqb 0 0) with true by (unfold Reqb; destruct (Req_EM_T 0 0); [auto|lra]). auto.
  - replace (Reqb 0 0) with true by (unfold Reqb; destruct (Req_EM_T 0 0); [auto|lra]). auto.
Qed.

Lemma plp_row_sounding : forall p M f, (0 < M)%nat -> (1 <= p)%nat -> sounding M f ->
  exists A, normal_equations M p f A /\ plp_row (Z.of_nat (S p)) (fvec M f)
    = Ok (fvec (S p) (fun m => if Nat.eqb m 0 then spec_log (lpc_error M p f A) else coded_cepstrum A m)).
Proof.
  intros p M f HM Hp Hs. destruct (lpc_helper_sounding M p f) as (A & HA & Hh); auto. exists A. split; auto.
  unfold plp_row. replace (Z.of_nat (S p) - 1)%Z with (Z.of_nat p) by lia. rewrite Hh. cbn [rbind].
  rewrite lpc2lpcc_ok by (try lia; apply Rabs_pos). f_equal. apply fvec_ext. intros m Hm.
  destruct (Nat.eqb m 0); auto. destruct (Nat.ltb_spec m (S p)); [auto|lia].
Qed.
Lemma plp_row_silent : forall p M f, (0 < M)%nat -> (1 <= p)%nat -> ~ sounding M f ->
  plp_row (Z.of_nat (S p)) (fvec M f) = Raise LinAlgError.
Proof.
  intros p M f HM Hp Hs. unfold plp_row. replace (Z.of_nat (S p) - 1)%Z with (Z.of_nat p) by lia.
  rewrite lpc_helper_silent; auto.
Qed.

Section Plp.
Context `{Env}.
Variables (a : sargs) (N L hop n : nat) (B : nat -> nat -> R).
Hypotheses (Hw : well_framed a N L hop) (Hn : (1 <= s_nfft a)%Z) (Hn0 : (0 < n)%nat)
  (HB : spectro_bank Bark a = Ok (fmat n (S (half (s_nfft a))) B)).
Let nfft := Z.to_nat (s_nfft a).
Let fc := frame_count N L hop.

Definition rasta_ok (r : bool) (x : nat -> R) : Prop :=
  if r then (5 <= n)%nat /\ forall i j, (i < fc)%nat -> (j < n)%nat -> 0 < channel_energy a L hop B x i j else True.

Lemma rastaplp_gen : forall x order r li no, (order <= s_nfilts a)%Z ->
  rastaplp (fvec N x) a order r li no
  = do w <- rasta_step r (fmat fc n (fun i => channel_energy a L hop B x i));
    do inverse <- np_ifft (map (map compressed) w) (s_nfft a);
    if (order <? 0)%Z then Raise ValueError
    else do M <- mapM (plp_row order) (map (map cabs) inverse); plp_post li no M.
Proof.
  intros x order r li no Ho. unfold rastaplp. destruct (Z.ltb_spec (s_nfilts a) order); [lia|].
  change (match s_fbanks a with Some b => Ok b | None => _ end) with (spectro_bank Bark a). rewrite HB. cbn [rbind].
  rewrite (framed_fvec a N L hop) by auto. cbn [rbind]. rewrite fft_magnitude_fmat by auto. cbn [rbind].
  rewrite power_frames_fmat by auto. rewrite np_dot_T_fmat by (auto; apply frame_count_pos). cbn [rbind]. reflexivity.
Qed.

Lemma rastaplp_rows : forall x order r li no, (0 <= order <= s_nfilts a)%Z -> rasta_ok r x ->
  rastaplp (fvec N x) a order r li no
  = do M <- mapM (plp_row order) (fmat fc nfft (plp_sequence a r L hop n B x)); plp_post li no M.
Proof.
  intros x order r li no Ho Hr. rewrite rastaplp_gen by lia. rewrite rasta_step_fmat by exact Hr. cbn [rbind].
  rewrite (fmat_map fc n _ compressed spec_loudness) by (intros; apply compressed_Fin).
  destruct (ifft_fmat fc n (fun i j => spec_loudness (spec_auditory r (channel_energy a L hop B x i) j)) (s_nfft a)) as [-> E2]; auto.
  cbn [rbind]. rewrite E2. destruct (Z.ltb_spec order 0); [lia|]. reflexivity.
Qed.

Lemma inverse_0 : forall c l, (0 < nfft)%nat -> (forall j, 0 <= l j) ->
  spec_inverse nfft c l 0 = bigsum (Nat.min c nfft) l / INR nfft.
Proof.
  intros c l Hp Hl. unfold spec_inverse. f_equal.
  rewrite (bigsum_ext _ _ l).
  - rewrite (bigsum_zero (Nat.min c nfft) (fun j => l j * sin _)).
    + replace (0 ^ 2) with 0 by ring. rewrite Rplus_0_r. apply sqrt_pow2. apply bigsum_nonneg. auto.
    + intros j _. rewrite Nat.mul_0_r. replace (2 * PI * INR 0 / INR nfft) with 0 by (simpl; unfold Rdiv; ring). rewrite sin_0. ring.
  - intros j _. rewrite Nat.mul_0_r. replace (2 * PI * INR 0 / INR nfft) with 0 by (simpl; unfold Rdiv; ring). rewrite cos_0. ring.
Qed.

Lemma sounding_iff : forall r x i, sounding nfft (plp_sequence a r L hop n B x i)
  <-> heard a n (spec_auditory r (channel_energy a L hop B x i)).
Proof.
  intros r x i. assert (Hp : (0 < nfft)%nat) by (unfold nfft; lia). assert (0 < INR nfft) by (apply lt_0_INR; auto). split.
  - intros (t & Ht & Hs). set (e := spec_auditory r (channel_energy a L hop B x i)) in *.
    assert (D : (exists j, (j < Nat.min n nfft)%nat /\ e j <> 0) \/ forall j, (j < Nat.min n nfft)%nat -> e j = 0).
    { generalize (Nat.min n nfft). intros c. induction c as [|c [(j & Hj & Hj2)|IH]].
      - right. lia.
      - left. exists j. split; [lia|auto].
      - destruct (Req_EM_T (e c) 0) as [E|E]; [right; intros j Hj; destruct (Nat.eq_dec j c) as [->|]; [auto|apply IH; lia]|left; exists c; split; [lia|auto]]. }
    destruct D as [(j & Hj & Hj2)|D]; [exists j; fold nfft; repeat split; auto; lia|]. exfalso. apply Hs.
    unfold plp_sequence, spec_inverse. fold nfft. fold e.
    rewrite !bigsum_zero; [replace (0 ^ 2 + 0 ^ 2) with 0 by ring; rewrite sqrt_0; unfold Rdiv; ring| |];
      intros j Hj; rewrite (proj2 (spec_loudness_zero _)); try ring; auto.
  - intros (j & Hj & Hj2 & Hj3). exists 0%nat. split; auto. unfold plp_sequence. fold nfft in Hj2 |- *.
    rewrite inverse_0 by (auto; intros; apply spec_loudness_nonneg). apply Rgt_not_eq. apply Rdiv_lt_0_compat; auto.
    apply (bigsum_pos _ _ j); [intros; apply spec_loudness_nonneg|lia|].
    destruct (spec_loudness_nonneg (spec_auditory r (channel_energy a L hop B x i) j)) as [G|G]; auto.
    symmetry in G. apply (proj1 (spec_loudness_zero _)) in G. contradiction.
Qed.

Lemma rastaplp_value : forall x p r li no, (1 <= p)%nat -> (Z.of_nat (S p) <= s_nfilts a)%Z -> rasta_ok r x -> no_post li no ->
  (forall i, (i < fc)%nat -> heard a n (spec_auditory r (channel_energy a L hop B x i))) ->
  exists A, (forall i, (i < fc)%nat -> normal_equations nfft p (plp_sequence a r L hop n B x i) (A i)) /\
    rastaplp (fvec N x) a (Z.of_nat (S p)) r li no
    = Ok (fmat fc (S p) (fun i m => if Nat.eqb m 0 then spec_log (lpc_error nfft p (plp_sequence a r L hop n B x i) (A i))
                                    else coded_cepstrum (A i) m)).
Proof.
  intros x p r li no Hp Ho Hr Hpost Hh.
  destruct (finite_choice (nat -> R) (fun _ => 0) (fun i A => normal_equations nfft p (plp_sequence a r L hop n B x i) A /\
     plp_row (Z.of_nat (S p)) (fvec nfft (plp_sequence a r L hop n B x i))
     = Ok (fvec (S p) (fun m => if Nat.eqb m 0 then spec_log (lpc_error nfft p (plp_sequence a r L hop n B x i) A) else coded_cepstrum A m))) fc) as [A HA].
  { intros i Hi. apply plp_row_sounding; auto; [unfold nfft; lia|]. apply sounding_iff; auto. }
  exists A. split; [intros; apply HA; auto|]. rewrite rastaplp_rows by (auto; lia).
  rewrite (mapM_fmat _ _ (fun i => fvec (S p) (fun m => if Nat.eqb m 0 then spec_log (lpc_error nfft p (plp_sequence a r L hop n B x i) (A i))
                                    else coded_cepstrum (A i) m))) by (intros; apply HA; auto).
  cbn [rbind]. rewrite no_post_ok by auto. reflexivity.
Qed.

Lemma plp_silent : forall x p li no, (1 <= p)%nat -> (Z.of_nat (S p) <= s_nfilts a)%Z ->
  (exists i, (i < fc)%nat /\ forall j, (j < n)%nat -> channel_energy a L hop B x i j = 0) ->
  plp (fvec N x) a (Z.of_nat (S p)) li no = Raise LinAlgError.
Proof.
  intros x p li no Hp Ho (i & Hi & Hz). unfold plp. rewrite rastaplp_rows by (try lia; exact I).
  rewrite (mapM_first_raise _ _ _ LinAlgError); [reflexivity| |].
  - intros row Hr. unfold fmat in Hr. apply in_map_iff in Hr as (j & <- & Hj).
    destruct (sounding_dec nfft (plp_sequence a false L hop n B x j)) as [G|G].
    + right. destruct (plp_row_sounding p nfft (plp_sequence a false L hop n B x j)) as (A & _ & HA); auto; [unfold nfft; lia|]. eauto.
    + left. apply plp_row_silent; auto. unfold nfft; lia.
  - exists (fvec nfft (plp_sequence a false L hop n B x i)). split; [apply in_map_iff; exists i; split; [auto|apply in_seq; lia]|].
    apply plp_row_silent; auto; [unfold nfft; lia|]. rewrite sounding_iff. intros (j & Hj & _ & Hj2). apply Hj2. apply Hz. auto.
Qed.
End Plp.

(** ** mirror image of the bank *)
Lemma spec_inverse_mirror : forall n c l t, (c <= n)%nat ->
  spec_inverse n c (fun j => l (c - 1 - j)%nat) t = spec_inverse n c l t.
Proof.
  intros n c l t Hc. unfold spec_inverse. f_equal. f_equal. rewrite Nat.min_l by auto.
  destruct c as [|c]; [reflexivity|]. assert (0 < INR n) by (apply lt_0_INR; lia).
  set (th := 2 * PI * INR (c * t) / INR n).
  assert (Th : forall j, (j < S c)%nat -> 2 * PI * INR (j * t) / INR n = th - 2 * PI * INR ((c - j) * t) / INR n).
  { intros j Hj. unfold th. replace (c * t)%nat with ((c - j) * t + j * t)%nat by nia. rewrite plus_INR. field. lra. }
  set (C := bigsum (S c) (fun j => l j * cos (2 * PI * INR (j * t) / INR n))).
  set (D := bigsum (S c) (fun j => l j * sin (2 * PI * INR (j * t) / INR n))).
  assert (E1 : bigsum (S c) (fun j => l (S c - 1 - j)%nat * cos (2 * PI * INR (j * t) / INR n)) = cos th * C + sin th * D).
  { unfold C, D. rewrite (bigsum_rev (S c) (fun j => l j * cos _)), (bigsum_rev (S c) (fun j => l j * sin _)).
    rewrite <- !bigsum_scal, <- bigsum_plus. apply bigsum_ext. intros j Hj. rewrite (Th j Hj). cbn [Nat.sub].
    rewrite cos_minus, Nat.sub_0_r. ring. }
  assert (E2 : bigsum (S c) (fun j => l (S c - 1 - j)%nat * sin (2 * PI * INR (j * t) / INR n)) = sin th * C - cos th * D).
  { unfold C, D. rewrite (bigsum_rev (S c) (fun j => l j * cos _)), (bigsum_rev (S c) (fun j => l j * sin _)).
    rewrite <- !bigsum_scal, <- bigsum_minus. apply bigsum_ext. intros j Hj. rewrite (Th j Hj). cbn [Nat.sub].
    rewrite sin_minus, Nat.sub_0_r. ring. }
  rewrite E1, E2. pose proof (sin2_cos2 th) as SC. unfold Rsqr in SC.
  replace ((cos th * C + sin th * D) ^ 2 + (sin th * C - cos th * D) ^ 2) with ((sin th * sin th + cos th * cos th) * (C ^ 2 + D ^ 2)) by ring.
  rewrite SC. ring.
Qed.
