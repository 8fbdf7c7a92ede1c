(** * Bark filter bank: sane roundings, the Terhardt failure *)
From Coq Require Import Reals ZArith List String Bool Lia Lra Psatz.
From Flocq Require Import Core.
From Verif Require Import Base BaseFacts SpecBase SpecMat SpecFilters SpecBanks BigSum MatFacts
  Preprocessing Converters ConvertersFacts Filters FiltersFacts MelBanks MelBanksFacts MelBanksMore BarkBank
  BarkFacts Binary64.
Import ListNotations.
Local Open Scope R_scope.

Lemma exact_sane : sane_rounding (@rnd exact_env).
Proof. split; simpl; auto. Qed.

Lemma binary64_sane : sane_rounding (@rnd binary64).
Proof.
  split; simpl.
  - intros x y Hxy. apply round_le; auto with typeclass_instances.
    apply FLT_exp_valid. unfold Prec_gt_0. lia.
  - intros k Hk. apply round_generic; auto with typeclass_instances.
    destruct (Z.eq_dec k 9007199254740992) as [->|Hne].
    + replace (IZR 9007199254740992 / 2) with (IZR 1 * bpow radix2 52) by (simpl; lra).
      apply generic_format_FLT. exists (Float radix2 1 52); auto; simpl; lia.
    + replace (IZR k / 2) with (F2R (Float radix2 k (-1))) by (unfold F2R; simpl; lra).
      apply generic_format_FLT. exists (Float radix2 k (-1)); auto; simpl; lia.
Qed.

Lemma sane_nonneg : forall r x, sane_rounding r -> 0 <= x -> 0 <= r x.
Proof.
  intros r x [H1 H2] Hx. pose proof (H2 0%Z ltac:(lia)). replace (0 / 2) with 0 in H by lra.
  rewrite <- H. apply H1; auto.
Qed.
Lemma sane_zero : forall r, sane_rounding r -> r 0 = 0.
Proof. intros r [H1 H2]. pose proof (H2 0%Z ltac:(lia)). replace (0 / 2) with 0 in H by lra. auto. Qed.

Lemma Zfloor_nonneg : forall x, 0 <= x -> (0 <= Zfloor x)%Z.
Proof. intros. apply Zfloor_lub. auto. Qed.

Lemma sane_bins : forall r nfft fs low h, sane_rounding r ->
  (0 <= nfft < 9007199254740992)%Z -> (0 < fs)%Z -> 0 <= low -> h <= IZR fs / 2 ->
  (0 <= Zfloor (r (IZR (nfft + 1) * (low / IZR fs))%R))%Z /\
  (Zfloor (r (IZR (nfft + 1) * (h / IZR fs))%R) <= Z.of_nat (S (half nfft)))%Z.
Proof.
  intros r nfft fs low h Hr Hn Hfs Hl Hh. assert (0 < IZR fs) by (apply IZR_lt; auto). split.
  - apply Zfloor_nonneg, sane_nonneg; auto. apply Rmult_le_pos; [apply IZR_le; lia|].
    apply Rmult_le_pos; [lra | left; apply Rinv_0_lt_compat; auto].
  - destruct Hr as [R1 R2].
    apply Z.le_trans with (nfft / 2 + 1)%Z.
    2:{ unfold half. rewrite Nat2Z.inj_succ, Z2Nat.id by (apply Z.div_pos; lia). lia. }
    apply le_IZR. eapply Rle_trans; [apply Zfloor_lb|].
    apply Rle_trans with (IZR (nfft + 1) / 2).
    + rewrite <- R2 by lia. apply R1. unfold Rdiv.
      apply Rmult_le_compat_l; [apply IZR_le; lia|].
      apply Rmult_le_reg_r with (IZR fs); auto. rewrite Rmult_assoc, Rinv_l by lra. lra.
    + assert (E : (nfft + 1 <= 2 * (nfft / 2 + 1))%Z)
        by (pose proof (Z.mod_pos_bound nfft 2); pose proof (Z.div_mod nfft 2); lia).
      apply IZR_le in E. rewrite mult_IZR in E. lra.
Qed.

(** ** Terhardt at the default parameters *)
Lemma atan_diff : forall a b, 0 <= a -> a < b -> 
  (b - a) / (1 + b²) <= atan b - atan a <= (b - a) / (1 + a²).
Proof.
  intros a b Ha Hab.
  destruct (MVT_cor2 atan (fun x => / (1 + x²)) a b Hab) as (c & E & Hc).
  { intros x _. replace (/ (1 + x²)) with (/ (1 + x ^ 2)) by (unfold Rsqr; f_equal; ring).
    apply derivable_pt_lim_atan. }
  rewrite E. unfold Rdiv.
  assert (Hm : forall u v, 0 <= u -> u <= v -> / (1 + v²) <= / (1 + u²)).
  { intros u v Hu Huv. apply Rinv_le_contravar; [pose proof (Rle_0_sqr u); lra|].
    apply Rplus_le_compat_l. apply Rsqr_incr_1; lra. }
  split; rewrite (Rmult_comm (/ (1 + c²))); apply Rmult_le_compat_l; try lra; apply Hm; lra.
Qed.

Lemma atan_6_upper : atan 6 * (13.3 / 13) < PI / 2.
Proof.
  assert (E : atan 6 = PI / 2 - atan (/ 6)).
  { rewrite (atan_inv 6) by lra. ring. }
  destruct (atan_diff 0 (/ 6)) as [H _]; try lra. rewrite atan_0 in H.
  unfold Rsqr in H. pose proof PI_4. pose proof PI_RGT_0. 
  assert (0.16 <= (/ 6 - 0) / (1 + / 6 * / 6)) by lra.
  lra.
Qed.

Lemma atan_6_lower : atan 6.2 <= atan 6 * (13.3 / 13).
Proof.
  destruct (atan_diff 6 6.2) as [_ H]; try lra. unfold Rsqr in H.
  assert (Ha : PI / 4 <= atan 6) by (rewrite <- atan_1; left; apply atan_increasing; lra).
  assert (3 < PI). { pose proof PI2_3_2. lra. }
  lra.
Qed.

Lemma Terhardt_high : exists g, bark2hz (hz2bark (Fin 8000) "Terhardt") "Terhardt" = Fin g /\ 8260 <= g.
Proof.
  rewrite hz2bark_Terhardt. replace (8000 * 0.75 / 1000) with 6 by lra.
  unfold bark2hz. cbn [String.eqb Ascii.eqb Bool.eqb]. rewrite fdiv_Fin by lra.
  pose proof atan_6_upper. pose proof atan_6_lower.
  assert (0 < atan 6.2) by (rewrite <- atan_0; apply atan_increasing; lra).
  set (t := 13.3 * atan 6 / 13). replace (atan 6 * (13.3 / 13)) with t in * by (unfold t; lra).
  assert (Hc : 0 < cos t) by (apply cos_gt_0; lra).
  assert (Ht : 6.2 <= tan t).
  { destruct (atan_bound 6.2). rewrite <- (tan_atan 6.2). destruct (Req_dec (atan 6.2) t) as [->|].
    - lra.
    - left. apply tan_increasing; lra. }
  unfold ftan. rewrite fdiv_Fin by lra. cbn [fmul]. eexists; split; [reflexivity|].
  unfold tan in Ht. lra.
Qed.

Lemma bark_Terhardt_fails : forall E nfilts scale, sane_rounding (@rnd E) -> (2 <= nfilts)%Z ->
  @bark_filter_banks E nfilts 512 16000 0 None scale "Terhardt" = Raise IndexError.
Proof.
  intros E nfilts scale Hr Hn. unfold bark_filter_banks, or_half.
  rewrite !Rltb_false by lra. 
  replace ((nfilts <? 0) || (512 / 2 + 1 <? 0))%Z with false
    by (symmetry; apply orb_false_intro; [apply Z.ltb_ge; lia|reflexivity]).
  rewrite hz2bark_Terhardt. replace (0 * 0.75 / 1000) with 0 by lra. rewrite atan_0, Rmult_0_r.
  replace (16000 / 2) with 8000 by lra.
  destruct Terhardt_high as (g & Eg & Hg). 
  rewrite hz2bark_Terhardt in *. set (B := 13.3 * atan (8000 * 0.75 / 1000)) in *.
  remember (Z.to_nat nfilts) as m. destruct m as [|[|n]]; [lia|lia|].
  rewrite flinspace_fvec.
  set (v := spec_col 0 B (S n)).
  assert (V0 : v 0%nat = 0) by (unfold v, spec_col; simpl; ring).
  assert (Vn : v (S n) = B).
  { unfold v, spec_col. field. apply not_0_INR; lia. }
  assert (Hfirst : nth 0 (map (bark_bin 512 16000 "Terhardt") (fvec (S (S n)) v)) NaN = Fin (IZR 0)).
  { rewrite (nth_map _ _ _ _ _ NaN) by (rewrite fvec_length; lia). rewrite fvec_nth by lia. rewrite V0.
    rewrite (bark_bin_eq 512 16000 "Terhardt" 0 0); [|  |lia].
    - replace (IZR (512 + 1) * (0 / 16000)) with 0 by lra. rewrite sane_zero by auto.
      do 2 f_equal. apply (Zfloor_IZR 0).
    - unfold bark2hz. cbn [String.eqb Ascii.eqb Bool.eqb]. rewrite fdiv_Fin by lra.
      replace (0 / 13) with 0 by lra. unfold ftan. rewrite cos_0, sin_0, fdiv_Fin by lra. cbn [fmul]. f_equal. lra. }
  set (hi := Zfloor (rnd (IZR (512 + 1) * (g / 16000)))).
  assert (Hlast : last (map (bark_bin 512 16000 "Terhardt") (fvec (S (S n)) v)) NaN = Fin (IZR hi)).
  { rewrite last_nth, map_length, fvec_length. replace (S (S n) - 1)%nat with (S n) by lia.
    rewrite (nth_map _ _ _ _ _ NaN) by (rewrite fvec_length; lia). rewrite fvec_nth by lia. rewrite Vn.
    rewrite (bark_bin_eq 512 16000 "Terhardt" B g); auto. lia. }
  assert (Hhi : (258 <= hi)%Z).
  { unfold hi. apply Zfloor_lub. destruct Hr as [R1 R2].
    pose proof (R2 516%Z ltac:(lia)) as E516. replace (516 / 2) with 258 in E516 by lra. rewrite <- E516.
    apply R1. simpl. lra. }
  rewrite Hfirst, Hlast.
  change (fvec (S (S n)) v) with (Fin (v 0%nat) :: map (fun i => Fin (v i)) (seq 1 (S n))).
  cbn [mapM]. cbn [py_int rbind]. rewrite !Ztrunc_IZR. rewrite bark_row_ext by lia.
  rewrite (foldM_set_raise _ _ _ 257%Z); auto.
  - apply zrange_In. lia.
  - unfold zlen. rewrite repeat_length. reflexivity || (vm_compute; congruence).
Qed.
