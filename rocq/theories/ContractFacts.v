(** * Proofs for C181: root spectrograms do not spread recordings apart *)
From Coq Require Import Reals ZArith List String Bool Lia Lra Psatz.
From Coquelicot Require Rcomplements.
From Verif Require Import Base BaseFacts SpecBase BigSum Preprocessing SpecMat MatFacts SpecFilters SpecBanks SpecFeatures DctFacts WindowFacts Features
  Extractors FeaturesFacts FeaturesMore FeaturesLaws FftFacts SpecInvariance InvarianceFacts InvarianceLaws SpecNoise NoiseFacts SpecBudget BudgetFacts SpecContract.
Import ListNotations.
Local Open Scope R_scope.

(** ** Pre-emphasis and overlap *)
Lemma pre_step : forall c a b, (a - c * b) ^ 2 <= (1 + Rabs c) * (a ^ 2 + Rabs c * b ^ 2).
Proof.
  intros c a b. pose proof (pow2_ge_0 (a + b)) as S1. pose proof (pow2_ge_0 (a - b)) as S2. pose proof (Rabs_pos c) as C0. pose proof (pow2_abs c) as C2.
  assert (K : - (2 * c * (a * b)) <= Rabs c * (a ^ 2 + b ^ 2)).
  { destruct (Rle_dec 0 c) as [P|P].
    - rewrite (Rabs_pos_eq c) by exact P. pose proof (Rmult_le_pos _ _ P S1). lra.
    - rewrite (Rabs_left c) by lra. pose proof (Rmult_le_pos (- c) _ ltac:(lra) S2). lra. }
  replace ((a - c * b) ^ 2) with (a ^ 2 - 2 * c * (a * b) + c ^ 2 * b ^ 2) by ring. rewrite <- C2.
  replace ((1 + Rabs c) * (a ^ 2 + Rabs c * b ^ 2)) with (a ^ 2 + Rabs c * (a ^ 2 + b ^ 2) + Rabs c ^ 2 * b ^ 2) by ring. lra.
Qed.
Lemma pre_energy : forall on c e N, bigsum N (fun t => spec_pre on c e t ^ 2) <= pre_gain on c ^ 2 * bigsum N (fun t => e t ^ 2).
Proof.
  intros on c e N. unfold pre_gain. destruct on; [|cbn [spec_pre]; lra]. destruct N as [|N]; [simpl; lra|].
  rewrite bigsum_S_l. cbn [spec_pre]. pose proof (Rabs_pos c) as C0. set (g := Rabs c) in *.
  assert (T : bigsum N (fun t => (e (S t) - c * e t) ^ 2) <= (1 + g) * (bigsum N (fun t => e (S t) ^ 2) + g * bigsum N (fun t => e t ^ 2))).
  { rewrite <- (bigsum_scal N g), <- bigsum_plus, <- bigsum_scal. apply bigsum_le. intros t _. apply pre_step. }
  assert (E1 : bigsum (S N) (fun t => e t ^ 2) = e 0%nat ^ 2 + bigsum N (fun t => e (S t) ^ 2)) by exact (bigsum_S_l N (fun t => e t ^ 2)).
  assert (E2 : bigsum (S N) (fun t => e t ^ 2) = bigsum N (fun t => e t ^ 2) + e N ^ 2) by reflexivity.
  pose proof (pow2_ge_0 (e N)) as P1. pose proof (pow2_ge_0 (e 0%nat)) as P2. set (A := bigsum (S N) (fun t => e t ^ 2)) in *.
  set (U := bigsum N (fun t => e (S t) ^ 2)) in *. set (V := bigsum N (fun t => e t ^ 2)) in *.
  assert (K1 : g * V <= g * A) by (apply Rmult_le_compat_l; lra).
  assert (K2 : (1 + g) * (U + g * V) <= (1 + g) * (A - e 0%nat ^ 2 + g * A)) by (apply Rmult_le_compat_l; lra).
  assert (K3 : 0 <= g * e 0%nat ^ 2) by (apply Rmult_le_pos; lra).
  replace ((1 + g) ^ 2 * A) with ((1 + g) * (A + g * A)) by ring. lra.
Qed.
Lemma overlap_covers : forall L hop, (0 < hop)%nat -> (L <= overlap L hop * hop)%nat.
Proof.
  intros L hop Hh. unfold overlap. pose proof (Nat.div_mod (L + hop - 1) hop ltac:(lia)) as D. pose proof (Nat.mod_upper_bound (L + hop - 1) hop ltac:(lia)). rewrite Nat.mul_comm. lia.
Qed.
Lemma bigsum_more : forall n m f, (n <= m)%nat -> (forall k, (k < m)%nat -> 0 <= f k) -> bigsum n f <= bigsum m f.
Proof.
  intros n m f H Hf. replace m with (n + (m - n))%nat by lia. rewrite bigsum_split. assert (0 <= bigsum (m - n) (fun i => f (n + i)%nat)) by (apply bigsum_nonneg; intros; apply Hf; lia). lra.
Qed.
(** every sample is in at most [overlap L hop] rows *)
Lemma rows_overlap : forall N L hop e, (0 < hop)%nat -> (L <= N)%nat -> (forall t, 0 <= e t) ->
  bigsum (frame_count N L hop) (fun i => bigsum L (fun t => e (i * hop + t)%nat)) <= INR (overlap L hop) * bigsum N e.
Proof.
  intros N L hop e Hh HL He. set (m := overlap L hop). set (e' := fun u => if (u <? N)%nat then e u else 0).
  assert (E0 : forall u, 0 <= e' u) by (intros u; unfold e'; destruct (u <? N)%nat; [apply He|lra]).
  assert (EN : forall n, bigsum n e' <= bigsum N e).
  { intros n. destruct (Nat.le_gt_cases n N) as [H|H].
    - rewrite (bigsum_ext n e' e) by (intros i Hi; unfold e'; destruct (Nat.ltb_spec i N); [reflexivity|lia]). apply bigsum_more; auto.
    - replace n with (N + (n - N))%nat by lia. rewrite bigsum_split, (bigsum_zero (n - N)) by (intros i _; unfold e'; destruct (Nat.ltb_spec (N + i) N); [lia|reflexivity]).
      rewrite (bigsum_ext N e' e) by (intros i Hi; unfold e'; destruct (Nat.ltb_spec i N); [reflexivity|lia]). lra. }
  apply Rle_trans with (bigsum (frame_count N L hop) (fun i => bigsum m (fun q => bigsum hop (fun r => e' (i * hop + (q * hop + r))%nat)))).
  - apply bigsum_le. intros i Hi. rewrite (bigsum_ext L _ (fun t => e' (i * hop + t)%nat)).
    + assert (FL : forall k, bigsum k (fun q => bigsum hop (fun r => e' (i * hop + (q * hop + r))%nat)) = bigsum (k * hop) (fun t => e' (i * hop + t)%nat)).
      { induction k as [|k IH]; [reflexivity|]. rewrite bigsum_S, IH. replace (S k * hop)%nat with (k * hop + hop)%nat by lia. rewrite bigsum_split. reflexivity. }
      rewrite FL. apply bigsum_more; [apply overlap_covers; exact Hh|]. intros; apply E0.
    + intros t Ht. unfold e'. destruct (Nat.ltb_spec (i * hop + t) N); [reflexivity|]. pose proof (frame_in N L hop i t Hh HL Hi Ht). lia.
  - rewrite bigsum_swap, <- bigsum_const. apply bigsum_le. intros q _.
    assert (FL : forall k, bigsum k (fun i => bigsum hop (fun r => e' (i * hop + (q * hop + r))%nat)) = bigsum (k * hop) (fun t => e' (q * hop + t)%nat)).
    { induction k as [|k IH]; [reflexivity|]. rewrite bigsum_S, IH. replace (S k * hop)%nat with (k * hop + hop)%nat by lia. rewrite bigsum_split. f_equal. apply bigsum_ext. intros r _. f_equal. lia. }
    rewrite FL. eapply Rle_trans; [|apply (EN (q * hop + frame_count N L hop * hop)%nat)]. rewrite bigsum_split.
    assert (0 <= bigsum (q * hop) e') by (apply bigsum_nonneg; intros; apply E0). lra.
Qed.
Lemma frames_energy : forall a co N L hop e, (0 < hop)%nat -> (L <= N)%nat ->
  bigsum (frame_count N L hop) (fun i => frame_energy L (frame_of a co L hop e i)) <= INR (overlap L hop) * (pre_gain (s_pre_emph a) co ^ 2 * bigsum N (fun t => e t ^ 2)).
Proof.
  intros a co N L hop e Hh HL. set (p := spec_pre (s_pre_emph a) co e).
  apply Rle_trans with (bigsum (frame_count N L hop) (fun i => bigsum L (fun t => p (i * hop + t)%nat ^ 2))).
  - apply bigsum_le. intros i _. apply bigsum_le. intros t Ht. unfold frame_of, spec_frame. fold p. pose proof (spec_window_bounds (win_type (window_of a)) L t Ht) as W.
    rewrite Rpow_mult_distr. rewrite <- (Rmult_1_l (p _ ^ 2)) at 2. apply Rmult_le_compat_r; [apply pow2_ge_0|]. rewrite <- (pow1 2). apply pow_incr. lra.
  - eapply Rle_trans; [apply (rows_overlap N L hop (fun t => p t ^ 2)); auto; intros; apply pow2_ge_0|]. apply Rmult_le_compat_l; [apply pos_INR|]. apply pre_energy.
Qed.

(** ** Roots of band energies *)
Lemma root_gap : forall h m L f g b, (0 < m)%nat -> (forall k, (k <= h)%nat -> 0 <= b k) ->
  (sqrt (spec_band h m L g b) - sqrt (spec_band h m L f b)) ^ 2 <= spec_band h m L (fun t => g t - f t) b.
Proof.
  intros h m L f g b Hm Hb. pose proof (band_root_plus h m L f g b Hm Hb) as K1. pose proof (band_root_plus h m L g f b Hm Hb) as K2.
  assert (S1 : spec_band h m L (fun t => f t - g t) b = spec_band h m L (fun t => g t - f t) b).
  { unfold spec_band. apply bigsum_ext. intros k _. f_equal. unfold spec_power, spec_sq. rewrite <- !spec_re_minus, <- !spec_im_minus. f_equal. ring. }
  rewrite S1 in K2. assert (D0 : 0 <= spec_band h m L (fun t => g t - f t) b) by (apply spec_band_nonneg; assumption).
  rewrite <- (pow2_sqrt _ D0). rewrite <- pow2_abs. apply pow_incr. split; [apply Rabs_pos|]. apply Rabs_le. lra.
Qed.
Lemma roots_contract : forall n m L f g B, (0 < m)%nat -> (L <= m)%nat -> thrifty n (m / 2) B ->
  bigsum n (fun j => (sqrt (spec_band (m / 2) m L g (B j)) - sqrt (spec_band (m / 2) m L f (B j))) ^ 2) <= frame_energy L (fun t => g t - f t).
Proof.
  intros n m L f g B Hm HL HB. apply Rle_trans with (bigsum n (fun j => spec_band (m / 2) m L (fun t => g t - f t) (B j))).
  - apply bigsum_le. intros j Hj. apply root_gap; [exact Hm|]. intros k Hk. apply (HB k Hk). exact Hj.
  - eapply Rle_trans; [apply bands_total; assumption|]. apply total_energy; assumption.
Qed.
Lemma ln_gap : forall u v w, 0 < w -> w <= u -> w <= v -> Rabs (ln u - ln v) <= Rabs (u - v) / w.
Proof.
  assert (G : forall u v w, 0 < w -> w <= v -> v <= u -> Rabs (ln u - ln v) <= Rabs (u - v) / w).
  { intros u v w Hw Hv Huv. pose proof (Rcomplements.ln_le v u ltac:(lra) Huv) as LL. rewrite (Rabs_pos_eq (ln u - ln v)), (Rabs_pos_eq (u - v)) by lra.
    pose proof (ln_tangent u v ltac:(lra) ltac:(lra)) as T. apply Rle_trans with ((u - v) / v).
    - replace ((u - v) / v) with (u / v - 1) by (field; lra). lra.
    - apply Rmult_le_compat_l; [lra|]. apply Rinv_le_contravar; lra. }
  intros u v w Hw Hu Hv. destruct (Rle_dec v u); [apply G; assumption|]. rewrite Rabs_minus_sym, (Rabs_minus_sym u). apply G; lra.
Qed.
Lemma logs_contract : forall n P P2 D m, 0 <= D -> sqrt D < m -> (forall j, (j < n)%nat -> 0 <= P2 j /\ m <= sqrt (P j)) ->
  bigsum n (fun j => (sqrt (P2 j) - sqrt (P j)) ^ 2) <= D ->
  bigsum n (fun j => (spec_log (P j) - spec_log (P2 j)) ^ 2) <= (2 * sqrt D / (m - sqrt D)) ^ 2.
Proof.
  intros n P P2 D m HD Hm HP HS. pose proof (sqrt_pos D) as S0. set (w := m - sqrt D). assert (W : 0 < w) by (unfold w; lra).
  apply Rle_trans with (bigsum n (fun j => (2 / w) ^ 2 * (sqrt (P2 j) - sqrt (P j)) ^ 2)).
  - apply bigsum_le. intros j Hj. destruct (HP j Hj) as (P20 & Pm).
    assert (Q : Rabs (sqrt (P2 j) - sqrt (P j)) <= sqrt D).
    { rewrite <- sqrt_Rsqr_abs. apply sqrt_le_1_alt. rewrite Rsqr_pow2. eapply Rle_trans; [|exact HS].
      apply (bigsum_ge_term n (fun j => (sqrt (P2 j) - sqrt (P j)) ^ 2)); [intros; apply pow2_ge_0|exact Hj]. }
    assert (Q2 : w <= sqrt (P2 j)).
    { unfold w. pose proof (Rle_abs (- (sqrt (P2 j) - sqrt (P j)))) as A. rewrite Rabs_Ropp in A. lra. }
    assert (Q1 : w <= sqrt (P j)) by (unfold w; lra).
    assert (R1 : 0 < P j) by (apply sqrt_lt_0_alt; rewrite sqrt_0; lra). assert (R2 : 0 < P2 j) by (apply sqrt_lt_0_alt; rewrite sqrt_0; lra).
    assert (LS : forall z, 0 < z -> spec_log z = 2 * ln (sqrt z)).
    { intros z Hz. unfold spec_log. destruct (Req_EM_T z 0); [lra|]. rewrite <- (sqrt_sqrt z) at 1 by lra. rewrite ln_mult by (apply sqrt_lt_R0; exact Hz). ring. }
    rewrite (LS (P j) R1), (LS (P2 j) R2). pose proof (ln_gap (sqrt (P j)) (sqrt (P2 j)) w W Q1 Q2) as LG. rewrite (Rabs_minus_sym (sqrt (P j))) in LG.
    rewrite <- Rpow_mult_distr, <- pow2_abs, <- (pow2_abs (2 / w * _)). apply pow_incr. split; [apply Rabs_pos|].
    rewrite <- Rmult_minus_distr_l, !Rabs_mult. unfold Rdiv in *. rewrite Rabs_mult, (Rabs_pos_eq (/ w)) by (left; apply Rinv_0_lt_compat; exact W). rewrite Rmult_assoc.
    apply Rmult_le_compat_l; [apply Rabs_pos|]. rewrite (Rmult_comm (/ w)). exact LG.
  - rewrite bigsum_scal. replace ((2 * sqrt D / w) ^ 2) with ((2 / w) ^ 2 * sqrt D ^ 2) by (field; lra). rewrite pow2_sqrt by exact HD. apply Rmult_le_compat_l; [apply pow2_ge_0|exact HS].
Qed.

(** ** The theorems *)
Lemma frame_gap : forall a co L hop x x2 i, frame_energy L (fun t => frame_of a co L hop x2 i t - frame_of a co L hop x i t) = frame_energy L (frame_of a co L hop (fun s => x2 s - x s) i).
Proof. intros. unfold frame_energy. apply bigsum_ext. intros t _. rewrite frame_minus. reflexivity. Qed.
Lemma spectrogram_contract : forall (E : Env) s a N L hop n B x x2,
  @well_framed E a N L hop -> (Z.of_nat L <= s_nfft a)%Z -> (0 < n)%nat ->
  @spectro_bank E s a = Ok (fmat n (S (half (s_nfft a))) B) -> thrifty n (half (s_nfft a)) B ->
  exists P Q P2 Q2,
    @spectrogram E s (fvec N x) a = Ok (fmat (frame_count N L hop) n P, fmat (frame_count N L hop) (S (half (s_nfft a))) Q) /\
    @spectrogram E s (fvec N x2) a = Ok (fmat (frame_count N L hop) n P2, fmat (frame_count N L hop) (S (half (s_nfft a))) Q2) /\
    (forall i, (i < frame_count N L hop)%nat ->
       bigsum n (fun j => (sqrt (P2 i j) - sqrt (P i j)) ^ 2) <= frame_energy L (frame_of a (spectro_coeff s a) L hop (fun t => x2 t - x t) i)) /\
    bigsum (frame_count N L hop) (fun i => bigsum n (fun j => (sqrt (P2 i j) - sqrt (P i j)) ^ 2))
    <= INR (overlap L hop) * (pre_gain (s_pre_emph a) (spectro_coeff s a) ^ 2 * apart_energy N x x2).
Proof.
  intros E s a N L hop n B x x2 Hw HL Hn HB HT. assert (W : (0 < hop)%nat /\ (1 <= L <= N)%nat) by (unfold well_framed in Hw; lia).
  do 4 eexists. split; [apply spectrogram_fvec; eauto; lia|]. split; [apply spectrogram_fvec; eauto; lia|]. cbv beta.
  set (m := Z.to_nat (s_nfft a)). rewrite half_nat in * by lia. fold m in HT. fold m.
  assert (F : forall i, bigsum n (fun j => (sqrt (spec_band (m / 2) m L (frame_of a (spectro_coeff s a) L hop x2 i) (B j)) - sqrt (spec_band (m / 2) m L (frame_of a (spectro_coeff s a) L hop x i) (B j))) ^ 2)
    <= frame_energy L (frame_of a (spectro_coeff s a) L hop (fun t => x2 t - x t) i)).
  { intros i. rewrite <- frame_gap. apply roots_contract; [unfold m; lia|unfold m; lia|exact HT]. }
  split; [intros i _; apply F|]. eapply Rle_trans; [apply bigsum_le; intros i _; apply F|]. apply frames_energy; tauto || lia.
Qed.

Section Contract.
Variables (E : Env) (e : extractor) (a : sargs) (c : cargs) (N L hop n : nat) (B : nat -> nat -> R) (x x2 : nat -> R).
Hypothesis Hw : @well_framed E a N L hop.
Hypothesis HL : (Z.of_nat L <= s_nfft a)%Z.
Hypothesis Hn : (0 < n)%nat.
Hypothesis HB : @extractor_bank E e a = Ok (fmat n (S (half (s_nfft a))) B).
Hypothesis HT : thrifty n (half (s_nfft a)) B.
Hypothesis Hnc : (0 <= c_num_ceps c <= s_nfilts a)%Z.
Hypothesis Ht : (1 <= c_dct_type c <= 4)%Z.
Hypothesis H1 : c_dct_type c = 1%Z -> (2 <= n)%nat.
Hypothesis Hu : c_use_energy c = false.
Hypothesis Hl : no_lifter c.
Hypothesis Hm : no_normalisation c.
Let K := Nat.min (Z.to_nat (c_num_ceps c)) n.
Let co := extractor_coeff e a.
Let band y i j := spec_band (half (s_nfft a)) (Z.to_nat (s_nfft a)) L (frame_of a co L hop y i) (B j).
Let D i := frame_energy L (frame_of a co L hop (fun t => x2 t - x t) i).

Lemma contract_band : forall y i j, (j < n)%nat -> 0 <= band y i j.
Proof. intros y i j Hj. assert (1 <= L)%nat by (unfold well_framed in Hw; lia). apply (thrifty_band n); auto. lia. Qed.
Lemma contract_roots : forall i, bigsum n (fun j => (sqrt (band x2 i j) - sqrt (band x i j)) ^ 2) <= D i.
Proof.
  intros i. assert (1 <= L)%nat by (unfold well_framed in Hw; lia). unfold D, band. rewrite <- frame_gap. rewrite half_nat in * by lia. apply roots_contract; try lia. exact HT.
Qed.
Lemma log_contract : In e [Mfcc; Imfcc; Lfcc] ->
  exists y y2, @run E e (fvec N x) a c = Ok (fmat (frame_count N L hop) K y) /\ @run E e (fvec N x2) a c = Ok (fmat (frame_count N L hop) K y2) /\
    forall i m, (i < frame_count N L hop)%nat -> (forall j, (j < n)%nat -> m <= sqrt (band x i j)) -> sqrt (D i) < m ->
      sqdist K (y i) (y2 i) <= (2 * sqrt (D i) / (m - sqrt (D i))) ^ 2.
Proof.
  intros He. assert (L1 : (1 <= L)%nat) by (unfold well_framed in Hw; lia).
  destruct (@run_distance E e a c N L hop n B x x2 Hw ltac:(lia) Hn HB) as (y & y2 & Y & Y2 & DD); auto.
  - intros i j _ Hj. pose proof (contract_band x i j Hj). pose proof (contract_band x2 i j Hj). destruct He as [<-|[<-|[<-|[]]]]; split; assumption.
  - exists y, y2. split; [exact Y|]. split; [exact Y2|]. intros i m Hi Hb Hd. destruct (DD i i) as [D1 _]. eapply Rle_trans; [exact D1|].
    assert (C : forall v, compression e v = spec_log v) by (destruct He as [<-|[<-|[<-|[]]]]; reflexivity). unfold sqdist.
    rewrite (bigsum_ext n _ (fun j => (spec_log (band x i j) - spec_log (band x2 i j)) ^ 2)) by (intros; rewrite !C; reflexivity).
    apply logs_contract; auto; [apply frame_energy_pos| |apply contract_roots]. intros j Hj. split; [apply contract_band; exact Hj|apply Hb; exact Hj].
Qed.
Lemma root_contract : e = Msrcc (/ 2) ->
  exists y y2, @run E e (fvec N x) a c = Ok (fmat (frame_count N L hop) K y) /\ @run E e (fvec N x2) a c = Ok (fmat (frame_count N L hop) K y2) /\
    (forall i, (i < frame_count N L hop)%nat -> sqdist K (y i) (y2 i) <= D i) /\
    bigsum (frame_count N L hop) (fun i => sqdist K (y i) (y2 i)) <= INR (overlap L hop) * (pre_gain (s_pre_emph a) co ^ 2 * apart_energy N x x2).
Proof.
  intros He. assert (W : (0 < hop)%nat /\ (1 <= L <= N)%nat) by (unfold well_framed in Hw; lia).
  destruct (@run_distance E e a c N L hop n B x x2 Hw ltac:(lia) Hn HB) as (y & y2 & Y & Y2 & DD); auto.
  - intros i j _ Hj. pose proof (contract_band x i j Hj) as B1. pose proof (contract_band x2 i j Hj) as B2. rewrite He. split; right; right; (split; [|lra]); rewrite <- He; assumption.
  - exists y, y2. split; [exact Y|]. split; [exact Y2|].
    assert (C : forall v, 0 <= v -> compression e v = sqrt v).
    { intros v Hv. rewrite He. cbn [compression]. destruct (Req_EM_T (/ 2) 0); [lra|]. unfold spec_root. destruct (Req_EM_T v 0) as [->|V]; [rewrite sqrt_0; reflexivity|].
      apply Rpower_sqrt. lra. }
    assert (F : forall i, sqdist K (y i) (y2 i) <= D i).
    { intros i. destruct (DD i i) as [D1 _]. eapply Rle_trans; [exact D1|]. eapply Rle_trans; [|apply contract_roots]. right. unfold sqdist. apply bigsum_ext. intros j Hj.
      fold co. change (spec_band _ _ _ (frame_of a co L hop x i) _) with (band x i j). change (spec_band _ _ _ (frame_of a co L hop x2 i) _) with (band x2 i j).
      rewrite !C by (apply contract_band; exact Hj). ring. }
    split; [intros i _; apply F|]. eapply Rle_trans; [apply bigsum_le; intros i _; apply F|]. apply frames_energy; tauto || lia.
Qed.
End Contract.
