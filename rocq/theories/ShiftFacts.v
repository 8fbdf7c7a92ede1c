(** * Proofs for C180: the same sound framed from another instant on *)
From Coq Require Import Reals ZArith List String Bool Lia Lra.
From Coquelicot Require Import Complex.
From Coquelicot Require Rcomplements.
From Verif Require Import Base BaseFacts SpecBase BigSum Preprocessing SpecMat MatFacts SpecFilters SpecBanks SpecFeatures WindowFacts Features
  Extractors FeaturesFacts FeaturesMore FeaturesLaws FeaturesPhase CqtFacts FftFacts SpecInvariance InvarianceLaws RoundedBarkFacts NoiseFacts ToneFacts
  Cepstral CepstralFacts SpecOptions OptionFacts SpecBudget BudgetFacts DctFacts SpecColour ColourFacts SpecShift.
Import ListNotations.
Local Open Scope R_scope.

(** ** One frame *)
Lemma slip_same : forall wt L s a b th M, (s <= L)%nat -> (1 <= L)%nat -> (forall t, (t + s < L)%nat -> b (t + s)%nat = a t) ->
  (forall t, (t < L)%nat -> Rabs (a t) <= M) -> (forall t, (t < L)%nat -> Rabs (b t) <= M) ->
  Cmod (Cminus (trig L (fun t => spec_window wt L t * b t) th) (Cmult (cis (th * INR s)) (trig L (fun t => spec_window wt L t * a t) th))) <= 2 * INR s * M.
Proof.
  intros wt L s a b th M Hs HL Hab Ba Bb. set (D := fun r t => if (t <? r)%nat then b (t + s - r)%nat else a (t - r)%nat).
  assert (BD : forall r, (r <= s)%nat -> forall t, (t < L)%nat -> Rabs (D r t) <= M).
  { intros r Hr t Ht. unfold D. destruct (Nat.ltb_spec t r); [apply Bb; lia|apply Ba; lia]. }
  assert (K : forall r, (r <= s)%nat ->
    Cmod (Cminus (trig L (fun t => spec_window wt L t * D r t) th) (Cmult (cis (th * INR r)) (trig L (fun t => spec_window wt L t * a t) th))) <= 2 * INR r * M).
  { induction r as [|r IH]; intros Hr.
    - change (INR 0) with 0. rewrite Rmult_0_r, cis_0. unfold trig.
      rewrite (Cbig_ext L _ (fun t => Cmult (RtoC (spec_window wt L t * a t)) (cis (th * INR t)))) by (intros t _; unfold D; cbn [Nat.ltb Nat.leb]; rewrite Nat.sub_0_r; reflexivity).
      match goal with |- Cmod ?z <= _ => replace z with (RtoC 0) by ring end. rewrite Cmod_0. lra.
    - specialize (IH ltac:(lia)).
      assert (S1 : Cmod (Cminus (trig L (fun t => spec_window wt L t * D (S r) t) th) (Cmult (cis th) (trig L (fun t => spec_window wt L t * D r t) th))) <= 2 * M).
      { apply (delay_step wt L (D r) (D (S r))); [exact HL| | |].
        - intros t _. unfold D. change (S t <? S r)%nat with (t <? r)%nat. destruct (t <? r)%nat; f_equal; lia.
        - apply BD. lia.
        - apply BD; lia. }
      set (G1 := trig L (fun t => spec_window wt L t * D (S r) t) th) in *. set (G := trig L (fun t => spec_window wt L t * D r t) th) in *.
      set (G0 := trig L (fun t => spec_window wt L t * a t) th) in *.
      replace (Cminus G1 (Cmult (cis (th * INR (S r))) G0)) with (Cplus (Cminus G1 (Cmult (cis th) G)) (Cmult (cis th) (Cminus G (Cmult (cis (th * INR r)) G0)))).
      + eapply Rle_trans; [apply Cmod_triangle|]. rewrite Cmod_mult, Cmod_cis, S_INR. lra.
      + replace (cis (th * INR (S r))) with (Cmult (cis th) (cis (th * INR r))) by (rewrite cis_add, S_INR; f_equal; ring). ring. }
  specialize (K s (le_n s)). eapply Rle_trans; [|exact K]. right. do 2 f_equal. unfold trig. apply Cbig_ext. intros t Ht. unfold D. do 3 f_equal.
  destruct (Nat.ltb_spec t s); [f_equal; lia|]. rewrite <- Hab by lia. f_equal. lia.
Qed.
(** the first sample may differ by q as well *)
Lemma slip_frame : forall wt L s a b th M q, (s <= L)%nat -> (1 <= L)%nat -> 0 <= q ->
  (forall t, (S t + s < L)%nat -> b (S t + s)%nat = a (S t)) -> ((s < L)%nat -> Rabs (b s - a 0%nat) <= q) ->
  (forall t, (t < L)%nat -> Rabs (a t) <= M) -> (forall t, (t < L)%nat -> Rabs (b t) <= M) ->
  Cmod (Cminus (trig L (fun t => spec_window wt L t * b t) th) (Cmult (cis (th * INR s)) (trig L (fun t => spec_window wt L t * a t) th))) <= 2 * INR s * M + q.
Proof.
  intros wt L s a b th M q Hs HL Hq Hab H0 Ba Bb.
  set (a' := fun t => match t with O => if (s <? L)%nat then b s else a 0%nat | S u => a (S u) end).
  assert (K : Cmod (Cminus (trig L (fun t => spec_window wt L t * b t) th) (Cmult (cis (th * INR s)) (trig L (fun t => spec_window wt L t * a' t) th))) <= 2 * INR s * M).
  { apply slip_same; auto.
    - intros [|t] Ht; unfold a'; [|apply Hab; exact Ht]. destruct (Nat.ltb_spec s L); [reflexivity|lia].
    - intros [|t] Ht; unfold a'; [|apply Ba; exact Ht]. destruct (Nat.ltb_spec s L); [apply Bb; assumption|apply Ba; exact Ht]. }
  assert (K2 : Cmod (Cminus (trig L (fun t => spec_window wt L t * a' t) th) (trig L (fun t => spec_window wt L t * a t) th)) <= q).
  { destruct L as [|L']; [lia|]. assert (W : 0 <= spec_window wt (S L') 0 <= 1) by (apply spec_window_bounds; lia).
    unfold trig. rewrite !Cbig_S_l. unfold a' at 1.
    rewrite (Cbig_ext L' (fun k => Cmult (RtoC (spec_window wt (S L') (S k) * a' (S k))) (cis (th * INR (S k)))) (fun k => Cmult (RtoC (spec_window wt (S L') (S k) * a (S k))) (cis (th * INR (S k))))) by reflexivity.
    set (T := Cbig L' _). change (INR 0) with 0. rewrite Rmult_0_r, cis_0. set (w := spec_window wt (S L') 0) in *.
    set (u := if (s <? S L')%nat then b s else a 0%nat).
    replace (Cminus (Cplus (Cmult (RtoC (w * u)) (RtoC 1)) T) (Cplus (Cmult (RtoC (w * a 0%nat)) (RtoC 1)) T)) with (RtoC (w * (u - a 0%nat))) by (rewrite !RtoC_mult, RtoC_minus; ring).
    rewrite Cmod_R, Rabs_mult, (Rabs_pos_eq w) by tauto.
    assert (U : Rabs (u - a 0%nat) <= q) by (unfold u; destruct (Nat.ltb_spec s (S L')); [apply H0; assumption|rewrite Rminus_eq_0, Rabs_R0; exact Hq]).
    rewrite <- (Rmult_1_l q). apply Rmult_le_compat; try tauto. apply Rabs_pos. }
  set (G := trig L (fun t => spec_window wt L t * b t) th) in *. set (G1 := trig L (fun t => spec_window wt L t * a' t) th) in *. set (G0 := trig L (fun t => spec_window wt L t * a t) th) in *.
  replace (Cminus G (Cmult (cis (th * INR s)) G0)) with (Cplus (Cminus G (Cmult (cis (th * INR s)) G1)) (Cmult (cis (th * INR s)) (Cminus G1 G0))) by ring.
  eapply Rle_trans; [apply Cmod_triangle|]. rewrite Cmod_mult, Cmod_cis. lra.
Qed.

(** ** Pre-emphasis *)
Lemma pre_past : forall on c x N M t, 0 <= M -> (forall t, (t < N)%nat -> Rabs (x t) <= M) -> (t < N)%nat -> Rabs (x t - spec_pre on c x t) <= (if on then Rabs c * M else 0).
Proof.
  intros on c x N M t HM H Ht. destruct on; [|cbn [spec_pre]; rewrite Rminus_eq_0, Rabs_R0; lra]. pose proof (Rmult_le_pos _ _ (Rabs_pos c) HM).
  destruct t as [|u]; cbn [spec_pre]; [rewrite Rminus_eq_0, Rabs_R0; assumption|].
  replace (x (S u) - (x (S u) - c * x u)) with (c * x u) by ring. rewrite Rabs_mult. apply Rmult_le_compat_l; [apply Rabs_pos|apply H; lia].
Qed.
Lemma slip_pos : forall on c M s, 0 <= M -> 0 <= slip_mag on c M s.
Proof.
  intros on c M s HM. unfold slip_mag. pose proof (peak_pos on c M HM). pose proof (pos_INR s). pose proof (Rmult_le_pos _ _ (Rabs_pos c) HM).
  assert (0 <= 2 * INR s * pre_peak on c M) by (apply Rmult_le_pos; lra). destruct on; lra.
Qed.
Lemma bin_slip : forall a co N N2 L hop n s x z M i i2 k, (1 <= L <= n)%nat -> (i * hop + L <= N)%nat -> (i2 * hop + L <= N2)%nat -> 0 <= M ->
  (forall t, (t < N)%nat -> Rabs (x t) <= M) -> (forall t, (t < N2)%nat -> Rabs (z t) <= M) -> later L hop s x i z i2 ->
  Cmod (Cminus (bin n L (frame_of a co L hop z i2) k) (Cmult (cis (angle n k * INR s)) (bin n L (frame_of a co L hop x i) k))) <= slip_mag (s_pre_emph a) co M s.
Proof.
  intros a co N N2 L hop n s x z M i i2 k HL HN HN2 HM Hx Hz (Hs & Hl). rewrite !bin_trig by lia. unfold slip_mag, frame_of, spec_frame.
  set (on := s_pre_emph a). assert (Q0 : 0 <= Rabs co * M) by (apply Rmult_le_pos; [apply Rabs_pos|exact HM]).
  apply (slip_frame (win_type (window_of a)) L s (fun t => spec_pre on co x (i * hop + t)%nat) (fun t => spec_pre on co z (i2 * hop + t)%nat)); try lia; try exact Hs.
  - destruct on; lra.
  - intros t Ht. pose proof (Hl t ltac:(lia)) as L0. pose proof (Hl (S t) ltac:(lia)) as L1. 
    replace (i2 * hop + (S t + s))%nat with (S (i2 * hop + s + t)) by lia. rewrite Nat.add_succ_r in *. rewrite Nat.add_succ_r in L1.
    destruct on; cbn [spec_pre]; rewrite ?L0, L1; reflexivity.
  - intros HsL. rewrite Nat.add_0_r. pose proof (Hl 0%nat ltac:(lia)) as L0. rewrite !Nat.add_0_r in L0.
    pose proof (pre_past on co x N M (i * hop)%nat HM Hx ltac:(lia)) as A1. pose proof (pre_past on co z N2 M (i2 * hop + s)%nat HM Hz ltac:(lia)) as A2. rewrite L0 in A2.
    set (u := spec_pre on co x (i * hop)%nat) in *. set (v := spec_pre on co z (i2 * hop + s)%nat) in *. set (c0 := x (i * hop)%nat) in *.
    replace (v - u) with ((c0 - u) - (c0 - v)) by ring. unfold Rminus at 1. eapply Rle_trans; [apply Rabs_triang|]. rewrite Rabs_Ropp. destruct on; lra.
  - intros t Ht. eapply pre_bound; [exact HM|exact Hx|lia].
  - intros t Ht. eapply pre_bound; [exact HM|exact Hz|lia].
Qed.
Lemma near_mod : forall u v q, Cmod (Cminus u v) <= q -> Rabs (Cmod u - Cmod v) <= q.
Proof.
  intros u v q D. pose proof (Cmod_triangle (Cminus u v) v) as T1. replace (Cplus (Cminus u v) v) with u in T1 by ring.
  pose proof (Cmod_triangle (Copp (Cminus u v)) u) as T2. replace (Cplus (Copp (Cminus u v)) u) with v in T2 by ring. rewrite Cmod_opp in T2. apply Rabs_le. lra.
Qed.
Lemma band_slip : forall a co N N2 L hop n top s x z M i i2 b, (1 <= L <= n)%nat -> (i * hop + L <= N)%nat -> (i2 * hop + L <= N2)%nat -> 0 <= M ->
  (forall t, (t < N)%nat -> Rabs (x t) <= M) -> (forall t, (t < N2)%nat -> Rabs (z t) <= M) -> later L hop s x i z i2 -> (forall k, (k <= top)%nat -> 0 <= b k) ->
  Rabs (sqrt (spec_band top n L (frame_of a co L hop z i2) b) - sqrt (spec_band top n L (frame_of a co L hop x i) b))
  <= slip_level (s_pre_emph a) co M s (bigsum (S top) b) n.
Proof.
  intros a co N N2 L hop n top s x z M i i2 b HL HN HN2 HM Hx Hz Hla B0. assert (N0 : (0 < n)%nat) by lia. assert (Rn : 0 < INR n) by (apply lt_0_INR; exact N0).
  set (f := frame_of a co L hop x i). set (f2 := frame_of a co L hop z i2).
  set (v := fun k => Cmult (rootw n b k) (Cmult (cis (angle n k * INR s)) (bin n L f k))).
  rewrite !band_en by assumption.
  assert (EV : en (S top) (scaled n L f b) = en (S top) v).
  { unfold en. apply bigsum_ext. intros k _. unfold v. rewrite !sq_mod, scaled_bin, !Cmod_mult, Cmod_cis. ring. }
  rewrite EV. set (q := slip_level (s_pre_emph a) co M s (bigsum (S top) b) n).
  assert (EM : 0 <= slip_mag (s_pre_emph a) co M s) by (apply slip_pos; exact HM).
  assert (SB : 0 <= bigsum (S top) b / INR n) by (apply Rcomplements.Rdiv_le_0_compat; [apply bigsum_nonneg; intros; apply B0; lia|exact Rn]).
  assert (Q0 : 0 <= q) by (apply Rmult_le_pos; [apply sqrt_pos|exact EM]).
  assert (EN : en (S top) (fun k => Cminus (scaled n L f2 b k) (v k)) <= q ^ 2).
  { unfold q, slip_level. rewrite Rpow_mult_distr, pow2_sqrt by exact SB. unfold Rdiv. rewrite <- bigsum_scal_r, <- bigsum_scal_r. unfold en. apply bigsum_le. intros k Hk.
    replace (Cminus (scaled n L f2 b k) (v k)) with (Cmult (rootw n b k) (Cminus (bin n L f2 k) (Cmult (cis (angle n k * INR s)) (bin n L f k)))) by (rewrite scaled_bin; unfold v; ring).
    rewrite sq_mod, Cmod_mult, Rpow_mult_distr, rootw_mod by (try exact N0; apply B0; lia). unfold Rdiv. apply Rmult_le_compat_l.
    - apply Rmult_le_pos; [apply B0; lia|left; apply Rinv_0_lt_compat; exact Rn].
    - apply pow_incr. split; [apply Cmod_ge_0|]. unfold f, f2. eapply bin_slip; eassumption. }
  pose proof (root_en_plus (S top) v (scaled n L f2 b) q Q0 EN) as U1. rewrite en_swap in EN. pose proof (root_en_plus (S top) (scaled n L f2 b) v q Q0 EN) as U2.
  apply Rabs_le. lra.
Qed.

(** ** The theorems *)
Lemma spectrogram_slip : forall (E : Env) s a N N2 L hop n B x z M,
  @well_framed E a N L hop -> @well_framed E a N2 L hop -> (Z.of_nat L <= s_nfft a)%Z -> (0 < n)%nat ->
  @spectro_bank E s a = Ok (fmat n (S (half (s_nfft a))) B) -> (forall j k, (j < n)%nat -> (k <= half (s_nfft a))%nat -> 0 <= B j k) ->
  0 <= M -> (forall t, (t < N)%nat -> Rabs (x t) <= M) -> (forall t, (t < N2)%nat -> Rabs (z t) <= M) ->
  exists P Q P2 Q2,
    @spectrogram E s (fvec N x) a = Ok (fmat (frame_count N L hop) n P, fmat (frame_count N L hop) (S (half (s_nfft a))) Q) /\
    @spectrogram E s (fvec N2 z) a = Ok (fmat (frame_count N2 L hop) n P2, fmat (frame_count N2 L hop) (S (half (s_nfft a))) Q2) /\
    forall r i i2, (i < frame_count N L hop)%nat -> (i2 < frame_count N2 L hop)%nat -> later L hop r x i z i2 ->
      (forall k, Rabs (Q2 i2 k - Q i k) <= slip_mag (s_pre_emph a) (spectro_coeff s a) M r) /\
      (forall j, (j < n)%nat ->
         Rabs (sqrt (P2 i2 j) - sqrt (P i j))
         <= slip_level (s_pre_emph a) (spectro_coeff s a) M r (bigsum (S (half (s_nfft a))) (B j)) (Z.to_nat (s_nfft a))).
Proof.
  intros E s a N N2 L hop n B x z M Hw Hw2 HL Hn HB B0 HM Hx Hz. assert (W : (0 < hop)%nat /\ (1 <= L <= N)%nat) by (unfold well_framed in Hw; lia).
  assert (W2 : (L <= N2)%nat) by (unfold well_framed in Hw2; lia).
  do 4 eexists. split; [apply spectrogram_fvec; eauto; lia|]. split; [apply spectrogram_fvec; eauto; lia|]. intros r i i2 Hi Hi2 Hla. cbv beta.
  assert (FT : (i * hop + L <= N)%nat) by (apply frame_fits; tauto || lia). assert (FT2 : (i2 * hop + L <= N2)%nat) by (apply frame_fits; tauto || lia).
  assert (LZ : (1 <= L <= Z.to_nat (s_nfft a))%nat) by lia. split.
  - intros k. rewrite !mag_bin. 
    replace (Cmod (bin (Z.to_nat (s_nfft a)) L (frame_of a (spectro_coeff s a) L hop x i) k))
      with (Cmod (Cmult (cis (angle (Z.to_nat (s_nfft a)) k * INR r)) (bin (Z.to_nat (s_nfft a)) L (frame_of a (spectro_coeff s a) L hop x i) k))) by (rewrite Cmod_mult, Cmod_cis; ring).
    apply near_mod. eapply bin_slip; eassumption.
  - intros j Hj. apply (band_slip a (spectro_coeff s a) N N2); auto.
Qed.

Section Slip.
Variables (E : Env) (e : extractor) (a : sargs) (c : cargs) (N N2 L hop n : nat) (B : nat -> nat -> R) (x z : nat -> R) (M : R).
Hypothesis Hw : @well_framed E a N L hop.
Hypothesis Hw2 : @well_framed E a N2 L hop.
Hypothesis HL : (Z.of_nat L <= s_nfft a)%Z.
Hypothesis Hn : (0 < n)%nat.
Hypothesis HB : @extractor_bank E e a = Ok (fmat n (S (half (s_nfft a))) B).
Hypothesis B0 : forall j k, (j < n)%nat -> (k <= half (s_nfft a))%nat -> 0 <= B j k.
Hypothesis He : In e [Mfcc; Imfcc; Lfcc; Ngcc].
Hypothesis HM : 0 <= M.
Hypothesis Hx : forall t, (t < N)%nat -> Rabs (x t) <= M.
Hypothesis Hz : forall t, (t < N2)%nat -> Rabs (z t) <= M.
Hypothesis Hnc : (0 <= c_num_ceps c <= s_nfilts a)%Z.
Hypothesis Ht : (1 <= c_dct_type c <= 4)%Z.
Hypothesis H1 : c_dct_type c = 1%Z -> (2 <= n)%nat.
Hypothesis Hu : c_use_energy c = false.
Hypothesis Hl : no_lifter c.
Hypothesis Hm : no_normalisation c.
Let K := Nat.min (Z.to_nat (c_num_ceps c)) n.
Let band y i j := spec_band (half (s_nfft a)) (Z.to_nat (s_nfft a)) L (frame_of a (extractor_coeff e a) L hop y i) (B j).

Lemma slip_run : forall N' y, @well_framed E a N' L hop ->
  @run E e (fvec N' y) a c = Ok (fmat (frame_count N' L hop) K (fun i => spec_dct (c_dct_type c) n (fun j => spec_log (band y i j)))).
Proof.
  intros N' y Hw'. assert (1 <= L)%nat by (unfold well_framed in Hw; lia).
  assert (C : forall v, compression e v = spec_log v) by (intros v; destruct He as [<-|[<-|[<-|[<-|[]]]]]; reflexivity).
  assert (CC : forall v, 0 <= v -> compressible e v) by (intros v Hv; destruct He as [<-|[<-|[<-|[<-|[]]]]]; exact Hv).
  rewrite (run_fvec e a c N' L hop n B y); auto; rewrite ?Hu; auto; try lia; try discriminate.
  - f_equal. apply fmat_ext. intros i k _ _. cbv zeta. cbn [andb]. apply spec_dct_ext. intros j _. rewrite C. reflexivity.
  - intros i j _ Hj. apply CC. apply spec_band_nonneg; [lia|]. intros k Hk. apply B0; assumption.
Qed.
Lemma slip_rows :
  exists y y2, @run E e (fvec N x) a c = Ok (fmat (frame_count N L hop) K y) /\ @run E e (fvec N2 z) a c = Ok (fmat (frame_count N2 L hop) K y2) /\
    forall s i i2 r, (i < frame_count N L hop)%nat -> (i2 < frame_count N2 L hop)%nat -> later L hop s x i z i2 ->
      (forall j, (j < n)%nat -> 0 <= r j < 1 /\ 0 < band x i j /\
         slip_level (s_pre_emph a) (extractor_coeff e a) M s (bigsum (S (half (s_nfft a))) (B j)) (Z.to_nat (s_nfft a)) <= r j * sqrt (band x i j)) ->
      sqdist K (y i) (y2 i2) <= bigsum n (fun j => (2 * ln (1 - r j)) ^ 2).
Proof.
  do 2 eexists. split; [apply slip_run; exact Hw|]. split; [apply slip_run; exact Hw2|]. intros s i i2 r Hi Hi2 Hla HC. cbv beta.
  assert (W : (0 < hop)%nat /\ (1 <= L <= N)%nat) by (unfold well_framed in Hw; lia). assert (W2 : (L <= N2)%nat) by (unfold well_framed in Hw2; lia).
  assert (FT : (i * hop + L <= N)%nat) by (apply frame_fits; tauto || lia). assert (FT2 : (i2 * hop + L <= N2)%nat) by (apply frame_fits; tauto || lia).
  assert (LZ : (1 <= L <= Z.to_nat (s_nfft a))%nat) by lia.
  eapply Rle_trans; [apply (sqdist_mono K n); unfold K; lia|]. rewrite dct_sqdist by assumption. apply bigsum_le. intros j Hj. destruct (HC j Hj) as (R1 & P0 & C2).
  pose proof (band_slip a (extractor_coeff e a) N N2 L hop (Z.to_nat (s_nfft a)) (half (s_nfft a)) s x z M i i2 (B j) LZ FT FT2 HM Hx Hz Hla (fun k Hk => B0 j k Hj Hk)) as BS.
  fold (band z i2 j) in BS. fold (band x i j) in BS. set (q := slip_level _ _ _ _ _ _) in *.
  assert (P2 : 0 <= band z i2 j) by (apply spec_band_nonneg; [lia|]; intros k Hk; apply B0; assumption).
  pose proof (log_filtered 1 0 (r j) q (band x i j) (band x i j) (band z i2 j)) as LF. rewrite Ropp_0, exp_0, ln_1, !Rmult_1_l in LF.
  specialize (LF Rlt_0_1 (Rle_refl 0) R1 P0 (Rlt_le _ _ P0) P2 (conj (Rle_refl _) (Rle_refl _)) BS C2).
  rewrite <- pow2_abs, <- (pow2_abs (2 * ln (1 - r j))). apply pow_incr. split; [apply Rabs_pos|]. rewrite Rabs_minus_sym.
  replace (spec_log (band z i2 j) - spec_log (band x i j)) with (spec_log (band z i2 j) - (spec_log (band x i j) + 2 * 0)) by ring.
  eapply Rle_trans; [exact LF|]. eapply Rle_trans; [apply Rle_abs|]. right. rewrite <- Rabs_Ropp. f_equal. ring.
Qed.
End Slip.

(** ** Recordings cut out of a longer one *)
Lemma crop_row : forall N N2 L hop T x z i, (0 < hop)%nat -> (hop <= L)%nat -> (L <= N)%nat -> (T + N <= N2)%nat -> (forall t, (t < N)%nat -> x t = z (T + t)%nat) ->
  (i < frame_count N L hop)%nat -> (i + T / hop < frame_count N2 L hop)%nat /\ later L hop (T mod hop) x i z (i + T / hop).
Proof.
  intros N N2 L hop T x z i Hh HhL HL HN Hx Hi. pose proof (Nat.div_mod T hop ltac:(lia)) as D. pose proof (Nat.mod_upper_bound T hop ltac:(lia)) as U.
  pose proof (frame_fits N L hop i Hh HL Hi) as F. assert (E : ((i + T / hop) * hop + T mod hop = i * hop + T)%nat) by (rewrite Nat.mul_add_distr_r, (Nat.mul_comm (T / hop) hop); lia).
  split; [|split; [lia|]].
  - unfold frame_count. assert (i + T / hop <= (N2 - L) / hop)%nat; [|lia]. apply Nat.div_le_lower_bound; [lia|]. rewrite Nat.mul_comm. lia.
  - intros t Ht. rewrite E, Hx by lia. f_equal. lia.
Qed.
