(** * Cepstra from fast Fourier transforms in floating point *)
From Coq Require Import Reals ZArith List String Bool Lia Lra Psatz Permutation.
From Coquelicot Require Import Complex.
From Verif Require Import Base SpecBase BigSum Preprocessing SpecMat SpecFilters SpecBanks SpecFeatures DctFacts CqtFacts Features Extractors
  FeaturesFacts FeaturesMore Rounded SpecRounded RoundedFacts RoundedLaws RoundedWindows WindowFacts RoundedCeps SpecRoundedCeps RoundedCepsLaws RoundedCepsEnd SpecFft FftFacts.
Import ListNotations.
Local Open Scope R_scope.

Lemma dft_spec : forall n y k, dftC n y k =
  (spec_re n n (fun t => fst (y t)) k - spec_im n n (fun t => snd (y t)) k, spec_im n n (fun t => fst (y t)) k + spec_re n n (fun t => snd (y t)) k).
Proof.
  intros n y k. unfold dftC, Cbig, Cmult, cis, spec_re, spec_im. rewrite Nat.min_id. cbn [fst snd].
  f_equal; [rewrite <- bigsum_minus|rewrite <- bigsum_plus]; apply bigsum_ext; intros t _; rewrite ?cos_neg, ?sin_neg; ring.
Qed.
Lemma spec_zero : forall n k, spec_re n n (fun _ => 0) k = 0 /\ spec_im n n (fun _ => 0) k = 0.
Proof. intros n k. unfold spec_re, spec_im. split; apply bigsum_zero; intros; ring. Qed.
Lemma spec_padded : forall n L f k, spec_re n n (fun t => if (t <? L)%nat then f t else 0) k = spec_re n L f k /\
  spec_im n n (fun t => if (t <? L)%nat then f t else 0) k = spec_im n L f k.
Proof.
  intros n L f k. unfold spec_re, spec_im. rewrite Nat.min_id.
  assert (P : forall g, bigsum n (fun t => (if (t <? L)%nat then f t else 0) * g t) = bigsum (Nat.min L n) (fun t => f t * g t)).
  { intros g. replace n with (Nat.min L n + (n - Nat.min L n))%nat at 1 by lia. rewrite bigsum_split.
    rewrite (bigsum_ext (n - Nat.min L n) _ (fun _ => 0)).
    - rewrite bigsum_const, Rmult_0_r, Rplus_0_r. apply bigsum_ext. intros t Ht. destruct (Nat.ltb_spec t L); [reflexivity|lia].
    - intros t Ht. destruct (Nat.ltb_spec (Nat.min L n + t) L); [lia|]. ring. }
  split; apply P.
Qed.

(** ** programs *)
Lemma fft_values : forall rs sr si re im z k, fft rs sr si re im -> (k < fft_size rs)%nat ->
  let n := fft_size rs in let yr t := lin_exact z (sr t) in let yi t := lin_exact z (si t) in
  lin_exact z (re k) = spec_re n n yr k - spec_im n n yi k /\ lin_exact z (im k) = spec_im n n yr k + spec_re n n yi k.
Proof.
  intros rs sr si re im z k H Hk. pose proof (fft_exact z rs sr si re im H k Hk) as X. unfold exactly in X. rewrite dft_spec in X.
  injection X. auto.
Qed.
Lemma fft_rounded : forall (E : Env) u rs sr si re im x, accurate u 0 (@rnd E) -> fft rs sr si re im ->
  let val p := @lin_run E x (@lin_stored E p) in
  let n := fft_size rs in let yr t := val (sr t) in let yi t := val (si t) in
  bigsum n (fun k => (val (re k) - (spec_re n n yr k - spec_im n n yi k)) ^ 2 + (val (im k) - (spec_im n n yr k + spec_re n n yi k)) ^ 2)
  <= (fft_growth u rs - 1) ^ 2 * (INR n * bigsum n (fun t => yr t ^ 2 + yi t ^ 2)).
Proof.
  intros E u rs sr si re im x Ha H val n yr yi. pose proof (fft_error E u x Ha rs sr si re im H) as K. fold n in K.
  eapply Rle_trans; [|exact K]. right. apply bigsum_ext. intros k _. rewrite dft_spec. unfold sq, computed, Cminus, Cplus, Copp. cbn [fst snd].
  fold yr yi. reflexivity.
Qed.

(** with leaves of bounded depth, compared with exact arithmetic throughout *)
Lemma fft_total : forall (E : Env) u d rs smp re im x, accurate u 0 (@rnd E) -> fft rs smp (fun _ => Zero) re im ->
  (forall t, (t < fft_size rs)%nat -> (lin_depth2 (smp t) <= d)%nat) ->
  bigsum (fft_size rs) (fun k => (@lin_run E x (@lin_stored E (re k)) - lin_exact x (re k)) ^ 2 + (@lin_run E x (@lin_stored E (im k)) - lin_exact x (im k)) ^ 2)
  <= (fft_growth u rs * (1 + u) ^ d - 1) ^ 2 * (INR (fft_size rs) * bigsum (fft_size rs) (fun t => lin_size x (smp t) ^ 2)).
Proof.
  intros E u d rs smp re im x Ha H Hd. pose proof Ha as (Hu & _). set (n := fft_size rs) in *.
  assert (Hn : (0 < n)%nat) by (apply (fft_size_pos _ _ _ _ _ H)).
  set (S := bigsum n (fun t => lin_size x (smp t) ^ 2)). assert (HS : 0 <= S) by (apply bigsum_nonneg; intros; apply pow2_ge_0).
  assert (HN : 0 <= INR n * S) by (apply Rmult_le_pos; [apply pos_INR|exact HS]).
  pose proof (growth_ge1 E u Ha rs) as Hg. set (g := fft_growth u rs) in *. pose proof (pow_u_ge1 u d Hu) as Hp. set (q := (1 + u) ^ d) in *.
  set (Y := computed E x smp (fun _ => Zero)). set (X := exactly x smp (fun _ => Zero)).
  assert (Hsq : forall c, 0 <= c -> (c * sqrt (INR n * S)) ^ 2 = c ^ 2 * (INR n * S)) by (intros c Hc; rewrite Rpow_mult_distr, pow2_sqrt by exact HN; reflexivity).
  assert (Lf : forall t, (t < n)%nat -> Rabs (@lin_run E x (@lin_stored E (smp t)) - lin_exact x (smp t)) <= (q - 1) * lin_size x (smp t)).
  { intros t Ht. eapply Rle_trans; [apply (lin_stored_error E u x (smp t) Ha)|]. apply depth_up; auto using lin_size_nonneg. }
  (* the leaves *)
  assert (PD : en n (fun t => Cminus (Y t) (X t)) <= (q - 1) ^ 2 * S).
  { unfold S. rewrite <- bigsum_scal. apply bigsum_le. intros t Ht. unfold sq, Y, X, computed, exactly, Cminus, Cplus, Copp. cbn [fst snd lin_stored lin_run lin_exact].
    rewrite <- Rpow_mult_distr. rewrite Ropp_0, Rplus_0_r. replace (0 ^ 2) with 0 by ring. rewrite Rplus_0_r.
    rewrite <- (pow2_abs (_ + _)). apply pow_incr. split; [apply Rabs_pos|]. apply (Lf t Ht). }
  assert (PY : en n Y <= q ^ 2 * S).
  { unfold S. rewrite <- bigsum_scal. apply bigsum_le. intros t Ht. unfold sq, Y, computed. cbn [fst snd lin_stored lin_run]. replace (0 ^ 2) with 0 by ring.
    rewrite Rplus_0_r, <- Rpow_mult_distr, <- (pow2_abs (lin_run _ _)). apply pow_incr. split; [apply Rabs_pos|].
    specialize (Lf t Ht). pose proof (lin_exact_size x (smp t)).
    replace (@lin_run E x (@lin_stored E (smp t))) with ((@lin_run E x (@lin_stored E (smp t)) - lin_exact x (smp t)) + lin_exact x (smp t)) by ring.
    eapply Rle_trans; [apply Rabs_triang|]. lra. }
  (* the transform of the computed leaves *)
  pose proof (fft_error E u x Ha rs smp _ re im H) as K. fold n g Y in K.
  assert (P1 : en n (fun k => Cminus (computed E x re im k) (dftC n Y k)) <= ((g - 1) * q * sqrt (INR n * S)) ^ 2).
  { rewrite Hsq by (apply Rmult_le_pos; lra). eapply Rle_trans; [exact K|]. rewrite Rpow_mult_distr, Rmult_assoc. apply Rmult_le_compat_l; [apply pow2_ge_0|].
    pose proof (Rmult_le_compat_l _ _ _ (pos_INR n) PY). lra. }
  assert (P2 : en n (fun k => dftC n (fun t => Cminus (Y t) (X t)) k) <= ((q - 1) * sqrt (INR n * S)) ^ 2).
  { rewrite Hsq by lra. change (fun k => dftC n (fun t => Cminus (Y t) (X t)) k) with (dftC n (fun t => Cminus (Y t) (X t))). rewrite en_dft by exact Hn.
    pose proof (Rmult_le_compat_l _ _ _ (pos_INR n) PD). lra. }
  pose proof (sqrt_pos (INR n * S)) as Hs.
  assert (A1 : 0 <= (g - 1) * q * sqrt (INR n * S)) by (repeat apply Rmult_le_pos; lra).
  assert (A2 : 0 <= (q - 1) * sqrt (INR n * S)) by (apply Rmult_le_pos; lra).
  pose proof (en_plus n _ _ _ _ A1 A2 P1 P2) as M. cbv beta in M.
  replace ((g - 1) * q * sqrt (INR n * S) + (q - 1) * sqrt (INR n * S)) with ((g * q - 1) * sqrt (INR n * S)) in M by ring.
  assert (Hgq : 0 <= g * q - 1) by (clear - Hg Hp; clearbody g q; nra).
  rewrite Hsq in M by exact Hgq. eapply Rle_trans; [|exact M]. right. apply bigsum_ext. intros k Hk.
  assert (EX : Cplus (Cminus (computed E x re im k) (dftC n Y k)) (dftC n (fun t => Cminus (Y t) (X t)) k) = Cminus (computed E x re im k) (exactly x re im k)).
  { rewrite (fft_exact x rs smp _ re im H k Hk). fold n X. rewrite (dft_minus n Y X k). unfold Cminus. ring. }
  rewrite EX. unfold sq, computed, exactly, Cminus, Cplus, Copp. cbn [fst snd]. ring.
Qed.

(** ** leaves *)
Lemma leaf_depth : forall on c wt L hop i t, (lin_depth2 (leaf on c wt L hop i t) <= 5)%nat.
Proof. intros. unfold leaf. destruct (t <? L)%nat; cbn [lin_depth2]; [|lia]. pose proof (sample_depth on c (i * hop + t)). lia. Qed.
Lemma leaf_exact : forall a co L hop i z t,
  lin_exact z (leaf (s_pre_emph a) co (win_type (window_of a)) L hop i t) = if (t <? L)%nat then frame_of a co L hop z i t else 0.
Proof.
  intros. unfold leaf, frame_of, spec_frame. destruct (t <? L)%nat; [|reflexivity]. cbn [lin_exact]. rewrite sample_exact. ring.
Qed.
Lemma fft_frame_programs : forall rs a co L hop i bins re im, (bins <= fft_size rs)%nat ->
  fft rs (leaf (s_pre_emph a) co (win_type (window_of a)) L hop i) (fun _ => Zero) re im ->
  frame_programs (fft_size rs) L (fun z => frame_of a co L hop z i) bins re im.
Proof.
  intros rs a co L hop i bins re im Hb H z k Hk. destruct (fft_values _ _ _ _ _ z k H ltac:(lia)) as [-> ->]. cbn [lin_exact].
  destruct (spec_zero (fft_size rs) k) as [-> ->]. rewrite Rminus_0_r, Rplus_0_r.
  destruct (spec_padded (fft_size rs) L (frame_of a co L hop z i) k) as [<- <-].
  split; unfold spec_re, spec_im; apply bigsum_ext; intros t _; rewrite leaf_exact; reflexivity.
Qed.
Lemma leaf_size : forall on c wt L hop i t z M, (0 < L)%nat -> 0 <= M -> (forall s, (s < i * hop + L)%nat -> Rabs (z s) <= M) ->
  lin_size z (leaf on c wt L hop i t) <= (1 + Rabs c) * M.
Proof.
  intros on c wt L hop i t z M HL HM Hz. pose proof (Rabs_pos c) as Hc. pose proof (Rmult_le_pos _ _ Hc HM). unfold leaf.
  destruct (Nat.ltb_spec t L) as [Ht|Ht]; [|cbn [lin_size]; lra]. cbn [lin_size].
  assert (Hs : lin_size z (sample_program on c (i * hop + t)) <= (1 + Rabs c) * M).
  { pose proof (Hz (i * hop + t)%nat ltac:(lia)) as B. unfold sample_program.
    destruct on; [|cbn [lin_size]; lra]. destruct (i * hop + t)%nat as [|s] eqn:Es; [cbn [lin_size]; lra|].
    cbn [lin_size]. pose proof (Hz s ltac:(lia)) as B2. pose proof (Rmult_le_compat_l _ _ _ Hc B2). lra. }
  assert (Hwt : Rabs (spec_window wt L t) <= 1).
  { pose proof (spec_window_bounds wt L t ltac:(lia)). apply Rabs_le. lra. }
  pose proof (lin_size_nonneg z (sample_program on c (i * hop + t))) as H0.
  pose proof (Rmult_le_compat_r _ _ _ H0 Hwt). lra.
Qed.
Lemma frame_size_bound : forall on c wt L hop i n z M, (0 < L)%nat -> 0 <= M -> (forall s, (s < i * hop + L)%nat -> Rabs (z s) <= M) ->
  frame_size on c wt L hop i n z <= INR (Nat.min L n) * ((1 + Rabs c) * M) ^ 2.
Proof.
  intros on c wt L hop i n z M HL HM Hz. unfold frame_size.
  replace n with (Nat.min L n + (n - Nat.min L n))%nat at 1 by lia. rewrite bigsum_split.
  rewrite (bigsum_ext (n - Nat.min L n) _ (fun _ => 0)).
  - rewrite bigsum_const, Rmult_0_r, Rplus_0_r. rewrite <- bigsum_const. apply bigsum_le. intros t _. apply pow_incr. split; [apply lin_size_nonneg|].
    apply leaf_size; assumption.
  - intros t Ht. unfold leaf. destruct (Nat.ltb_spec (Nat.min L n + t) L); [lia|]. cbn [lin_size]. ring.
Qed.

(** ** the noise of a band *)
Lemma fft_actual_noise : forall (E : Env) u rs on c wt L hop i re im x bins b w, accurate u 0 (@rnd E) -> (bins <= fft_size rs)%nat ->
  fft rs (leaf on c wt L hop i) (fun _ => Zero) re im -> (forall k, 0 <= w k <= b) ->
  actual_noise E (fft_size rs) bins x re im w <= b * fft_noise u rs (frame_size on c wt L hop i (fft_size rs) x).
Proof.
  intros E u rs on c wt L hop i re im x bins b w Ha Hb H Hw. set (n := fft_size rs) in *.
  assert (Hn : 0 < INR n) by (apply lt_0_INR, (fft_size_pos _ _ _ _ _ H)).
  set (d := fun k => (@lin_run E x (@lin_stored E (re k)) - lin_exact x (re k)) ^ 2 + (@lin_run E x (@lin_stored E (im k)) - lin_exact x (im k)) ^ 2).
  assert (Hd : forall k, 0 <= d k).
  { intros k. unfold d. pose proof (pow2_ge_0 (@lin_run E x (@lin_stored E (re k)) - lin_exact x (re k))).
    pose proof (pow2_ge_0 (@lin_run E x (@lin_stored E (im k)) - lin_exact x (im k))). lra. }
  assert (Hb0 : 0 <= b) by (pose proof (Hw 0%nat); lra).
  pose proof (fft_total E u 5 rs _ re im x Ha H (fun t _ => leaf_depth on c wt L hop i t)) as T. fold n in T. fold (frame_size on c wt L hop i n x) in T.
  apply Rle_trans with (b / INR n * bigsum n d).
  - apply Rle_trans with (b / INR n * bigsum bins d).
    + rewrite <- bigsum_scal. apply bigsum_le. intros k _. fold (d k). unfold Rdiv.
      replace (w k * d k * / INR n) with (w k * (/ INR n * d k)) by ring. rewrite Rmult_assoc. apply Rmult_le_compat_r; [|apply Hw].
      apply Rmult_le_pos; [left; apply Rinv_0_lt_compat, Hn|apply Hd].
    + apply Rmult_le_compat_l; [apply Rmult_le_pos; [exact Hb0|left; apply Rinv_0_lt_compat, Hn]|].
      replace n with (bins + (n - bins))%nat by lia. rewrite bigsum_split.
      assert (0 <= bigsum (n - bins) (fun k => d (bins + k)%nat)) by (apply bigsum_nonneg; intros; apply Hd). lra.
  - pose proof (Rmult_le_compat_l (b / INR n) _ _ ltac:(apply Rmult_le_pos; [exact Hb0|left; apply Rinv_0_lt_compat, Hn]) T) as K. fold d in K.
    eapply Rle_trans; [exact K|]. right. unfold fft_noise. field. lra.
Qed.

Lemma fft_log_error : forall (E : Env) e a c N L hop n B b x, In e [Mfcc; Imfcc; Lfcc; Ngcc] ->
  @well_framed E a N L hop -> (1 <= s_nfft a)%Z -> (0 < n)%nat ->
  @extractor_bank E e a = Ok (fmat n (S (half (s_nfft a))) B) -> (forall j k, 0 <= B j k <= b) ->
  (0 <= c_num_ceps c <= s_nfilts a)%Z -> (1 <= c_dct_type c <= 4)%Z -> (c_dct_type c = 1%Z -> (2 <= n)%nat) ->
  c_use_energy c = false -> no_lifter c -> no_normalisation c ->
  let K := Nat.min (Z.to_nat (c_num_ceps c)) n in let nf := Z.to_nat (s_nfft a) in let bins := S (half (s_nfft a)) in
  let co := extractor_coeff e a in let wt := win_type (window_of a) in
  let band i j := spec_band (half (s_nfft a)) nf L (frame_of a co L hop x i) (B j) in
  exists y, @run E e (fvec N x) a c = Ok (fmat (frame_count N L hop) K y) /\
    forall (E' : Env) u v r wl hyp lnf rs re im bank dct i k Y,
      accurate u 0 (@rnd E') -> u < 1 -> hypot_within v hyp -> ln_within wl lnf -> 0 < r < 1 ->
      (i < frame_count N L hop)%nat -> (k < K)%nat ->
      fft rs (leaf (s_pre_emph a) co wt L hop i) (fun _ => Zero) re im -> fft_size rs = nf ->
      (forall j, (j < n)%nat -> dot_program (B j) bins (bank j)) ->
      reads n (dct k) -> (forall z, lin_exact z (dct k) = spec_dct (c_dct_type c) n z k) ->
      (forall j, (j < n)%nat -> 0 < band i j /\ b * fft_noise u rs (frame_size (s_pre_emph a) co wt L hop i nf x) <= r ^ 2 * band i j /\
         Rabs (ln (band i j)) <= Y) ->
      Rabs (@log_cepstrum E' lnf hyp (fun q => @lin_stored E' (re q)) (fun q => @lin_stored E' (im q)) nf bank
              (fun q => @lin_stored E' (dct q)) x k - y i k)
      <= gain (dct k) * ((1 + u) ^ lin_depth2 (dct k) * ((1 + wl) * (Y + band_log_bound u v r bins)) - Y).
Proof.
  intros E e a c N L hop n B b x Hin Hw Hnf Hn HB HB0 Hc Ht Ht1 Hue Hl Hnm K nf bins co wt band.
  destruct (run_log_actual E e a c N L hop n B x Hin Hw Hnf Hn HB (fun j k => proj1 (HB0 j k)) Hc Ht Ht1 Hue Hl Hnm) as (y & Hy & H).
  exists y. split; [exact Hy|].
  intros E' u v r wl hyp lnf rs re im bank dct i k Y Ha Hu1 Hh Hln Hr Hi Hk Hf Hsz Hb Hrd Hdct Hband.
  assert (Hbins : (bins <= fft_size rs)%nat).
  { rewrite Hsz. unfold bins, nf, half. pose proof (Z.div_lt (s_nfft a) 2). lia. }
  apply (H E' u v r wl hyp lnf re im bank dct i k Y); auto.
  - fold nf. rewrite <- Hsz. apply fft_frame_programs; assumption.
  - intros j Hj. destruct (Hband j Hj) as (P & Q & T). split; [exact P|]. split; [|exact T].
    eapply Rle_trans; [|exact Q]. fold nf bins. rewrite <- Hsz. apply (fft_actual_noise E' u rs); auto.
Qed.
Lemma fft_root_error : forall (E : Env) e p a c N L hop n B b x, root_exponent e p ->
  @well_framed E a N L hop -> (1 <= s_nfft a)%Z -> (0 < n)%nat ->
  @extractor_bank E e a = Ok (fmat n (S (half (s_nfft a))) B) -> (forall j k, 0 <= B j k <= b) ->
  (0 <= c_num_ceps c <= s_nfilts a)%Z -> (1 <= c_dct_type c <= 4)%Z -> (c_dct_type c = 1%Z -> (2 <= n)%nat) ->
  c_use_energy c = false -> no_lifter c -> no_normalisation c ->
  let K := Nat.min (Z.to_nat (c_num_ceps c)) n in let nf := Z.to_nat (s_nfft a) in let bins := S (half (s_nfft a)) in
  let co := extractor_coeff e a in let wt := win_type (window_of a) in
  let band i j := spec_band (half (s_nfft a)) nf L (frame_of a co L hop x i) (B j) in
  (forall i j, (i < frame_count N L hop)%nat -> (j < n)%nat -> 0 < band i j) ->
  exists y, @run E e (fvec N x) a c = Ok (fmat (frame_count N L hop) K y) /\
    forall (E' : Env) u v r wp hyp powf rs re im bank dct i k Y,
      accurate u 0 (@rnd E') -> u < 1 -> hypot_within v hyp -> pow_within wp p powf -> 0 < r < 1 ->
      (i < frame_count N L hop)%nat -> (k < K)%nat ->
      fft rs (leaf (s_pre_emph a) co wt L hop i) (fun _ => Zero) re im -> fft_size rs = nf ->
      (forall j, (j < n)%nat -> dot_program (B j) bins (bank j)) ->
      reads n (dct k) -> (forall z, lin_exact z (dct k) = spec_dct (c_dct_type c) n z k) ->
      (forall j, (j < n)%nat -> b * fft_noise u rs (frame_size (s_pre_emph a) co wt L hop i nf x) <= r ^ 2 * band i j /\ Rpower (band i j) p <= Y) ->
      Rabs (@root_cepstrum E' powf hyp (fun q => @lin_stored E' (re q)) (fun q => @lin_stored E' (im q)) nf bank
              (fun q => @lin_stored E' (dct q)) x k - y i k)
      <= gain (dct k) * ((1 + u) ^ lin_depth2 (dct k) * ((1 + wp) * exp (Rabs p * band_log_bound u v r bins)) - 1) * Y.
Proof.
  intros E e p a c N L hop n B b x Hin Hw Hnf Hn HB HB0 Hc Ht Ht1 Hue Hl Hnm K nf bins co wt band Hpos.
  destruct (run_root_actual E e p a c N L hop n B x Hin Hw Hnf Hn HB (fun j k => proj1 (HB0 j k)) Hc Ht Ht1 Hue Hl Hnm Hpos) as (y & Hy & H).
  exists y. split; [exact Hy|].
  intros E' u v r wp hyp powf rs re im bank dct i k Y Ha Hu1 Hh Hpw Hr Hi Hk Hf Hsz Hb Hrd Hdct Hband.
  assert (Hbins : (bins <= fft_size rs)%nat).
  { rewrite Hsz. unfold bins, nf, half. pose proof (Z.div_lt (s_nfft a) 2). lia. }
  apply (H E' u v r wp hyp powf re im bank dct i k Y); auto.
  - fold nf. rewrite <- Hsz. apply fft_frame_programs; assumption.
  - intros j Hj. destruct (Hband j Hj) as (Q & T). split; [|exact T].
    eapply Rle_trans; [|exact Q]. fold nf bins. rewrite <- Hsz. apply (fft_actual_noise E' u rs); auto.
Qed.

(** ** existence and growth *)
(** families of transforms, one for each number below m *)
Lemma fft_family : forall (P : nat -> (nat -> lin) -> (nat -> lin) -> Prop),
  (forall t, exists re im, P t re im) -> forall m, exists re im, forall t, (t < m)%nat -> P t (re t) (im t).
Proof.
  intros P H m. induction m as [|m (sre & sim & Hm)]; [exists (fun _ _ => Zero), (fun _ _ => Zero); intros; lia|].
  destruct (H m) as (a & b & Hab).
  exists (fun t => if (t =? m)%nat then a else sre t), (fun t => if (t =? m)%nat then b else sim t). intros t Ht.
  destruct (Nat.eqb_spec t m) as [->|Hne]; [exact Hab|]. apply Hm. lia.
Qed.
Lemma fft_same : forall rs sr si re im re' im', (forall k, re' k = re k /\ im' k = im k) -> fft rs sr si re im -> fft rs sr si re' im'.
Proof.
  intros rs sr si re im re' im' He H. revert re' im' He. induction H as [sr si re im H1 H2|r rs sr si tre tim re im Hr H IH Hk|r rs sr si mre mim re im Hr Hm H IH]; intros re' im' He.
  - apply fft_one; [rewrite (proj1 (He _))|rewrite (proj2 (He _))]; assumption.
  - apply (fft_time r rs sr si tre tim); [exact Hr|exact H|]. intros k Hn inp. destruct (Hk k Hn) as (p & q & Hpq & Ep & Eq). exists p, q.
    split; [exact Hpq|]. split; [rewrite (proj1 (He _)); exact Ep|rewrite (proj2 (He _)); exact Eq].
  - apply (fft_frequency r rs sr si mre mim); [exact Hr|exact Hm|]. intros c Hc. apply (IH c Hc). intros k. apply He.
Qed.
Lemma fft_exists_frequency : forall r rs, (0 < r)%nat -> (forall sr si, exists re im, fft rs sr si re im) ->
  forall sr si, exists re im, fft (r :: rs) sr si re im.
Proof.
  intros r rs Hr IH sr si. set (n := fft_size (r :: rs)). set (q := fft_size rs).
  set (inp := fun a j => if (j <? r)%nat then sr (j * q + a)%nat else si ((j - r) * q + a)%nat).
  set (an := fun c a => 2 * PI * INR (a * c) / INR n).
  set (pq := fun c => either (dot_left (twiddle_re r r c) (2 * r)) (dot_left (twiddle_im r r c) (2 * r))).
  set (mre := fun c a => subst (inp a) (subst (pq c) (dot_left (rotate_re (an c a)) 2))).
  set (mim := fun c a => subst (inp a) (subst (pq c) (dot_left (rotate_im (an c a)) 2))).
  destruct (fft_family (fun c => fft rs (mre c) (mim c)) (fun c => IH _ _) r) as (tre & tim & Hs).
  exists (fun k => tre (k mod r)%nat (k / r)%nat), (fun k => tim (k mod r)%nat (k / r)%nat).
  apply (fft_frequency r rs sr si mre mim); [exact Hr| |].
  - intros c a Hc Hl inp' angle. exists (dot_left (twiddle_re r r c) (2 * r)), (dot_left (twiddle_im r r c) (2 * r)), (dot_left (rotate_re angle) 2), (dot_left (rotate_im angle) 2).
    split; [apply dot_butterfly, dot_left_program|]. split; [apply dot_butterfly, dot_left_program|].
    split; [apply dot_butterfly, dot_left_program|]. split; [apply dot_butterfly, dot_left_program|]. split; reflexivity.
  - intros c Hc. apply (fft_same rs _ _ (tre c) (tim c)); [|apply Hs, Hc]. intros m. rewrite (Nat.mul_comm r m), Nat.mod_add, Nat.div_add by lia.
    rewrite Nat.mod_small, Nat.div_small by exact Hc. split; reflexivity.
Qed.
Lemma fft_exists : forall rs, Forall (fun r => (0 < r)%nat) rs -> forall sr si, exists re im, fft rs sr si re im.
Proof.
  induction rs as [|r rs IH]; intros HF sr si.
  - exists sr, si. apply fft_one; reflexivity.
  - inversion HF as [|? ? Hr HF']; subst. apply fft_exists_frequency; [exact Hr|apply IH, HF'].
Qed.
Lemma growth_bound : forall u R rs, 0 <= u -> Forall (fun r => (r <= R)%nat) rs ->
  1 <= fft_growth u rs <= (1 + 2 * sqrt (INR R) * ((1 + u) ^ (2 * R + 4) - 1)) ^ List.length rs.
Proof.
  intros u R rs Hu H. induction H as [|r rs Hr H IH]; [cbn; lra|]. cbn [fft_growth fold_right List.length]. fold (fft_growth u rs).
  set (G := 1 + 2 * sqrt (INR R) * ((1 + u) ^ (2 * R + 4) - 1)) in *. set (g := 1 + 2 * sqrt (INR r) * ((1 + u) ^ (2 * r + 4) - 1)).
  assert (Hg : 1 <= g <= G).
  { unfold g, G. pose proof (pow_u_ge1 u (2 * r + 4) Hu). pose proof (pow_u_le u (2 * r + 4) (2 * R + 4) Hu ltac:(lia)).
    assert (sqrt (INR r) <= sqrt (INR R)) by (apply sqrt_le_1_alt, le_INR, Hr). pose proof (sqrt_pos (INR r)).
    split.
    - pose proof (Rmult_le_pos (2 * sqrt (INR r)) ((1 + u) ^ (2 * r + 4) - 1)). lra.
    - apply Rplus_le_compat_l. apply Rmult_le_compat; lra. }
  set (f := fft_growth u rs) in *. cbn [pow]. set (P := G ^ List.length rs) in *. clearbody P f g G. split; nra.
Qed.
