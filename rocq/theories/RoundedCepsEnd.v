(** * The floating-point cepstra compared with the result of the API in exact arithmetic *)
From Coq Require Import Reals ZArith List String Bool Lia Lra Psatz Permutation.
From Flocq Require Import Core.
From Coquelicot Require Rcomplements.
From Verif Require Import Base SpecBase BigSum Preprocessing PreprocessingFacts WindowFacts SpecMat SpecFilters SpecBanks SpecFeatures
  Fourier DctFacts CqtFacts Features Extractors FeaturesFacts FeaturesMore Binary64 Rounded SpecRounded RoundedFacts RoundedLaws
  RoundedWindows RoundedYinCases RoundedCeps SpecRoundedCeps RoundedCepsLaws ExampleTools.
Import ListNotations.
Local Open Scope R_scope.

Lemma spec_band_programs : forall h nf L f re im x b, frame_programs nf L f (S h) re im ->
  bigsum (S h) (fun k => b k * (lin_exact x (re k) ^ 2 + lin_exact x (im k) ^ 2) / INR nf) = spec_band h nf L (f x) b.
Proof.
  intros h nf L f re im x b Hp. unfold spec_band. apply bigsum_ext. intros k Hk. destruct (Hp x k Hk) as [-> ->].
  unfold spec_power, spec_sq, Rdiv. ring.
Qed.

Lemma lin_exact_reads : forall n p y z, reads n p -> (forall j, (j < n)%nat -> y j = z j) -> lin_exact y p = lin_exact z p.
Proof.
  intros n p y z Hp H. revert Hp. induction p; cbn [lin_exact reads]; intros Hp; auto.
  - destruct Hp. rewrite IHp1, IHp2; auto.
  - destruct Hp. rewrite IHp1, IHp2; auto.
  - rewrite IHp; auto.
  - destruct Hp. rewrite IHp1, IHp2; auto.
Qed.

Lemma run_log_actual : forall (E : Env) e a c N L hop n B x, In e [Mfcc; Imfcc; Lfcc; Ngcc] ->
  @well_framed E a N L hop -> (1 <= s_nfft a)%Z -> (0 < n)%nat ->
  @extractor_bank E e a = Ok (fmat n (S (half (s_nfft a))) B) -> (forall j k, 0 <= B j k) ->
  (0 <= c_num_ceps c <= s_nfilts a)%Z -> (1 <= c_dct_type c <= 4)%Z -> (c_dct_type c = 1%Z -> (2 <= n)%nat) ->
  c_use_energy c = false -> no_lifter c -> no_normalisation c ->
  let K := Nat.min (Z.to_nat (c_num_ceps c)) n in let nf := Z.to_nat (s_nfft a) in let bins := S (half (s_nfft a)) in
  let f i z := frame_of a (extractor_coeff e a) L hop z i in
  let band i j := spec_band (half (s_nfft a)) nf L (f i x) (B j) in
  exists y, @run E e (fvec N x) a c = Ok (fmat (frame_count N L hop) K y) /\
    forall (E' : Env) u v r wl hyp lnf re im bank dct i k Y,
      accurate u 0 (@rnd E') -> u < 1 -> hypot_within v hyp -> ln_within wl lnf -> 0 < r < 1 ->
      (i < frame_count N L hop)%nat -> (k < K)%nat ->
      frame_programs nf L (f i) bins re im ->
      (forall j, (j < n)%nat -> dot_program (B j) bins (bank j)) ->
      reads n (dct k) -> (forall z, lin_exact z (dct k) = spec_dct (c_dct_type c) n z k) ->
      (forall j, (j < n)%nat -> 0 < band i j /\ actual_noise E' nf bins x re im (B j) <= r ^ 2 * band i j /\ Rabs (ln (band i j)) <= Y) ->
      Rabs (@log_cepstrum E' lnf hyp (fun q => @lin_stored E' (re q)) (fun q => @lin_stored E' (im q)) nf bank
              (fun q => @lin_stored E' (dct q)) x k - y i k)
      <= gain (dct k) * ((1 + u) ^ lin_depth2 (dct k) * ((1 + wl) * (Y + band_log_bound u v r bins)) - Y).
Proof.
  intros E e a c N L hop n B x Hin Hw Hnf Hn HB HB0 Hc Ht Ht1 Hue Hl Hnm K nf bins f band.
  assert (Hcomp : forall z, compression e z = spec_log z) by (simpl in Hin; intuition subst; reflexivity).
  assert (Hcb : forall z, 0 <= z -> compressible e z) by (simpl in Hin; intuition subst; assumption).
  eexists. split.
  - apply (run_fvec e a c N L hop n B x); auto; try lia.
    + intros i j _ _. apply Hcb. apply spec_band_nonneg; [lia|]. intros. apply HB0.
    + rewrite Hue. discriminate.
  - intros E' u v r wl hyp lnf re im bank dct i k Y Ha Hu1 Hh Hln Hr Hi Hk Hp Hb Hrd Hdct Hband.
    rewrite Hue. cbn [andb]. cbv beta zeta.
    assert (Hsp : forall j, bigsum bins (fun q => B j q * (lin_exact x (re q) ^ 2 + lin_exact x (im q) ^ 2) / INR nf) = band i j).
    { intros j. apply (spec_band_programs (half (s_nfft a)) nf L (f i) re im x (B j) Hp). }
    assert (HY : 0 <= Y). { destruct (Hband 0%nat Hn) as (_ & _ & H). pose proof (Rabs_pos (ln (band i 0%nat))). lra. }
    rewrite (spec_dct_ext (c_dct_type c) n _ (fun j => ln (band i j))).
    2:{ intros j Hj. rewrite Hcomp. fold nf. fold (f i x). fold (band i j). unfold spec_log.
        destruct (Hband j Hj) as (P & _). destruct (Req_EM_T (band i j) 0); [lra|reflexivity]. }
    rewrite <- Hdct.
    pose proof (log_cepstrum_actual E' u v r nf bins n hyp re im x B bank Ha Hu1 Hh Hr HB0 Hb) as M.
    rewrite (lin_exact_reads n (dct k) (fun j => ln (band i j)) (fun j => ln (bigsum bins (fun q => B j q * (lin_exact x (re q) ^ 2 + lin_exact x (im q) ^ 2) / INR nf)))) by (auto; intros j _; rewrite Hsp; reflexivity).
    apply M; auto.
    + intros j Hj. rewrite Hsp. apply Hband, Hj.
    + intros j Hj. rewrite Hsp. apply Hband, Hj.
    + intros j Hj. rewrite Hsp. apply Hband, Hj.
Qed.
Lemma run_log_error : forall (E : Env) e a c N L hop n B x, In e [Mfcc; Imfcc; Lfcc; Ngcc] ->
  @well_framed E a N L hop -> (1 <= s_nfft a)%Z -> (0 < n)%nat ->
  @extractor_bank E e a = Ok (fmat n (S (half (s_nfft a))) B) -> (forall j k, 0 <= B j k) ->
  (0 <= c_num_ceps c <= s_nfilts a)%Z -> (1 <= c_dct_type c <= 4)%Z -> (c_dct_type c = 1%Z -> (2 <= n)%nat) ->
  c_use_energy c = false -> no_lifter c -> no_normalisation c ->
  let K := Nat.min (Z.to_nat (c_num_ceps c)) n in let nf := Z.to_nat (s_nfft a) in let bins := S (half (s_nfft a)) in
  let f i z := frame_of a (extractor_coeff e a) L hop z i in
  let band i j := spec_band (half (s_nfft a)) nf L (f i x) (B j) in
  exists y, @run E e (fvec N x) a c = Ok (fmat (frame_count N L hop) K y) /\
    forall (E' : Env) u v r wl D hyp lnf re im bank dct i k Y,
      accurate u 0 (@rnd E') -> u < 1 -> hypot_within v hyp -> ln_within wl lnf -> 0 < r < 1 ->
      (i < frame_count N L hop)%nat -> (k < K)%nat ->
      frame_programs nf L (f i) bins re im ->
      (forall q, (q < bins)%nat -> (lin_depth2 (re q) <= D)%nat /\ (lin_depth2 (im q) <= D)%nat) ->
      (forall j, (j < n)%nat -> dot_program (B j) bins (bank j)) ->
      reads n (dct k) -> (forall z, lin_exact z (dct k) = spec_dct (c_dct_type c) n z k) ->
      (forall j, (j < n)%nat -> 0 < band i j /\ noise u D nf bins x re im (B j) <= r ^ 2 * band i j /\ Rabs (ln (band i j)) <= Y) ->
      Rabs (@log_cepstrum E' lnf hyp (fun q => @lin_stored E' (re q)) (fun q => @lin_stored E' (im q)) nf bank
              (fun q => @lin_stored E' (dct q)) x k - y i k)
      <= gain (dct k) * ((1 + u) ^ lin_depth2 (dct k) * ((1 + wl) * (Y + band_log_bound u v r bins)) - Y).
Proof.
  intros E e a c N L hop n B x Hin Hw Hnf Hn HB HB0 Hc Ht Ht1 Hue Hl Hnm K nf bins f band.
  destruct (run_log_actual E e a c N L hop n B x Hin Hw Hnf Hn HB HB0 Hc Ht Ht1 Hue Hl Hnm) as (y & Hy & H). exists y. split; [exact Hy|].
  intros E' u v r wl D hyp lnf re im bank dct i k Y Ha Hu1 Hh Hln Hr Hi Hk Hp HD Hb Hrd Hdct Hband.
  apply (H E' u v r wl hyp lnf re im bank dct i k Y); auto. intros j Hj. destruct (Hband j Hj) as (P & Q & T).
  split; [exact P|]. split; [|exact T]. eapply Rle_trans; [apply (actual_noise_le E' u D)|exact Q]; auto.
Qed.

Lemma run_root_actual : forall (E : Env) e p a c N L hop n B x, root_exponent e p ->
  @well_framed E a N L hop -> (1 <= s_nfft a)%Z -> (0 < n)%nat ->
  @extractor_bank E e a = Ok (fmat n (S (half (s_nfft a))) B) -> (forall j k, 0 <= B j k) ->
  (0 <= c_num_ceps c <= s_nfilts a)%Z -> (1 <= c_dct_type c <= 4)%Z -> (c_dct_type c = 1%Z -> (2 <= n)%nat) ->
  c_use_energy c = false -> no_lifter c -> no_normalisation c ->
  let K := Nat.min (Z.to_nat (c_num_ceps c)) n in let nf := Z.to_nat (s_nfft a) in let bins := S (half (s_nfft a)) in
  let f i z := frame_of a (extractor_coeff e a) L hop z i in
  let band i j := spec_band (half (s_nfft a)) nf L (f i x) (B j) in
  (forall i j, (i < frame_count N L hop)%nat -> (j < n)%nat -> 0 < band i j) ->
  exists y, @run E e (fvec N x) a c = Ok (fmat (frame_count N L hop) K y) /\
    forall (E' : Env) u v r wp hyp powf re im bank dct i k Y,
      accurate u 0 (@rnd E') -> u < 1 -> hypot_within v hyp -> pow_within wp p powf -> 0 < r < 1 ->
      (i < frame_count N L hop)%nat -> (k < K)%nat ->
      frame_programs nf L (f i) bins re im ->
      (forall j, (j < n)%nat -> dot_program (B j) bins (bank j)) ->
      reads n (dct k) -> (forall z, lin_exact z (dct k) = spec_dct (c_dct_type c) n z k) ->
      (forall j, (j < n)%nat -> actual_noise E' nf bins x re im (B j) <= r ^ 2 * band i j /\ Rpower (band i j) p <= Y) ->
      Rabs (@root_cepstrum E' powf hyp (fun q => @lin_stored E' (re q)) (fun q => @lin_stored E' (im q)) nf bank
              (fun q => @lin_stored E' (dct q)) x k - y i k)
      <= gain (dct k) * ((1 + u) ^ lin_depth2 (dct k) * ((1 + wp) * exp (Rabs p * band_log_bound u v r bins)) - 1) * Y.
Proof.
  intros E e p a c N L hop n B x Hin Hw Hnf Hn HB HB0 Hc Ht Ht1 Hue Hl Hnm K nf bins f band Hpos.
  assert (Hcomp : forall z, 0 < z -> compression e z = Rpower z p).
  { intros z Hz. destruct Hin as [[-> ->]|[-> Hp]]; cbn [compression]; [|destruct (Req_EM_T p 0); [contradiction|]];
      unfold spec_root; destruct (Req_EM_T z 0); try lra; reflexivity. }
  assert (Hcb : forall z, 0 < z -> compressible e z).
  { intros z Hz. destruct Hin as [[-> ->]|[-> Hp]]; cbn [compressible]; lra. }
  eexists. split.
  - apply (run_fvec e a c N L hop n B x); auto; try lia.
    + intros i j Hi Hj. apply Hcb. apply (Hpos i j Hi Hj).
    + rewrite Hue. discriminate.
  - intros E' u v r wp hyp powf re im bank dct i k Y Ha Hu1 Hh Hpw Hr Hi Hk Hp Hb Hrd Hdct Hband.
    rewrite Hue. cbn [andb]. cbv beta zeta.
    assert (Hsp : forall j, bigsum bins (fun q => B j q * (lin_exact x (re q) ^ 2 + lin_exact x (im q) ^ 2) / INR nf) = band i j).
    { intros j. apply (spec_band_programs (half (s_nfft a)) nf L (f i) re im x (B j) Hp). }
    assert (HY : 0 <= Y).
    { destruct (Hband 0%nat Hn) as (_ & H). assert (0 < Rpower (band i 0%nat) p) by apply exp_pos. lra. }
    rewrite (spec_dct_ext (c_dct_type c) n _ (fun j => Rpower (band i j) p)).
    2:{ intros j Hj. apply Hcomp. apply (Hpos i j Hi Hj). }
    rewrite <- Hdct.
    pose proof (root_cepstrum_actual E' u v r nf bins n hyp re im x B bank Ha Hu1 Hh Hr HB0 Hb) as M.
    rewrite (lin_exact_reads n (dct k) (fun j => Rpower (band i j) p) (fun j => Rpower (bigsum bins (fun q => B j q * (lin_exact x (re q) ^ 2 + lin_exact x (im q) ^ 2) / INR nf)) p)) by (auto; intros j _; rewrite Hsp; reflexivity).
    apply M; auto.
    + intros j Hj. rewrite Hsp. apply (Hpos i j Hi Hj).
    + intros j Hj. rewrite Hsp. apply Hband, Hj.
    + intros j Hj. rewrite Hsp. apply Hband, Hj.
Qed.
Lemma run_root_error : forall (E : Env) e p a c N L hop n B x, root_exponent e p ->
  @well_framed E a N L hop -> (1 <= s_nfft a)%Z -> (0 < n)%nat ->
  @extractor_bank E e a = Ok (fmat n (S (half (s_nfft a))) B) -> (forall j k, 0 <= B j k) ->
  (0 <= c_num_ceps c <= s_nfilts a)%Z -> (1 <= c_dct_type c <= 4)%Z -> (c_dct_type c = 1%Z -> (2 <= n)%nat) ->
  c_use_energy c = false -> no_lifter c -> no_normalisation c ->
  let K := Nat.min (Z.to_nat (c_num_ceps c)) n in let nf := Z.to_nat (s_nfft a) in let bins := S (half (s_nfft a)) in
  let f i z := frame_of a (extractor_coeff e a) L hop z i in
  let band i j := spec_band (half (s_nfft a)) nf L (f i x) (B j) in
  (forall i j, (i < frame_count N L hop)%nat -> (j < n)%nat -> 0 < band i j) ->
  exists y, @run E e (fvec N x) a c = Ok (fmat (frame_count N L hop) K y) /\
    forall (E' : Env) u v r wp D hyp powf re im bank dct i k Y,
      accurate u 0 (@rnd E') -> u < 1 -> hypot_within v hyp -> pow_within wp p powf -> 0 < r < 1 ->
      (i < frame_count N L hop)%nat -> (k < K)%nat ->
      frame_programs nf L (f i) bins re im ->
      (forall q, (q < bins)%nat -> (lin_depth2 (re q) <= D)%nat /\ (lin_depth2 (im q) <= D)%nat) ->
      (forall j, (j < n)%nat -> dot_program (B j) bins (bank j)) ->
      reads n (dct k) -> (forall z, lin_exact z (dct k) = spec_dct (c_dct_type c) n z k) ->
      (forall j, (j < n)%nat -> noise u D nf bins x re im (B j) <= r ^ 2 * band i j /\ Rpower (band i j) p <= Y) ->
      Rabs (@root_cepstrum E' powf hyp (fun q => @lin_stored E' (re q)) (fun q => @lin_stored E' (im q)) nf bank
              (fun q => @lin_stored E' (dct q)) x k - y i k)
      <= gain (dct k) * ((1 + u) ^ lin_depth2 (dct k) * ((1 + wp) * exp (Rabs p * band_log_bound u v r bins)) - 1) * Y.
Proof.
  intros E e p a c N L hop n B x Hin Hw Hnf Hn HB HB0 Hc Ht Ht1 Hue Hl Hnm K nf bins f band Hpos.
  destruct (run_root_actual E e p a c N L hop n B x Hin Hw Hnf Hn HB HB0 Hc Ht Ht1 Hue Hl Hnm Hpos) as (y & Hy & H). exists y. split; [exact Hy|].
  intros E' u v r wp D hyp powf re im bank dct i k Y Ha Hu1 Hh Hpw Hr Hi Hk Hp HD Hb Hrd Hdct Hband.
  apply (H E' u v r wp hyp powf re im bank dct i k Y); auto. intros j Hj. destruct (Hband j Hj) as (Q & T).
  split; [|exact T]. eapply Rle_trans; [apply (actual_noise_le E' u D)|exact Q]; auto.
Qed.

(** ** plain programs for the DCT *)
Lemma dots_reads : forall w l p n, dots w l p -> (forall i, In i l -> (i < n)%nat) -> reads n p.
Proof.
  intros w l p n H. induction H as [|i Hi|i|i l p H IH|i l p Hi H IH|l l' p q H1 H2 Hp IHp Hq IHq]; cbn [reads]; intros Hl; auto.
  - apply Hl. left. reflexivity.
  - apply Hl. left. reflexivity.
  - split; [apply Hl; left; reflexivity|]. apply IH. intros j Hj. apply Hl. right. exact Hj.
  - apply IH. intros j Hj. apply Hl. right. exact Hj.
  - split; [apply IHp|apply IHq]; intros j Hj; apply Hl, in_or_app; auto.
Qed.
Lemma dot_reads : forall w n p, dot_program w n p -> reads n p.
Proof.
  intros w n p (l & Hl & H). apply (dots_reads w l p n H). intros i Hi. apply (Permutation_in _ Hl) in Hi. apply in_seq in Hi. lia.
Qed.
Lemma dots_depth2 : forall w l p, dots w l p -> (lin_depth2 p <= S (List.length l))%nat.
Proof.
  intros w l p H. induction H as [|i Hi|i|i l p H IH|i l p Hi H IH|l l' p q H1 H2 Hp IHp Hq IHq]; cbn [lin_depth2 List.length]; try lia.
  rewrite app_length. destruct l; [contradiction|]. destruct l'; [contradiction|]. cbn [List.length] in *. lia.
Qed.
Lemma dct_row_norm : forall t n k, (1 <= t <= 4)%Z -> (t = 1%Z -> (2 <= n)%nat) -> (k < n)%nat ->
  bigsum n (fun j => spec_dct_entry t n k j * spec_dct_entry t n k j) = 1.
Proof.
  intros t n k Ht Ht1 Hk.
  assert (H : exists t', inverse_type t' t /\ (1 <= t' <= 4)%Z /\ (t' = 1%Z -> t = 1%Z)).
  { unfold inverse_type. assert (t = 1 \/ t = 2 \/ t = 3 \/ t = 4)%Z as [->|[->|[->| ->]]] by lia;
      [exists 1%Z|exists 3%Z|exists 2%Z|exists 4%Z]; intuition lia. }
  destruct H as (t' & Hi & Ht' & H1).
  rewrite (bigsum_ext n _ (fun j => spec_dct_entry t' n j k * spec_dct_entry t' n j k)).
  2:{ intros j _. rewrite (spec_dct_entry_T t' t n k j Hi). reflexivity. }
  rewrite spec_dct_ortho; auto. unfold delta. rewrite Nat.eqb_refl. reflexivity.
Qed.
Lemma dct_programs : forall t n k p, (1 <= t <= 4)%Z -> (t = 1%Z -> (2 <= n)%nat) -> (k < n)%nat ->
  dot_program (spec_dct_entry t n k) n p ->
  reads n p /\ (forall z, lin_exact z p = spec_dct t n z k) /\ gain p <= sqrt (INR n) /\ (lin_depth2 p <= S n)%nat.
Proof.
  intros t n k p Ht Ht1 Hk Hp. split; [eapply dot_reads; exact Hp|]. split; [|split].
  - intros z. rewrite (dot_exact _ _ _ z Hp). unfold spec_dct. apply bigsum_ext. intros. ring.
  - unfold gain. rewrite (dot_size _ _ _ _ Hp).
    set (g := bigsum n _). assert (Hg : 0 <= g) by (apply bigsum_nonneg; intros; apply Rabs_pos).
    rewrite <- (sqrt_pow2 g Hg). apply sqrt_le_1_alt.
    pose proof (sum_sq_cauchy n (fun j => Rabs (spec_dct_entry t n k j * 1))) as C. cbv beta in C. fold g in C.
    eapply Rle_trans; [exact C|]. rewrite <- (Rmult_1_r (INR n)) at 2. apply Rmult_le_compat_l; [apply pos_INR|].
    right.
    replace (bigsum n (fun j => Rabs (spec_dct_entry t n k j * 1) ^ 2)) with (bigsum n (fun j => spec_dct_entry t n k j * spec_dct_entry t n k j)).
    2:{ apply bigsum_ext. intros j _. rewrite pow2_abs. ring. }
    apply dct_row_norm; assumption.
  - destruct Hp as (l & Hl & H). apply dots_depth2 in H. apply Permutation_length in Hl. rewrite seq_length in Hl. lia.
Qed.

(** ** plain programs for the spectrum of a frame *)
Lemma sample_exact : forall on c s z, lin_exact z (sample_program on c s) = spec_pre on c z s.
Proof. intros [|] c [|s] z; reflexivity. Qed.
Lemma sum_exact : forall g smp z T, lin_exact z (sum_program g smp T) = bigsum T (fun t => g t * lin_exact z (smp t)).
Proof. induction T as [|T IH]; [reflexivity|]. cbn [sum_program lin_exact bigsum]. rewrite IH. ring. Qed.
Lemma plain_programs : forall a co L hop nf i bins,
  frame_programs nf L (fun z => frame_of a co L hop z i) bins
    (plain_re (s_pre_emph a) co (win_type (window_of a)) L hop nf i) (plain_im (s_pre_emph a) co (win_type (window_of a)) L hop nf i).
Proof.
  intros a co L hop nf i bins z k _. unfold plain_re, plain_im, spec_re, spec_im, frame_of, spec_frame. rewrite !sum_exact.
  split; apply bigsum_ext; intros t _; cbn [lin_exact]; rewrite sample_exact; ring.
Qed.
Lemma sample_depth : forall on c s, (lin_depth2 (sample_program on c s) <= 3)%nat.
Proof. intros [|] c [|s]; cbn; lia. Qed.
Lemma sum_depth : forall g smp d T, (forall t, (lin_depth2 (smp t) <= d)%nat) -> (lin_depth2 (sum_program g smp T) <= T + d + 1)%nat.
Proof.
  intros g smp d T H. induction T as [|T IH]; cbn [sum_program lin_depth2]; [lia|]. specialize (H T). lia.
Qed.
Lemma plain_depth : forall on c wt L hop nf i k,
  (lin_depth2 (plain_re on c wt L hop nf i k) <= Nat.min L nf + 6)%nat /\ (lin_depth2 (plain_im on c wt L hop nf i k) <= Nat.min L nf + 6)%nat.
Proof.
  intros. unfold plain_re, plain_im.
  assert (H : forall t, (lin_depth2 (Scale (spec_window wt L t) (sample_program on c (i * hop + t))) <= 5)%nat).
  { intros t. cbn [lin_depth2]. pose proof (sample_depth on c (i * hop + t)). lia. }
  split; (eapply Nat.le_trans; [apply (sum_depth _ _ 5 _ H)|lia]).
Qed.
Lemma sum_size : forall g smp z T S, (forall t, Rabs (g t) <= 1) -> (forall t, (t < T)%nat -> lin_size z (smp t) <= S) -> lin_size z (sum_program g smp T) <= INR T * S.
Proof.
  intros g smp z T S Hg Hs. induction T as [|T IH]; [cbn; lra|]. cbn [sum_program lin_size]. rewrite S_INR.
  assert (IH' := IH (fun t Ht => Hs t (Nat.lt_lt_succ_r _ _ Ht))). specialize (Hs T (Nat.lt_succ_diag_r T)).
  pose proof (lin_size_nonneg z (smp T)) as H0. pose proof (Rmult_le_compat_r _ _ _ H0 (Hg T)). lra.
Qed.
Lemma plain_size : forall on c wt L hop nf i k z M, (forall t, (t < i * hop + L)%nat -> Rabs (z t) <= M) ->

  let S := INR (Nat.min L nf) * ((1 + Rabs c) * M) in
  lin_size z (plain_re on c wt L hop nf i k) <= S /\ lin_size z (plain_im on c wt L hop nf i k) <= S.
Proof.
  intros on c wt L hop nf i k z M Hz S. unfold plain_re, plain_im.
  assert (H : forall t, (t < Nat.min L nf)%nat -> lin_size z (Scale (spec_window wt L t) (sample_program on c (i * hop + t))) <= (1 + Rabs c) * M).
  { intros t Ht. cbn [lin_size]. pose proof (Rabs_pos c) as Hc.
    assert (Hs : lin_size z (sample_program on c (i * hop + t)) <= (1 + Rabs c) * M).
    { assert (HM : 0 <= M). { pose proof (Hz (i * hop + t)%nat ltac:(lia)). pose proof (Rabs_pos (z (i * hop + t)%nat)). lra. }
      pose proof (Rmult_le_pos _ _ Hc HM).
      pose proof (Hz (i * hop + t)%nat ltac:(lia)) as B. unfold sample_program.
      destruct on; [|cbn [lin_size]; lra]. destruct (i * hop + t)%nat as [|s] eqn:Es; [cbn [lin_size]; lra|].
      cbn [lin_size]. pose proof (Hz s ltac:(lia)) as B2. pose proof (Rmult_le_compat_l _ _ _ Hc B2). lra. }
    assert (Hwt : Rabs (spec_window wt L t) <= 1).
    { pose proof (spec_window_bounds wt L t ltac:(lia)). apply Rabs_le. lra. } pose proof (lin_size_nonneg z (sample_program on c (i * hop + t))) as H0.
    pose proof (Rmult_le_compat_r _ _ _ H0 Hwt). lra. }
  split; apply sum_size; auto; intros t.
  - apply Rabs_le. pose proof (COS_bound (2 * PI * INR (t * k) / INR nf)). lra.
  - rewrite Rabs_Ropp. apply Rabs_le. pose proof (SIN_bound (2 * PI * INR (t * k) / INR nf)). lra.
Qed.
(** the noise of a band when the spectrum is computed with the plain programs from samples up to M *)
Lemma plain_noise : forall u nf bins on c wt L hop i z M b, 0 <= u -> (forall k, 0 <= b k) ->
  (forall t, (t < i * hop + L)%nat -> Rabs (z t) <= M) ->
  noise u (Nat.min L nf + 6) nf bins z (plain_re on c wt L hop nf i) (plain_im on c wt L hop nf i) b
  <= 2 * (((1 + u) ^ (Nat.min L nf + 6) - 1) * (INR (Nat.min L nf) * ((1 + Rabs c) * M))) ^ 2 * bigsum bins b / INR nf.
Proof.
  intros u nf bins on c wt L hop i z M b Hu Hb Hz. unfold noise.
  pose proof (inv_nfft nf) as Hinv. unfold Rdiv in Hinv. rewrite Rmult_1_l in Hinv.
  set (S := INR (Nat.min L nf) * ((1 + Rabs c) * M)). set (G := (1 + u) ^ (Nat.min L nf + 6) - 1).
  assert (HG : 0 <= G) by (unfold G; pose proof (pow_u_ge1 u (Nat.min L nf + 6) Hu); lra).
  replace (2 * (G * S) ^ 2 * bigsum bins b / INR nf) with (bigsum bins (fun k => 2 * (G * S) ^ 2 / INR nf * b k)).
  2:{ rewrite bigsum_scal. unfold Rdiv. ring. }
  apply bigsum_le. intros k _.
  destruct (plain_size on c wt L hop nf i k z M Hz) as [A B]. fold S in A, B.
  assert (Q : forall s, 0 <= s <= S -> (G * s) ^ 2 <= (G * S) ^ 2).
  { intros s Hs. apply pow_incr. split; [apply Rmult_le_pos; lra|apply Rmult_le_compat_l; lra]. }
  pose proof (Q _ (conj (lin_size_nonneg z (plain_re on c wt L hop nf i k)) A)) as Q1.
  pose proof (Q _ (conj (lin_size_nonneg z (plain_im on c wt L hop nf i k)) B)) as Q2.
  unfold Rdiv. replace (2 * (G * S) ^ 2 * / INR nf * b k) with (b k * (2 * (G * S) ^ 2) * / INR nf) by ring.
  apply Rmult_le_compat_r; [exact Hinv|]. apply Rmult_le_compat_l; [apply Hb|]. lra.
Qed.

(** ** a band that only holds rounding noise *)
Definition quiet_args : sargs := mkS 1 true (1 + / 2 ^ 30) (Some (mkWindow 3 3 "hanning")) 1 2 0 None "constant"
  (Some (fmat 1 2 (fun _ k => match k with O => 1 | _ => 0 end))) "Oshaghnessy".
Definition quiet_ceps : cargs := mkC 1 2 false None None.
Definition quiet_signal (t : nat) : R := match t with O => 1 + / 2 ^ 30 | 1 => 1 + / 2 ^ 29 | _ => 0 end.
Definition quiet_re (k : nat) : lin :=
  match k with
  | O => Sub (Load 1) (Scale (1 + / 2 ^ 30) (Load 0))
  | _ => Sub (Scale (1 + / 2 ^ 30) (Load 0)) (Load 1)
  end.
Definition quiet_im (k : nat) : lin := Zero.
Definition quiet_weights (k : nat) : R := match k with O => 1 | _ => 0 end.

Lemma quiet_framed : @well_framed exact_env quiet_args 3 3 3.
Proof.
  unfold well_framed, window_of. cbn [quiet_args s_window win_len win_hop win_type s_fs].
  split; [lra|]. split; [apply flen_exact; simpl; lra|]. split; [apply flen_exact; simpl; lra|].
  split; [lia|]. split; [lia|]. simpl; tauto.
Qed.
Lemma hann3 : spec_window "hanning" 3 0 = 0 /\ spec_window "hanning" 3 1 = 1.
Proof.
  unfold spec_window. cbn [Nat.leb String.eqb Ascii.eqb Bool.eqb]. unfold spec_hann. cbn [Nat.sub].
  split.
  - replace (spec_theta 3 0) with 0 by (unfold spec_theta; cbn [INR Nat.sub]; lra). rewrite cos_0. lra.
  - replace (spec_theta 3 1) with PI by (unfold spec_theta; cbn [INR Nat.sub]; field). rewrite cos_PI. lra.
Qed.
Lemma quiet_programs : forall i, i = 0%nat ->
  frame_programs 2 3 (fun z => frame_of quiet_args (s_coeff quiet_args) 3 3 z i) 2 quiet_re quiet_im.
Proof.
  intros i -> z k Hk. destruct hann3 as [W0 W1].
  unfold spec_re, spec_im, frame_of, spec_frame. cbn [Nat.min bigsum quiet_args window_of s_window win_type s_pre_emph s_coeff Nat.mul Nat.add].
  rewrite W0, W1. unfold spec_pre. destruct k as [|[|k]]; [| |lia]; cbn [quiet_re quiet_im lin_exact Nat.mul Nat.add].
  - replace (2 * PI * INR 0 / INR 2) with 0 by (cbn [INR]; lra). rewrite cos_0, sin_0. split; ring.
  - replace (2 * PI * INR 1 / INR 2) with PI by (cbn [INR]; field). rewrite cos_PI, sin_PI. split; ring.
Qed.
Lemma quiet_bank : dot_program quiet_weights 2 (dot_left quiet_weights 2).
Proof. apply dot_left_program. Qed.
Lemma quiet_dct : dot_program (spec_dct_entry 2 1 0) 1 (Load 0).
Proof.
  exists [0%nat]. split; [reflexivity|]. apply dots_load. unfold spec_dct_entry. cbn [Z.eqb Pos.eqb Nat.eqb].
  replace (PI * INR 0 * (2 * INR 0 + 1) / (2 * INR 1)) with 0 by (cbn [INR]; lra).
  rewrite cos_0. replace (1 / INR 1) with 1 by (cbn [INR]; field). rewrite sqrt_1. ring.
Qed.

Lemma quiet_exact : exists y, @mfcc exact_env (fvec 3 quiet_signal) quiet_args quiet_ceps = Ok (fmat 1 1 y) /\ y 0%nat 0%nat = - (121 * ln 2).
Proof.
  eexists. split.
  - apply (@run_fvec exact_env Mfcc quiet_args quiet_ceps 3 3 3 1 (fun _ => quiet_weights) quiet_signal quiet_framed); try (cbn; lia).
    + reflexivity.
    + intros i j _ _. cbn [compressible]. apply spec_band_nonneg; [cbn; lia|]. intros [|k] _; cbn; lra.
    + left. reflexivity.
    + left. reflexivity.
  - cbn [quiet_ceps c_use_energy andb c_dct_type].
    assert (D : forall g, spec_dct 2 1 g 0 = g 0%nat).
    { intros g. unfold spec_dct. cbn [bigsum]. rewrite <- (Rmult_1_r (g 0%nat)) at 2. rewrite Rplus_0_l. f_equal.
      pose proof (dot_exact _ _ _ (fun _ => 1) quiet_dct) as K. cbn [lin_exact bigsum] in K. lra. }
    rewrite D. cbn [compression].
    assert (B : spec_band (half (s_nfft quiet_args)) (Z.to_nat (s_nfft quiet_args)) 3
                  (frame_of quiet_args (extractor_coeff Mfcc quiet_args) 3 3 quiet_signal 0) quiet_weights = / 2 ^ 121).
    { change (half (s_nfft quiet_args)) with 1%nat. change (Z.to_nat (s_nfft quiet_args)) with 2%nat.
      rewrite <- (spec_band_programs 1 2 3 (fun z => frame_of quiet_args (extractor_coeff Mfcc quiet_args) 3 3 z 0) quiet_re quiet_im quiet_signal quiet_weights).
      - cbn [bigsum quiet_weights quiet_re quiet_im lin_exact quiet_signal].
        replace (INR 2) with 2 by (cbn [INR]; ring). lra.
      - apply quiet_programs. reflexivity. }
    rewrite B. unfold spec_log. destruct (Req_EM_T (/ 2 ^ 121) 0) as [Z|_].
    + assert (0 < / 2 ^ 121) by (apply Rinv_0_lt_compat, pow_lt; lra). lra.
    + rewrite ln_Rinv by (apply pow_lt; lra). rewrite ln_pow by lra. f_equal. f_equal. rewrite INR_IZR_INZ. reflexivity.
Qed.

Lemma quiet_product : rnd64 ((1 + / 2 ^ 30) * (1 + / 2 ^ 30)) = 1 + / 2 ^ 29.
Proof.
  replace ((1 + / 2 ^ 30) * (1 + / 2 ^ 30)) with (IZR (1152921506754330625) * bpow radix2 (-60)).
  - rewrite rnd64_fl by lia. change (fl 1152921506754330625) with 1152921506754330624%Z.
    change (bpow radix2 (-60)) with (/ IZR 1152921504606846976). lra.
  - change (bpow radix2 (-60)) with (/ IZR 1152921504606846976). lra.
Qed.
Lemma quiet_stored : rnd64 (1 + / 2 ^ 30) = 1 + / 2 ^ 30.
Proof.
  replace (1 + / 2 ^ 30) with (IZR 1073741825 * bpow radix2 (-30)); [apply rnd64_id; [reflexivity|lia]|].
  change (bpow radix2 (-30)) with (/ IZR 1073741824). lra.
Qed.
Lemma quiet_inputs : forall t, rnd64 (quiet_signal t) = quiet_signal t.
Proof.
  intros [|[|t]]; cbn [quiet_signal].
  - apply quiet_stored.
  - replace (1 + / 2 ^ 29) with (IZR 536870913 * bpow radix2 (-29)); [apply rnd64_id; [reflexivity|lia]|].
    change (bpow radix2 (-29)) with (/ IZR 536870912). lra.
  - apply rnd64_0.
Qed.
Lemma quiet_computed : @log_cepstrum binary64 ln (fun a b => sqrt (a ^ 2 + b ^ 2))
    (fun k => @lin_stored binary64 (quiet_re k)) (fun k => @lin_stored binary64 (quiet_im k)) 2
    (fun _ => dot_left quiet_weights 2) (fun _ => @lin_stored binary64 (Load 0)) quiet_signal 0 = - (52 * ln 2).
Proof.
  unfold log_cepstrum. cbn [lin_stored lin_run]. unfold log_band.
  assert (Z : @band_energy binary64 2 (@bin_magnitude binary64 (fun a b => sqrt (a ^ 2 + b ^ 2))
    (fun k => @lin_stored binary64 (quiet_re k)) (fun k => @lin_stored binary64 (quiet_im k)) quiet_signal)
    (fun _ => dot_left quiet_weights 2) 0 = 0).
  { unfold band_energy. cbn [dot_left lin_run quiet_weights rnd binary64]. rewrite Rmult_0_l, rnd64_0, Rplus_0_r, Rmult_1_l.
    unfold bin_power, bin_magnitude. cbn [rnd binary64 quiet_re quiet_im lin_stored lin_run quiet_signal].
    rewrite quiet_stored, quiet_product, Rminus_diag_eq, rnd64_0 by reflexivity.
    replace (0 ^ 2 + 0 ^ 2) with 0 by ring. rewrite sqrt_0, Rmult_0_l, rnd64_0, Rmult_0_r, rnd64_0, rnd64_0. apply rnd64_0. }
  rewrite Z. unfold zeroed. destruct (Req_EM_T 0 0) as [_|K]; [|contradiction].
  rewrite ln_Rinv by (apply pow_lt; lra). rewrite ln_pow by lra. f_equal. f_equal. rewrite INR_IZR_INZ. reflexivity.
Qed.
