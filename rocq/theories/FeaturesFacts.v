(** * Spectra and cepstra of finite signals in closed form *)
From Coq Require Import Reals ZArith List String Bool Lia Lra Psatz.
From Coquelicot Require Import Complex.
From Verif Require Import Base BaseFacts Cplx CplxFacts SpecBase SpecMat SpecFeatures BigSum MatFacts
  Preprocessing PreprocessingFacts WindowFacts MelBanks BarkBank Gammatone Cepstral Fourier
  DctFacts SpecBanks Features Extractors.
Import ListNotations.
Local Open Scope R_scope.

(** ** framing a finite signal *)
Lemma pre_fvec : forall N (on : bool) c x, (0 < N)%nat ->
  (if on then pre_emphasis (fvec N x) c else Ok (fvec N x)) = Ok (fvec N (spec_pre on c x)).
Proof.
  intros N on c x HN. destruct on; [|reflexivity].
  destruct (pre_emphasis_ok (fvec N x) c) as [y Hy].
  { destruct N; [lia|]. rewrite fvec_S. congruence. }
  rewrite Hy. apply pre_emphasis_spec in Hy. rewrite fvec_length in Hy. destruct Hy as (H1 & H2 & H3).
  f_equal. apply (list_eq_nth _ NaN); [rewrite fvec_length; auto|].
  intros i Hi. rewrite H1 in Hi. rewrite fvec_nth by auto. destruct i.
  - rewrite H2, fvec_nth by auto. reflexivity.
  - rewrite H3, !fvec_nth by lia. cbn [fmul fneg fsub fadd spec_pre]. reflexivity.
Qed.

Lemma frame_count_Z : forall N L hop, (0 < hop)%nat -> (L <= N)%nat ->
  ((Z.of_nat N - Z.of_nat L) / Z.of_nat hop + 1)%Z = Z.of_nat (frame_count N L hop).
Proof. intros. unfold frame_count. rewrite Nat2Z.inj_add, Nat2Z.inj_div, Nat2Z.inj_sub by lia. lia. Qed.
Lemma frame_count_pos : forall N L hop, (0 < frame_count N L hop)%nat.
Proof. intros. unfold frame_count. lia. Qed.

Lemma framing_fvec : forall `{Env} N y fs wl wh L hop, wh <= wl ->
  flen fs wl = Z.of_nat L -> flen fs wh = Z.of_nat hop -> (0 < hop)%nat -> (1 <= L <= N)%nat ->
  framing (fvec N y) fs wl wh = Ok (fmat (frame_count N L hop) L (fun i t => y (i * hop + t)%nat), Z.of_nat L).
Proof.
  intros E N y fs wl wh L hop Hw HL Hh H0 HN.
  pose proof (framing_outcomes (fvec N y) fs wl wh Hw) as Hout. rewrite HL, Hh in Hout.
  assert (Hz : zlen (fvec N y) = Z.of_nat N) by (unfold zlen; rewrite fvec_length; auto).
  destruct Hout as (_ & _ & Ho); try lia.
  destruct Ho as (fr & Hfr & Hne); [lia|]. rewrite Hfr. do 2 f_equal.
  apply framing_content in Hfr. cbv zeta in Hfr. rewrite Hh, Hz in Hfr. destruct Hfr as (_ & Hn & Hr & Hc).
  rewrite frame_count_Z in Hn by lia.
  apply (list_eq_nth _ []).
  - rewrite fmat_length. unfold zlen in Hn. lia.
  - intros i Hi. assert (Him : (i < frame_count N L hop)%nat) by (unfold zlen in Hn; lia).
    rewrite fmat_nth by auto. rewrite Forall_forall in Hr. specialize (Hr (nth i fr []) (nth_In _ _ Hi)).
    assert (Hrl : List.length (nth i fr []) = L) by (unfold zlen in Hr; lia).
    apply (list_eq_nth _ NaN); [rewrite fvec_length; auto|]. intros j Hj. rewrite Hrl in Hj.
    rewrite fvec_nth by auto. destruct (Hc (Z.of_nat i) (Z.of_nat j)) as [Hb Hv]; try lia.
    rewrite !Nat2Z.id in Hv. rewrite Hv.
    replace (Z.to_nat (Z.of_nat i * Z.of_nat hop + Z.of_nat j)) with (i * hop + j)%nat by lia.
    rewrite fvec_nth by lia. auto.
Qed.

Lemma windowing_fmat : forall m L z wt, (1 <= L)%nat -> In wt window_names ->
  windowing (fmat m L z) (Z.of_nat L) wt = Ok (fmat m L (fun i t => spec_window wt L t * z i t)).
Proof.
  intros m L z wt HL Hw. apply known_window_iff in Hw. rewrite windowing_eq; auto; [|lia|].
  - f_equal. unfold fmat. rewrite map_map. apply map_ext. intros i. unfold wrow. rewrite fvec_length.
    unfold fvec at 2. apply map_ext_in. intros j Hj. apply in_seq in Hj. rewrite fvec_nth by lia. reflexivity.
  - apply Forall_forall. intros r Hr. unfold fmat in Hr. apply in_map_iff in Hr as (i & <- & _).
    unfold zlen. rewrite fvec_length. auto.
Qed.

Lemma framed_fvec : forall `{Env} a N L hop x coeff, well_framed a N L hop ->
  framed (fvec N x) (s_fs a) (s_pre_emph a) coeff (s_window a)
  = Ok (fmat (frame_count N L hop) L (fun i t => spec_pre (s_pre_emph a) coeff x (i * hop + t)%nat),
        fmat (frame_count N L hop) L (fun i => frame_of a coeff L hop x i)).
Proof.
  intros E a N L hop x coeff (Hw & HL & Hh & H0 & HN & Hwt). unfold framed. rewrite pre_fvec by lia.
  cbn [rbind]. fold (window_of a). rewrite (framing_fvec _ _ _ _ _ L hop) by auto. cbn [rbind].
  rewrite windowing_fmat by (auto; lia). reflexivity.
Qed.

(** ** the DFT of a finite frame *)
Lemma crop_pad_fvec : forall n L f, crop_pad n (fvec L f) = fvec n (fun t => if Nat.ltb t (Nat.min L n) then f t else 0).
Proof.
  intros n L f. unfold crop_pad. rewrite fvec_length. apply (list_eq_nth _ NaN).
  - rewrite app_length, firstn_length, repeat_length, !fvec_length. lia.
  - intros i Hi. rewrite app_length, firstn_length, repeat_length, fvec_length in Hi.
    rewrite fvec_nth by lia. destruct (Nat.ltb_spec i (Nat.min L n)).
    + rewrite app_nth1 by (rewrite firstn_length, fvec_length; lia).
      rewrite firstn_nth_lt, fvec_nth by lia. auto.
    + rewrite app_nth2 by (rewrite firstn_length, fvec_length; lia).
      rewrite firstn_length, fvec_length. unfold f0.
      erewrite nth_indep by (rewrite repeat_length; lia). rewrite nth_repeat. auto.
Qed.

Lemma bigsum_crop : forall n p f g, (p <= n)%nat ->
  bigsum n (fun t => (if Nat.ltb t p then f t else 0) * g t) = bigsum p (fun t => f t * g t).
Proof.
  intros n p f g Hp. replace n with (p + (n - p))%nat by lia. rewrite bigsum_split.
  rewrite (bigsum_zero (n - p)).
  - rewrite Rplus_0_r. apply bigsum_ext. intros i Hi. destruct (Nat.ltb_spec i p); [auto|lia].
  - intros i Hi. destruct (Nat.ltb_spec (p + i) p); [lia|ring].
Qed.

Lemma dft_bin_fvec : forall n L f k,
  dft_bin n (crop_pad n (fvec L f)) k = emb (spec_re n L f k, spec_im n L f k).
Proof.
  intros. unfold dft_bin, emb. rewrite crop_pad_fvec. cbn [fst snd].
  f_equal.
  - unfold spec_re. rewrite <- (bigsum_crop n (Nat.min L n) f (fun t => cos (2 * PI * INR (t * k) / INR n))) by lia.
    rewrite <- fsum_fvec. f_equal. unfold fvec at 2. apply map_ext_in. intros j Hj. apply in_seq in Hj.
    rewrite fvec_nth by lia. reflexivity.
  - unfold spec_im. rewrite <- (bigsum_crop n (Nat.min L n) f (fun t => - sin (2 * PI * INR (t * k) / INR n))) by lia.
    rewrite <- fsum_fvec. f_equal. unfold fvec at 2. apply map_ext_in. intros j Hj. apply in_seq in Hj.
    rewrite fvec_nth by lia. reflexivity.
Qed.
Lemma spec_sq_nonneg : forall n L f k, 0 <= spec_sq n L f k.
Proof. intros. unfold spec_sq. pose proof (pow2_ge_0 (spec_re n L f k)). pose proof (pow2_ge_0 (spec_im n L f k)). lra. Qed.
Lemma dft_abs : forall n L f k, cabs (dft_bin n (crop_pad n (fvec L f)) k) = Fin (spec_mag n L f k).
Proof. intros. rewrite dft_bin_fvec, cabs_emb. reflexivity. Qed.

Lemma half_nat : forall nfft, (0 <= nfft)%Z -> half nfft = (Z.to_nat nfft / 2)%nat.
Proof.
  intros. unfold half. apply Nat2Z.inj. rewrite Nat2Z.inj_div. rewrite !Z2Nat.id; auto.
  apply Z.div_pos; lia.
Qed.
Lemma fft_magnitude_fmat : forall m L f nfft, (1 <= nfft)%Z ->
  fft_magnitude (fmat m L f) nfft = Ok (fmat m (S (half nfft)) (fun i => spec_mag (Z.to_nat nfft) L (f i))).
Proof.
  intros m L f nfft Hn. unfold fft_magnitude, np_fft. rewrite (proj2 (Z.ltb_ge _ _)) by lia. cbn [rbind].
  f_equal. unfold fmat. rewrite !map_map. apply map_ext. intros i. rewrite map_map.
  assert (Hq : Z.quot nfft 2 = (nfft / 2)%Z) by (apply Z.quot_div_nonneg; lia). rewrite Hq.
  assert (0 <= nfft / 2)%Z by (apply Z.div_pos; lia).
  unfold py_take. rewrite (proj2 (Z.ltb_ge _ _)) by lia.
  rewrite (map_ext _ _ (dft_abs (Z.to_nat nfft) L (f i))).
  change (map (fun x => Fin (spec_mag (Z.to_nat nfft) L (f i) x)) (seq 0 (Z.to_nat nfft)))
    with (fvec (Z.to_nat nfft) (spec_mag (Z.to_nat nfft) L (f i))).
  replace (Z.to_nat (nfft / 2 + 1)) with (S (half nfft)) by (unfold half; lia).
  destruct (Z.eq_dec nfft 1) as [->|Hne]; [reflexivity|].
  rewrite fvec_firstn; auto. unfold half. assert (nfft / 2 < nfft)%Z by (apply Z.div_lt; lia). lia.
Qed.
Lemma rfft_magnitude_fmat : forall m L f nfft, (1 <= nfft)%Z ->
  rfft_magnitude (fmat m L f) nfft = Ok (fmat m (S (half nfft)) (fun i => spec_mag (Z.to_nat nfft) L (f i))).
Proof.
  intros m L f nfft Hn. unfold rfft_magnitude, np_rfft. rewrite (proj2 (Z.ltb_ge _ _)) by lia. cbn [rbind].
  f_equal. unfold fmat. rewrite !map_map. apply map_ext. intros i. rewrite map_map, half_nat by lia.
  apply map_ext. intros k. apply dft_abs.
Qed.

Lemma power_frames_fmat : forall m h L f nfft, (1 <= nfft)%Z ->
  power_frames nfft (fmat m (S h) (fun i => spec_mag (Z.to_nat nfft) L (f i)))
  = fmat m (S h) (fun i => spec_power (Z.to_nat nfft) L (f i)).
Proof.
  intros m h L f nfft Hn. unfold power_frames.
  rewrite (fmat_map m (S h) _ _ (fun v => 1 / IZR nfft * (v * v))) by reflexivity.
  apply fmat_ext. intros i j _ _. unfold spec_mag, spec_power. rewrite sqrt_sqrt by apply spec_sq_nonneg.
  rewrite INR_IZR_INZ, Z2Nat.id by lia. unfold Rdiv. ring.
Qed.

Lemma np_dot_T_fmat : forall m n c P B, (0 < m)%nat -> (0 < n)%nat ->
  np_dot_T (fmat m c P) (fmat n c B) = Ok (fmat m n (fun i j => bigsum c (fun k => P i k * B j k))).
Proof.
  intros m n c P B Hm Hn. unfold np_dot_T.
  destruct (fmat n c B) eqn:E; [apply (f_equal (@List.length _)) in E; rewrite fmat_length in E; simpl in E; lia|].
  rewrite <- E. rewrite !ncols_fmat, Nat.eqb_refl by auto. f_equal. unfold fmat. rewrite map_map. apply map_ext. intros i.
  rewrite map_map. apply map_ext. intros j. apply fdot_fvec.
Qed.

(** ** one shape for all extractors *)
Definition mag_of (e : extractor) : list (list F) -> Z -> result (list (list F)) :=
  match e with Bfcc | Ngcc => rfft_magnitude | _ => fft_magnitude end.
Definition comp_of (e : extractor) (v : F) : F :=
  match e with
  | Mfcc | Imfcc | Lfcc | Ngcc => flog (zero_handling1 v)
  | Bfcc => flog (zero_handling1 (ipl v))
  | Gfcc => fpow v (1 / 3)
  | Msrcc g => fpow v g
  end.
Definition spec_gram `{Env} (bank : result (list (list F))) (coeff : R)
    (magf : list (list F) -> Z -> result (list (list F))) (sig : list F) (a : sargs)
  : result (list (list F) * list (list F)) :=
  do fbanks <- bank;
  do (_, windows) <- framed sig (s_fs a) (s_pre_emph a) coeff (s_window a);
  do mag <- magf windows (s_nfft a);
  do features <- np_dot_T (power_frames (s_nfft a) mag) fbanks;
  Ok (features, mag).
Definition cep `{Env} (e : extractor) (sig : list F) (a : sargs) (c : cargs) : result (list (list F)) :=
  if (s_nfilts a <? c_num_ceps c)%Z then Raise (ParameterError msg_nfilts)
  else do (features, mag) <- spec_gram (extractor_bank e a) (extractor_coeff e a) (mag_of e) sig a;
       finish c (s_nfft a) (map (map (comp_of e)) features) mag.

Lemma spectrogram_gram : forall `{Env} s sig a,
  spectrogram s sig a = spec_gram (spectro_bank s a) (spectro_coeff s a)
    (match s with Bark => rfft_magnitude | _ => fft_magnitude end) sig a.
Proof.
  intros E s sig a. destruct s; unfold spectrogram, spec_gram, spectro_bank, mel_spectrogram,
    linear_spectrogram, bark_spectrogram, erb_spectrogram, spectro_coeff; destruct (s_fbanks a); reflexivity.
Qed.

Lemma log_features_map : forall m, log_features m = map (map (fun v => flog (zero_handling1 v))) m.
Proof. intros. unfold log_features, zero_handling. apply map_ext. intros. apply map_map. Qed.
Lemma log_loud_map : forall m, log_features (intensity_power_law m) = map (map (fun v => flog (zero_handling1 (ipl v)))) m.
Proof.
  intros. rewrite log_features_map. unfold intensity_power_law. rewrite map_map. apply map_ext. intros. rewrite map_map. auto.
Qed.

Lemma run_cep : forall `{Env} e sig a c, run e sig a c = cep e sig a c.
Proof.
  intros E e sig a c. unfold cep.
  destruct e; cbn [run extractor_bank extractor_coeff mag_of].
  - unfold mfcc. destruct (_ <? _)%Z; auto. pose proof (spectrogram_gram Mel sig a) as X.
    cbn [spectrogram spectro_coeff] in X. rewrite X. destruct (spec_gram _ _ _ _ _) as [[]|]; cbn [rbind]; auto.
    rewrite log_features_map. auto.
  - unfold imfcc. destruct (_ <? _)%Z eqn:En; auto.
    destruct (match s_fbanks a with Some b => Ok b | None => _ end) as [b|ex] eqn:Eb'; [|reflexivity].
    cbn [rbind]. unfold mfcc. change (s_nfilts (with_fbanks a b)) with (s_nfilts a). rewrite En.
    pose proof (spectrogram_gram Mel sig (with_fbanks a b)) as X. cbn [spectrogram] in X. rewrite X. clear X.
    unfold spec_gram, spectro_bank, with_fbanks. cbn [s_fbanks spectro_coeff s_fs s_pre_emph s_coeff s_window s_nfft rbind].
    destruct (framed _ _ _ _ _) as [[]|]; cbn [rbind]; auto.
    destruct (fft_magnitude _ _); cbn [rbind]; auto. destruct (np_dot_T _ _); cbn [rbind]; auto.
    rewrite log_features_map. auto.
  - unfold lfcc. destruct (_ <? _)%Z; auto. pose proof (spectrogram_gram Linear sig a) as X.
    cbn [spectrogram spectro_coeff] in X. rewrite X. destruct (spec_gram _ _ _ _ _) as [[]|]; cbn [rbind]; auto.
    rewrite log_features_map. auto.
  - unfold bfcc. destruct (_ <? _)%Z; auto. pose proof (spectrogram_gram Bark sig a) as X.
    cbn [spectrogram spectro_coeff] in X. rewrite X. destruct (spec_gram _ _ _ _ _) as [[]|]; cbn [rbind]; auto.
    rewrite log_loud_map. auto.
  - unfold gfcc. destruct (_ <? _)%Z; [auto|]. pose proof (spectrogram_gram Erb sig a) as X.
    cbn [spectrogram spectro_coeff] in X. rewrite X. destruct (spec_gram _ _ _ _ _) as [[]|]; cbn [rbind]; auto.
  - unfold ngcc. destruct (_ <? _)%Z; auto. unfold spec_gram, spectro_bank.
    destruct (match s_fbanks a with Some b => Ok b | None => _ end) as [b|ex]; [|reflexivity].
    cbn [rbind]. destruct (framed _ _ _ _ _) as [[]|]; cbn [rbind]; auto.
    destruct (rfft_magnitude _ _); cbn [rbind]; auto. destruct (np_dot_T _ _); cbn [rbind]; auto.
    rewrite log_features_map. auto.
  - unfold msrcc. destruct (_ <? _)%Z; [auto|]. pose proof (spectrogram_gram Mel sig a) as X.
    cbn [spectrogram spectro_coeff] in X. rewrite X. destruct (spec_gram _ _ _ _ _) as [[]|]; cbn [rbind]; auto.
Qed.

(** ** closed form of the spectrograms *)
Lemma spec_gram_fvec : forall `{Env} coeff magf a N L hop n B x,
  (forall m f, magf (fmat m L f) (s_nfft a)
     = Ok (fmat m (S (half (s_nfft a))) (fun i => spec_mag (Z.to_nat (s_nfft a)) L (f i)))) ->
  well_framed a N L hop -> (1 <= s_nfft a)%Z -> (0 < n)%nat ->
  spec_gram (Ok (fmat n (S (half (s_nfft a))) B)) coeff magf (fvec N x) a
  = Ok (fmat (frame_count N L hop) n
          (fun i j => spec_band (half (s_nfft a)) (Z.to_nat (s_nfft a)) L (frame_of a coeff L hop x i) (B j)),
        fmat (frame_count N L hop) (S (half (s_nfft a)))
          (fun i => spec_mag (Z.to_nat (s_nfft a)) L (frame_of a coeff L hop x i))).
Proof.
  intros E coeff magf a N L hop n B x Hm Hw Hn Hn0. unfold spec_gram. cbn [rbind].
  rewrite (framed_fvec a N L hop) by auto. cbn [rbind]. rewrite Hm. cbn [rbind].
  rewrite power_frames_fmat by auto. rewrite np_dot_T_fmat by (auto; apply frame_count_pos). reflexivity.
Qed.

Lemma spectrogram_fvec : forall `{Env} s a N L hop n B x,
  well_framed a N L hop -> (1 <= s_nfft a)%Z -> (0 < n)%nat ->
  spectro_bank s a = Ok (fmat n (S (half (s_nfft a))) B) ->
  spectrogram s (fvec N x) a
  = Ok (fmat (frame_count N L hop) n
          (fun i j => spec_band (half (s_nfft a)) (Z.to_nat (s_nfft a)) L
                        (frame_of a (spectro_coeff s a) L hop x i) (B j)),
        fmat (frame_count N L hop) (S (half (s_nfft a)))
          (fun i => spec_mag (Z.to_nat (s_nfft a)) L (frame_of a (spectro_coeff s a) L hop x i))).
Proof.
  intros E s a N L hop n B x Hw Hn Hn0 HB. rewrite spectrogram_gram, HB. apply spec_gram_fvec; auto.
  intros. destruct s; auto using fft_magnitude_fmat, rfft_magnitude_fmat.
Qed.

(** ** compression *)
Lemma zh_eq : forall v, zero_handling1 (Fin v) = Fin (if Req_EM_T v 0 then spec_eps else v).
Proof.
  intros. unfold zero_handling1, feqb, f0, Reqb. destruct (Req_EM_T v 0); reflexivity.
Qed.
Lemma flog_zh : forall v, 0 <= v -> flog (zero_handling1 (Fin v)) = Fin (spec_log v).
Proof.
  intros v Hv. rewrite zh_eq. unfold spec_log. apply flog_pos.
  destruct (Req_EM_T v 0); [exact eps_pos|]. lra.
Qed.
Lemma fpow_root : forall v g, g <> 0 -> 0 < v \/ (0 <= v /\ 0 < g) -> fpow (Fin v) g = Fin (spec_root g v).
Proof.
  intros v g Hg Hv. unfold fpow, spec_root. destruct (Req_EM_T g 0); [lra|].
  destruct (Rlt_dec 0 v), (Req_EM_T v 0); try lra; auto.
  destruct (Rlt_dec 0 g); auto. lra.
Qed.
Definition loud_arg (w : R) : R :=
  (w ^ 2 + 56.8 * 10 ^ 6) * w ^ 4
     / ((w ^ 2 + 6.3 * 10 ^ 6) * (w ^ 2 + 0.38 * 10 ^ 9) * (w ^ 6 + 9.58 * 10 ^ 26)).
Lemma loud_den : forall w, 0 < (w ^ 2 + 6.3 * 10 ^ 6) * (w ^ 2 + 0.38 * 10 ^ 9) * (w ^ 6 + 9.58 * 10 ^ 26).
Proof.
  intros. pose proof (pow2_ge_0 w). assert (0 <= w ^ 6) by (replace (w ^ 6) with ((w ^ 3) ^ 2) by ring; apply pow2_ge_0).
  assert (0 < 10 ^ 6) by (apply pow_lt; lra). assert (0 < 10 ^ 9) by (apply pow_lt; lra). assert (0 < 10 ^ 26) by (apply pow_lt; lra).
  repeat apply Rmult_lt_0_compat; lra.
Qed.
Lemma loud_num : forall w, 0 < w ^ 2 + 56.8 * 10 ^ 6.
Proof. intros. pose proof (pow2_ge_0 w). assert (0 < 10 ^ 6) by (apply pow_lt; lra). lra. Qed.
Lemma loud_arg_nonneg : forall w, 0 <= loud_arg w.
Proof.
  intros. unfold loud_arg. pose proof (loud_den w). pose proof (loud_num w).
  assert (0 <= w ^ 4) by (replace (w ^ 4) with ((w ^ 2) ^ 2) by ring; apply pow2_ge_0).
  apply Rmult_le_pos; [apply Rmult_le_pos; lra|]. left. apply Rinv_0_lt_compat; auto.
Qed.
Lemma loud_arg_zero : forall w, loud_arg w = 0 <-> w = 0.
Proof.
  intros. unfold loud_arg. pose proof (loud_den w) as H1. pose proof (loud_num w) as H2. split; intros H.
  - apply Rmult_integral in H as [H|H]; [|apply Rinv_neq_0_compat in H; lra].
    apply Rmult_integral in H as [H|H]; [lra|]. destruct (Req_dec w 0); auto. apply (pow_nonzero w 4) in H0. contradiction.
  - subst. unfold Rdiv. replace (0 ^ 4) with 0 by ring. ring.
Qed.
Lemma ipl_Fin : forall w, ipl (Fin w) = Fin (spec_loudness w).
Proof.
  intros w. unfold ipl. rewrite !fpown_Fin. cbn [fadd fmul].
  replace ((w ^ 3) ^ 2) with (w ^ 6) by ring. rewrite fdiv_Fin by (apply Rgt_not_eq, loud_den).
  apply fpow_root; [lra|]. right. split; [apply loud_arg_nonneg|lra].
Qed.
Lemma spec_root_nonneg : forall p v, 0 <= spec_root p v.
Proof. intros. unfold spec_root. destruct (Req_EM_T v 0); [lra|]. unfold Rpower. left. apply exp_pos. Qed.
Lemma spec_root_zero : forall p v, spec_root p v = 0 <-> v = 0.
Proof.
  intros. unfold spec_root. destruct (Req_EM_T v 0); [tauto|]. unfold Rpower.
  pose proof (exp_pos (p * ln v)). split; intros; lra.
Qed.
Lemma spec_loudness_nonneg : forall w, 0 <= spec_loudness w.
Proof. intros. apply spec_root_nonneg. Qed.

Lemma comp_ok : forall e v, compressible e v -> comp_of e (Fin v) = Fin (compression e v).
Proof.
  intros e v Hv. destruct e; cbn [comp_of compression compressible] in *; auto using flog_zh.
  - rewrite ipl_Fin. apply flog_zh, spec_loudness_nonneg.
  - apply fpow_root; [lra|]. right. split; auto; lra.
  - destruct (Req_EM_T gamma 0) as [->|].
    + unfold fpow. destruct (Req_EM_T 0 0); [auto|lra].
    + apply fpow_root; auto. tauto.
Qed.
Lemma comp_fmat : forall e m n G, (forall i j, (i < m)%nat -> (j < n)%nat -> compressible e (G i j)) ->
  map (map (comp_of e)) (fmat m n G) = fmat m n (fun i j => compression e (G i j)).
Proof.
  intros e m n G HG. unfold fmat. rewrite map_map. apply map_ext_in. intros i Hi. apply in_seq in Hi.
  unfold fvec. rewrite map_map. apply map_ext_in. intros j Hj. apply in_seq in Hj. apply comp_ok. apply HG; lia.
Qed.

(** ** the end of the chain *)
Lemma bigsum_Rext : forall n f g, (forall i, f i = g i) -> bigsum n f = bigsum n g.
Proof. intros. apply bigsum_ext. auto. Qed.
Lemma log_energy_fmat : forall m h L f nfft, (1 <= nfft)%Z ->
  log_energy nfft (fmat m (S h) (fun i => spec_mag (Z.to_nat nfft) L (f i)))
  = fvec m (fun i => spec_log (spec_total h (Z.to_nat nfft) L (f i))).
Proof.
  intros m h L f nfft Hn. unfold log_energy.
  rewrite (fmat_map m (S h) _ _ (fun v => 1 / IZR nfft * Rabs v ^ 2)) by (intros; cbn [fabs]; rewrite fpown_Fin; reflexivity).
  unfold fmat, zero_handling, fvec at 2. rewrite !map_map. apply map_ext. intros i.
  rewrite fsum_fvec. unfold spec_total.
  rewrite (bigsum_Rext (S h) _ (spec_power (Z.to_nat nfft) L (f i))).
  - apply flog_zh. apply bigsum_nonneg. intros. unfold spec_power. apply Rmult_le_pos; [apply spec_sq_nonneg|].
    left. apply Rinv_0_lt_compat. apply lt_0_INR. lia.
  - intros k. unfold spec_power. rewrite pow2_abs. unfold spec_mag. simpl pow. rewrite Rmult_1_r, sqrt_sqrt by apply spec_sq_nonneg.
    rewrite INR_IZR_INZ, Z2Nat.id by lia. unfold Rdiv. ring.
Qed.

Lemma finish_fmat : forall c nfft m n h L f G, (1 <= nfft)%Z -> (0 < m)%nat -> (0 < n)%nat ->
  (1 <= c_dct_type c <= 4)%Z -> (c_dct_type c = 1%Z -> (2 <= n)%nat) -> (0 <= c_num_ceps c)%Z ->
  (c_use_energy c = true -> (0 < c_num_ceps c)%Z) -> no_lifter c -> no_normalisation c ->
  finish c nfft (fmat m n G) (fmat m (S h) (fun i => spec_mag (Z.to_nat nfft) L (f i)))
  = Ok (fmat m (Nat.min (Z.to_nat (c_num_ceps c)) n)
          (fun i k => if (c_use_energy c && Nat.eqb k 0)%bool then spec_log (spec_total h (Z.to_nat nfft) L (f i))
                      else spec_dct (c_dct_type c) n (G i) k)).
Proof.
  intros c nfft m n h L f G Hn Hm Hn0 Ht Ht1 Hnc Hue Hl Hnm. unfold finish.
  rewrite sp_dct_fmat by auto. cbn [rbind].
  set (K := Nat.min (Z.to_nat (c_num_ceps c)) n).
  assert (E1 : map (py_take (c_num_ceps c)) (fmat m n (fun i => spec_dct (c_dct_type c) n (G i)))
             = fmat m K (fun i => spec_dct (c_dct_type c) n (G i))).
  { unfold fmat. rewrite map_map. apply map_ext. intros i. unfold py_take.
    rewrite (proj2 (Z.ltb_ge _ _)) by lia.
    destruct (Nat.le_gt_cases (Z.to_nat (c_num_ceps c)) n).
    - unfold K. rewrite Nat.min_l by lia. apply fvec_firstn; auto.
    - unfold K. rewrite Nat.min_r by lia. apply firstn_all2. rewrite fvec_length. lia. }
  rewrite E1. clear E1.
  assert (E2 : (if c_use_energy c then set_col0 (fmat m K (fun i => spec_dct (c_dct_type c) n (G i)))
                   (log_energy nfft (fmat m (S h) (fun i => spec_mag (Z.to_nat nfft) L (f i))))
                else Ok (fmat m K (fun i => spec_dct (c_dct_type c) n (G i))))
    = Ok (fmat m K (fun i k => if (c_use_energy c && Nat.eqb k 0)%bool then spec_log (spec_total h (Z.to_nat nfft) L (f i))
                      else spec_dct (c_dct_type c) n (G i) k))).
  { destruct (c_use_energy c); [|reflexivity]. specialize (Hue eq_refl).
    assert (HK : (0 < K)%nat) by (unfold K; lia). unfold set_col0. rewrite ncols_fmat by auto.
    destruct (Nat.eqb_spec K 0); [lia|]. f_equal. rewrite log_energy_fmat by auto.
    unfold fmat, fvec at 2. rewrite map2_map_same. apply map_ext. intros i.
    destruct K as [|K']; [lia|]. rewrite !fvec_S. cbn [tl andb Nat.eqb]. reflexivity. }
  rewrite E2. cbn [rbind]. clear E2.
  assert (E3 : forall X, match c_lifter c with Some l => if Reqb l 0 then Ok X else lifter_ceps X l | None => Ok X end = Ok X).
  { intros X. destruct Hl as [-> | ->]; auto. rewrite Reqb_refl. auto. }
  rewrite E3. cbn [rbind]. destruct Hnm as [-> | ->]; auto.
Qed.

Lemma run_fvec : forall `{Env} e a c N L hop n B x,
  well_framed a N L hop -> (1 <= s_nfft a)%Z -> (0 < n)%nat ->
  extractor_bank e a = Ok (fmat n (S (half (s_nfft a))) B) ->
  (forall i j, (i < frame_count N L hop)%nat -> (j < n)%nat ->
     compressible e (spec_band (half (s_nfft a)) (Z.to_nat (s_nfft a)) L (frame_of a (extractor_coeff e a) L hop x i) (B j))) ->
  (c_num_ceps c <= s_nfilts a)%Z ->
  (1 <= c_dct_type c <= 4)%Z -> (c_dct_type c = 1%Z -> (2 <= n)%nat) -> (0 <= c_num_ceps c)%Z ->
  (c_use_energy c = true -> (0 < c_num_ceps c)%Z) -> no_lifter c -> no_normalisation c ->
  run e (fvec N x) a c
  = Ok (fmat (frame_count N L hop) (Nat.min (Z.to_nat (c_num_ceps c)) n)
          (fun i k =>
             let f := frame_of a (extractor_coeff e a) L hop x i in
             if (c_use_energy c && Nat.eqb k 0)%bool
             then spec_log (spec_total (half (s_nfft a)) (Z.to_nat (s_nfft a)) L f)
             else spec_dct (c_dct_type c) n
                    (fun j => compression e (spec_band (half (s_nfft a)) (Z.to_nat (s_nfft a)) L f (B j))) k)).
Proof.
  intros E e a c N L hop n B x Hw Hn Hn0 HB HG Hc Ht Ht1 Hnc Hue Hl Hnm.
  rewrite run_cep. unfold cep. rewrite (proj2 (Z.ltb_ge _ _)) by lia. rewrite HB.
  rewrite (spec_gram_fvec _ _ a N L hop); auto.
  - cbn [rbind]. rewrite comp_fmat by auto.
    rewrite finish_fmat; auto. apply frame_count_pos.
  - intros. destruct e; cbn [mag_of]; auto using fft_magnitude_fmat, rfft_magnitude_fmat.
Qed.
