(** * The extractors on a heap *)
From Coq Require Import Reals ZArith List String Bool Lia.
From Flocq Require Import Core.Raux.
From Verif Require Import Base BaseFacts Cplx SpecBase SpecMat SpecFilters MatFacts Preprocessing PreprocessingFacts Filters FiltersFacts
  Cepstral CepstralFacts MelBanks MelBanksFacts BarkBank Gammatone Fourier Features FeaturesFacts FeaturesMore Extractors LinAlg Lpc LpcLaws InvarianceFacts InvarianceMore
  SpecMemory Memory MemoryFacts MemoryLaws MemoryClient.
Import ListNotations.

(** the array passed as fbanks and its value *)
Definition sees_bank (h : heap) (fb : option arr2) (b : option (list (list F))) : Prop :=
  match fb, b with None, None => True | Some v, Some m => sees2 h v m | _, _ => False end.
Lemma sees_bank_grows : forall h h' fb b, grows h h' -> sees_bank h fb b -> sees_bank h' fb b.
Proof. intros h h' [v|] [m|] Hg; simpl; auto. intros. eapply sees2_grows; eauto. Qed.

Lemma bank_impl : forall h own fb b, sees_bank h fb b -> (forall B, own = Ok B -> rectangular B) ->
  impl (List.length h) sees2 h (bank_mem own fb) (match b with Some b => Ok b | None => own end).
Proof.
  intros h own [v|] [m|] Hb Hr; simpl in Hb; try tauto; unfold bank_mem.
  - apply impl_ret; auto.
  - destruct own as [B|e]; [|apply impl_raise; auto]. destruct (Hr B eq_refl) as (r & c & Hs).
    eapply impl_weaken; [|exact (impl_new2 _ _ _ _ _ (le_n _) Hs)]. cbv beta. intros h' a b Hg E [(_ & _ & Hv) _]. exact Hv.
Qed.
Lemma PF_inv : forall n h p q, PF n h p q -> exists fr fv w wv, p = (fv, wv) /\ q = (fr, w) /\ sees2 h fv fr /\ (n <= b2 fv)%nat /\
  owned n h wv w /\ List.length w = List.length fr /\ (0 < List.length fr)%nat.
Proof.
  intros n h [fv wv] [fr w] (H1 & H2 & H3 & H4 & H5). cbn [fst snd] in *. exists fr, fv, w, wv. repeat (split; auto).
  - destruct (owned_shape _ _ _ _ H3) as [E _]. destruct (sees2_shape _ _ _ H1) as [E' _]. lia.
  - destruct (sees2_shape _ _ _ H1) as [E' _]. lia.
Qed.
Lemma fft_mag_impl : forall h wv w nfft, sees2 h wv w ->
  impl (List.length h) (fun h' v m => owned (List.length h) h' v m /\ List.length m = List.length w) h (fft_magnitude_mem wv nfft) (fft_magnitude w nfft).
Proof.
  intros h wv w nfft Hs. unfold fft_magnitude_mem, fft_magnitude. eapply impl_read2; eauto. apply impl_lift; auto. intros X HX.
  pose proof (fft_shape _ _ _ HX) as Hsh.
  destruct (new2_owned h _ _ _ Hsh) as (v & h' & H1 & H2 & H3 & _). split; auto.
  split; [exact I|]. left. eexists _, _, h'. split; [rewrite exec_bind, H1; reflexivity|]. split; [reflexivity|].
  pose proof (columns_upto_owned _ _ _ _ (Z.quot nfft 2 + 1) H3) as Ho. rewrite map_map in Ho. split; [exact Ho|].
  rewrite map_length. destruct Hsh as [Hl _]. rewrite map_length in Hl. auto.
Qed.
Lemma rfft_mag_impl : forall h wv w nfft, sees2 h wv w ->
  impl (List.length h) (fun h' v m => owned (List.length h) h' v m /\ List.length m = List.length w) h (rfft_magnitude_mem wv nfft) (rfft_magnitude w nfft).
Proof.
  intros h wv w nfft Hs. unfold rfft_magnitude_mem, rfft_magnitude. eapply impl_read2; eauto. apply impl_lift; auto. intros X HX.
  pose proof (rfft_shape _ _ _ HX) as Hsh. eapply impl_weaken; [|exact (impl_new2 _ _ _ _ _ (le_n _) Hsh)]. cbv beta.
  intros h' v m Hg E [Ho _]. apply Ok_inj in E. subst m. split; auto. apply Hsh.
Qed.
Lemma bands_impl : forall h fv f bv b nfft, sees2 h fv f -> sees2 h bv b ->
  impl (List.length h) (fun h' v m => owned (List.length h) h' v m /\ List.length m = List.length f) h
    (bands_mem fv bv nfft) (np_dot_T (power_frames nfft f) b).
Proof.
  intros h fv f bv b nfft Hf Hb. unfold bands_mem. eapply impl_read2; eauto. eapply impl_read2; eauto.
  destruct (np_dot_T (power_frames nfft f) b) as [d|e] eqn:Ed; [|apply impl_raise; auto].
  unfold power_frames in Ed. pose proof (dot_shape _ _ _ _ _ Ed) as Hsh. eapply impl_weaken; [|exact (impl_new2 _ _ _ _ _ (le_n _) Hsh)]. cbv beta.
  intros h' v m Hg E [Ho _]. apply Ok_inj in E. subst m. split; auto. apply Hsh.
Qed.

(** the two arrays of a spectrogram *)
Definition PS (n : nat) (h : heap) (p : arr2 * arr2) (q : list (list F) * list (list F)) : Prop :=
  owned n h (fst p) (fst q) /\ owned n h (snd p) (snd q) /\ b2 (fst p) <> b2 (snd p) /\
  List.length (fst q) = List.length (snd q) /\ (0 < List.length (fst q))%nat.

(** the common part of the four spectrograms and of ngcc *)
Definition spectral `{Env} (x : list F) (a : sargs) (coeff : R) (own : result (list (list F)))
    (mag : list (list F) -> Z -> result (list (list F))) : result (list (list F) * list (list F)) :=
  do fbanks <- match s_fbanks a with Some b => Ok b | None => own end;
  do (_, windows) <- framed x (s_fs a) (s_pre_emph a) coeff (s_window a);
  do fourrier <- mag windows (s_nfft a);
  do features <- np_dot_T (power_frames (s_nfft a) fourrier) fbanks;
  Ok (features, fourrier).
Definition spectral_mem `{Env} (sig : arr1) (a : sargs) (coeff : R) (own : result (list (list F))) (fb : option arr2)
    (mag : arr2 -> Z -> prog arr2) : prog (arr2 * arr2) :=
  pdo fbanks <- bank_mem own fb;
  pdo (_, windows) <- framed_mem sig (s_fs a) (s_pre_emph a) coeff (s_window a);
  pdo fourrier <- mag windows (s_nfft a);
  pdo features <- bands_mem fourrier fbanks (s_nfft a);
  ret (features, fourrier).
Lemma spectral_impl : forall `{Env} h sig x a coeff own mag magm fb b, sees1 h sig x -> sees_bank h fb b ->
  (forall B, own = Ok B -> rectangular B) ->
  (forall h' wv w nfft, sees2 h' wv w -> impl (List.length h') (fun h2 v m => owned (List.length h') h2 v m /\ List.length m = List.length w) h' (magm wv nfft) (mag w nfft)) ->
  impl (List.length h) (PS (List.length h)) h (spectral_mem sig a coeff own fb magm) (spectral x (with_bank a b) coeff own mag).
Proof.
  intros E h sig x a coeff own mag magm fb b Hs Hb Hown Hmag. unfold spectral_mem, spectral.
  cbn [s_fbanks s_fs s_pre_emph s_window s_nfft with_bank].
  eapply impl_bind; [auto|apply bank_impl; eauto|]. intros h1 bv B G1 _ HB. pose proof (grows_length _ _ G1) as L1.
  eapply impl_bind; [auto|apply (framed_impl (List.length h)); [auto|eapply sees1_grows; eauto]|].
  intros h2 p q G2 _ HP. apply PF_inv in HP as (fr & fv & w & wv & -> & -> & H1 & H2 & H3 & H4 & H5). pose proof (grows_length _ _ G2) as L2.
  eapply impl_bind; [lia|apply Hmag; apply H3|]. intros h3 mv m G3 _ [Hm Hml]. pose proof (grows_length _ _ G3) as L3.
  eapply impl_bind; [lia|apply bands_impl; [apply Hm|eapply sees2_grows; [exact G3|]; eapply sees2_grows; eauto]|].
  intros h4 fev fe G4 _ [Hf Hfl]. pose proof (grows_length _ _ G4) as L4.
  apply impl_ret; [lia|]. unfold PS. cbn [fst snd]. split; [eapply owned_weaken; [|exact Hf]; lia|].
  split; [eapply owned_weaken; [|eapply owned_grows; [exact G4|exact Hm]]; lia|].
  split; [|lia]. destruct Hf as (Hf & _). destruct Hm as (_ & _ & Hm & _). lia.
Qed.

Lemma spectrogram_impl : forall `{Env} s h sig x a fb b, sees1 h sig x -> sees_bank h fb b ->
  impl (List.length h) (PS (List.length h)) h (spectrogram_mem s sig a fb) (spectrogram s x (with_bank a b)).
Proof.
  intros E s h sig x a fb b Hs Hb. destruct s.
  - apply (spectral_impl h sig x a (s_coeff a) _ fft_magnitude fft_magnitude_mem); auto using fft_mag_impl. intros B. apply mel_rect.
  - apply (spectral_impl h sig x a 0.97 _ fft_magnitude fft_magnitude_mem); auto using fft_mag_impl. intros B. apply lin_rect.
  - apply (spectral_impl h sig x a 0.97 _ rfft_magnitude rfft_magnitude_mem); auto using rfft_mag_impl. intros B. apply bark_rect.
  - apply (spectral_impl h sig x a 0.97 _ fft_magnitude fft_magnitude_mem); auto using fft_mag_impl. intros B. apply gam_rect.
Qed.

(** ** from the DCT on *)
Lemma lifter_impl : forall h v m l, sees2 h v m -> (Reqb l 0 || Rltb 10 l)%bool = false ->
  impl (List.length h) (owned (List.length h)) h (lifter_ceps_mem v l) (lifter_ceps m l).
Proof.
  intros h v m l Hs Hl. unfold lifter_ceps_mem. rewrite Hl. eapply impl_read2; eauto.
  destruct (lifter_ceps m l) as [y|e] eqn:Ey; [|apply impl_raise; auto].
  eapply impl_weaken; [|exact (impl_new2 _ _ _ _ _ (le_n _) (lifter_shape _ _ _ _ _ (sees2_shape _ _ _ Hs) Ey))]. cbv beta. tauto.
Qed.
Lemma norm_impl : forall h v m t, sees2 h v m ->
  impl (List.length h) (owned (List.length h)) h (normalize_ceps_mem v t) (normalize_ceps m t).
Proof.
  intros h v m t Hs. unfold normalize_ceps_mem. eapply impl_read2; eauto.
  destruct (normalize_ceps m t) as [y|e] eqn:Ey; [|apply impl_raise; auto].
  eapply impl_weaken; [|exact (impl_new2 _ _ _ _ _ (le_n _) (norm_shape _ _ _ _ _ (sees2_shape _ _ _ Hs) Ey))]. cbv beta. tauto.
Qed.
Lemma deltas_impl : forall h v m w, sees2 h v m ->
  impl (List.length h) (owned (List.length h)) h (deltas_mem v w) (deltas m w).
Proof.
  intros h v m w Hs. unfold deltas_mem. eapply impl_read2; eauto.
  destruct (deltas m w) as [y|e] eqn:Ey; [|apply impl_raise; auto].
  eapply impl_weaken; [|exact (impl_new2 _ _ _ _ _ (le_n _) (deltas_shape _ _ _ _ _ (sees2_shape _ _ _ Hs) Ey))]. cbv beta. tauto.
Qed.
Lemma windowing_impl : forall h v m L wt, sees2 h v m ->
  impl (List.length h) (owned (List.length h)) h (windowing_mem v L wt) (windowing m L wt).
Proof.
  intros h v m L wt Hs. unfold windowing_mem. eapply impl_read2; eauto.
  destruct (windowing m L wt) as [y|e] eqn:Ey; [|apply impl_raise; auto].
  destruct (windowing_shape _ _ _ _ _ _ (sees2_shape _ _ _ Hs) Ey) as (c & Hsh).
  eapply impl_weaken; [|exact (impl_new2 _ _ _ _ _ (le_n _) Hsh)]. cbv beta. tauto.
Qed.
(** lifter and normalisation of an array that nobody else holds *)
Definition tail `{Env} (l : option R) (t : option string) (ceps : list (list F)) : result (list (list F)) :=
  do ceps <- match l with
             | Some l => if Reqb l 0 then Ok ceps else lifter_ceps ceps l
             | None => Ok ceps
             end;
  match t with
  | Some t => if String.eqb t "" then Ok ceps else normalize_ceps ceps t
  | None => Ok ceps
  end.
Definition tail_mem (l : option R) (t : option string) (ceps : arr2) : prog arr2 :=
  pdo ceps <- match l with
              | Some l => if Reqb l 0 then ret ceps else lifter_ceps_mem ceps l
              | None => ret ceps
              end;
  match t with
  | Some t => if String.eqb t "" then ret ceps else normalize_ceps_mem ceps t
  | None => ret ceps
  end.
Lemma tail_impl : forall `{Env} n h l t v m, (n <= List.length h)%nat -> owned n h v m ->
  impl n (owned n) h (tail_mem l t v) (tail l t m).
Proof.
  intros E n h l t v m Hn Ho. unfold tail_mem, tail. apply (impl_bind _ _ _ _ _ (owned n)); auto.
  - destruct l as [l|]; [|apply impl_ret; auto]. destruct (Reqb l 0) eqn:E0; [apply impl_ret; auto|].
    destruct (Rltb 10 l) eqn:E1.
    + unfold lifter_ceps_mem, lifter_ceps. rewrite E0, E1. apply impl_ret; auto.
    + eapply impl_weaken; [|apply lifter_impl; [apply Ho|rewrite E0, E1; auto]]. intros. eapply owned_weaken; eauto.
  - intros h' v' m' G _ Ho'. pose proof (grows_length _ _ G). destruct t as [t|]; [|apply impl_ret; auto; lia].
    destruct (String.eqb t ""); [apply impl_ret; auto; lia|]. apply (impl_lower (List.length h')); [lia|].
    eapply impl_weaken; [|apply norm_impl; apply Ho']. intros. eapply owned_weaken; [|eauto]. lia.
Qed.
Lemma finish_impl : forall `{Env} n h c nfft fv f mv m, (n <= List.length h)%nat -> sees2 h fv f -> sees2 h mv m ->
  List.length f = List.length m -> (0 < List.length f)%nat ->
  impl n (owned n) h (finish_mem c nfft fv mv) (finish c nfft f m).
Proof.
  intros E n h c nfft fv f mv m Hn Hf Hm Hl H0. unfold finish_mem, finish.
  eapply impl_read2; eauto. apply impl_lift; auto. intros d Hd.
  pose proof (dct_shape _ _ _ _ _ (sees2_shape _ _ _ Hf) Hd) as Hds.
  change (Ok d) with (Ok d). match goal with |- impl _ _ _ _ ?r => change r with (do d' <- Ok d; (fun d => r) d') end.
  apply (impl_bind _ _ _ _ _ (fun h' v m' => owned (List.length h) h' v m' /\ grows h h')); auto.
  { exact (impl_new2 _ _ _ _ _ (le_n _) Hds). }
  intros h1 dv d' G1 Hdd [Hdv _]. apply Ok_inj in Hdd. subst d'. cbv beta. pose proof (grows_length _ _ G1).
  pose proof (columns_upto_owned _ _ _ _ (c_num_ceps c) Hdv) as Hc. set (cv := columns_upto dv (c_num_ceps c)) in *. set (ceps := map (py_take (c_num_ceps c)) d) in *.
  assert (Hc' : owned n h1 cv ceps) by (eapply owned_weaken; eauto).
  assert (Hlen : List.length ceps = List.length f).
  { unfold ceps. rewrite map_length. destruct Hds as [-> _]. destruct (sees2_shape _ _ _ Hf) as [-> _]. auto. }
  apply (impl_bind_keeps _ _ _ _ _ (fun h' (_ : unit) m' => owned n h' cv m')).
  - destruct (c_use_energy c); [|apply impl_ret; auto; lia].
    eapply impl_read2; [eapply sees2_grows; eauto|].
    assert (Hsafe : safe n (write_col0 cv (log_energy nfft m)) h1).
    { eapply pokes_safe; [|apply pokes_write_col0]. intros b <-. apply Hc'. }
    pose proof (owned_shape _ _ _ _ Hc') as Hsh. pose proof Hsh as [Hr _].
    split; [lia|]. split; auto. unfold set_col0. rewrite (shape_ncols _ _ _ _ Hsh) by lia.
    destruct (Nat.eqb_spec (c2 cv) 0) as [E0|E0].
    + right. exists IndexError, h1. split; auto. unfold write_col0. rewrite E0. reflexivity.
    + destruct (write_col0_ok h1 cv ceps (log_energy nfft m)) as (h2 & W & O & T & S2); try apply Hc'; [lia| |].
      { unfold log_energy, zero_handling. rewrite !map_length. lia. }
      left. eexists _, _, h2. split; [exact W|]. split; [reflexivity|]. split; [apply Hc'|]. auto.
  - intros h2 u m' K _ Ho. destruct K. apply (tail_impl n h2 (c_lifter c) (c_normalize c) cv m'); auto. lia.
Qed.

(** ** the cepstral functions *)
Lemma map_impl : forall (f : list (list F) -> list (list F)) h v m, sees2 h v m -> (forall r c, has_shape m r c -> has_shape (f m) r c) ->
  impl (List.length h) (fun h' v' m' => owned (List.length h) h' v' m') h (map_mem f v) (Ok (f m)).
Proof.
  intros f h v m Hs Hf. unfold map_mem. eapply impl_read2; eauto.
  eapply impl_weaken; [|exact (impl_new2 _ _ _ _ _ (le_n _) (Hf _ _ (sees2_shape _ _ _ Hs)))]. cbv beta. tauto.
Qed.
(** a spectrogram, an entry-wise function, the rest *)
Lemma ceps_impl : forall `{Env} h p r (f : list (list F) -> list (list F)) c nfft,
  impl (List.length h) (PS (List.length h)) h p r -> (forall m r c, has_shape m r c -> has_shape (f m) r c) ->
  impl (List.length h) (owned (List.length h)) h
    (pdo (features, fourrier) <- p; pdo logs <- map_mem f features; finish_mem c nfft logs fourrier)
    (do (features, fourrier) <- r; finish c nfft (f features) fourrier).
Proof.
  intros E h p r f c nfft Hp Hf. eapply impl_bind; [auto|exact Hp|]. intros h1 [fv mv] [fe m] G1 _ (H1 & H2 & H3 & H4 & H5). cbn [fst snd] in *.
  pose proof (grows_length _ _ G1).
  match goal with |- impl _ _ _ _ ?q => change q with (do f' <- Ok (f fe); finish c nfft f' m) end.
  eapply impl_bind; [lia|apply map_impl; [apply H1|intros; apply Hf; auto]|]. intros h2 lv lm G2 Elm Hlv. apply Ok_inj in Elm. pose proof (grows_length _ _ G2).
  assert (Hlen : List.length (f fe) = List.length fe).
  { destruct (Hf _ _ _ (owned_shape _ _ _ _ H1)) as [-> _]. destruct (owned_shape _ _ _ _ H1) as [-> _]. auto. }
  subst lm. apply finish_impl; try lia; [apply Hlv|eapply sees2_grows; [eauto|apply H2]].
Qed.
Lemma mfcc_impl : forall `{Env} h sig x a c fb b, sees1 h sig x -> sees_bank h fb b ->
  impl (List.length h) (owned (List.length h)) h (mfcc_mem sig a c fb) (mfcc x (with_bank a b) c).
Proof.
  intros E h sig x a c fb b Hs Hb. unfold mfcc_mem, mfcc. cbn [s_nfilts with_bank]. destruct (_ <? _)%Z; [apply impl_raise; auto|].
  apply ceps_impl; [apply (spectrogram_impl Mel); auto|intros; apply log_shape; auto].
Qed.
Lemma run_impl : forall `{Env} e h sig x a c fb b, sees1 h sig x -> sees_bank h fb b ->
  impl (List.length h) (owned (List.length h)) h (run_mem e sig a c fb) (run e x (with_bank a b) c).
Proof.
  intros E e h sig x a c fb b Hs Hb. destruct e; cbn [run run_mem]; [apply mfcc_impl; auto|..].
  - unfold imfcc_mem, imfcc. cbn [s_nfilts s_fbanks with_bank s_nfft s_fs s_low s_high s_scale s_approach]. destruct (_ <? _)%Z; [apply impl_raise; auto|].
    eapply impl_bind; [auto|apply bank_impl; eauto; intros B; apply imel_rect|]. intros h1 bv B G1 _ HB. pose proof (grows_length _ _ G1).
    change (with_fbanks (with_bank a b) B) with (with_bank a (Some B)). apply (impl_lower (List.length h1)); [lia|].
    eapply impl_weaken; [|apply mfcc_impl; [eapply sees1_grows; eauto|exact HB]]. intros. eapply owned_weaken; [|eauto]. lia.
  - unfold lfcc_mem, lfcc. cbn [s_nfilts with_bank]. destruct (_ <? _)%Z; [apply impl_raise; auto|].
    apply ceps_impl; [apply (spectrogram_impl Linear); auto|intros; apply log_shape; auto].
  - unfold bfcc_mem, bfcc. cbn [s_nfilts with_bank]. destruct (_ <? _)%Z; [apply impl_raise; auto|].
    eapply impl_bind; [auto|apply (spectrogram_impl Bark); eauto|]. intros h1 [fv mv] [fe m] G1 _ (H1 & H2 & H3 & H4 & H5). cbn [fst snd] in *.
    pose proof (grows_length _ _ G1).
    match goal with |- impl _ _ _ _ ?q => change q with (do p' <- Ok (intensity_power_law fe); do f' <- Ok (log_features p'); finish c (s_nfft a) f' m) end.
    eapply impl_bind; [lia|apply map_impl; [apply H1|intros; apply map_entries_shape; auto]|]. intros h2 iv im G2 Eim Hiv. pose proof (grows_length _ _ G2).
    assert (Li : List.length im = List.length fe) by (apply Ok_inj in Eim; subst im; unfold intensity_power_law; rewrite map_length; auto).
    eapply impl_bind; [lia|apply map_impl; [apply Hiv|intros; apply log_shape; auto]|]. intros h3 lv lm G3 Elm Hlv. pose proof (grows_length _ _ G3).
    assert (Ll : List.length lm = List.length im) by (apply Ok_inj in Elm; subst lm; unfold log_features; rewrite map_length; auto).
    apply finish_impl; try lia; [apply Hlv|]. eapply sees2_grows; [exact G3|]. eapply sees2_grows; [eauto|apply H2].
  - unfold gfcc_mem, gfcc. cbn [s_nfilts with_bank]. destruct (_ <? _)%Z; [apply impl_raise; auto|].
    apply ceps_impl; [apply (spectrogram_impl Erb); auto|intros; apply map_entries_shape; auto].
  - unfold ngcc_mem, ngcc. cbn [s_nfilts with_bank s_fbanks s_nfft s_fs s_low s_high s_scale s_approach s_pre_emph s_coeff s_window]. destruct (_ <? _)%Z; [apply impl_raise; auto|].
    eapply impl_bind; [auto|apply bank_impl; eauto; intros B; apply gam_rect|]. intros h1 bv B G1 _ HB. pose proof (grows_length _ _ G1) as L1.
    eapply impl_bind; [auto|apply (framed_impl (List.length h)); [auto|eapply sees1_grows; eauto]|].
    intros h2 p q G2 _ HP. apply PF_inv in HP as (fr & fv & w & wv & -> & -> & H1 & H2 & H3 & H4 & H5). pose proof (grows_length _ _ G2) as L2.
    eapply impl_bind; [lia|apply rfft_mag_impl; apply H3|]. intros h3 mv m G3 _ [Hm Hml]. pose proof (grows_length _ _ G3) as L3.
    eapply impl_bind; [lia|apply bands_impl; [apply Hm|eapply sees2_grows; [exact G3|]; eapply sees2_grows; eauto]|].
    intros h4 fev fe G4 _ [Hf Hfl]. pose proof (grows_length _ _ G4) as L4.
    match goal with |- impl _ _ _ _ ?q => change q with (do f' <- Ok (log_features fe); finish c (s_nfft a) f' m) end.
    eapply impl_bind; [lia|apply map_impl; [apply Hf|intros; apply log_shape; auto]|]. intros h5 lv lm G5 Elm Hlv. pose proof (grows_length _ _ G5).
    assert (Ll : List.length lm = List.length fe) by (apply Ok_inj in Elm; subst lm; unfold log_features; rewrite map_length; auto).
    apply finish_impl; try lia; [apply Hlv|]. eapply sees2_grows; [exact G5|]. eapply sees2_grows; [eauto|apply Hm].
  - unfold msrcc_mem, msrcc. cbn [s_nfilts with_bank]. destruct (_ <? _)%Z; [apply impl_raise; auto|].
    apply ceps_impl; [apply (spectrogram_impl Mel); auto|intros; apply map_entries_shape; auto].
Qed.
