(** * Facts for C187: extractors given a filter bank *)
From Coq Require Import Reals ZArith List String Bool Lia Lra.
From Verif Require Import Base BaseFacts SpecBase SpecMat Preprocessing MelBanks BarkBank Gammatone Fourier Features Extractors FeaturesFacts Pncc Rplp.
Import ListNotations.
Local Open Scope R_scope.

Lemma seq_firstn : forall k n s, (k <= n)%nat -> firstn k (seq s n) = seq s k.
Proof. induction k; intros n s Hk; [reflexivity|]. destruct n; [lia|]. cbn. f_equal. apply IHk. lia. Qed.
(** rfft gives the first half of what fft gives, whatever the windows hold *)
Lemma magnitudes_agree : forall w nfft, rfft_magnitude w nfft = fft_magnitude w nfft.
Proof.
  intros w nfft. unfold rfft_magnitude, fft_magnitude, np_rfft, np_fft. destruct (nfft <? 1)%Z eqn:H; [reflexivity|]. apply Z.ltb_ge in H.
  cbn [rbind]. f_equal. rewrite !map_map. apply map_ext. intros row. unfold py_take.
  assert (Hq : (0 <= Z.quot nfft 2)%Z) by (apply Z.quot_pos; lia).
  rewrite (proj2 (Z.ltb_ge (Z.quot nfft 2 + 1) 0)) by lia. rewrite !firstn_map, seq_firstn.
  - replace (Z.to_nat (Z.quot nfft 2 + 1)) with (S (Z.to_nat nfft / 2)); [reflexivity|].
    rewrite Z.quot_div_nonneg by lia. rewrite Z2Nat.inj_add by (try apply Z.div_pos; lia). rewrite Z2Nat.inj_div by lia. change (Z.to_nat 2) with 2%nat.
    change (Z.to_nat 1) with 1%nat. lia.
  - rewrite Z.quot_div_nonneg by lia. pose proof (Z.div_le_upper_bound nfft 2 (nfft - 1)). 
    destruct (Z.eq_dec nfft 1) as [->|]; [cbn; lia|]. lia.
Qed.
Lemma mag_of_any : forall e w n, mag_of e w n = fft_magnitude w n.
Proof. intros [] w n; cbn [mag_of]; try reflexivity; apply magnitudes_agree. Qed.
Lemma spec_gram_mag : forall `{Env} bank coeff f sig a, (forall w n, f w n = fft_magnitude w n) -> spec_gram bank coeff f sig a = spec_gram bank coeff fft_magnitude sig a.
Proof. intros E bank coeff f sig a Hf. unfold spec_gram. destruct bank; [|reflexivity]. cbn [rbind]. destruct (framed _ _ _ _ _) as [[]|]; [|reflexivity]. cbn [rbind]. rewrite Hf. reflexivity. Qed.

(** an extractor depends on its arguments through these only *)
Lemma run_through : forall `{Env} e e2 sig a a2 c b, extractor_bank e a = Ok b -> extractor_bank e2 a2 = Ok b ->
  s_fs a = s_fs a2 -> s_pre_emph a = s_pre_emph a2 -> s_window a = s_window a2 -> s_nfft a = s_nfft a2 ->
  s_pre_emph a = false \/ extractor_coeff e a = extractor_coeff e2 a2 ->
  (s_nfilts a <? c_num_ceps c)%Z = (s_nfilts a2 <? c_num_ceps c)%Z -> (forall v, comp_of e v = comp_of e2 v) ->
  run e sig a c = run e2 sig a2 c.
Proof.
  intros E e e2 sig a a2 c b B1 B2 Hf Hp Hw Hn Hc Hm Hv. rewrite !run_cep. unfold cep. rewrite Hm. destruct (s_nfilts a2 <? c_num_ceps c)%Z; [reflexivity|].
  rewrite (spec_gram_mag _ _ (mag_of e)), (spec_gram_mag _ _ (mag_of e2)) by apply mag_of_any. rewrite B1, B2. unfold spec_gram. cbn [rbind]. rewrite Hf, Hw, Hn.
  assert (X : framed sig (s_fs a2) (s_pre_emph a) (extractor_coeff e a) (s_window a2) = framed sig (s_fs a2) (s_pre_emph a2) (extractor_coeff e2 a2) (s_window a2)).
  { destruct Hc as [Hc|Hc]; [|congruence]. rewrite <- Hp, Hc. reflexivity. }
  rewrite X. clear X. destruct (framed _ _ _ _ _) as [[]|]; [|reflexivity]. cbn [rbind]. destruct (fft_magnitude _ _); [|reflexivity]. cbn [rbind].
  destruct (np_dot_T _ _); [|reflexivity]. cbn [rbind]. f_equal. apply map_ext. intros. apply map_ext. exact Hv.
Qed.
Lemma spectro_through : forall `{Env} s s2 sig a a2 b, spectro_bank s a = Ok b -> spectro_bank s2 a2 = Ok b ->
  s_fs a = s_fs a2 -> s_pre_emph a = s_pre_emph a2 -> s_window a = s_window a2 -> s_nfft a = s_nfft a2 ->
  s_pre_emph a = false \/ spectro_coeff s a = spectro_coeff s2 a2 -> spectrogram s sig a = spectrogram s2 sig a2.
Proof.
  intros E s s2 sig a a2 b B1 B2 Hf Hp Hw Hn Hc. rewrite !spectrogram_gram.
  assert (M : forall t w n, (match t with Bark => rfft_magnitude | _ => fft_magnitude end) w n = fft_magnitude w n) by (intros [] w n; try reflexivity; apply magnitudes_agree).
  rewrite (spec_gram_mag _ _ _ sig a (M s)), (spec_gram_mag _ _ _ sig a2 (M s2)).
  rewrite B1, B2. unfold spec_gram. cbn [rbind]. rewrite Hf, Hw, Hn.
  assert (X : framed sig (s_fs a2) (s_pre_emph a) (spectro_coeff s a) (s_window a2) = framed sig (s_fs a2) (s_pre_emph a2) (spectro_coeff s2 a2) (s_window a2)).
  { destruct Hc as [Hc|Hc]; [|congruence]. rewrite <- Hp, Hc. reflexivity. }
  rewrite X. reflexivity.
Qed.

Lemma comp_log : forall e, In e [Imfcc; Lfcc; Ngcc] -> forall v, comp_of e v = comp_of Mfcc v.
Proof. intros e [<-|[<-|[<-|[]]]] v; reflexivity. Qed.
Lemma own_given : forall `{Env} e a b, extractor_bank e (with_fbanks a b) = Ok b.
Proof. intros E e a b. destruct e; reflexivity. Qed.
Lemma own_coeff : forall e a b, extractor_coeff e (with_fbanks a b) = extractor_coeff e a.
Proof. intros e a b. destruct e; reflexivity. Qed.
Lemma run_own : forall `{Env} e sig a c b, extractor_bank e a = Ok b -> run e sig (with_fbanks a b) c = run e sig a c.
Proof. intros E e sig a c b Hb. apply (run_through e e sig _ _ c b); try reflexivity; auto using own_given. Qed.
Lemma spectro_own : forall `{Env} s sig a b, spectro_bank s a = Ok b -> spectrogram s sig (with_fbanks a b) = spectrogram s sig a.
Proof. intros E s sig a b Hb. apply (spectro_through s s sig _ _ b); try reflexivity; auto. Qed.
Lemma psrcc_own : forall `{Env} sig a g c b, spectro_bank Mel a = Ok b -> psrcc sig (with_fbanks a b) g c = psrcc sig a g c.
Proof.
  intros E sig a g c b. unfold spectro_bank, psrcc. cbn [with_fbanks s_fbanks s_nfilts s_nfft s_fs s_pre_emph s_coeff s_window rbind].
  intros Hb. rewrite Hb. reflexivity.
Qed.
Lemma pncc_own : forall `{Env} sig a p c b, spectro_bank Erb a = Ok b -> pncc sig (with_fbanks a b) p c = pncc sig a p c.
Proof.
  intros E sig a g c b. unfold spectro_bank, pncc. cbn [with_fbanks s_fbanks s_nfilts s_nfft s_fs s_pre_emph s_coeff s_window rbind].
  intros Hb. rewrite Hb. reflexivity.
Qed.
Lemma plp_own : forall `{Env} sig a o r l n b, spectro_bank Bark a = Ok b -> rastaplp sig (with_fbanks a b) o r l n = rastaplp sig a o r l n.
Proof.
  intros E sig a o r l n b. unfold spectro_bank, rastaplp. cbn [with_fbanks s_fbanks s_nfilts s_nfft s_fs s_pre_emph s_coeff s_window rbind].
  intros Hb. rewrite Hb. reflexivity.
Qed.
