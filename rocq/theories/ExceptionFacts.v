(** * Proofs for C196: which exceptions can occur *)
From Coq Require Import Reals ZArith List String Bool Lia Lra.
From Flocq Require Import Core.Raux.
From Verif Require Import Base BaseFacts Cplx Converters Filters Preprocessing PreprocessingFacts Cepstral Fourier MelBanks BarkBank Gammatone Features Extractors FeaturesFacts
  LinAlg Lpc Rplp Pncc Cqt SpecOutcome.
Import ListNotations.
Local Open Scope R_scope.

Lemma ro_bind : forall A B more (r : result A) (k : A -> result B), raises_only more r -> (forall a, raises_only more (k a)) -> raises_only more (rbind r k).
Proof. intros A B more [a|e] k H HK; cbn; auto. Qed.
Lemma ro_rmap : forall A B more (f : A -> B) (r : result A), raises_only more r -> raises_only more (rmap f r).
Proof. intros A B more f [a|e] H; cbn; auto. Qed.
Lemma ro_mapM : forall A B more (f : A -> result B) l, (forall x, raises_only more (f x)) -> raises_only more (mapM f l).
Proof. intros A B more f l H. induction l as [|x l IH]; cbn; [exact I|]. apply ro_bind; [apply H|]. intros. apply ro_bind; [exact IH|]. intros. exact I. Qed.
Lemma ro_foldM : forall A B more (f : B -> A -> result B) l b, (forall b x, raises_only more (f b x)) -> raises_only more (foldM f l b).
Proof. intros A B more f l b H. revert b. induction l as [|x l IH]; intros b; cbn; [exact I|]. apply ro_bind; [apply H|exact IH]. Qed.
Lemma ro_more : forall A more more2 (r : result A), raises_only more r -> incl more more2 -> raises_only more2 r.
Proof. intros A more more2 [a|e] H HI; cbn in *; [auto|]. destruct H; auto. Qed.
Lemma ro_fmaxl : forall more l, raises_only more (fmaxl l).
Proof. intros more [|x l]; cbn; auto. Qed.
Lemma ro_fminl : forall more l, raises_only more (fminl l).
Proof. intros more [|x l]; cbn; auto. Qed.
Lemma ro_nth : forall A more (l : list A) i, raises_only more (py_nth l i).
Proof. intros. unfold py_nth. destruct (_ && _)%Z; [destruct (nth_error _ _)|]; cbn; auto. Qed.
Lemma ro_set : forall A more (l : list A) i x, raises_only more (py_set l i x).
Proof. intros. unfold py_set. destruct (_ && _)%Z; cbn; auto. Qed.
Lemma ro_bcast : forall A B more (f : A -> B -> B) w r, raises_only more (bcast f w r).
Proof. intros. unfold bcast. destruct (Nat.eqb _ _); [exact I|]. destruct w as [|a [|a2 w]]; destruct r as [|b [|b2 r]]; cbn; auto. Qed.
Ltac ro := repeat first [progress intros | exact I | (left; exact I) | apply ro_mapM | apply ro_foldM | apply ro_rmap | apply ro_fmaxl | apply ro_fminl | apply ro_nth | apply ro_set | apply ro_bcast
  | assumption
  | match goal with
    | |- raises_only _ (rbind _ _) => apply ro_bind
    | |- raises_only _ (if ?b then _ else _) => destruct b
    | |- raises_only _ (match ?x with _ => _ end) => destruct x
    | |- raises_only _ (let '(_, _) := ?x in _) => destruct x
    | |- raises_only _ (Ok _) => exact I
    | |- raises_only _ (Raise _) => solve [left; exact I | right; cbn; auto]
    end].
Lemma ro_windowing : forall more fr n wt, raises_only more (windowing fr n wt).
Proof. intros. unfold windowing, windowing_row, window_row. ro. Qed.
Lemma framing_raises : forall `{Env} x fs wl wh, (0 < flen fs wh)%Z -> raises_only [] (framing x fs wl wh).
Proof.
  intros E x fs wl wh H. pose proof (framing_safe x fs wl wh H) as S. unfold framing, framing_strided, stride_trick, as_strided in *. destruct (Rltb wl wh); [left; exact I|]. cbn zeta in *.
  destruct (_ =? 0)%Z; [left; exact I|]. destruct (_ || _)%Z; [left; exact I|].
  destruct (mapM _ _) as [fr|e] eqn:Em.
  - cbn [rbind]. destruct fr; [left; exact I|]. destruct (_ <? _)%Z; exact I.
  - cbn [rbind] in *. exfalso. apply S. f_equal. apply mapM_raise in Em as (i & _ & Em). apply mapM_raise in Em as (j & _ & Em). unfold read_buf in Em. destruct (_ && _)%Z; congruence.
Qed.
Lemma ro_framed : forall `{Env} more x fs pe c w, (0 < flen fs (win_hop (match w with None => default_window | Some w => w end)))%Z -> raises_only more (framed x fs pe c w).
Proof.
  intros E more x fs pe c w H. unfold framed. apply ro_bind; [destruct pe; [unfold pre_emphasis; destruct x; cbn; auto|exact I]|]. intros y. apply ro_bind; [apply ro_more with (more := []); [apply framing_raises; exact H|intros e []]|].
  intros [fr n]. apply ro_bind; [apply ro_windowing|]. intros. exact I.
Qed.
Lemma ro_scale : forall more s n, raises_only more (scale_fbank s n).
Proof. intros. unfold scale_fbank. ro. Qed.
Lemma ro_hz2mel : forall more f a, raises_only more (hz2mel f a).
Proof. intros. unfold hz2mel. ro. Qed.
Lemma ro_mel2hz : forall more f a, raises_only more (mel2hz f a).
Proof. intros. unfold mel2hz. ro. Qed.
Lemma ro_helper : forall more n nfft fs l h s t a, raises_only more (mel_filter_banks_helper n nfft fs l h s t a).
Proof. intros. unfold mel_filter_banks_helper. cbn zeta. ro; first [apply ro_hz2mel|apply ro_mel2hz|apply ro_scale]. Qed.
Lemma ro_mel : forall more n nfft fs l h s a, raises_only more (mel_filter_banks n nfft fs l h s a).
Proof. intros. apply ro_helper. Qed.
Lemma ro_linear : forall more n nfft fs l h s, raises_only more (linear_filter_banks n nfft fs l h s).
Proof. intros. unfold linear_filter_banks. apply ro_bind; [apply ro_helper|]. intros. exact I. Qed.
Lemma ro_inverse : forall more n nfft fs l h s a, h <> None \/ In TypeError more -> raises_only more (inverse_mel_filter_banks n nfft fs l h s a).
Proof.
  intros more n nfft fs l h s a Hh. unfold inverse_mel_filter_banks. apply ro_bind; [unfold inverse_scale; ro|]. intros sc. apply ro_bind; [apply ro_helper|]. intros [fb mf].
  apply ro_bind; [apply ro_mapM; intros; apply ro_mel2hz|]. intros hz. apply ro_bind; [|intros; exact I]. destruct h; [apply ro_mapM; intros; apply ro_hz2mel|]. destruct hz; [exact I|]. destruct Hh as [Hh|Hh]; [congruence|]. right. exact Hh.
Qed.
Lemma ro_bark : forall `{Env} n nfft fs l h s a, raises_only [OverflowError] (bark_filter_banks n nfft fs l h s a).
Proof. intros. unfold bark_filter_banks. cbn zeta. ro; first [apply ro_scale|unfold py_int, bark_row; ro]. Qed.
Lemma ro_gammatone : forall more n nfft fs l h s o a, raises_only more (gammatone_filter_banks n nfft fs l h s o a).
Proof. intros. unfold gammatone_filter_banks. cbn zeta. repeat (match goal with |- raises_only _ (if ?b then _ else _) => destruct b; [left; exact I|] end). apply ro_bind; [apply ro_scale|]. intros. exact I. Qed.
Lemma ro_fft : forall more w n, raises_only more (fft_magnitude w n).
Proof. intros. unfold fft_magnitude, np_fft. ro. Qed.
Lemma ro_rfft : forall more w n, raises_only more (np_rfft w n).
Proof. intros. unfold np_rfft. ro. Qed.
Lemma ro_rmag : forall more w n, raises_only more (rfft_magnitude w n).
Proof. intros. unfold rfft_magnitude, np_rfft. ro. Qed.
Lemma ro_dot : forall more a b, raises_only more (np_dot_T a b).
Proof. intros. unfold np_dot_T. ro. Qed.
Lemma ro_lifter : forall more x l, raises_only more (lifter_ceps x l).
Proof. intros. unfold lifter_ceps. cbn zeta. ro. Qed.
Lemma ro_normalize : forall more x t, raises_only more (normalize_ceps x t).
Proof. intros. unfold normalize_ceps. cbn zeta. ro. Qed.
Lemma ro_finish : forall more c n f m, raises_only more (finish c n f m).
Proof. intros. unfold finish. apply ro_bind; [unfold sp_dct; ro|]. intros. cbn zeta. apply ro_bind; [unfold set_col0; ro|]. intros. apply ro_bind; [ro; apply ro_lifter|]. intros. ro. apply ro_normalize. Qed.

Lemma spectro_bank_ro : forall `{Env} s a, raises_only (bank_raises s) (spectro_bank s a).
Proof.
  intros E s a. unfold spectro_bank. destruct (s_fbanks a); [exact I|]. destruct s; apply ro_rmap; cbn [bank_raises]; [apply ro_mel|apply ro_linear|apply ro_bark|apply ro_gammatone].
Qed.
Lemma gram_ro : forall `{Env} more bank c magf x a, raises_only more bank -> (forall w n, raises_only more (magf w n)) -> (0 < hop_samples (s_fs a) (s_window a))%Z -> raises_only more (spec_gram bank c magf x a).
Proof.
  intros E more bank c magf x a HB HM HH. unfold spec_gram. apply ro_bind; [exact HB|]. intros b. apply ro_bind; [apply ro_framed; exact HH|]. intros [f w]. apply ro_bind; [apply HM|]. intros m. apply ro_bind; [apply ro_dot|]. intros. exact I.
Qed.
Lemma spectrogram_raises : forall `{Env} s x a, (0 < hop_samples (s_fs a) (s_window a))%Z -> raises_only (bank_raises s) (spectrogram s x a).
Proof. intros E s x a HH. rewrite spectrogram_gram. apply gram_ro; [apply spectro_bank_ro| |exact HH]. intros. destruct s; apply ro_fft || apply ro_rmag. Qed.
Lemma run_raises : forall `{Env} e x a c, (0 < hop_samples (s_fs a) (s_window a))%Z -> raises_only (feature_raises e a) (run e x a c).
Proof.
  intros E e x a c HH. rewrite run_cep. unfold cep. destruct (_ <? _)%Z; [left; exact I|]. apply ro_bind; [|intros [f m]; apply ro_finish]. apply gram_ro; [| |exact HH].
  - destruct e; cbn [extractor_bank feature_raises]; try exact (spectro_bank_ro Mel a); try exact (spectro_bank_ro Linear a); try exact (spectro_bank_ro Bark a); try exact (spectro_bank_ro Erb a).
    destruct (s_fbanks a); [exact I|]. apply ro_rmap, ro_inverse. destruct (s_high a); [left; discriminate|right; left; reflexivity].
  - intros. destruct e; apply ro_fft || apply ro_rmag.
Qed.
Lemma psrcc_raises : forall `{Env} x a g c, (0 < hop_samples (s_fs a) (s_window a))%Z -> raises_only [] (psrcc x a g c).
Proof.
  intros E x a g c HH. unfold psrcc. destruct (_ <? _)%Z; [left; exact I|]. apply ro_bind; [destruct (s_fbanks a); [exact I|apply ro_rmap, ro_mel]|]. intros b. apply ro_bind; [apply ro_framed; exact HH|]. intros [f w].
  apply ro_bind; [|intros [p q]; apply ro_finish]. unfold psrcc_features. apply ro_bind; [apply ro_rfft|]. intros. cbn zeta. apply ro_bind; [apply ro_dot|]. intros. apply ro_bind; [apply ro_fmaxl|]. intros. exact I.
Qed.
Lemma ro_asym : forall more q la lb, raises_only more (asymmetric_lowpass_filtering q la lb).
Proof. intros. unfold asymmetric_lowpass_filtering. cbn zeta. ro. Qed.
Lemma ro_mask : forall more q la lb, raises_only more (temporal_masking q la lb).
Proof. intros. unfold temporal_masking. cbn zeta. ro. Qed.
Lemma ro_core : forall more p n, raises_only more (pncc_core p n).
Proof.
  intros. unfold pncc_core. cbn zeta. apply ro_bind.
  - unfold noise_suppression. apply ro_bind; [apply ro_asym|]. intros. cbn zeta. apply ro_bind; [apply ro_asym|]. intros. apply ro_bind; [apply ro_mask|]. intros. exact I.
  - intros. apply ro_bind; [unfold weight_smoothing, smoothing_entry; cbn zeta; ro|]. intros. apply ro_bind; [unfold mean_power_normalization; cbn zeta; ro|]. intros. exact I.
Qed.
Lemma pncc_raises : forall `{Env} x a p c, (0 < hop_samples (s_fs a) (s_window a))%Z -> raises_only [] (pncc x a p c).
Proof.
  intros E x a p c HH. unfold pncc. destruct (_ <? _)%Z; [left; exact I|]. apply ro_bind; [destruct (s_fbanks a); [exact I|apply ro_rmap, ro_gammatone]|]. intros b. apply ro_bind; [apply ro_framed; exact HH|]. intros [f w].
  apply ro_bind; [apply ro_fft|]. intros. cbn zeta. apply ro_bind; [apply ro_dot|]. intros. apply ro_bind; [apply ro_core|]. intros. apply ro_finish.
Qed.
Lemma ro_cqt_kernel : forall more fs n wt th fk Nk, raises_only more (cqt_kernel fs n wt th fk Nk).
Proof. intros. unfold cqt_kernel, cqt_atom, windowing_row, window_row. cbn zeta. ro. Qed.
Lemma cqt_raises : forall `{Env} x a, (0 < hop_samples (q_fs a) (q_window a))%Z -> raises_only [] (cqt_spectrogram x a).
Proof.
  intros E x a HH. unfold cqt_spectrogram. cbn zeta. destruct (Rltb _ _); [left; exact I|]. apply ro_bind; [apply ro_framed; exact HH|]. intros [f w]. unfold compute_constant_qtransform, cqt_frames. apply ro_rmap. cbn zeta.
  apply ro_bind; [ro|]. intros. destruct (_ <? _)%Z; [left; exact I|]. apply ro_bind; [ro; apply ro_cqt_kernel|]. intros. unfold np_fft. ro.
Qed.
Lemma cqcc_raises : forall `{Env} x a r c, (0 < hop_samples (q_fs a) (q_window a))%Z -> raises_only [] (cqcc x a r c).
Proof. intros E x a r c HH. unfold cqcc. apply ro_bind; [apply cqt_raises; exact HH|]. intros. cbn zeta. apply ro_bind; [unfold resample; cbn zeta; ro|]. intros. apply ro_finish. Qed.
Lemma ro_lpc_helper : forall more f o, In LinAlgError more -> raises_only more (lpc_helper f o).
Proof.
  intros more f o Hm. unfold lpc_helper. cbn zeta. destruct (_ <? _)%Z; [left; exact I|]. apply ro_bind; [unfold correlate_full; ro|]. intros. apply ro_bind; [|intros; ro]. unfold linalg_inv. destruct (negb _); [left; exact I|]. cbn zeta. destruct (Nat.eqb _ _); [left; exact I|]. destruct (sequence _); [exact I|right; exact Hm].
Qed.
Lemma ro_lpcc_row : forall more a e n, raises_only more (lpc2lpcc a e n).
Proof. intros. unfold lpc2lpcc. cbn zeta. ro. Qed.
Lemma lpc_raises : forall `{Env} x fs o pe co w, (0 < hop_samples fs w)%Z -> raises_only [LinAlgError] (lpc x fs o pe co w).
Proof.
  intros E x fs o pe co w HH. unfold lpc. cbn zeta. apply ro_bind; [apply ro_framed; exact HH|]. intros [f v]. destruct (_ <? _)%Z; [left; exact I|]. apply ro_bind; [apply ro_mapM; intros; apply ro_lpc_helper; left; reflexivity|]. intros. exact I.
Qed.
Lemma lpcc_raises : forall `{Env} x fs o pe co w li no, (0 < hop_samples fs w)%Z -> raises_only [LinAlgError] (lpcc x fs o pe co w li no).
Proof.
  intros E x fs o pe co w li no HH. unfold lpcc. cbn zeta. apply ro_bind; [apply ro_framed; exact HH|]. intros [f v]. destruct (_ <? _)%Z; [left; exact I|].
  apply ro_bind; [apply ro_mapM; intros; apply ro_bind; [apply ro_lpc_helper; left; reflexivity|]; intros [u z]; apply ro_lpcc_row|]. intros. apply ro_bind; [ro; apply ro_lifter|]. intros. ro. apply ro_normalize.
Qed.
Lemma ro_rasta_row : forall more z r, raises_only more (rasta_row z r).
Proof. intros. unfold rasta_row. cbn zeta. ro. Qed.
Lemma ro_rasta : forall more x, raises_only more (rasta_filter x).
Proof.
  intros more x. unfold rasta_filter. generalize (lfilter_zi_fir rasta_numer). induction x as [|r x IH]; intros z; cbn [rasta_rows]; [exact I|]. apply ro_bind; [apply ro_rasta_row|]. intros yz. apply ro_bind; [apply IH|]. intros. exact I.
Qed.
Lemma rastaplp_raises : forall `{Env} x a o r li no, (0 < hop_samples (s_fs a) (s_window a))%Z -> raises_only [LinAlgError; OverflowError] (rastaplp x a o r li no).
Proof.
  intros E x a o r li no HH. unfold rastaplp. destruct (_ <? _)%Z; [left; exact I|]. apply ro_bind; [destruct (s_fbanks a); [exact I|]; apply ro_rmap, ro_more with (more := [OverflowError]); [apply ro_bark|intros e [<-|[]]; right; left; reflexivity]|]. intros b.
  apply ro_bind; [apply ro_framed; exact HH|]. intros [f w]. apply ro_bind; [apply ro_fft|]. intros. apply ro_bind; [apply ro_dot|]. intros.
  apply ro_bind; [unfold rasta_step; destruct r; [apply ro_bind; [apply ro_rasta|]; intros; exact I|exact I]|]. intros. apply ro_bind; [unfold np_ifft; ro|]. intros. destruct (_ <? _)%Z; [left; exact I|].
  apply ro_bind; [apply ro_mapM; intros; unfold plp_row; apply ro_bind; [apply ro_lpc_helper; left; reflexivity|]; intros [u z]; apply ro_lpcc_row|]. intros. apply ro_bind; [ro; apply ro_lifter|]. intros. ro. apply ro_normalize.
Qed.

(** ** Negative hops *)
Lemma spectrogram_foreign : forall `{Env} s x a B, spectro_bank s a = Ok B -> win_hop (window_of a) <= win_len (window_of a) -> (flen (s_fs a) (win_hop (window_of a)) < 0)%Z ->
  (0 <= flen (s_fs a) (win_len (window_of a)))%Z -> (zlen x < flen (s_fs a) (win_len (window_of a)))%Z -> s_pre_emph a = false ->
  spectrogram s x a = Raise OutOfBoundsRead.
Proof.
  intros E s x a B HB H1 H2 H3 H4 Hp. rewrite spectrogram_gram. unfold spec_gram. rewrite HB. cbn [rbind]. unfold framed. rewrite Hp. cbn [rbind]. fold (window_of a). rewrite (proj1 (framing_neg_hop x (s_fs a) _ _ H1 H2 H3) H4). reflexivity.
Qed.
