(** * C187: extractors given a filter bank *)
From Coq Require Import Reals ZArith List String Bool Lia Lra.
From Verif Require Import Base BaseFacts SpecBase SpecMat SpecBanks SpecFeatures SpecInvariance Preprocessing MelBanks BarkBank Gammatone Features Extractors Pncc Rplp SameBankFacts InvarianceLaws.
Import ListNotations.
Local Open Scope R_scope.

(** imfcc, lfcc and ngcc are mfcc with another bank, gfcc is msrcc with another bank and gamma = 1/3, and the four
    spectrogram functions differ in the bank only: for every recording, whatever it holds, with the same result or the
    same exception. *)
Theorem C187_same_function : forall (E : Env) sig a c b,
  (forall e, In e [Imfcc; Lfcc; Ngcc] -> @extractor_bank E e a = Ok b ->
     @run E e sig a c = @mfcc E sig (with_fbanks (with_coeff a (extractor_coeff e a)) b) c) /\
  (@extractor_bank E Gfcc a = Ok b -> @gfcc E sig a c = @msrcc E sig (with_fbanks (with_coeff a 0.97) b) (1 / 3) c) /\
  (forall s, @spectro_bank E s a = Ok b ->
     @spectrogram E s sig a = @mel_spectrogram E sig (with_fbanks (with_coeff a (spectro_coeff s a)) b)).
Proof.
  intros E sig a c b. split; [|split].
  - intros e He Hb. apply (run_through e Mfcc sig a _ c b Hb); auto using comp_log.
  - intros Hb. apply (run_through Gfcc (Msrcc (1 / 3)) sig a _ c b Hb); auto.
  - intros s Hb. apply (spectro_through s Mel sig a _ b Hb); auto.
Qed.
Print Assumptions C187_same_function.
(** A bank computed once can be passed to every later call. *)
Theorem C187_own_bank : forall (E : Env) sig a c b,
  (forall e, @extractor_bank E e a = Ok b -> @run E e sig (with_fbanks a b) c = @run E e sig a c) /\
  (forall s, @spectro_bank E s a = Ok b -> @spectrogram E s sig (with_fbanks a b) = @spectrogram E s sig a) /\
  (@spectro_bank E Mel a = Ok b -> forall g, @psrcc E sig (with_fbanks a b) g c = @psrcc E sig a g c) /\
  (@spectro_bank E Erb a = Ok b -> forall p, @pncc E sig (with_fbanks a b) p c = @pncc E sig a p c) /\
  (@spectro_bank E Bark a = Ok b -> forall o l n, @plp E sig (with_fbanks a b) o l n = @plp E sig a o l n /\
     @rplp E sig (with_fbanks a b) o l n = @rplp E sig a o l n).
Proof.
  intros E sig a c b. split; [|split; [|split; [|split]]]; intros.
  - apply run_own; assumption.
  - apply spectro_own; assumption.
  - apply psrcc_own; assumption.
  - apply pncc_own; assumption.
  - split; apply plp_own; assumption.
Qed.
Print Assumptions C187_own_bank.
(** With a bank given, low_freq, high_freq, scale, approach and nfilts have no effect (nfilts is only compared with num_ceps). *)
Theorem C187_other_arguments : forall (E : Env) e sig a a2 c b, s_fbanks a = Some b -> s_fbanks a2 = Some b ->
  s_fs a = s_fs a2 -> s_pre_emph a = s_pre_emph a2 -> s_coeff a = s_coeff a2 -> s_window a = s_window a2 -> s_nfft a = s_nfft a2 ->
  (c_num_ceps c <= s_nfilts a)%Z -> (c_num_ceps c <= s_nfilts a2)%Z ->
  @run E e sig a c = @run E e sig a2 c.
Proof.
  intros E e sig a a2 c b B1 B2 Hf Hp Hc Hw Hn N1 N2. apply (run_through e e sig a a2 c b); auto.
  - destruct e; cbn [extractor_bank]; unfold spectro_bank; rewrite B1; reflexivity.
  - destruct e; cbn [extractor_bank]; unfold spectro_bank; rewrite B2; reflexivity.
  - right. destruct e; cbn [extractor_coeff]; auto.
  - rewrite !(proj2 (Z.ltb_ge _ _)) by lia. reflexivity.
Qed.
Print Assumptions C187_other_arguments.

(** default arguments: lfcc is mfcc with the linear bank, for a recording that holds NaN and inf as well *)
Example C187_same_function_example : exists b c0, linear_filter_banks 24 512 16000 0 None "constant" = Ok (b, c0) /\
  forall (E : Env) x, @lfcc E (NaN :: PInf :: x) default_sargs default_cargs = @mfcc E (NaN :: PInf :: x) (with_fbanks default_sargs b) default_cargs.
Proof.
  destruct (lin_bank_any_band 24 512 16000 0 None "constant") as [c0 H]; [simpl; tauto| |lia|].
  { exists 8000. split; [right; split; [auto|lra]|]. simpl. lra. }
  eexists. exists c0. split; [exact H|]. intros E x. refine (proj1 (C187_same_function E (NaN :: PInf :: x) default_sargs default_cargs _) Lfcc _ _); [simpl; tauto|].
  cbn [extractor_bank spectro_bank]. unfold spectro_bank, default_sargs. cbn [s_fbanks s_nfilts s_nfft s_fs s_low s_high s_scale].
  change 24%Z with (Z.of_nat 24). rewrite H. reflexivity.
Qed.
Example C187_own_bank_example : exists b, forall (E : Env) x, @lfcc E (NaN :: x) (with_fbanks default_sargs b) default_cargs = @lfcc E (NaN :: x) default_sargs default_cargs.
Proof.
  destruct (lin_bank_any_band 24 512 16000 0 None "constant") as [c0 H]; [simpl; tauto| |lia|].
  { exists 8000. split; [right; split; [auto|lra]|]. simpl. lra. }
  eexists. intros E x. refine (proj1 (C187_own_bank E (NaN :: x) default_sargs default_cargs _) Lfcc _).
  cbn [extractor_bank spectro_bank]. unfold spectro_bank, default_sargs. cbn [s_fbanks s_nfilts s_nfft s_fs s_low s_high s_scale].
  change 24%Z with (Z.of_nat 24). rewrite H. reflexivity.
Qed.
(** a band that is not allowed, an unknown scale and an unknown approach go unnoticed when a bank is given *)
Example C187_other_arguments_example : forall (E : Env) sig,
  @mfcc E sig (mkS 16000 true 0.97 None 24 512 0 None "constant" (Some [[f1]]) "Oshaghnessy") default_cargs
  = @mfcc E sig (mkS 16000 true 0.97 None 13 512 (-5) (Some 90000) "loudest" (Some [[f1]]) "mine") default_cargs.
Proof. intros E sig. apply (C187_other_arguments E Mfcc sig _ _ _ [[f1]]); reflexivity || (simpl; lia). Qed.
