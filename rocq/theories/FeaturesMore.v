(** * Cepstral features: shapes, row locality, gain, silence, truncation *)
From Coq Require Import Reals ZArith List String Bool Lia Lra Psatz.
From Flocq Require Import Core.Raux.
From Verif Require Import Base BaseFacts Cplx SpecBase SpecMat SpecFilters FiltersFacts SpecFeatures BigSum MatFacts
  Preprocessing PreprocessingFacts WindowFacts Filters MelBanks MelBanksFacts MelBanksMore BarkBank BarkFacts BarkMore
  Gammatone GammatoneFacts Cepstral CepstralFacts Fourier DctFacts SpecBanks Features Extractors FeaturesFacts.
Import ListNotations.
Local Open Scope R_scope.

(** ** every successful call, for arbitrary (also non-finite) signals *)
Lemma framed_inv : forall `{Env} sig a coeff fr ws,
  framed sig (s_fs a) (s_pre_emph a) coeff (s_window a) = Ok (fr, ws) ->
  exists sig', (if s_pre_emph a then pre_emphasis sig coeff else Ok sig) = Ok sig' /\
    framing sig' (s_fs a) (win_len (window_of a)) (win_hop (window_of a)) = Ok (fr, flen (s_fs a) (win_len (window_of a))) /\
    windowing fr (flen (s_fs a) (win_len (window_of a))) (win_type (window_of a)) = Ok ws.
Proof.
  intros E sig a coeff fr ws H. unfold framed in H.
  apply rbind_Ok in H as (sig' & H1 & H). cbv zeta in H. fold (window_of a) in H.
  apply rbind_Ok in H as ([fr' L] & H2 & H). apply rbind_Ok in H as (ws' & H3 & H).
  inversion H; subst. exists sig'. split; auto.
  pose proof (framing_content _ _ _ _ _ _ H2) as (EL & _). subst L. auto.
Qed.

Definition mag_row (e : extractor) (nfft : Z) (w : list F) : list F :=
  let n := Z.to_nat nfft in
  match e with
  | Bfcc | Ngcc => map (fun k => cabs (dft_bin n (crop_pad n w) k)) (seq 0 (S (n / 2)))
  | _ => py_take (Z.quot nfft 2 + 1) (map cabs (map (dft_bin n (crop_pad n w)) (seq 0 n)))
  end.
Lemma mag_of_rows : forall e ws nfft m, mag_of e ws nfft = Ok m -> (1 <= nfft)%Z /\ m = map (mag_row e nfft) ws.
Proof.
  intros e ws nfft m H.
  assert (H1 : forall m, fft_magnitude ws nfft = Ok m -> (1 <= nfft)%Z /\
    m = map (fun w => py_take (Z.quot nfft 2 + 1) (map cabs (map (dft_bin (Z.to_nat nfft) (crop_pad (Z.to_nat nfft) w)) (seq 0 (Z.to_nat nfft))))) ws).
  { intros m' H'. unfold fft_magnitude, np_fft in H'. destruct (Z.ltb_spec nfft 1); [discriminate|].
    cbn [rbind] in H'. inversion H'. rewrite map_map. split; auto. }
  assert (H2 : forall m, rfft_magnitude ws nfft = Ok m -> (1 <= nfft)%Z /\
    m = map (fun w => map (fun k => cabs (dft_bin (Z.to_nat nfft) (crop_pad (Z.to_nat nfft) w) k)) (seq 0 (S (Z.to_nat nfft / 2)))) ws).
  { intros m' H'. unfold rfft_magnitude, np_rfft in H'. destruct (Z.ltb_spec nfft 1); [discriminate|].
    cbn [rbind] in H'. apply Ok_inj in H'. subst m'. rewrite map_map. split; [lia|]. apply map_ext. intros. rewrite map_map. auto. }
  destruct e; cbn [mag_of] in H; first [apply H1 in H | apply H2 in H]; exact H.
Qed.
Definition pow_row (nfft : Z) (r : list F) : list F := map (fun v => fmul (Fin (1 / IZR nfft)) (fmul v v)) r.
Lemma np_dot_T_rows : forall a b d, np_dot_T a b = Ok d -> d = map (fun row => map (fdot row) b) a.
Proof.
  intros a b d H. unfold np_dot_T in H. destruct b as [|r b'] eqn:Eb.
  - inversion H. auto.
  - destruct (Nat.eqb _ _); inversion H. auto.
Qed.
Definition feat_row (e : extractor) (nfft : Z) (b : list (list F)) (w : list F) : list F :=
  map (comp_of e) (map (fdot (pow_row nfft (mag_row e nfft w))) b).

Definition lift_row (l : R) (row : list F) : list F :=
  let n := List.length row in
  if Reqb l 0 || Rltb 10 l then row
  else if Rltb 0 l then
    let vec := f1 :: map (fun i => Fin (Rpower (INR i) l)) (seq 1 (n - 1)) in
    map (fun j => fdot row (map (fun k => if Nat.eqb k j then nth k vec NaN else f0) (seq 0 n))) (seq 0 n)
  else
    let L := IZR (Ztrunc (-1 * l)) in
    map2 fmul row (map (fun j => fadd f1 (fmul (Fin (L / 2)) (fsin (fdiv (Fin (PI * INR j)) (Fin L))))) (seq 1 n)).
Lemma shape_ncols : forall A (m : list (list A)) r c, has_shape m r c -> (0 < r)%nat -> ncols m = c.
Proof.
  intros A m r c [H1 H2] Hr. destruct m as [|row m']; [simpl in H1; lia|]. inversion H2; auto.
Qed.
Lemma shape_map : forall A B (m : list (list A)) r c c' (f : list A -> list B), has_shape m r c ->
  (forall row, List.length row = c -> List.length (f row) = c') -> has_shape (map f m) r c'.
Proof.
  intros A B m r c c' f [H1 H2] Hf. split; [rewrite map_length; auto|].
  apply Forall_map. eapply Forall_impl; [|exact H2]. auto.
Qed.
Lemma lifter_rows : forall m r c l m', has_shape m r c -> (0 < r)%nat ->
  lifter_ceps m l = Ok m' -> m' = map (lift_row l) m.
Proof.
  intros m r c l m' Hs Hr H. unfold lifter_ceps in H. rewrite (shape_ncols _ _ _ _ Hs Hr) in H.
  destruct Hs as [_ Hf]. unfold lift_row.
  destruct (Reqb l 0 || Rltb 10 l)%bool; [inversion H; rewrite map_id; auto|].
  destruct (Rltb 0 l).
  - destruct (Nat.eqb _ c); inversion H. apply map_ext_in. intros row Hrow.
    rewrite Forall_forall in Hf. rewrite (Hf _ Hrow). auto.
  - inversion H. apply map_ext_in. intros row Hrow.
    rewrite Forall_forall in Hf. rewrite (Hf _ Hrow). auto.
Qed.
Lemma lift_row_length : forall l row, List.length (lift_row l row) = List.length row.
Proof.
  intros. unfold lift_row. destruct (_ || _)%bool; auto. destruct (Rltb 0 l).
  - rewrite map_length, seq_length. auto.
  - rewrite map2_length, map_length, seq_length. lia.
Qed.
Definition energy_of (nfft : Z) (mrow : list F) : F :=
  flog (zero_handling1 (fsum (map (fun v => fmul (Fin (1 / IZR nfft)) (fpown (fabs v) 2)) mrow))).
Definition ceps_row (c : cargs) (nfft : Z) (frow mrow : list F) : list F :=
  let r0 := py_take (c_num_ceps c) (dct_row (c_dct_type c) frow) in
  let r1 := if c_use_energy c then energy_of nfft mrow :: tl r0 else r0 in
  match c_lifter c with
  | Some l => if Reqb l 0 then r1 else lift_row l r1
  | None => r1
  end.
Lemma dct_row_length : forall t row, List.length (dct_row t row) = List.length row.
Proof. intros. unfold dct_row. rewrite map_length, seq_length. auto. Qed.
Lemma py_take_length : forall A n (l : list A), (0 <= n)%Z -> List.length (py_take n l) = Nat.min (Z.to_nat n) (List.length l).
Proof. intros. unfold py_take. rewrite (proj2 (Z.ltb_ge _ _)) by lia. apply firstn_length. Qed.
Lemma py_take_length_any : forall A n (l : list A), List.length (py_take n l)
  = if (n <? 0)%Z then Nat.min (Z.to_nat (zlen l + n)) (List.length l) else Nat.min (Z.to_nat n) (List.length l).
Proof. intros. unfold py_take. destruct (n <? 0)%Z; apply firstn_length. Qed.

(** what [finish] does to each row; the normalisation comes last *)
Lemma finish_rows : forall c nfft A (ws : list A) g h M n, (0 < List.length ws)%nat ->
  (forall w, In w ws -> List.length (g w) = n) ->
  finish c nfft (map g ws) (map h ws) = Ok M ->
  exists M0, M0 = map (fun w => ceps_row c nfft (g w) (h w)) ws /\ (1 <= n)%nat /\
    (1 <= c_dct_type c <= 4)%Z /\
    (forall w, In w ws -> List.length (ceps_row c nfft (g w) (h w))
       = if (c_num_ceps c <? 0)%Z then Nat.min (Z.to_nat (Z.of_nat n + c_num_ceps c)) n else Nat.min (Z.to_nat (c_num_ceps c)) n) /\
    match c_normalize c with
    | Some t => if String.eqb t "" then M = M0 else normalize_ceps M0 t = Ok M
    | None => M = M0
    end.
Proof.
  intros c nfft A ws g h M n Hws Hg H. unfold finish in H.
  apply rbind_Ok in H as (d & Hd & H). unfold sp_dct in Hd.
  destruct ((c_dct_type c <? 1) || (4 <? c_dct_type c))%Z eqn:Ety; [discriminate|].
  apply orb_false_iff in Ety as [Et1 Et2]. apply Z.ltb_ge in Et1, Et2.
  destruct (Nat.ltb (ncols (map g ws)) _) eqn:Enc; [discriminate|]. apply Nat.ltb_ge in Enc.
  assert (Hnc : ncols (map g ws) = n).
  { destruct ws as [|w ws']; [simpl in Hws; lia|]. simpl. apply Hg. left; auto. }
  rewrite Hnc in Enc. assert (Hn1 : (1 <= n)%nat) by (destruct (_ =? 1)%Z; lia).
  inversion Hd; subst d; clear Hd. rewrite !map_map in H.
  set (K := if (c_num_ceps c <? 0)%Z then Nat.min (Z.to_nat (Z.of_nat n + c_num_ceps c)) n else Nat.min (Z.to_nat (c_num_ceps c)) n).
  set (r0 := fun w => py_take (c_num_ceps c) (dct_row (c_dct_type c) (g w))) in *.
  assert (Hr0 : forall w, In w ws -> List.length (r0 w) = K).
  { intros w Hw. unfold r0. rewrite py_take_length_any, dct_row_length. unfold zlen. rewrite dct_row_length, Hg by auto. auto. }
  set (r1 := fun w => if c_use_energy c then energy_of nfft (h w) :: tl (r0 w) else r0 w).
  apply rbind_Ok in H as (c1 & Hc1 & H).
  assert (E1 : c1 = map r1 ws /\ (c_use_energy c = true -> (0 < K)%nat)).
  { unfold r1. destruct (c_use_energy c); [|inversion Hc1; split; [auto|congruence]].
    unfold set_col0 in Hc1. destruct (Nat.eqb_spec (ncols (map r0 ws)) 0) as [|Hne]; [discriminate|].
    assert (Hk : ncols (map r0 ws) = K).
    { destruct ws as [|w ws']; [simpl in Hws; lia|]. simpl. apply Hr0. left; auto. }
    split; [|intros; rewrite Hk in Hne; lia].
    inversion Hc1. unfold log_energy, zero_handling. rewrite !map_map. apply map2_map_same. }
  destruct E1 as [-> HK].
  assert (Hr1 : forall w, In w ws -> List.length (r1 w) = K).
  { intros w Hw. unfold r1. destruct (c_use_energy c); [|auto]. specialize (HK eq_refl). specialize (Hr0 w Hw).
    destruct (r0 w); simpl in *; lia. }
  apply rbind_Ok in H as (c2 & Hc2 & H).
  assert (E2 : c2 = map (fun w => ceps_row c nfft (g w) (h w)) ws).
  { unfold ceps_row. fold (r0). destruct (c_lifter c) as [l|]; [|inversion Hc2; auto].
    destruct (Reqb l 0); [inversion Hc2; auto|].
    eapply lifter_rows in Hc2; [|split; [rewrite map_length; reflexivity|apply Forall_map, Forall_forall; exact Hr1]|auto].
    rewrite Hc2, map_map. auto. }
  assert (E3 : forall w, In w ws -> List.length (ceps_row c nfft (g w) (h w)) = K).
  { intros w Hw. specialize (Hr1 w Hw). unfold r1, r0 in Hr1. unfold ceps_row.
    destruct (c_lifter c) as [l|]; [|auto]. destruct (Reqb l 0); [auto|]. rewrite lift_row_length. auto. }
  exists c2. split; [auto|]. split; [auto|]. split; [auto|]. split; [exact E3|].
  destruct (c_normalize c) as [t|]; [|congruence]. destruct (String.eqb t ""); [congruence|auto].
Qed.

Definition ex_row (e : extractor) (a : sargs) (c : cargs) (b : list (list F)) (w : list F) : list F :=
  ceps_row c (s_nfft a) (feat_row e (s_nfft a) b w) (mag_row e (s_nfft a) w).

Lemma framing_nonempty : forall `{Env} sig fs wl wh fr L, framing sig fs wl wh = Ok (fr, L) -> fr <> [].
Proof. intros E sig fs wl wh fr L H. unfold framing in H. apply framing_strided_inv in H. tauto. Qed.
Lemma windowing_length : forall fr L wt ws, windowing fr L wt = Ok ws -> List.length ws = List.length fr.
Proof. intros. unfold windowing in H. apply mapM_length in H. auto. Qed.

Lemma run_rows : forall `{Env} e sig a c M, run e sig a c = Ok M ->
  exists b fr ws M0, extractor_bank e a = Ok b /\ (1 <= s_nfft a)%Z /\ (1 <= List.length b)%nat /\
    (1 <= c_dct_type c <= 4)%Z /\
    framed sig (s_fs a) (s_pre_emph a) (extractor_coeff e a) (s_window a) = Ok (fr, ws) /\
    (0 < List.length ws)%nat /\
    M0 = map (ex_row e a c b) ws /\
    (forall w, In w ws -> List.length (ex_row e a c b w)
       = if (c_num_ceps c <? 0)%Z then Nat.min (Z.to_nat (zlen b + c_num_ceps c)) (List.length b)
         else Nat.min (Z.to_nat (c_num_ceps c)) (List.length b)) /\
    match c_normalize c with
    | Some t => if String.eqb t "" then M = M0 else normalize_ceps M0 t = Ok M
    | None => M = M0
    end.
Proof.
  intros E e sig a c M H. rewrite run_cep in H. unfold cep in H. destruct (_ <? _)%Z; [discriminate|].
  apply rbind_Ok in H as ([f m] & H1 & H). unfold spec_gram in H1.
  apply rbind_Ok in H1 as (b & Hb & H1). apply rbind_Ok in H1 as ([fr ws] & Hf & H1).
  apply rbind_Ok in H1 as (m' & Hm & H1). apply rbind_Ok in H1 as (f' & Hd & H1). inversion H1; subst f' m'; clear H1.
  apply mag_of_rows in Hm as [Hn ->]. apply np_dot_T_rows in Hd. unfold power_frames in Hd.
  rewrite !map_map in Hd. subst f. rewrite !map_map in H.
  pose proof (framed_inv _ _ _ _ _ Hf) as (sig' & _ & Hfr & Hwin).
  apply framing_nonempty in Hfr. apply windowing_length in Hwin.
  assert (Hl : (0 < List.length ws)%nat) by (rewrite Hwin; destruct fr; simpl; [congruence|lia]).
  apply (finish_rows c (s_nfft a) _ ws (feat_row e (s_nfft a) b) (mag_row e (s_nfft a)) M (List.length b)) in H; auto.
  - destruct H as (M0 & H1 & H2 & H3 & H4 & H5). exists b, fr, ws, M0. unfold zlen. repeat split; auto; lia.
  - intros. unfold feat_row. rewrite !map_length. auto.
Qed.

Lemma map2_length_min : forall A B C (f : A -> B -> C) l m, List.length m = List.length l -> List.length (map2 f l m) = List.length l.
Proof. intros. rewrite map2_length, H. lia. Qed.
Lemma normalize_shape : forall m r c t m', has_shape m r c -> (0 < r)%nat -> normalize_ceps m t = Ok m' -> has_shape m' r c.
Proof.
  intros m r c t m' Hs Hr H. unfold normalize_ceps in H.
  apply rbind_Ok in H as (mx & _ & H). apply rbind_Ok in H as (mn & _ & H).
  assert (Hm : List.length (col_means m) = c).
  { unfold col_means. rewrite map_length, seq_length. eapply shape_ncols; eauto. }
  destruct (String.eqb t "mvn"); [inversion H; eapply shape_map; eauto; intros; cbv beta; rewrite map2_length_min; lia|].
  destruct (String.eqb t "ms"); [inversion H; eapply shape_map; eauto; intros; rewrite map2_length_min; lia|].
  destruct (String.eqb t "vn"); [inversion H; eapply shape_map; eauto; intros; rewrite map_length; auto|].
  destruct (String.eqb t "mn"); [inversion H; eapply shape_map; eauto; intros; rewrite map_length; auto|]. discriminate.
Qed.

Lemma framed_length : forall `{Env} sig a coeff fr ws,
  framed sig (s_fs a) (s_pre_emph a) coeff (s_window a) = Ok (fr, ws) ->
  zlen ws = ((zlen sig - flen (s_fs a) (win_len (window_of a))) / flen (s_fs a) (win_hop (window_of a)) + 1)%Z.
Proof.
  intros E sig a coeff fr ws H. apply framed_inv in H as (sig' & Hp & Hfr & Hwin).
  apply framing_content in Hfr as (_ & Hn & _). apply windowing_length in Hwin.
  assert (zlen sig' = zlen sig).
  { destruct (s_pre_emph a); [|congruence]. apply pre_emphasis_spec in Hp as [Hp _]. unfold zlen. lia. }
  rewrite H in Hn. rewrite <- Hn. unfold zlen. lia.
Qed.

Lemma run_shape : forall `{Env} e sig a c M, run e sig a c = Ok M -> (0 <= c_num_ceps c)%Z ->
  exists b, extractor_bank e a = Ok b /\
    zlen M = ((zlen sig - flen (s_fs a) (win_len (window_of a))) / flen (s_fs a) (win_hop (window_of a)) + 1)%Z /\
    Forall (fun row => List.length row = Nat.min (Z.to_nat (c_num_ceps c)) (List.length b)) M.
Proof.
  intros E e sig a c M H Hnc. apply run_rows in H as (b & fr & ws & M0 & Hb & _ & _ & _ & Hf & Hl & HM & Hr & Hn).
  exists b. split; auto. rewrite (proj2 (Z.ltb_ge _ _)) in Hr by lia.
  assert (Hs : has_shape M0 (List.length ws) (Nat.min (Z.to_nat (c_num_ceps c)) (List.length b))).
  { rewrite HM. split; [apply map_length|]. apply Forall_map, Forall_forall. auto. }
  assert (HsM : has_shape M (List.length ws) (Nat.min (Z.to_nat (c_num_ceps c)) (List.length b))).
  { destruct (c_normalize c) as [t|]; [|congruence]. destruct (String.eqb t ""); [congruence|].
    eapply normalize_shape; eauto. }
  destruct HsM as [H1 H2]. split; auto. rewrite <- (framed_length _ _ _ _ _ Hf). unfold zlen. lia.
Qed.

(** ** a row depends on its frame only *)
Lemma run_row_of_frame : forall `{Env} e sig sig2 a c M M2 i i2 fr ws fr2 ws2,
  run e sig a c = Ok M -> run e sig2 a c = Ok M2 -> no_normalisation c ->
  framed sig (s_fs a) (s_pre_emph a) (extractor_coeff e a) (s_window a) = Ok (fr, ws) ->
  framed sig2 (s_fs a) (s_pre_emph a) (extractor_coeff e a) (s_window a) = Ok (fr2, ws2) ->
  (i < List.length M)%nat -> (i2 < List.length M2)%nat -> nth i fr [] = nth i2 fr2 [] ->
  nth i M [] = nth i2 M2 [].
Proof.
  intros E e sig sig2 a c M M2 i i2 fr ws fr2 ws2 H1 H2 Hn F1 F2 L1 L2 Hfr.
  apply run_rows in H1 as (b & fr' & ws' & M0 & Hb & _ & _ & _ & Hf & _ & HM & _ & Hnm).
  apply run_rows in H2 as (b2 & fr2' & ws2' & M02 & Hb2 & _ & _ & _ & Hf2 & _ & HM2 & _ & Hnm2).
  rewrite F1 in Hf. inversion Hf; subst fr' ws'. rewrite F2 in Hf2. inversion Hf2; subst fr2' ws2'.
  rewrite Hb in Hb2. inversion Hb2; subst b2.
  assert (M = M0) as -> by (destruct Hn as [Hn|Hn]; rewrite Hn in Hnm; exact Hnm).
  assert (M2 = M02) as -> by (destruct Hn as [Hn|Hn]; rewrite Hn in Hnm2; exact Hnm2).
  subst M0 M02. rewrite map_length in L1, L2.
  apply framed_inv in F1 as (s1 & _ & _ & W1). apply framed_inv in F2 as (s2 & _ & _ & W2).
  pose proof (windowing_length _ _ _ _ W1) as E1. pose proof (windowing_length _ _ _ _ W2) as E2.
  unfold windowing in W1, W2.
  pose proof (mapM_nth _ _ _ _ _ [] [] i W1 ltac:(lia)) as N1. pose proof (mapM_nth _ _ _ _ _ [] [] i2 W2 ltac:(lia)) as N2.
  rewrite Hfr, N2 in N1. inversion N1 as [N].
  rewrite !nth_map with (d := []) by auto. rewrite N. auto.
Qed.

Lemma framed_row : forall `{Env} sig a coeff fr ws i, framed sig (s_fs a) (s_pre_emph a) coeff (s_window a) = Ok (fr, ws) ->
  (i < List.length fr)%nat ->
  List.length (nth i fr []) = Z.to_nat (flen (s_fs a) (win_len (window_of a))) /\
  forall j, (j < Z.to_nat (flen (s_fs a) (win_len (window_of a))))%nat ->
    let t := (Z.of_nat i * flen (s_fs a) (win_hop (window_of a)) + Z.of_nat j)%Z in
    (0 <= t < zlen sig)%Z /\
    nth j (nth i fr []) NaN =
      if s_pre_emph a then
        if (t =? 0)%Z then nth 0 sig NaN
        else fsub (nth (Z.to_nat t) sig NaN) (fmul (Fin coeff) (nth (Z.to_nat (t - 1)) sig NaN))
      else nth (Z.to_nat t) sig NaN.
Proof.
  intros E sig a coeff fr ws i H Hi. apply framed_inv in H as (s' & Hp & Hfr & _).
  apply framing_content in Hfr as (_ & Hn & Hr & Hc). rewrite Forall_forall in Hr.
  specialize (Hr (nth i fr []) (nth_In _ _ Hi)). split; [unfold zlen in Hr; lia|].
  intros j Hj. cbv zeta. destruct (Hc (Z.of_nat i) (Z.of_nat j)) as [Hb Hv]; [unfold zlen; lia|lia|].
  rewrite !Nat2Z.id in Hv. rewrite Hv.
  set (t := (Z.of_nat i * flen (s_fs a) (win_hop (window_of a)) + Z.of_nat j)%Z) in *.
  destruct (s_pre_emph a).
  - apply pre_emphasis_spec in Hp as (P1 & P2 & P3). unfold zlen in *. split; [lia|].
    destruct (Z.eqb_spec t 0) as [->|Ht]; [exact P2|].
    replace (Z.to_nat t) with (S (Z.to_nat (t - 1))) by lia. apply P3. lia.
  - inversion Hp; subst s'. auto.
Qed.

Lemma run_framed : forall `{Env} e sig a c M, run e sig a c = Ok M -> exists fr ws,
  framed sig (s_fs a) (s_pre_emph a) (extractor_coeff e a) (s_window a) = Ok (fr, ws) /\
  List.length fr = List.length ws /\ (no_normalisation c -> List.length M = List.length ws).
Proof.
  intros E e sig a c M H.
  apply run_rows in H as (b & fr & ws & M0 & Hb & _ & _ & _ & Hf & _ & HM & _ & Hnm).
  exists fr, ws. split; auto. split.
  - apply framed_inv in Hf as (s1 & _ & _ & W1). apply windowing_length in W1. auto.
  - intros Hn. assert (M = M0) as -> by (destruct Hn as [Hn|Hn]; rewrite Hn in Hnm; exact Hnm).
    subst. apply map_length.
Qed.

(** rows i of sig and i2 of sig2 agree when the two signals agree on the samples of the two
    frames (and the sample before, with pre-emphasis) *)
Lemma run_row_eq : forall `{Env} e sig sig2 a c M M2 i i2,
  let L := flen (s_fs a) (win_len (window_of a)) in
  let hop := flen (s_fs a) (win_hop (window_of a)) in
  run e sig a c = Ok M -> run e sig2 a c = Ok M2 -> no_normalisation c ->
  (i < List.length M)%nat -> (i2 < List.length M2)%nat ->
  (s_pre_emph a = true -> (Z.of_nat i * hop = 0 <-> Z.of_nat i2 * hop = 0)%Z) ->
  (forall j, (-1 <= j < L)%Z -> (0 <= j \/ s_pre_emph a = true)%Z ->
     (0 <= Z.of_nat i * hop + j)%Z ->
     nth (Z.to_nat (Z.of_nat i * hop + j)) sig NaN = nth (Z.to_nat (Z.of_nat i2 * hop + j)) sig2 NaN) ->
  nth i M [] = nth i2 M2 [].
Proof.
  intros E e sig sig2 a c M M2 i i2 L hop H1 H2 Hn L1 L2 H0 Hag.
  destruct (run_framed _ _ _ _ _ H1) as (fr & ws & F1 & G1 & K1).
  destruct (run_framed _ _ _ _ _ H2) as (fr2 & ws2 & F2 & G2 & K2).
  specialize (K1 Hn). specialize (K2 Hn).
  eapply run_row_of_frame; eauto.
  destruct (framed_row _ _ _ _ _ i F1 ltac:(lia)) as [R1 V1].
  destruct (framed_row _ _ _ _ _ i2 F2 ltac:(lia)) as [R2 V2]. fold L hop in R1, V1, R2, V2.
  apply (list_eq_nth _ NaN); [congruence|]. intros j Hj. rewrite R1 in Hj.
  destruct (V1 j Hj) as [B1 X1]. destruct (V2 j Hj) as [B2 X2]. cbv zeta in *. rewrite X1, X2.
  destruct (s_pre_emph a) eqn:Ep.
  - specialize (H0 eq_refl).
    destruct (Z.eqb_spec (Z.of_nat i * hop + Z.of_nat j) 0) as [Z1|Z1];
      destruct (Z.eqb_spec (Z.of_nat i2 * hop + Z.of_nat j) 0) as [Z2|Z2].
    + pose proof (Hag (Z.of_nat j) ltac:(lia) ltac:(auto) ltac:(lia)) as Q. rewrite Z1, Z2 in Q. exact Q.
    + exfalso. destruct j as [|j']; [simpl in *; lia|].
      destruct (V1 0%nat ltac:(lia)) as [B1' _]. destruct (V2 0%nat ltac:(lia)) as [B2' _]. cbv zeta in *. lia.
    + exfalso. destruct j as [|j']; [simpl in *; lia|].
      destruct (V1 0%nat ltac:(lia)) as [B1' _]. destruct (V2 0%nat ltac:(lia)) as [B2' _]. cbv zeta in *. lia.
    + rewrite Hag by (auto; lia).
      replace (Z.of_nat i * hop + Z.of_nat j - 1)%Z with (Z.of_nat i * hop + (Z.of_nat j - 1))%Z by lia.
      rewrite Hag by (auto; lia).
      replace (Z.of_nat i2 * hop + Z.of_nat j - 1)%Z with (Z.of_nat i2 * hop + (Z.of_nat j - 1))%Z by lia. auto.
  - apply Hag; auto; lia.
Qed.

(** ** use_energy *)
Lemma run_energy_false : forall `{Env} e sig a c M, run e sig a (with_energy c false) = Ok M ->
  no_lifter c -> no_normalisation c -> (0 < c_num_ceps c)%Z ->
  exists M', run e sig a (with_energy c true) = Ok M' /\ List.length M' = List.length M /\
    forall i, (i < List.length M)%nat -> List.length (nth i M' []) = List.length (nth i M []) /\
      forall k, (0 < k)%nat -> nth k (nth i M' []) NaN = nth k (nth i M []) NaN.
Proof.
  intros E e sig a c M H Hl Hn Hc. pose proof H as H'.
  destruct (run_shape _ _ _ _ _ H) as (b & Hb & _ & Hsh); [simpl; lia|]. simpl in Hsh.
  apply run_rows in H as (b' & fr & ws & M0 & Hb' & _ & Hb1 & _ & _ & Hws & HM0 & Hlen & HM).
  rewrite Hb in Hb'. inversion Hb'; subst b'.
  assert (M = M0) as -> by (destruct Hn as [Hn|Hn]; simpl in HM; rewrite Hn in HM; exact HM).
  rewrite run_cep in H'. unfold cep in H'. cbn [with_energy c_num_ceps] in H'.
  destruct (s_nfilts a <? c_num_ceps c)%Z eqn:Enf; [discriminate|].
  apply rbind_Ok in H' as ([f m] & H1 & H').
  setoid_rewrite run_cep. unfold cep. cbn [with_energy c_num_ceps]. rewrite Enf, H1. cbn [rbind].
  unfold finish in *. cbn [with_energy c_dct_type c_num_ceps c_use_energy c_lifter c_normalize] in *.
  apply rbind_Ok in H' as (d & Hd & H'). rewrite Hd. cbn [rbind] in *.
  assert (E3 : forall X, match c_lifter c with Some l => if Reqb l 0 then Ok X else lifter_ceps X l | None => Ok X end = Ok X).
  { intros X. destruct Hl as [-> | ->]; auto. rewrite Reqb_refl. auto. }
  rewrite E3 in H'. cbn [rbind] in H'.
  set (X := map (py_take (c_num_ceps c)) d) in *.
  assert (HX : X = M0).
  { destruct Hn as [Hn|Hn]; rewrite Hn in H'; inversion H'; auto. }
  unfold set_col0. rewrite HX.
  assert (Hmin : (1 <= Nat.min (Z.to_nat (c_num_ceps c)) (List.length b))%nat) by lia.
  assert (Hnc : ncols M0 = Nat.min (Z.to_nat (c_num_ceps c)) (List.length b)).
  { eapply shape_ncols; [split; [reflexivity|exact Hsh]|]. rewrite HM0, map_length. auto. }
  rewrite Hnc. destruct (Nat.eqb_spec (Nat.min (Z.to_nat (c_num_ceps c)) (List.length b)) 0); [lia|].
  cbn [rbind]. rewrite E3. cbn [rbind].
  assert (Hlm : List.length (log_energy (s_nfft a) m) = List.length M0).
  { unfold log_energy, zero_handling. rewrite !map_length.
    unfold spec_gram in H1. apply rbind_Ok in H1 as (b2 & _ & H1). apply rbind_Ok in H1 as ([fr2 ws2] & Hf2 & H1).
    apply rbind_Ok in H1 as (m' & Hm & H1). apply rbind_Ok in H1 as (f' & Hdd & H1). inversion H1; subst f' m'.
    apply np_dot_T_rows in Hdd. unfold power_frames in Hdd.
    unfold sp_dct in Hd. destruct (_ || _)%bool; [discriminate|]. destruct (Nat.ltb _ _); [discriminate|].
    apply Ok_inj in Hd. rewrite <- HX. unfold X. rewrite <- Hd, Hdd, !map_length. auto. }
  eexists. split; [destruct Hn as [-> | ->]; reflexivity|].
  split; [rewrite map2_length, Hlm; lia|].
  intros i Hi. rewrite map2_nth with (da := []) (db := NaN) by (rewrite ?Hlm; auto).
  rewrite Forall_forall in Hsh. specialize (Hsh (nth i M0 []) (nth_In _ _ Hi)).
  destruct (nth i M0 []) as [|v r] eqn:Er; [simpl in Hsh; lia|]. split; [reflexivity|].
  intros k Hk. destruct k; [lia|]. reflexivity.
Qed.

Lemma run_energy_no_columns : forall `{Env} e sig a c M, run e sig a (with_energy c false) = Ok M ->
  c_num_ceps c = 0%Z -> run e sig a (with_energy c true) = Raise IndexError.
Proof.
  intros E e sig a c M H Hc. rewrite run_cep in *. unfold cep in *. cbn [with_energy c_num_ceps] in *.
  destruct (s_nfilts a <? c_num_ceps c)%Z; [discriminate|].
  apply rbind_Ok in H as ([f m] & H1 & H). rewrite H1. cbn [rbind].
  unfold finish in *. cbn [with_energy c_dct_type c_num_ceps c_use_energy c_lifter c_normalize] in *.
  apply rbind_Ok in H as (d & Hd & H). rewrite Hd. cbn [rbind] in *.
  unfold set_col0. rewrite Hc. replace (ncols (map (py_take 0) d)) with 0%nat; [reflexivity|].
  destruct d as [|r d']; reflexivity.
Qed.

(** ** logarithmic features are finite *)
Lemma spec_power_nonneg : forall n L f k, (0 < n)%nat -> 0 <= spec_power n L f k.
Proof.
  intros. unfold spec_power. apply Rmult_le_pos; [apply spec_sq_nonneg|]. left. apply Rinv_0_lt_compat, lt_0_INR. auto.
Qed.
Lemma spec_band_nonneg : forall h n L f b, (0 < n)%nat -> (forall k, (k <= h)%nat -> 0 <= b k) -> 0 <= spec_band h n L f b.
Proof.
  intros. unfold spec_band. apply bigsum_nonneg. intros k Hk. apply Rmult_le_pos; [apply spec_power_nonneg; auto|].
  apply H0. lia.
Qed.
Lemma log_compressible : forall e v, logarithmic e = true -> 0 <= v -> compressible e v.
Proof. intros e v He Hv. destruct e; simpl in *; auto; congruence. Qed.


Lemma lifter_finite : forall r k x l, (0 < r)%nat -> (0 < k)%nat -> 0 <= l \/ l <= -1 ->
  exists y, lifter_ceps (fmat r k x) l = Ok (fmat r k y).
Proof.
  intros r k x l Hr Hk Hl. destruct (Req_dec l 0) as [->|Hl0].
  - exists x. apply lifter_id. auto.
  - destruct (Rlt_dec 10 l) as [Hb|Hb].
    + exists x. apply lifter_id. auto.
    + destruct (Rle_dec l (-1)) as [Hneg|Hneg].
      * eexists. apply lifter_neg; auto.
      * eexists. apply lifter_pos; auto. lra.
Qed.

Lemma run_finite : forall `{Env} e a c N L hop n B x,
  well_framed a N L hop -> (1 <= s_nfft a)%Z -> (0 < n)%nat ->
  extractor_bank e a = Ok (fmat n (S (half (s_nfft a))) B) ->
  (forall i j, (i < frame_count N L hop)%nat -> (j < n)%nat ->
     compressible e (spec_band (half (s_nfft a)) (Z.to_nat (s_nfft a)) L (frame_of a (extractor_coeff e a) L hop x i) (B j))) ->
  (0 < c_num_ceps c <= s_nfilts a)%Z ->
  (1 <= c_dct_type c <= 4)%Z -> (c_dct_type c = 1%Z -> (2 <= n)%nat) ->
  tame_lifter c -> no_normalisation c ->
  exists y, run e (fvec N x) a c = Ok (fmat (frame_count N L hop) (Nat.min (Z.to_nat (c_num_ceps c)) n) y).
Proof.
  intros E e a c N L hop n B x Hw Hn Hn0 HB HG Hc Ht Ht1 Hl Hnm.
  set (c0 := mkC (c_num_ceps c) (c_dct_type c) (c_use_energy c) None (c_normalize c)).
  pose proof (run_fvec e a c0 N L hop n B x Hw Hn Hn0 HB HG) as R0. simpl in R0.
  specialize (R0 ltac:(lia) Ht Ht1 ltac:(lia) ltac:(lia) (or_introl eq_refl) Hnm).
  match type of R0 with _ = Ok (fmat _ _ ?y) => set (y0 := y) in R0; clearbody y0 end.
  rewrite run_cep in R0. unfold cep in R0. cbn [c0 c_num_ceps] in R0.
  destruct (s_nfilts a <? c_num_ceps c)%Z eqn:Enf; [discriminate|].
  apply rbind_Ok in R0 as ([f m] & H1 & R0). setoid_rewrite run_cep. unfold cep. rewrite Enf, H1. cbn [rbind].
  unfold finish in *. cbn [c0 c_dct_type c_num_ceps c_use_energy c_lifter c_normalize] in *.
  apply rbind_Ok in R0 as (d & Hd & R0). rewrite Hd. cbn [rbind] in *.
  apply rbind_Ok in R0 as (X & HX & R0). rewrite HX. cbn [rbind] in *.
  assert (EX : X = fmat (frame_count N L hop) (Nat.min (Z.to_nat (c_num_ceps c)) n) y0).
  { destruct Hnm as [Hnm|Hnm]; rewrite Hnm in R0; inversion R0; auto. }
  rewrite EX.
  assert (exists y, match c_lifter c with
    | Some l => if Reqb l 0 then Ok (fmat (frame_count N L hop) (Nat.min (Z.to_nat (c_num_ceps c)) n) y0)
                else lifter_ceps (fmat (frame_count N L hop) (Nat.min (Z.to_nat (c_num_ceps c)) n) y0) l
    | None => Ok (fmat (frame_count N L hop) (Nat.min (Z.to_nat (c_num_ceps c)) n) y0) end
    = Ok (fmat (frame_count N L hop) (Nat.min (Z.to_nat (c_num_ceps c)) n) y)) as [y Hy].
  { unfold tame_lifter in Hl. destruct (c_lifter c) as [l|]; [|eauto].
    destruct (Reqb l 0); [eauto|]. apply lifter_finite; auto; [apply frame_count_pos|lia]. }
  exists y. rewrite Hy. cbn [rbind]. destruct Hnm as [-> | ->]; reflexivity.
Qed.

