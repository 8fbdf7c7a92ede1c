(** * Proofs for C197 *)
From Coq Require Import Reals ZArith List String Bool Lia Lra.
From Flocq Require Import Core.Raux.
From Verif Require Import Base BaseFacts Cplx Preprocessing PreprocessingFacts Cepstral Fourier Features Extractors FeaturesFacts SpecOutcome OutcomeFacts SpecWide.
Import ListNotations.
Local Open Scope R_scope.

Notation wd := same_width.
Lemma wd_map : forall A B C D (f : list A -> list C) (g : list B -> list D) m n, wd m n -> (forall r s, len2 r s -> len2 (f r) (g s)) -> wd (map f m) (map g n).
Proof.
  intros A B C D f g m n (H1 & H2 & H) HF. split; [destruct m; [contradiction|discriminate]|]. split; [destruct n; [contradiction|discriminate]|].
  intros r s Hr Hs. apply in_map_iff in Hr as (r' & <- & Hr). apply in_map_iff in Hs as (s' & <- & Hs). apply HF, H; assumption.
Qed.
Lemma wd_mapmap : forall A B C D (f : A -> C) (g : B -> D) m n, wd m n -> wd (map (map f) m) (map (map g) n).
Proof. intros. apply wd_map; [assumption|]. intros r s Hr. unfold len2 in *. rewrite !map_length. exact Hr. Qed.
Lemma wd_ncols : forall A B (m : list (list A)) (n : list (list B)), wd m n -> ncols m = ncols n.
Proof. intros A B [|r m] [|s n] (H1 & H2 & H); try contradiction. apply (H r s); left; reflexivity. Qed.
Lemma mapM_raise : forall A B (f : A -> result B) x l e, f x = Raise e -> mapM f (x :: l) = Raise e.
Proof. intros. cbn. rewrite H. reflexivity. Qed.
Lemma mapM_all : forall A B (f : A -> result B) l, (forall x, In x l -> exists y, f x = Ok y) -> exists m, mapM f l = Ok m /\ List.length m = List.length l /\ forall y, In y m -> exists x, In x l /\ f x = Ok y.
Proof.
  intros A B f l. induction l as [|x l IH]; intros H; [exists []; cbn; split; [reflexivity|]; split; [reflexivity|]; intros y []|].
  destruct (H x (or_introl eq_refl)) as [y Hy]. destruct IH as (m & Hm & Hl & HI); [intros; apply H; right; assumption|]. exists (y :: m). cbn. rewrite Hy. cbn. rewrite Hm. cbn. split; [reflexivity|]. split; [rewrite Hl; reflexivity|].
  intros z [<-|Hz]; [exists x; auto|]. destruct (HI z Hz) as (w & Hw & E). exists w. auto.
Qed.
Lemma wd_mapM : forall A B C D (f : list A -> result (list C)) (g : list B -> result (list D)) m n, wd m n -> (forall r s, len2 r s -> req len2 (f r) (g s)) -> req wd (mapM f m) (mapM g n).
Proof.
  intros A B C D f g [|r m] [|s n] (H1 & H2 & H) HF; try contradiction. pose proof (HF r s (H r s (or_introl eq_refl) (or_introl eq_refl))) as K.
  destruct (f r) as [r'|e] eqn:Er, (g s) as [s'|e2] eqn:Es; cbn [req] in K; try contradiction K.
  - destruct (mapM_all _ _ f (r :: m)) as (p & -> & Lp & Ip). { intros x Hx. pose proof (HF x s (H x s Hx (or_introl eq_refl))) as Q. rewrite Es in Q. destruct (f x); [eauto|contradiction Q]. }
    destruct (mapM_all _ _ g (s :: n)) as (q & -> & Lq & Iq). { intros x Hx. pose proof (HF r x (H r x (or_introl eq_refl) Hx)) as Q. rewrite Er in Q. destruct (g x); [eauto|contradiction Q]. }
    cbn [req]. split; [destruct p; discriminate|]. split; [destruct q; discriminate|]. intros u v Hu Hv. destruct (Ip u Hu) as (x & Hx & Ex). destruct (Iq v Hv) as (y & Hy & Ey).
    pose proof (HF x y (H x y Hx Hy)) as Q. rewrite Ex, Ey in Q. exact Q.
  - rewrite (mapM_raise _ _ f r m e Er), (mapM_raise _ _ g s n e2 Es). exact K.
Qed.
Lemma wd_concat : forall A B (m : list (list A)) (n : list (list B)), wd m n -> List.concat m = [] <-> List.concat n = [].
Proof.
  assert (K : forall A B (m : list (list A)) (n : list (list B)), wd m n -> List.concat m = [] -> List.concat n = []).
  { intros A B [|r m] n (H1 & _ & H) HM; [contradiction|]. cbn in HM. apply app_eq_nil in HM as [Hr _].
    assert (Q : forall s, In s n -> s = []). { intros s Hs. pose proof (H r s (or_introl eq_refl) Hs) as L. rewrite Hr in L. destruct s; [reflexivity|discriminate L]. }
    clear - Q. induction n as [|s n IH]; [reflexivity|]. cbn. rewrite (Q s (or_introl eq_refl)). apply IH. intros; apply Q; right; assumption. }
  intros A B m n H. split; [apply K; exact H|]. apply K. destruct H as (H1 & H2 & H). repeat split; auto. intros. symmetry. apply H; assumption.
Qed.
Lemma framing_wd : forall `{Env} x y fs wl wh, (0 < flen fs wh)%Z -> (0 < flen fs wl <= zlen x)%Z -> (flen fs wl <= zlen y)%Z ->
  req (fun r s => wd (fst r) (fst s) /\ snd r = snd s) (framing x fs wl wh) (framing y fs wl wh).
Proof.
  intros E x y fs wl wh Hh Hx Hy.
  assert (K : forall z, (flen fs wl <= zlen z)%Z -> Rltb wl wh = false -> exists fr, framing z fs wl wh = Ok (fr, flen fs wl) /\ fr <> [] /\ forall r, In r fr -> List.length r = Z.to_nat (flen fs wl)).
  { intros z Hz Hw. pose proof (framing_safe z fs wl wh Hh) as S. unfold framing, framing_strided, stride_trick, as_strided in *. rewrite Hw in *. cbn zeta in *. unfold flen in *.
    set (L := Ztrunc (rnd (wl * IZR fs))) in *. set (h := Ztrunc (rnd (wh * IZR fs))) in *. rewrite (proj2 (Z.eqb_neq h 0)) in * by lia.
    assert (HN : (1 <= (zlen z - L) / h + 1)%Z) by (pose proof (Z.div_pos (zlen z - L) h ltac:(lia) Hh); lia).
    rewrite (proj2 (Z.ltb_ge _ 0)) in * by lia. rewrite (proj2 (Z.ltb_ge L 0)) in * by lia. cbn [orb] in *.
    destruct (mapM _ (zrange 0 ((zlen z - L) / h + 1))) as [fr|e] eqn:Em.
    - cbn [rbind] in *. pose proof (mapM_length _ _ _ _ _ Em) as HL. rewrite zrange_length in HL.
      assert (HR : forall r, In r fr -> List.length r = Z.to_nat L).
      { intros r Hr. destruct (mapM_In_rev _ _ _ _ _ _ Em Hr) as (i & _ & Hi). apply mapM_length in Hi. rewrite zrange_length in Hi. rewrite Hi. f_equal. lia. }
      assert (HZ : fr <> []) by (destruct fr; [cbn in HL; lia|discriminate]). assert (HLast : In (last fr []) fr). { clear - HZ. induction fr as [|a fr IH]; [contradiction|]. destruct fr; [left; reflexivity|right; apply IH; discriminate]. }
      exists fr. split; [|split; assumption]. destruct fr as [|r0 fr]; [contradiction|]. unfold zlen at 1. rewrite (HR _ HLast). rewrite Z2Nat.id by lia. rewrite Z.ltb_irrefl. reflexivity.
    - exfalso. cbn [rbind] in S. apply S. f_equal. clear - Em. revert Em. match goal with |- mapM ?f ?l = _ -> _ => generalize l end. intros l. induction l as [|i l IH]; [discriminate|]. cbn [mapM].
      match goal with |- rbind ?m _ = _ -> _ => destruct m as [v|e'] eqn:Ei end; cbn [rbind].
      + destruct (mapM _ l); cbn [rbind]; [discriminate|]. intros Q. apply IH. injection Q as ->. reflexivity.
      + intros Q. injection Q as <-. clear IH. revert Ei. generalize (zrange 0 L). intros k. induction k as [|j k IH]; [discriminate|]. cbn [mapM]. unfold read_buf at 1. destruct (_ && _)%Z; cbn [rbind]; [|intros Q; injection Q as <-; reflexivity].
        destruct (mapM _ k); cbn [rbind]; [discriminate|]. intros Q. apply IH. injection Q as ->. reflexivity. }
  destruct (Rltb wl wh) eqn:Ew; [unfold framing, framing_strided; rewrite Ew; reflexivity|].
  destruct (K x (proj2 Hx) eq_refl) as (f & -> & Nf & Hf). destruct (K y Hy eq_refl) as (g & -> & Ng & Hg). cbn [req fst snd]. split; [|reflexivity]. split; [exact Nf|]. split; [exact Ng|].
  intros r s Hr Hs. rewrite (Hf r Hr), (Hg s Hs). reflexivity.
Qed.
Definition wd2 {A B C D} (r : list (list A) * list (list B)) (s : list (list C) * list (list D)) : Prop := wd (fst r) (fst s) /\ wd (snd r) (snd s).
Lemma framed_wd : forall `{Env} x y fs pe c w, one_window fs w (List.length x) -> one_window fs w (List.length y) -> req wd2 (framed x fs pe c w) (framed y fs pe c w).
Proof.
  intros E x y fs pe c w (Hh & Hx) (_ & Hy). unfold framed. set (w' := match w with None => default_window | Some w => w end) in *.
  assert (P : forall z, (0 < Ztrunc (rnd (win_len w' * IZR fs)) <= Z.of_nat (List.length z))%Z -> exists z', (if pe then pre_emphasis z c else Ok z) = Ok z' /\ List.length z' = List.length z).
  { intros z Hz. destruct pe; [|eauto]. destruct z as [|v z]; [cbn in Hz; lia|]. eexists. split; [reflexivity|]. apply fir_len. }
  destruct (P x Hx) as (x' & -> & Lx). destruct (P y Hy) as (y' & -> & Ly). cbn [rbind].
  apply (req_bind _ _ _ _ (fun r s => wd (fst r) (fst s) /\ snd r = snd s)); [apply framing_wd; unfold flen, zlen; rewrite ?Lx, ?Ly; lia|]. intros [f l] [g m] [H1 H2]. cbn [fst snd] in *. subst m.
  apply (req_bind _ _ _ _ wd); [unfold windowing; apply wd_mapM; [exact H1|]; intros; apply windowing_row_req; assumption|]. intros u v Huv. split; assumption.
Qed.
Lemma fft_mag_wd : forall w v n, wd w v -> req wd (fft_magnitude w n) (fft_magnitude v n).
Proof. intros w v n H. unfold fft_magnitude, np_fft. destruct (_ <? _)%Z; [reflexivity|]. cbn [rbind req]. rewrite !map_map. apply wd_map; [exact H|]. intros r s _. apply py_take_len. unfold len2. rewrite !map_length. reflexivity. Qed.
Lemma rfft_mag_wd : forall w v n, wd w v -> req wd (rfft_magnitude w n) (rfft_magnitude v n).
Proof. intros w v n H. unfold rfft_magnitude, np_rfft. destruct (_ <? _)%Z; [reflexivity|]. cbn [rbind req]. rewrite !map_map. apply wd_map; [exact H|]. intros r s _. unfold len2. rewrite !map_length. reflexivity. Qed.
Lemma dot_wd : forall a b B, wd a b -> req wd (np_dot_T a B) (np_dot_T b B).
Proof.
  intros a b B H. unfold np_dot_T. destruct B as [|r B]; [cbn; apply wd_map; [exact H|]; reflexivity|].
  rewrite (wd_ncols _ _ _ _ H). destruct (Nat.eqb _ _); [|reflexivity]. cbn [req]. apply wd_map; [exact H|]. intros. unfold len2. rewrite !map_length. reflexivity.
Qed.
Lemma dct_wd : forall a b t, wd a b -> req wd (sp_dct a t) (sp_dct b t).
Proof.
  intros a b t H. unfold sp_dct. rewrite (wd_ncols _ _ _ _ H). destruct (_ || _)%Z; [reflexivity|]. destruct (Nat.ltb _ _); [reflexivity|]. cbn [req]. apply wd_map; [exact H|].
  intros x y Hx. unfold len2, dct_row in *. rewrite !map_length, !seq_length. exact Hx.
Qed.
Lemma map2_In : forall A B C (f : A -> B -> C) l m z, In z (map2 f l m) -> exists x y, In x l /\ In y m /\ z = f x y.
Proof. intros A B C f l. induction l as [|x l IH]; intros [|y m] z H; cbn in H; try contradiction. destruct H as [<-|H]; [exists x, y; cbn; auto|]. destruct (IH m z H) as (u & v & ? & ? & ?). exists u, v. cbn. auto. Qed.
Lemma col0_wd : forall a b v w, wd a b -> v <> [] -> w <> [] -> req wd (set_col0 a v) (set_col0 b w).
Proof.
  intros a b v w H Hv Hw. unfold set_col0. rewrite (wd_ncols _ _ _ _ H). destruct (Nat.eqb _ _); [reflexivity|]. cbn [req]. destruct H as (H1 & H2 & H).
  split; [destruct a, v; try contradiction; discriminate|]. split; [destruct b, w; try contradiction; discriminate|]. intros r s Hr Hs. apply map2_In in Hr as (x & u & Hx & _ & ->). apply map2_In in Hs as (y & z & Hy & _ & ->).
  pose proof (H x y Hx Hy) as L. destruct x, y; cbn in *; lia.
Qed.
Lemma lifter_wd : forall a b l, wd a b -> req wd (lifter_ceps a l) (lifter_ceps b l).
Proof.
  intros a b l H. unfold lifter_ceps. rewrite (wd_ncols _ _ _ _ H). destruct (_ || _); [exact H|]. destruct (Rltb 0 l).
  - destruct (Nat.eqb _ _); [|reflexivity]. cbn [req]. apply wd_map; [exact H|]. intros. unfold len2. rewrite !map_length. reflexivity.
  - cbn [req]. apply wd_map; [exact H|]. intros. apply len2_map2; [assumption|reflexivity].
Qed.
Lemma fmaxl_nil : forall l m : list F, (l = [] <-> m = []) -> req (fun _ _ => True) (fmaxl l) (fmaxl m).
Proof. intros [|x l] [|y m] H; cbn; auto; [assert (K : y :: m = []) by (apply H; reflexivity)|assert (K : x :: l = []) by (apply H; reflexivity)]; discriminate K. Qed.
Lemma fminl_nil : forall l m : list F, (l = [] <-> m = []) -> req (fun _ _ => True) (fminl l) (fminl m).
Proof. intros [|x l] [|y m] H; cbn; auto; [assert (K : y :: m = []) by (apply H; reflexivity)|assert (K : x :: l = []) by (apply H; reflexivity)]; discriminate K. Qed.
Lemma normalize_wd : forall a b t, wd a b -> req wd (normalize_ceps a t) (normalize_ceps b t).
Proof.
  intros a b t H. unfold normalize_ceps. apply (req_bind _ _ _ _ (fun _ _ => True)); [apply fmaxl_nil, wd_concat; exact H|]. intros mx mx2 _.
  apply (req_bind _ _ _ _ (fun _ _ => True)); [apply fminl_nil, wd_concat; exact H|]. intros mn mn2 _.
  assert (M : len2 (col_means a) (col_means b)) by (unfold len2, col_means; rewrite !map_length, !seq_length, (wd_ncols _ _ _ _ H); reflexivity).
  destruct (String.eqb t "mvn"); [cbn [req]; apply wd_map; [exact H|]; intros; apply len2_map2; assumption|].
  destruct (String.eqb t "ms"); [cbn [req]; apply wd_map; [exact H|]; intros; apply len2_map2; assumption|].
  destruct (String.eqb t "vn"); [cbn [req]; apply wd_mapmap; exact H|]. destruct (String.eqb t "mn"); [cbn [req]; apply wd_mapmap; exact H|reflexivity].
Qed.
Lemma finish_wd : forall c n a b m k, wd a b -> wd m k -> req wd (finish c n a m) (finish c n b k).
Proof.
  intros c n a b m k H Hm. unfold finish. apply (req_bind _ _ _ _ wd); [apply dct_wd; exact H|]. intros d e Hd.
  assert (T : wd (map (py_take (c_num_ceps c)) d) (map (py_take (c_num_ceps c)) e)) by (apply wd_map; [exact Hd|]; intros; apply py_take_len; assumption).
  apply (req_bind _ _ _ _ wd).
  - destruct (c_use_energy c); [|exact T]. destruct Hm as (M1 & M2 & _). apply col0_wd; [exact T|destruct m; [contradiction|discriminate]|destruct k; [contradiction|discriminate]].
  - intros u v Hu. apply (req_bind _ _ _ _ wd).
    + destruct (c_lifter c) as [l|]; [destruct (Reqb l 0); [exact Hu|apply lifter_wd; exact Hu]|exact Hu].
    + intros p q Hp. destruct (c_normalize c) as [t|]; [destruct (String.eqb t ""); [exact Hp|apply normalize_wd; exact Hp]|exact Hp].
Qed.
Lemma gram_wd : forall `{Env} bank c magf x y a, (forall w v n, wd w v -> req wd (magf w n) (magf v n)) -> one_window (s_fs a) (s_window a) (List.length x) -> one_window (s_fs a) (s_window a) (List.length y) ->
  req wd2 (spec_gram bank c magf x a) (spec_gram bank c magf y a).
Proof.
  intros E bank c magf x y a HM Hx Hy. unfold spec_gram. destruct bank as [B|e]; [|reflexivity]. cbn [rbind].
  apply (req_bind _ _ _ _ wd2); [apply framed_wd; assumption|]. intros [f w] [g v] [_ Hw]. cbn [snd] in Hw. apply (req_bind _ _ _ _ wd); [apply HM; exact Hw|]. intros m k Hm.
  apply (req_bind _ _ _ _ wd); [apply dot_wd; apply wd_mapmap; exact Hm|]. intros p q Hp. split; assumption.
Qed.
Lemma spectrogram_kind : forall `{Env} s x y a, one_window (s_fs a) (s_window a) (List.length x) -> one_window (s_fs a) (s_window a) (List.length y) ->
  same_kind2 (spectrogram s x a) (spectrogram s y a).
Proof.
  intros E s x y a Hx Hy. rewrite !spectrogram_gram. pose proof (gram_wd (spectro_bank s a) (spectro_coeff s a) (match s with Bark => rfft_magnitude | _ => fft_magnitude end) x y a) as K.
  specialize (K ltac:(destruct s; auto using fft_mag_wd, rfft_mag_wd) Hx Hy). unfold same_kind2. destruct (spec_gram _ _ _ x a) as [m|e], (spec_gram _ _ _ y a) as [m2|e2]; cbn [req] in K; auto.
Qed.
Lemma run_kind : forall `{Env} e x y a c, one_window (s_fs a) (s_window a) (List.length x) -> one_window (s_fs a) (s_window a) (List.length y) -> same_kind (run e x a c) (run e y a c).
Proof.
  intros E e x y a c Hx Hy. rewrite !run_cep. assert (K : req wd (cep e x a c) (cep e y a c)); [|unfold same_kind; destruct (cep e x a c), (cep e y a c); exact K].
  unfold cep. destruct (_ <? _)%Z; [reflexivity|].
  apply (req_bind _ _ _ _ wd2); [apply gram_wd; [destruct e; auto using fft_mag_wd, rfft_mag_wd|exact Hx|exact Hy]|]. intros [f m] [g k] [H1 H2]. cbn [fst snd] in *. apply finish_wd; [apply wd_mapmap; exact H1|exact H2].
Qed.

(** a recording shorter than a window *)
Lemma framed_short : forall `{Env} x a pe co, (0 < flen (s_fs a) (win_hop (window_of a)))%Z -> (zlen x < flen (s_fs a) (win_len (window_of a)))%Z -> exists ex, framed x (s_fs a) pe co (s_window a) = Raise ex.
Proof.
  intros E x a pe co Hh Hl. unfold framed. fold (window_of a).
  destruct (if pe then pre_emphasis x co else Ok x) as [x'|ex] eqn:Ex; [|exists ex; reflexivity]. cbn [rbind].
  assert (Lx : List.length x' = List.length x). { destruct pe; [|congruence]. destruct x; [discriminate Ex|]. injection Ex as <-. apply fir_len. }
  assert (HZ : (zlen x' < flen (s_fs a) (win_len (window_of a)))%Z) by (unfold zlen in *; rewrite Lx; exact Hl).
  destruct (Rlt_le_dec (win_len (window_of a)) (win_hop (window_of a))) as [Hw|Hw]; [rewrite (framing_param_error x' (s_fs a) _ _ Hw); eexists; reflexivity|].
  destruct (framing_outcomes x' (s_fs a) _ _ Hw Hh ltac:(pose proof (Zle_0_nat (List.length x')); unfold zlen in HZ; lia)) as (K1 & K2 & _).
  destruct (Z_lt_le_dec (zlen x') (flen (s_fs a) (win_len (window_of a)) - flen (s_fs a) (win_hop (window_of a)))) as [H1|H1]; [rewrite (K1 H1)|rewrite (K2 (conj H1 HZ))]; eexists; reflexivity.
Qed.
Lemma short_raises : forall `{Env} x a c, (0 < flen (s_fs a) (win_hop (window_of a)))%Z -> (zlen x < flen (s_fs a) (win_len (window_of a)))%Z ->
  (forall e m, run e x a c <> Ok m) /\ (forall s m, spectrogram s x a <> Ok m) /\ (forall g m, psrcc x a g c <> Ok m).
Proof.
  intros E x a c Hh Hl. pose proof (fun pe co => framed_short x a pe co Hh Hl) as HF. split; [|split].
  - intros e m K. rewrite run_cep in K. unfold cep, spec_gram in K. destruct (_ <? _)%Z; [discriminate K|]. destruct (extractor_bank e a) as [B|]; [|discriminate K]. cbn [rbind] in K.
    destruct (HF (s_pre_emph a) (extractor_coeff e a)) as [ex Hex]. rewrite Hex in K. discriminate K.
  - intros s m K. rewrite spectrogram_gram in K. unfold spec_gram in K. destruct (spectro_bank s a) as [B|]; [|discriminate K]. cbn [rbind] in K.
    destruct (HF (s_pre_emph a) (spectro_coeff s a)) as [ex Hex]. rewrite Hex in K. discriminate K.
  - intros g m K. unfold psrcc in K. destruct (_ <? _)%Z; [discriminate K|]. destruct (match s_fbanks a with Some b => Ok b | None => _ end) as [B|]; [|discriminate K]. cbn [rbind] in K.
    destruct (HF (s_pre_emph a) (s_coeff a)) as [ex Hex]. rewrite Hex in K. discriminate K.
Qed.
Lemma rfft_wd : forall w v n, wd w v -> req wd (np_rfft w n) (np_rfft v n).
Proof. intros w v n H. unfold np_rfft. destruct (_ <? _)%Z; [reflexivity|]. cbn [req]. apply wd_map; [exact H|]. intros r s _. unfold len2. rewrite !map_length. reflexivity. Qed.
Lemma psrcc_kind : forall `{Env} x y a g c, one_window (s_fs a) (s_window a) (List.length x) -> one_window (s_fs a) (s_window a) (List.length y) -> same_kind (psrcc x a g c) (psrcc y a g c).
Proof.
  intros E x y a g c Hx Hy. assert (K : req wd (psrcc x a g c) (psrcc y a g c)); [|unfold same_kind; destruct (psrcc x a g c), (psrcc y a g c); exact K].
  unfold psrcc. destruct (_ <? _)%Z; [reflexivity|]. destruct (match s_fbanks a with Some b => Ok b | None => _ end) as [B|e]; [|reflexivity]. cbn [rbind].
  apply (req_bind _ _ _ _ wd2); [apply framed_wd; assumption|]. intros [f w] [f2 v] [_ Hw]. cbn [snd] in Hw. apply (req_bind _ _ _ _ wd2).
  - unfold psrcc_features. apply (req_bind _ _ _ _ wd); [apply rfft_wd; exact Hw|]. intros z z2 Hz. apply (req_bind _ _ _ _ wd); [apply dot_wd, wd_mapmap; exact Hz|]. intros p q Hp.
    assert (Hf : wd (map (map (fun v => if is_nan v then f0 else v)) (map (map (fun v => fpow v g)) p)) (map (map (fun v => if is_nan v then f0 else v)) (map (map (fun v => fpow v g)) q))) by (do 2 apply wd_mapmap; exact Hp).
    apply (req_bind _ _ _ _ (fun _ _ => True)); [apply fmaxl_nil, wd_concat; exact Hf|]. intros. split; cbn [fst snd]; [apply wd_mapmap; exact Hf|exact Hz].
  - intros [p z] [q z2] [Hp Hz]. cbn [fst snd] in *. apply finish_wd; [exact Hp|apply wd_mapmap; exact Hz].
Qed.
