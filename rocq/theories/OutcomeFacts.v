(** * Proofs for C195: whether a call succeeds does not depend on the sample values *)
From Coq Require Import Reals ZArith List String Bool Lia Lra.
From Flocq Require Import Core.Raux.
From Verif Require Import Base BaseFacts Cplx Preprocessing Cepstral Fourier Features Extractors FeaturesFacts Pncc Cqt SpecOutcome.
Import ListNotations.
Local Open Scope R_scope.

(** ** Results that agree up to a relation *)
Definition req {A B} (P : A -> B -> Prop) (r : result A) (s : result B) : Prop :=
  match r, s with Ok a, Ok b => P a b | Raise e, Raise f => e = f | _, _ => False end.
Lemma req_bind : forall A B C D (P : A -> B -> Prop) (Q : C -> D -> Prop) r s k l,
  req P r s -> (forall a b, P a b -> req Q (k a) (l b)) -> req Q (rbind r k) (rbind s l).
Proof. intros A B C D P Q [a|e] [b|f] k l H HK; cbn in *; auto; contradiction. Qed.
Lemma req_weaken : forall A B (P Q : A -> B -> Prop) r s, (forall a b, P a b -> Q a b) -> req P r s -> req Q r s.
Proof. intros A B P Q [a|e] [b|f] H; cbn; auto. Qed.
Lemma req_refl : forall A (P : A -> A -> Prop) r, (forall a, P a a) -> req P r r.
Proof. intros A P [a|e] H; cbn; auto. Qed.
Lemma req_mapM : forall A B C D (S : A -> B -> Prop) (P : C -> D -> Prop) f g l m, Forall2 S l m ->
  (forall x y, S x y -> req P (f x) (g y)) -> req (Forall2 P) (mapM f l) (mapM g m).
Proof.
  intros A B C D S P f g l m HS HF. induction HS as [|x y l m H HS IH]; cbn; [constructor|].
  apply (req_bind _ _ _ _ P _ _ _ _ _ (HF x y H)). intros a b Hab. apply (req_bind _ _ _ _ _ _ _ _ _ _ IH). intros u v Huv. cbn. constructor; assumption.
Qed.
Lemma req_foldM : forall A B C (P : B -> C -> Prop) f g (l : list A), (forall x b c, P b c -> req P (f b x) (g c x)) ->
  forall b c, P b c -> req P (foldM f l b) (foldM g l c).
Proof. intros A B C P f g l HF. induction l as [|x l IH]; intros b c H; cbn; [exact H|]. apply (req_bind _ _ _ _ P _ _ _ _ _ (HF x b c H)). exact IH. Qed.

(** ** Tables of the same shape *)
Definition len2 {A B} (r : list A) (s : list B) : Prop := List.length r = List.length s.
Definition al {A B} (m : list (list A)) (n : list (list B)) : Prop := Forall2 len2 m n.
Lemma al_len : forall A B (P : A -> B -> Prop) l m, Forall2 P l m -> List.length l = List.length m.
Proof. intros A B P l m H. induction H; cbn; congruence. Qed.
Lemma al_refl : forall A (m : list (list A)), al m m.
Proof. intros A m. induction m; constructor; [reflexivity|exact IHm]. Qed.
Lemma same_list : forall A (l : list A), Forall2 eq l l.
Proof. intros A l. induction l; constructor; auto. Qed.
Lemma al_sizes : forall A B (m : list (list A)) (n : list (list B)), al m n -> sizes m = sizes n.
Proof. intros A B m n H. induction H as [|x y l r Hx H IH]; cbn; [reflexivity|]. unfold sizes in *. cbn. rewrite Hx, IH. reflexivity. Qed.
Lemma al_ncols : forall A B (m : list (list A)) (n : list (list B)), al m n -> ncols m = ncols n.
Proof. intros A B m n H. destruct H as [|x y l r Hx H]; [reflexivity|exact Hx]. Qed.
Lemma all_true : forall A B (l : list A) (m : list B), List.length l = List.length m -> Forall2 (fun _ _ => True) l m.
Proof. intros A B l. induction l as [|x l IH]; intros [|y m] H; cbn in H; try discriminate; constructor; auto. Qed.
Lemma F2_map : forall A B C D (P : A -> B -> Prop) (Q : C -> D -> Prop) f g l m, Forall2 P l m -> (forall x y, P x y -> Q (f x) (g y)) -> Forall2 Q (map f l) (map g m).
Proof. intros A B C D P Q f g l m H HF. induction H; cbn; constructor; auto. Qed.
Lemma al_mapmap : forall A B C D (f : A -> C) (g : B -> D) m n, al m n -> al (map (map f) m) (map (map g) n).
Proof. intros A B C D f g m n H. apply (F2_map _ _ _ _ _ _ _ _ _ _ H). intros x y Hx. unfold len2 in *. rewrite !map_length. exact Hx. Qed.
Lemma al_seq : forall A B (f : nat -> list A) (g : nat -> list B) l, (forall i, In i l -> len2 (f i) (g i)) -> al (map f l) (map g l).
Proof. intros A B f g l. induction l as [|x l IH]; intros H; cbn; constructor; [apply H; left; reflexivity|apply IH; intros; apply H; right; assumption]. Qed.
Lemma F2_map2 : forall A B C A2 B2 C2 (P : A -> A2 -> Prop) (Q : B -> B2 -> Prop) (S : C -> C2 -> Prop) f g l l2 m m2,
  Forall2 P l l2 -> Forall2 Q m m2 -> (forall x x2 y y2, P x x2 -> Q y y2 -> S (f x y) (g x2 y2)) -> Forall2 S (map2 f l m) (map2 g l2 m2).
Proof.
  intros A B C A2 B2 C2 P Q S f g l l2 m m2 HP. revert m m2. induction HP as [|x x2 l l2 Hx HP IH]; intros m m2 HQ HF; cbn; [constructor|].
  destruct HQ as [|y y2 m m2 Hy HQ]; cbn; constructor; auto.
Qed.
Lemma len2_map2 : forall A B C A2 B2 C2 (f : A -> B -> C) (g : A2 -> B2 -> C2) l l2 m m2, len2 l l2 -> len2 m m2 -> len2 (map2 f l m) (map2 g l2 m2).
Proof.
  intros A B C A2 B2 C2 f g l. induction l as [|x l IH]; intros [|x2 l2] [|y m] [|y2 m2] H1 H2; unfold len2 in *; cbn in *; try discriminate; try reflexivity. f_equal. apply IH; lia.
Qed.
Lemma al_map2_map2 : forall A B C A2 B2 C2 (f : A -> B -> C) (g : A2 -> B2 -> C2) l l2 m m2, al l l2 -> al m m2 -> al (map2 (map2 f) l m) (map2 (map2 g) l2 m2).
Proof. intros. apply (F2_map2 _ _ _ _ _ _ len2 len2 len2 _ _ _ _ _ _ H H0). intros. apply len2_map2; assumption. Qed.
Lemma al_nil : forall A B, @al A B [] [].
Proof. intros. constructor. Qed.
Lemma al_concat : forall A B (m : list (list A)) (n : list (list B)), al m n -> len2 (List.concat m) (List.concat n).
Proof. intros A B m n H. induction H as [|x y l r Hx H IH]; unfold len2 in *; cbn; [reflexivity|]. rewrite !app_length. lia. Qed.

(** ** Indexing *)
Lemma nth_F2 : forall A B (P : A -> B -> Prop) l m i, Forall2 P l m -> match nth_error l i, nth_error m i with Some x, Some y => P x y | None, None => True | _, _ => False end.
Proof. intros A B P l m i H. revert i. induction H as [|x y l m Hx H IH]; intros [|i]; cbn; [exact I|exact I|exact Hx|exact (IH i)]. Qed.
Lemma py_nth_req : forall A B (P : A -> B -> Prop) l m i, Forall2 P l m -> req P (py_nth l i) (py_nth m i).
Proof.
  intros A B P l m i H. unfold py_nth, zlen. rewrite <- (al_len _ _ _ _ _ H). set (j := if (i <? 0)%Z then _ else _). destruct ((0 <=? j) && _)%Z; [|reflexivity].
  pose proof (nth_F2 A B P l m (Z.to_nat j) H) as K. destruct (nth_error l _), (nth_error m _); cbn; auto; contradiction.
Qed.
Lemma upd_F2 : forall A B (P : A -> B -> Prop) l m i x y, Forall2 P l m -> P x y -> Forall2 P (upd l i x) (upd m i y).
Proof. intros A B P l m i x y H Hx. revert i. induction H as [|u v l m Hu H IH]; intros [|i]; cbn; constructor; auto. Qed.
Lemma py_set_req : forall A B (P : A -> B -> Prop) l m i x y, Forall2 P l m -> P x y -> req (Forall2 P) (py_set l i x) (py_set m i y).
Proof.
  intros A B P l m i x y H Hx. unfold py_set, zlen. rewrite <- (al_len _ _ _ _ _ H). destruct (_ && _)%Z; [|reflexivity]. cbn. apply upd_F2; assumption.
Qed.
Lemma fmaxl_req : forall l m, len2 l m -> req (fun _ _ => True) (fmaxl l) (fmaxl m).
Proof. intros [|x l] [|y m] H; unfold len2 in H; cbn in *; try discriminate; auto. Qed.
Lemma fminl_req : forall l m, len2 l m -> req (fun _ _ => True) (fminl l) (fminl m).
Proof. intros [|x l] [|y m] H; unfold len2 in H; cbn in *; try discriminate; auto. Qed.
Lemma py_take_len : forall A B n (l : list A) (m : list B), len2 l m -> len2 (py_take n l) (py_take n m).
Proof. intros A B n l m H. unfold len2, py_take, zlen in *. rewrite H. destruct (n <? 0)%Z; rewrite !firstn_length, H; reflexivity. Qed.

(** ** From the signal to the windows *)
Lemma fir_len : forall b x, List.length (fir b x) = List.length x.
Proof. intros. unfold fir. rewrite map_length, seq_length. reflexivity. Qed.
Lemma pre_req : forall x y c, len2 x y -> req len2 (pre_emphasis x c) (pre_emphasis y c).
Proof. intros [|u x] [|v y] c H; unfold len2 in *; cbn [List.length] in H; try discriminate; [reflexivity|]. unfold pre_emphasis. cbn [req]. rewrite !fir_len. exact H. Qed.
Lemma as_strided_req : forall x y r c rs cs, len2 x y -> req al (as_strided x r c rs cs) (as_strided y r c rs cs).
Proof.
  intros x y r c rs cs H. unfold as_strided. destruct (_ || _)%Z; [reflexivity|]. apply (req_mapM _ _ _ _ eq); [apply same_list|]. intros i ? <-.
  apply req_weaken with (P := Forall2 (fun _ _ => True)); [intros a b; apply al_len|]. apply (req_mapM _ _ _ _ eq); [apply same_list|]. intros j ? <-. unfold read_buf, zlen. rewrite H. destruct (_ && _)%Z; cbn; auto.
Qed.
Lemma last_F2 : forall A B (P : A -> B -> Prop) l m d e, Forall2 P l m -> P d e -> P (last l d) (last m e).
Proof. intros A B P l m d e H Hd. induction H as [|x y l m Hx H IH]; [exact Hd|]. destruct H as [|x2 y2 l m Hx2 H]; [exact Hx|]. exact IH. Qed.
Lemma removelast_F2 : forall A B (P : A -> B -> Prop) l m, Forall2 P l m -> Forall2 P (removelast l) (removelast m).
Proof. intros A B P l m H. induction H as [|x y l m Hx H IH]; [constructor|]. destruct H as [|x2 y2 l m Hx2 H]; [constructor|]. constructor; [exact Hx|exact IH]. Qed.
Definition framed_pair {A B} (r : list (list A) * Z) (s : list (list B) * Z) : Prop := al (fst r) (fst s) /\ snd r = snd s.
Lemma framing_req : forall `{Env} x y fs wl wh, len2 x y -> req framed_pair (framing x fs wl wh) (framing y fs wl wh).
Proof.
  intros E x y fs wl wh H. unfold framing, framing_strided. destruct (Rltb wl wh); [reflexivity|]. apply (req_bind _ _ _ _ al).
  - unfold stride_trick, zlen. rewrite H. destruct (_ =? 0)%Z; [reflexivity|]. apply as_strided_req. exact H.
  - intros a b Hab. pose proof (last_F2 _ _ len2 a b [] [] Hab eq_refl) as HL. pose proof (removelast_F2 _ _ len2 a b Hab) as HR. destruct Hab as [|u v a b Hu Hab]; [reflexivity|].
    unfold zlen. rewrite HL. destruct (_ <? _)%Z; cbn [req]; split; cbn [fst snd]; try reflexivity; [|constructor; assumption].
    apply Forall2_app; [exact HR|]. constructor; [|constructor]. unfold len2 in *. rewrite !app_length, HL, !repeat_length, Hu. reflexivity.
Qed.
Lemma bcast_req : forall A B (f : A -> B -> B) w r s, len2 r s -> req len2 (bcast f w r) (bcast f w s).
Proof.
  intros A B f w r s H. unfold bcast. rewrite H. destruct (Nat.eqb _ _); [cbn; apply len2_map2; [reflexivity|exact H]|].
  destruct w as [|a [|a2 w]]; destruct r as [|b [|b2 r]]; destruct s as [|d [|d2 s]]; unfold len2 in *; cbn in H |- *; try discriminate; try reflexivity; rewrite ?map_length; cbn; try lia.
Qed.
Lemma windowing_row_req : forall B (f : F -> B -> B) r s M wt, len2 r s -> req len2 (windowing_row f r M wt) (windowing_row f s M wt).
Proof.
  intros B f r s M wt H. unfold windowing_row, window_row. do 5 (apply (req_bind _ _ _ _ len2); [apply bcast_req; exact H|]; intros ? ? ?). repeat (destruct (String.eqb _ _); [assumption|]). reflexivity.
Qed.
Definition al2 {A B C D} (r : list (list A) * list (list B)) (s : list (list C) * list (list D)) : Prop := al (fst r) (fst s) /\ al (snd r) (snd s).
Lemma framed_req : forall `{Env} x y fs pe c w, len2 x y -> req al2 (framed x fs pe c w) (framed y fs pe c w).
Proof.
  intros E x y fs pe c w H. unfold framed. apply (req_bind _ _ _ _ len2); [destruct pe; [apply pre_req; exact H|exact H]|]. intros a b Hab.
  apply (req_bind _ _ _ _ framed_pair); [apply framing_req; exact Hab|]. intros [f l] [g m] [H1 H2]. cbn [fst snd] in *. subst m.
  apply (req_bind _ _ _ _ al); [unfold windowing; apply (req_mapM _ _ _ _ len2); [exact H1|]; intros; apply windowing_row_req; assumption|]. intros u v Huv. split; assumption.
Qed.

(** ** From the windows to the features *)
Lemma fft_mag_req : forall w v n, al w v -> req al (fft_magnitude w n) (fft_magnitude v n).
Proof.
  intros w v n H. unfold fft_magnitude, np_fft. destruct (_ <? _)%Z; [reflexivity|]. cbn [rbind req]. rewrite !map_map. apply (F2_map _ _ _ _ _ _ _ _ _ _ H). intros r s _. apply py_take_len. unfold len2. rewrite !map_length. reflexivity.
Qed.
Lemma rfft_req : forall w v n, al w v -> req al (np_rfft w n) (np_rfft v n).
Proof.
  intros w v n H. unfold np_rfft. destruct (_ <? _)%Z; [reflexivity|]. cbn [req]. apply (F2_map _ _ _ _ _ _ _ _ _ _ H). intros r s _. unfold len2. rewrite !map_length. reflexivity.
Qed.
Lemma rfft_mag_req : forall w v n, al w v -> req al (rfft_magnitude w n) (rfft_magnitude v n).
Proof. intros w v n H. unfold rfft_magnitude. apply (req_bind _ _ _ _ al); [apply rfft_req; exact H|]. intros. cbn. apply al_mapmap. assumption. Qed.
Lemma dot_req : forall a b B, al a b -> req al (np_dot_T a B) (np_dot_T b B).
Proof.
  intros a b B H. unfold np_dot_T. destruct B as [|r B].
  - cbn. apply (F2_map _ _ _ _ _ _ _ _ _ _ H). reflexivity.
  - rewrite (al_ncols _ _ _ _ H). destruct (Nat.eqb _ _); [|reflexivity]. cbn [req]. apply (F2_map _ _ _ _ _ _ _ _ _ _ H). intros. unfold len2. rewrite !map_length. reflexivity.
Qed.
Lemma dct_req : forall a b t, al a b -> req al (sp_dct a t) (sp_dct b t).
Proof.
  intros a b t H. unfold sp_dct. rewrite (al_ncols _ _ _ _ H). destruct (_ || _)%Z; [reflexivity|]. destruct (Nat.ltb _ _); [reflexivity|]. cbn [req]. apply (F2_map _ _ _ _ _ _ _ _ _ _ H).
  intros x y Hx. unfold len2, dct_row in *. rewrite !map_length, !seq_length. exact Hx.
Qed.
Lemma col0_req : forall a b v w, al a b -> len2 v w -> req al (set_col0 a v) (set_col0 b w).
Proof.
  intros a b v w H Hv. unfold set_col0. rewrite (al_ncols _ _ _ _ H). destruct (Nat.eqb _ _); [reflexivity|]. cbn [req]. apply (F2_map2 _ _ _ _ _ _ len2 (fun _ _ => True) len2 _ _ _ _ _ _ H (all_true _ _ _ _ Hv)).
  intros x y u z Hx _. unfold len2 in *. destruct x, y; cbn in *; lia.
Qed.
Lemma lifter_req : forall a b l, al a b -> req al (lifter_ceps a l) (lifter_ceps b l).
Proof.
  intros a b l H. unfold lifter_ceps. rewrite (al_ncols _ _ _ _ H). destruct (_ || _); [exact H|]. destruct (Rltb 0 l).
  - destruct (Nat.eqb _ _); [|reflexivity]. cbn [req]. apply (F2_map _ _ _ _ _ _ _ _ _ _ H). intros. unfold len2. rewrite !map_length. reflexivity.
  - cbn [req]. apply (F2_map _ _ _ _ _ _ _ _ _ _ H). intros. apply len2_map2; [assumption|reflexivity].
Qed.
Lemma normalize_req : forall a b t, al a b -> req al (normalize_ceps a t) (normalize_ceps b t).
Proof.
  intros a b t H. unfold normalize_ceps. apply (req_bind _ _ _ _ (fun _ _ => True)); [apply fmaxl_req, al_concat; exact H|]. intros mx mx2 _.
  apply (req_bind _ _ _ _ (fun _ _ => True)); [apply fminl_req, al_concat; exact H|]. intros mn mn2 _.
  assert (M : len2 (col_means a) (col_means b)) by (unfold len2, col_means; rewrite !map_length, !seq_length, (al_ncols _ _ _ _ H); reflexivity).
  destruct (String.eqb t "mvn"); [cbn [req]; apply (F2_map _ _ _ _ _ _ _ _ _ _ H); intros; apply len2_map2; assumption|].
  destruct (String.eqb t "ms"); [cbn [req]; apply (F2_map _ _ _ _ _ _ _ _ _ _ H); intros; apply len2_map2; assumption|].
  destruct (String.eqb t "vn"); [cbn [req]; apply al_mapmap; exact H|]. destruct (String.eqb t "mn"); [cbn [req]; apply al_mapmap; exact H|reflexivity].
Qed.
Lemma finish_req : forall c n a b m k, al a b -> al m k -> req al (finish c n a m) (finish c n b k).
Proof.
  intros c n a b m k H Hm. unfold finish. apply (req_bind _ _ _ _ al); [apply dct_req; exact H|]. intros d e Hd.
  assert (T : al (map (py_take (c_num_ceps c)) d) (map (py_take (c_num_ceps c)) e)) by (apply (F2_map _ _ _ _ _ _ _ _ _ _ Hd); intros; apply py_take_len; assumption).
  apply (req_bind _ _ _ _ al).
  - destruct (c_use_energy c); [|exact T]. apply col0_req; [exact T|]. unfold len2, log_energy, zero_handling. rewrite !map_length. exact (al_len _ _ _ _ _ Hm).
  - intros u v Hu. apply (req_bind _ _ _ _ al).
    + destruct (c_lifter c) as [l|]; [destruct (Reqb l 0); [exact Hu|apply lifter_req; exact Hu]|exact Hu].
    + intros p q Hp. destruct (c_normalize c) as [t|]; [destruct (String.eqb t ""); [exact Hp|apply normalize_req; exact Hp]|exact Hp].
Qed.
Lemma gram_req : forall `{Env} bank c magf x y a, (forall w v n, al w v -> req al (magf w n) (magf v n)) -> len2 x y ->
  req al2 (spec_gram bank c magf x a) (spec_gram bank c magf y a).
Proof.
  intros E bank c magf x y a HM H. unfold spec_gram. destruct bank as [B|e]; [|reflexivity]. cbn [rbind].
  apply (req_bind _ _ _ _ al2); [apply framed_req; exact H|]. intros [f w] [g v] [_ Hw]. cbn [snd] in Hw. apply (req_bind _ _ _ _ al); [apply HM; exact Hw|]. intros m k Hm.
  apply (req_bind _ _ _ _ al); [apply dot_req; apply al_mapmap; exact Hm|]. intros p q Hp. split; assumption.
Qed.
Lemma spectrogram_outcome : forall `{Env} s x y a, List.length x = List.length y -> same_outcome2 (spectrogram s x a) (spectrogram s y a).
Proof.
  intros E s x y a H. rewrite !spectrogram_gram. pose proof (gram_req (spectro_bank s a) (spectro_coeff s a) (match s with Bark => rfft_magnitude | _ => fft_magnitude end) x y a) as K.
  specialize (K ltac:(destruct s; auto using fft_mag_req, rfft_mag_req) H). unfold same_outcome2. destruct (spec_gram _ _ _ x a) as [[m k]|e], (spec_gram _ _ _ y a) as [[m2 k2]|e2]; cbn [req] in K; auto; try contradiction.
  destruct K as [K1 K2]. split; apply al_sizes; assumption.
Qed.
Lemma req_outcome : forall A B (r : result (list (list A))) (s : result (list (list B))), req al r s -> same_outcome r s.
Proof. intros A B [m|e] [n|f] H; cbn in *; auto. apply al_sizes. exact H. Qed.
Lemma run_outcome : forall `{Env} e x y a c, List.length x = List.length y -> same_outcome (run e x a c) (run e y a c).
Proof.
  intros E e x y a c H. apply req_outcome. rewrite !run_cep. unfold cep. destruct (_ <? _)%Z; [reflexivity|].
  apply (req_bind _ _ _ _ al2); [apply gram_req; [destruct e; auto using fft_mag_req, rfft_mag_req|exact H]|]. intros [f m] [g k] [H1 H2]. cbn [fst snd] in *. apply finish_req; [apply al_mapmap; exact H1|exact H2].
Qed.
Lemma psrcc_outcome : forall `{Env} x y a g c, List.length x = List.length y -> same_outcome (psrcc x a g c) (psrcc y a g c).
Proof.
  intros E x y a g c H. apply req_outcome. unfold psrcc. destruct (_ <? _)%Z; [reflexivity|]. destruct (match s_fbanks a with Some b => Ok b | None => _ end) as [B|e]; [|reflexivity]. cbn [rbind].
  apply (req_bind _ _ _ _ al2); [apply framed_req; exact H|]. intros [f w] [f2 v] [_ Hw]. cbn [snd] in Hw. apply (req_bind _ _ _ _ al2).
  - unfold psrcc_features. apply (req_bind _ _ _ _ al); [apply rfft_req; exact Hw|]. intros z z2 Hz. apply (req_bind _ _ _ _ al); [apply dot_req, al_mapmap; exact Hz|]. intros p q Hp.
    assert (Hf : al (map (map (fun v => if is_nan v then f0 else v)) (map (map (fun v => fpow v g)) p)) (map (map (fun v => if is_nan v then f0 else v)) (map (map (fun v => fpow v g)) q))) by (do 2 apply al_mapmap; exact Hp).
    apply (req_bind _ _ _ _ (fun _ _ => True)); [apply fmaxl_req, al_concat; exact Hf|]. intros. split; cbn [fst snd]; [apply al_mapmap; exact Hf|exact Hz].
  - intros [p z] [q z2] [Hp Hz]. cbn [fst snd] in *. apply finish_req; [exact Hp|apply al_mapmap; exact Hz].
Qed.

(** ** Constant-Q *)
Lemma transposed_al : forall A B (d : A) (e : B) m n, al m n -> al (transposed d m) (transposed e n).
Proof. intros A B d e m n H. unfold transposed. rewrite (al_ncols _ _ _ _ H). apply al_seq. intros. unfold len2. rewrite !map_length. exact (al_len _ _ _ _ _ H). Qed.
Lemma cqt_req : forall `{Env} x y a, len2 x y -> req al (cqt_spectrogram x a) (cqt_spectrogram y a).
Proof.
  intros E x y a H. unfold cqt_spectrogram. destruct (Rltb _ _); [reflexivity|]. apply (req_bind _ _ _ _ al2); [apply framed_req; exact H|]. intros [f w] [g v] [_ Hw]. cbn [snd] in Hw.
  unfold compute_constant_qtransform, cqt_frames. destruct (q_bins a =? 0)%Z; [reflexivity|]. cbn [rbind]. destruct (q_nfft a <? 0)%Z; [reflexivity|].
  destruct (mapM _ (seq 0 _)) as [ker|e]; [|reflexivity]. cbn [rbind]. unfold np_fft. destruct (_ <? _)%Z; [reflexivity|]. cbn [rbind rmap req]. apply transposed_al. rewrite !map_map.
  apply (F2_map _ _ _ _ _ _ _ _ _ _ Hw). intros. unfold len2. rewrite !map_length. reflexivity.
Qed.
Lemma cqt_outcome : forall `{Env} x y a, List.length x = List.length y -> same_outcome (cqt_spectrogram x a) (cqt_spectrogram y a).
Proof. intros. apply req_outcome, cqt_req. assumption. Qed.
Lemma cqcc_outcome : forall `{Env} x y a r c, List.length x = List.length y -> same_outcome (cqcc x a r c) (cqcc y a r c).
Proof.
  intros E x y a r c H. apply req_outcome. unfold cqcc. apply (req_bind _ _ _ _ al); [apply cqt_req; exact H|]. intros q q2 Hq.
  assert (HT : al (transposed NaN (log_features (map (map (fun z => fpown (cabs z) 2)) q))) (transposed NaN (log_features (map (map (fun z => fpown (cabs z) 2)) q2)))).
  { apply transposed_al. rewrite !log_features_map. do 2 apply al_mapmap. exact Hq. }
  apply (req_bind _ _ _ _ al).
  - unfold resample. rewrite (al_len _ _ _ _ _ HT), (al_ncols _ _ _ _ HT). destruct (_ <? _)%Z; [reflexivity|]. cbn [req]. apply al_seq. intros. unfold len2. rewrite !map_length. reflexivity.
  - intros u v Hu. apply finish_req; [exact Hu|constructor].
Qed.

(** ** pncc *)
Lemma asym_req : forall q p la lb, al q p -> req al (asymmetric_lowpass_filtering q la lb) (asymmetric_lowpass_filtering p la lb).
Proof.
  intros q p la lb H. unfold asymmetric_lowpass_filtering. apply (req_bind _ _ _ _ len2); [apply py_nth_req; exact H|]. intros u v Hu.
  apply (req_bind _ _ _ _ al); [apply py_set_req; [apply al_mapmap; exact H|unfold len2 in *; rewrite !map_length; exact Hu]|]. intros o o2 Ho. unfold zlen. rewrite (al_len _ _ _ _ _ Ho).
  apply req_foldM; [|exact Ho]. intros m b d Hb. apply (req_bind _ _ _ _ len2); [apply py_nth_req; exact Hb|]. intros r s Hr. apply (req_bind _ _ _ _ len2); [apply py_nth_req; exact H|]. intros r2 s2 Hr2.
  apply py_set_req; [exact Hb|]. apply len2_map2; assumption.
Qed.
Lemma masking_req : forall q p la lb, al q p -> req al (temporal_masking q la lb) (temporal_masking p la lb).
Proof.
  intros q p la lb H. unfold temporal_masking. apply (req_bind _ _ _ _ len2); [apply py_nth_req; exact H|]. intros u v Hu.
  do 2 (apply (req_bind _ _ _ _ al); [apply py_set_req; [apply al_mapmap; exact H|exact Hu]|]; intros ? ? ?).
  apply (req_bind _ _ _ _ al2); [|intros r s [Hr _]; exact Hr]. unfold zlen. rewrite (al_len _ _ _ _ _ H). apply req_foldM; [|split; assumption].
  intros m [b1 b2] [d1 d2] [Hb Hd]. cbn [fst snd] in *. apply (req_bind _ _ _ _ len2); [apply py_nth_req; exact Hd|]. intros r s Hr. apply (req_bind _ _ _ _ len2); [apply py_nth_req; exact H|]. intros r2 s2 Hr2.
  apply (req_bind _ _ _ _ al); [apply py_set_req; [exact Hd|apply len2_map2; assumption]|]. intros ? ? Hp. apply (req_bind _ _ _ _ al); [apply py_set_req; [exact Hb|apply len2_map2; assumption]|]. intros ? ? Ht. split; assumption.
Qed.
Lemma suppression_req : forall q p th, al q p -> req al (noise_suppression q th) (noise_suppression p th).
Proof.
  intros q p th H. unfold noise_suppression. apply (req_bind _ _ _ _ al); [apply asym_req; exact H|]. intros l m Hl.
  assert (H0 : al (map (map (fun v => if fltb v (Fin th) then f0 else v)) (map2 (map2 fsub) q l)) (map (map (fun v => if fltb v (Fin th) then f0 else v)) (map2 (map2 fsub) p m))) by (apply al_mapmap, al_map2_map2; assumption).
  apply (req_bind _ _ _ _ al); [apply asym_req; exact H0|]. intros f g Hf. apply (req_bind _ _ _ _ al); [apply masking_req; exact H0|]. intros t s Ht. cbn [req]. apply al_map2_map2; apply al_map2_map2; assumption.
Qed.
Lemma smoothing_req : forall r s q p n N, al r s -> al q p -> req al (weight_smoothing r q n N) (weight_smoothing s p n N).
Proof.
  intros r s q p n N Hr Hq. unfold weight_smoothing, zlen. rewrite (al_len _ _ _ _ _ Hr), (al_ncols _ _ _ _ Hr). apply (req_mapM _ _ _ _ eq); [apply same_list|]. intros m ? <-.
  apply (req_bind _ _ _ _ len2); [apply py_nth_req; exact Hr|]. intros u v Hu. apply (req_bind _ _ _ _ len2); [apply py_nth_req; exact Hq|]. intros w z Hw.
  apply req_weaken with (P := Forall2 (fun _ _ => True)); [intros a b; apply al_len|]. apply (req_mapM _ _ _ _ eq); [apply same_list|]. intros l ? <-. unfold smoothing_entry.
  destruct (_ =? 0)%Z; [reflexivity|]. cbn [rbind]. apply (req_bind _ _ _ _ (Forall2 (fun _ _ => True))); [|intros; exact I]. apply (req_mapM _ _ _ _ eq); [apply same_list|]. intros k ? <-.
  apply (req_bind _ _ _ _ (fun _ _ => True)); [apply py_nth_req, all_true; exact Hu|]. intros. apply (req_bind _ _ _ _ (fun _ _ => True)); [apply py_nth_req, all_true; exact Hw|]. intros. exact I.
Qed.
Lemma power_norm_req : forall t s l n k, al t s -> req al (mean_power_normalization t l n k) (mean_power_normalization s l n k).
Proof.
  intros t s l n k H. unfold mean_power_normalization.
  assert (Z0 : Forall2 (fun _ _ : F => True) (map (fun _ : list F => f0) t) (map (fun _ : list F => f0) s)) by (apply all_true; rewrite !map_length; exact (al_len _ _ _ _ _ H)).
  apply (req_bind _ _ _ _ (Forall2 (fun _ _ => True))); [apply py_set_req; [exact Z0|exact I]|]. intros m m2 Hm.
  apply (req_bind _ _ _ _ (Forall2 (fun _ _ => True))).
  - unfold zlen. rewrite (al_len _ _ _ _ _ H). apply req_foldM; [|exact Hm]. intros i b d Hb. apply (req_bind _ _ _ _ (fun _ _ => True)); [apply py_nth_req; exact Hb|]. intros u v _.
    destruct (n =? 0)%Z; [reflexivity|]. cbn [rbind]. apply (req_bind _ _ _ _ len2); [apply py_nth_req; exact H|]. intros r r2 Hr.
    apply (req_bind _ _ _ _ (Forall2 (fun _ _ => True))); [apply (req_mapM _ _ _ _ eq); [apply same_list|]; intros j ? <-; apply py_nth_req, all_true; exact Hr|]. intros. apply py_set_req; [exact Hb|exact I].
  - intros u v Hu. cbn [req]. apply (F2_map2 _ _ _ _ _ _ (fun _ _ => True) len2 len2 _ _ _ _ _ _ Hu H). intros. unfold len2 in *. rewrite !map_length. assumption.
Qed.
Lemma core_req : forall p q n, al p q -> req al (pncc_core p n) (pncc_core q n).
Proof.
  intros p q n H. unfold pncc_core.
  assert (HM : al (medium_time_power_calculation p 2) (medium_time_power_calculation q 2)).
  { unfold medium_time_power_calculation. rewrite (al_len _ _ _ _ _ H), (al_ncols _ _ _ _ H). apply al_seq. intros. unfold len2. rewrite !map_length. reflexivity. }
  apply (req_bind _ _ _ _ al); [apply suppression_req; exact HM|]. intros r s Hr. apply (req_bind _ _ _ _ al); [apply smoothing_req; assumption|]. intros t u Ht.
  apply (req_bind _ _ _ _ al); [apply power_norm_req, al_map2_map2; assumption|]. intros v w Hv. cbn [req]. apply al_mapmap. exact Hv.
Qed.
Lemma pncc_outcome : forall `{Env} x y a p c, List.length x = List.length y -> same_outcome (pncc x a p c) (pncc y a p c).
Proof.
  intros E x y a p c H. apply req_outcome. unfold pncc. destruct (_ <? _)%Z; [reflexivity|]. destruct (match s_fbanks a with Some b => Ok b | None => _ end) as [B|e]; [|reflexivity]. cbn [rbind].
  apply (req_bind _ _ _ _ al2); [apply framed_req; exact H|]. intros [f w] [f2 v] [_ Hw]. cbn [snd] in Hw. apply (req_bind _ _ _ _ al); [apply fft_mag_req; exact Hw|]. intros m k Hm.
  apply (req_bind _ _ _ _ al); [apply dot_req, al_mapmap; exact Hm|]. intros u q Hu. apply (req_bind _ _ _ _ al); [apply core_req; exact Hu|]. intros s t Hs. apply finish_req; [exact Hs|constructor].
Qed.
