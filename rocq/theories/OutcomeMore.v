(** * Proofs for C195 and C196: pitch, dominant frequencies and spectral statistics *)
From Coq Require Import Reals ZArith List String Bool Lia Lra.
From Flocq Require Import Core.Raux.
From Verif Require Import Base BaseFacts Cplx Filters Preprocessing PreprocessingFacts Fourier Features Extractors FeaturesFacts Yin YinFacts Dominant Butter SpFeats
  MemoryMoreFacts SpecOutcome OutcomeFacts ExceptionFacts.
Import ListNotations.
Local Open Scope R_scope.

(** ** Pitch *)
Lemma len_take : forall A B n (l : list A) (m : list B), len2 l m -> len2 (py_take n l) (py_take n m).
Proof. intros A B n l m H. unfold len2, py_take, zlen in *. rewrite H. destruct (n <? 0)%Z; rewrite !firstn_length, H; reflexivity. Qed.
Lemma len_drop : forall A B n (l : list A) (m : list B), len2 l m -> len2 (py_drop n l) (py_drop n m).
Proof. intros A B n l m H. unfold len2, py_drop, zlen in *. rewrite H. destruct (n <? 0)%Z; rewrite !skipn_length, H; reflexivity. Qed.
Lemma conv_length : forall a b, List.length (fftconvolve a b) = match a, b with [], _ | _, [] => 0%nat | _, _ => (List.length a + List.length b - 1)%nat end.
Proof. intros [|x a] [|y b]; try reflexivity. unfold fftconvolve. cbn zeta. destruct (_ && _); [rewrite map_length, seq_length|rewrite repeat_length]; reflexivity. Qed.
Lemma rev_nil_len : forall A (l : list A), match rev l with [] => l = [] | _ => l <> [] end.
Proof. intros A [|x l]; cbn [rev]; [reflexivity|]. destruct (rev l ++ [x]) eqn:E; [|discriminate]. destruct (rev l); discriminate. Qed.
Lemma conv_rev_length : forall x, List.length (fftconvolve x (rev x)) = (List.length x + List.length x - 1)%nat.
Proof.
  intros x. rewrite conv_length. destruct x as [|v x]; [reflexivity|]. pose proof (rev_nil_len F (v :: x)) as R. pose proof (rev_length (v :: x)) as L.
  destruct (rev (v :: x)) as [|u r]; [discriminate R|]. rewrite L. reflexivity.
Qed.
Lemma difference_len : forall x y t, len2 x y -> len2 (compute_difference x t) (compute_difference y t).
Proof.
  intros x y t H. unfold compute_difference. cbn zeta. apply len_take. assert (HC : len2 (f0 :: cumsum (map2 fmul x x)) (f0 :: cumsum (map2 fmul y y))).
  { unfold len2. cbn [List.length]. rewrite !cumsum_length, !map2_length, H. reflexivity. }
  apply len2_map2; [apply len2_map2|].
  - unfold len2. rewrite !rev_length, !skipn_length, HC. reflexivity.
  - unfold len2. rewrite !map_length, !firstn_length, H, HC. reflexivity.
  - unfold len2 in *. rewrite !map_length, H. apply len_drop. unfold len2. rewrite !conv_rev_length, H. reflexivity.
Qed.
Lemma difference_short : forall x t, (0 <= t)%Z -> (List.length (compute_difference x t) <= Z.to_nat t)%nat.
Proof. intros x t H. unfold compute_difference. cbn zeta. unfold py_take. rewrite (proj2 (Z.ltb_ge t 0) H). rewrite firstn_length. apply Nat.le_min_l. Qed.
Lemma bcast_len : forall A B A2 B2 (f : A -> B -> B) (g : A2 -> B2 -> B2) w w2 r r2, len2 w w2 -> len2 r r2 -> req len2 (bcast f w r) (bcast g w2 r2).
Proof.
  intros A B A2 B2 f g w w2 r r2 H1 H2. unfold bcast. unfold len2 in H1, H2. rewrite H1, H2. destruct (Nat.eqb _ _); [apply len2_map2; assumption|].
  destruct w as [|a [|a' w]], w2 as [|b [|b' w2]]; try discriminate H1; destruct r as [|c [|c' r]], r2 as [|d [|d' r2]]; try discriminate H2; cbn; try reflexivity; unfold len2; cbn; rewrite ?map_length; cbn in *; lia.
Qed.
(** what both cmnd functions have in common: long enough for the search, or equal *)
Definition cmnd_pair (t : Z) (c d : list F) : Prop := len2 c d /\ (1 <= List.length c)%nat /\ ((t <= zlen c)%Z \/ c = d).
Lemma cmnd_req : forall x y t, len2 x y -> req (cmnd_pair t) (compute_cmnd (compute_difference x t) t) (compute_cmnd (compute_difference y t) t).
Proof.
  intros x y t H. assert (HS := difference_short x t). assert (HD := difference_len x y t H). unfold compute_cmnd. cbn zeta.
  set (d := skipn 1 (compute_difference x t)) in *. set (e := skipn 1 (compute_difference y t)) in *.
  assert (HE : len2 d e) by (unfold len2, d, e in *; rewrite !skipn_length, HD; reflexivity).
  assert (HL : (0 <= t)%Z -> (List.length d <= Z.to_nat t - 1)%nat) by (intros Ht; specialize (HS Ht); unfold d; rewrite skipn_length; lia).
  assert (HZ : List.length (map fZ (zrange 1 t)) = Z.to_nat (t - 1)) by (rewrite map_length; apply zrange_length). revert HZ. generalize (map fZ (zrange 1 t)). intros z HZ.
  pose proof (bcast_len _ _ _ _ fmul fmul d e z z HE eq_refl) as K1.
  assert (KL : forall q, bcast fmul d z = Ok q -> (List.length q = List.length z \/ (List.length z = 1 /\ q = [] /\ d = [])%nat)).
  { intros q Hq. unfold bcast in Hq. destruct (Nat.eqb_spec (List.length d) (List.length z)) as [El|El]; [injection Hq as <-; left; rewrite map2_length, El; apply Nat.min_id|].
    destruct d as [|a [|a' d']]; destruct z as [|b [|b' z']]; try discriminate Hq; cbn in *; try lia; injection Hq as <-; cbn; rewrite ?map_length; auto. }
  destruct (bcast fmul d z) as [q|?] eqn:E1, (bcast fmul e z) as [p|?] eqn:E2; cbn [req] in K1; try contradiction K1; cbn [rbind]; [|exact K1].
  assert (HCS : len2 (cumsum d) (cumsum e)) by (unfold len2; rewrite !cumsum_length; exact HE).
  pose proof (bcast_len _ _ _ _ fdiv fdiv q p (cumsum d) (cumsum e) K1 HCS) as K2.
  destruct (bcast fdiv q (cumsum d)) as [q2|?] eqn:E3, (bcast fdiv p (cumsum e)) as [p2|?] eqn:E4; cbn [req] in K2; try contradiction K2; cbn [rbind req]; [|exact K2].
  split; [unfold len2 in *; cbn; rewrite K2; reflexivity|]. split; [cbn; lia|].
  assert (KN : d = [] -> q = []).
  { intros ->. unfold bcast in E1. destruct z as [|b [|b' z']]; cbn in E1; congruence. }
  destruct (KL q eq_refl) as [Hq|(Hz & -> & Hd)].
  - assert (HQ : (List.length q <= List.length q2)%nat \/ (t <= 1)%Z).
    { unfold bcast in E3. destruct (Nat.eqb_spec (List.length q) (List.length (cumsum d))) as [El|El]; [injection E3 as <-; left; rewrite map2_length, <- El, Nat.min_id; lia|].
      assert (HCd := cumsum_length d). assert (HN : cumsum d = [] -> q = []) by (intros N; apply KN; rewrite N in HCd; destruct d; [reflexivity|discriminate HCd]). destruct q as [|a [|a' q']]; destruct (cumsum d) as [|b [|b' z']]; try discriminate E3; cbn in *; injection E3 as <-; cbn; rewrite ?map_length; try (left; cbn; lia); discriminate (HN eq_refl). }
    left. unfold zlen. cbn [List.length]. destruct HQ; lia.
  - right. f_equal. rewrite Hd in *. destruct e; [|discriminate HE]. destruct p; [|discriminate K1]. congruence.
Qed.
Lemma nth_in : forall (c : list F) i, (- zlen c <= i < zlen c)%Z -> exists v, py_nth c i = Ok v.
Proof.
  intros c i H. unfold py_nth. cbn zeta. set (j := if (i <? 0)%Z then (zlen c + i)%Z else i). assert (Hj : (0 <= j < zlen c)%Z) by (unfold j; destruct (Z.ltb_spec i 0); lia).
  rewrite (proj2 (Z.leb_le 0 j)), (proj2 (Z.ltb_lt j (zlen c))) by lia. cbn [andb]. destruct (nth_error c (Z.to_nat j)) as [v|] eqn:E; [exists v; reflexivity|]. apply nth_error_None in E. unfold zlen in Hj. lia.
Qed.
Lemma nth_out : forall (c : list F) i, (i < - zlen c)%Z -> py_nth c i = Raise IndexError.
Proof. intros c i H. unfold py_nth. cbn zeta. assert (0 <= zlen c)%Z by apply Zle_0_nat. destruct (Z.ltb_spec i 0); [|lia]. rewrite (proj2 (Z.leb_gt 0 _)) by lia. reflexivity. Qed.
Lemma descend_ok : forall c t fuel tau, (- zlen c <= tau < zlen c)%Z -> (t <= zlen c)%Z -> exists p, descend fuel c tau t = Ok p /\ (- zlen c <= p < zlen c)%Z.
Proof.
  intros c t fuel. induction fuel as [|fuel IH]; intros tau H Ht; cbn [descend]; [exists tau; split; [reflexivity|exact H]|].
  destruct (Z.ltb_spec (tau + 1) t); [|exists tau; split; [reflexivity|exact H]].
  destruct (nth_in c (tau + 1) ltac:(lia)) as [b ->]. destruct (nth_in c tau H) as [a ->]. cbn [rbind]. destruct (fltb b a); [apply IH; lia|exists tau; split; [reflexivity|exact H]].
Qed.
Lemma search_ok : forall c t th fuel tau, (- zlen c <= tau)%Z -> (t <= zlen c)%Z -> exists p, search fuel c tau t th = Ok p /\ (p = 0 \/ - zlen c <= p < zlen c)%Z.
Proof.
  intros c t th fuel. induction fuel as [|fuel IH]; intros tau H Ht; cbn [search]; [exists 0%Z; split; [reflexivity|left; reflexivity]|].
  destruct (Z.ltb_spec tau t); [|exists 0%Z; split; [reflexivity|left; reflexivity]].
  destruct (nth_in c tau ltac:(lia)) as [a ->]. cbn [rbind]. destruct (fltb a (Fin th)); [|apply IH; lia].
  destruct (descend_ok c t (S fuel) tau ltac:(lia) Ht) as (p & Hp & Hr). exists p. split; [exact Hp|right; exact Hr].
Qed.
Lemma yin_frame_req : forall x y fs a t th, len2 x y -> req (fun _ _ => True) (yin_frame x fs a t th) (yin_frame y fs a t th).
Proof.
  intros x y fs a t th H. unfold yin_frame. cbn zeta. apply (req_bind _ _ _ _ (cmnd_pair t)); [apply cmnd_req; exact H|].
  intros c d (HL & H1 & [Ht|<-]); [|apply req_refl; intros; exact I].
  assert (Hz : zlen d = zlen c) by (unfold zlen; rewrite HL; reflexivity).
  assert (Hc : exists v c', c = v :: c') by (destruct c as [|v c']; [cbn in H1; lia|eauto]). assert (Hd : exists v d', d = v :: d') by (unfold len2 in HL; destruct d as [|v d']; [cbn in HL; lia|eauto]).
  assert (HR : forall c : list F, (exists v c', c = v :: c') -> forall p, (p = 0 \/ - zlen c <= p < zlen c)%Z ->
    exists o, (do am <- np_argmin c; if negb (p =? 0)%Z then do h <- py_nth c p; Ok (fdiv (fZ fs) (fZ p), h, (if (a <? Z.of_nat am)%Z then fdiv (fZ fs) (fnat am) else f0))
      else do h <- py_min c; Ok (f0, h, (if (a <? Z.of_nat am)%Z then fdiv (fZ fs) (fnat am) else f0))) = Ok o).
  { clear. intros c (v & c' & ->) p Hp. cbn [np_argmin rbind]. destruct (Z.eqb_spec p 0); cbn [negb].
    - cbn [py_min rbind]. eexists. reflexivity.
    - destruct Hp as [Hp|Hp]; [contradiction|]. destruct (nth_in (v :: c') p Hp) as [h ->]. cbn [rbind]. eexists. reflexivity. }
  unfold get_pitch. destruct (Z_lt_le_dec a (- zlen c)) as [Hlow|Hlow].
  - destruct (Z.to_nat (t - a)) as [|fuel] eqn:Ef.
    + cbn [search rbind]. destruct (HR c Hc 0%Z (or_introl eq_refl)) as [o ->]. destruct (HR d Hd 0%Z (or_introl eq_refl)) as [o2 ->]. exact I.
    + cbn [search]. destruct (Z.ltb_spec a t); [|lia]. rewrite (nth_out c a Hlow), (nth_out d a) by (rewrite Hz; exact Hlow). reflexivity.
  - destruct (search_ok c t th (Z.to_nat (t - a)) a Hlow Ht) as (p & -> & Hp). destruct (search_ok d t th (Z.to_nat (t - a)) a ltac:(rewrite Hz; exact Hlow) ltac:(rewrite Hz; exact Ht)) as (q & -> & Hq). cbn [rbind].
    destruct (HR c Hc p Hp) as [o ->]. destruct (HR d Hd q Hq) as [o2 ->]. exact I.
Qed.
Lemma slice_len : forall a b (x y : list F), len2 x y -> len2 (py_slice a b x) (py_slice a b y).
Proof. intros a b x y H. unfold len2, py_slice, slice_index, zlen in *. rewrite !firstn_length, !skipn_length, H. reflexivity. Qed.
Lemma yin_outcome : forall `{Env} x y fs wl wh lo hi th, List.length x = List.length y ->
  same_yin (compute_yin x fs wl wh lo hi th) (compute_yin y fs wl wh lo hi th).
Proof.
  intros E x y fs wl wh lo hi th H. unfold compute_yin. destruct (Req_EM_T hi 0); [reflexivity|]. destruct (Req_EM_T lo 0); [reflexivity|]. cbn zeta. unfold zlen. rewrite H.
  destruct (range_step _ _) as [ts|?]; [|reflexivity]. cbn [rbind]. destruct (mapM _ ts) as [times|?]; [|reflexivity]. cbn [rbind].
  set (w := Ztrunc (rnd (wl * IZR fs))). set (a := Ztrunc (rnd (IZR fs / hi))). set (t := Ztrunc (rnd (IZR fs / lo))). clearbody w a t.
  assert (K : req (Forall2 (fun _ _ => True)) (mapM (fun frame => yin_frame frame fs a t th) (map (fun t => py_slice t (t + w) x) ts)) (mapM (fun frame => yin_frame frame fs a t th) (map (fun t => py_slice t (t + w) y) ts))).
  { apply (req_mapM _ _ _ _ len2); [|intros u v Huv; apply yin_frame_req; exact Huv]. clear - H. induction ts as [|s ts IH]; cbn [map]; [constructor|]. constructor; [apply slice_len; exact H|exact IH]. }
  revert K. generalize (mapM (fun frame => yin_frame frame fs a t th) (map (fun t => py_slice t (t + w) x) ts)), (mapM (fun frame => yin_frame frame fs a t th) (map (fun t => py_slice t (t + w) y) ts)). intros [o|?] [o2|?] K; cbn [req] in K; try contradiction K; cbn [rbind same_yin]; [|exact K].
  apply al_len in K. rewrite !map_length. repeat split; try exact K; reflexivity.
Qed.

Lemma yin_raises : forall `{Env} x fs wl wh lo hi th, raises_only [] (compute_yin x fs wl wh lo hi th).
Proof.
  intros E x fs wl wh lo hi th. unfold compute_yin. destruct (Req_EM_T hi 0); [left; exact I|]. destruct (Req_EM_T lo 0); [left; exact I|]. cbn zeta.
  apply ro_bind; [unfold range_step; destruct (_ =? 0)%Z; [left; exact I|exact I]|]. intros ts. apply ro_bind; [apply ro_mapM; intros; destruct (_ =? 0)%Z; [left; exact I|exact I]|]. intros tm.
  apply ro_bind; [|intros; exact I]. apply ro_mapM. intros f. unfold yin_frame, compute_cmnd. cbn zeta. apply ro_bind; [apply ro_bind; [apply ro_bcast|]; intros; apply ro_bind; [apply ro_bcast|]; intros; exact I|]. intros c.
  apply ro_bind.
  - unfold get_pitch. generalize (Z.to_nat (Ztrunc (rnd (IZR fs / lo)) - Ztrunc (rnd (IZR fs / hi)))). intros k. generalize (Ztrunc (rnd (IZR fs / hi))), (Ztrunc (rnd (IZR fs / lo))). intros a t. clear. revert a. induction k as [|k IH]; intros a; cbn [search]; [exact I|].
    destruct (_ <? _)%Z; [|exact I]. apply ro_bind; [apply ro_nth|]. intros v. destruct (fltb _ _); [|apply IH]. generalize (S k). clear. intros m. revert a. induction m as [|m IH]; intros a; cbn [descend]; [exact I|].
    destruct (_ <? _)%Z; [|exact I]. apply ro_bind; [apply ro_nth|]. intros b. apply ro_bind; [apply ro_nth|]. intros d. destruct (fltb _ _); [apply IH|exact I].
  - intros p. apply ro_bind; [destruct c; [left; exact I|exact I]|]. intros am. destruct (negb _); [apply ro_bind; [apply ro_nth|]; intros; exact I|]. apply ro_bind; [destruct c; [left; exact I|exact I]|]. intros. exact I.
Qed.

(** ** Dominant frequencies *)
Lemma ro_dominant : forall more n fs w, raises_only more (dominant_of n fs w).
Proof.
  intros more n fs w. unfold dominant_of. apply ro_bind; [apply ro_rfft|]. intros X. cbn zeta. apply ro_bind; [unfold fftfreq; destruct (_ =? 0)%Z; [left; exact I|]; destruct (Nat.eqb _ _); [left; exact I|exact I]|]. intros fr.
  apply ro_bind; [|intros; apply ro_nth]. match goal with |- raises_only _ (np_argmax ?l) => destruct l; [left; exact I|exact I] end.
Qed.
Lemma dominant_raises : forall `{Env} x fs b lo up n wl wh wt pos, (0 < flen fs wh)%Z -> raises_only [] (get_dominant_frequencies_of x fs b lo up n wl wh wt pos).
Proof.
  intros E x fs b lo up n wl wh wt pos HH.
  assert (K : forall ba, raises_only [] (get_dominant_frequencies x fs ba n wl wh wt pos)).
  { intros ba. unfold get_dominant_frequencies. cbn zeta. apply ro_bind; [apply framing_raises; exact HH|]. intros [f l]. apply ro_bind; [apply ro_windowing|]. intros w. apply ro_bind; [apply ro_mapM; intros; apply ro_dominant|]. intros. exact I. }
  unfold get_dominant_frequencies_of. destruct b; [|apply K]. apply ro_bind; [unfold butter_design; destruct (_ =? 0)%Z; [left; exact I|]; cbn zeta; destruct (_ || _); [left; exact I|exact I]|]. intros. apply K.
Qed.

(** ** Spectral statistics *)
Lemma freqs_ro : forall more s fs, raises_only more (abs_freqs s fs).
Proof. intros. unfold abs_freqs, fftfreq. apply ro_bind; [destruct (_ =? 0)%Z; [left; exact I|]; destruct (Nat.eqb _ _); [left; exact I|exact I]|]. intros. exact I. Qed.
Lemma centroid_ro : forall more fs s i, raises_only more (spectral_centroid fs s i).
Proof. intros. unfold spectral_centroid. cbn zeta. apply ro_bind; [apply freqs_ro|]. intros. exact I. Qed.
Lemma moment_ro : forall more p fs s, raises_only more (spectral_moment p fs s).
Proof. intros. unfold spectral_moment. cbn zeta. apply ro_bind; [apply centroid_ro|]. intros. apply ro_bind; [apply centroid_ro|]. intros. apply ro_bind; [apply freqs_ro|]. intros. exact I. Qed.
Lemma feats_raises : forall x fs n, raises_only [] (extract_feats x fs n).
Proof.
  intros. unfold extract_feats. apply ro_bind; [apply ro_rfft|]. intros. cbn zeta. apply ro_bind; [apply centroid_ro|]. intros. apply ro_bind; [apply moment_ro|]. intros. apply ro_bind; [apply moment_ro|]. intros.
  apply ro_bind; [unfold spectral_spread; cbn zeta; apply ro_bind; [apply freqs_ro|]; intros; apply ro_bind; [apply centroid_ro|]; intros; exact I|]. intros. apply ro_bind; [unfold spectral_flux; cbn zeta; exact I|]. intros. exact I.
Qed.
(** only [fs] and [nfft] decide whether the statistics can be computed *)
Lemma feats_outcome : forall x y fs n, same_success (extract_feats x fs n) (extract_feats y fs n).
Proof.
  intros x y fs n. unfold extract_feats, np_rfft. destruct (n <? 1)%Z; [reflexivity|]. cbn [rbind map nth].
  assert (K : forall s : list cplx, List.length s = S (Z.to_nat n / 2) -> same_success (do centroid <- spectral_centroid fs s 1; do skewness <- spectral_skewness fs s; do kurtosis <- spectral_kurtosis fs s; do spread <- spectral_spread fs s; do flux <- spectral_flux s 2;
     Ok (mkFeats centroid skewness kurtosis (spectral_entropy s) spread (spectral_flatness s) (spectral_rolloff_swapped fs s) flux (cmean s) (csqrt (cmean (map (fun z => cmul z z) s))) (fsqrt (cvar s)) (cvar s)))
     (if (fs =? 0)%Z then Raise ZeroDivisionError else Ok tt)).
  { intros s Hs. unfold spectral_skewness, spectral_kurtosis, spectral_moment, spectral_spread, spectral_flux, spectral_centroid, abs_freqs, fftfreq. rewrite Hs. destruct (fs =? 0)%Z; [reflexivity|]. exact I. }
  pose proof (K (map (dft_bin (Z.to_nat n) (crop_pad (Z.to_nat n) x)) (seq 0 (S (Z.to_nat n / 2)))) ltac:(rewrite map_length; apply seq_length)) as K1.
  pose proof (K (map (dft_bin (Z.to_nat n) (crop_pad (Z.to_nat n) y)) (seq 0 (S (Z.to_nat n / 2)))) ltac:(rewrite map_length; apply seq_length)) as K2.
  revert K1 K2. match goal with |- same_success ?a _ -> same_success ?b _ -> _ => generalize a, b end. intros [a|e] [b|f] K1 K2; destruct (fs =? 0)%Z; cbn in *; try contradiction; congruence || exact I.
Qed.
Lemma scan_range : forall b l i best v, (best < i)%nat -> (arg_scan b l i best v < i + List.length l)%nat.
Proof.
  intros b l. induction l as [|x l IH]; intros i best v H; cbn [arg_scan List.length]; [lia|].
  destruct (_ && _); [specialize (IH (S i) i x ltac:(lia)); lia|specialize (IH (S i) best v ltac:(lia)); lia].
Qed.
Lemma dominant_of_any : forall n fs (w v : list F), req (fun _ _ => True) (dominant_of n fs w) (dominant_of n fs v).
Proof.
  intros n fs w v. unfold dominant_of, np_rfft. destruct (n <? 1)%Z; [reflexivity|]. cbn [rbind map nth]. cbn zeta.
  assert (K : forall s : list F, List.length s = S (Z.to_nat n / 2) -> req (fun _ _ => True) (do fr <- fftfreq (List.length s) fs; do i <- np_argmax s; py_nth fr (Z.of_nat i)) (if (fs =? 0)%Z then Raise ZeroDivisionError else Ok tt)).
  { intros s Hs. unfold fftfreq. destruct (fs =? 0)%Z; [reflexivity|]. rewrite Hs. cbn [Nat.eqb rbind]. destruct s as [|a s]; [discriminate Hs|]. cbn [np_argmax rbind].
    match goal with |- req _ (py_nth ?l _) _ => destruct (nth_in l (Z.of_nat (arg_scan fgtb s 1 0 a))) as [u Hu] end.
    - pose proof (scan_range fgtb s 1 0 a ltac:(lia)) as R. cbn [List.length] in Hs. unfold zlen. rewrite map_length, seq_length. lia.
    - rewrite Hu. exact I. }
  match goal with |- req _ (rbind (fftfreq (List.length ?s) _) _) (rbind (fftfreq (List.length ?r) _) _) => pose proof (K s ltac:(rewrite !map_length; apply seq_length)) as K1; pose proof (K r ltac:(rewrite !map_length; apply seq_length)) as K2 end.
  revert K1 K2. match goal with |- req _ ?a _ -> req _ ?b _ -> _ => generalize a, b end. intros [a|e] [b|f] K1 K2; destruct (fs =? 0)%Z; cbn in *; try contradiction; congruence || exact I.
Qed.
Lemma dominant_outcome : forall `{Env} x y fs b lo up n wl wh wt pos, List.length x = List.length y ->
  same_success (get_dominant_frequencies_of x fs b lo up n wl wh wt pos) (get_dominant_frequencies_of y fs b lo up n wl wh wt pos) /\
  same_count (get_dominant_frequencies_of x fs b lo up n wl wh wt false) (get_dominant_frequencies_of y fs b lo up n wl wh wt false).
Proof.
  intros E x y fs b lo up n wl wh wt pos H.
  assert (K : forall pos ba, req (fun l m => pos = false -> List.length l = List.length m) (get_dominant_frequencies x fs ba n wl wh wt pos) (get_dominant_frequencies y fs ba n wl wh wt pos)).
  { clear pos. intros pos ba. unfold get_dominant_frequencies. cbn zeta.
    apply (req_bind _ _ _ _ framed_pair); [apply framing_req; unfold len2; destruct ba as [[p q]|]; [unfold lfilter; rewrite !lfilter_state_length|]; exact H|]. intros [f l] [g m] [H1 H2]. cbn [fst snd] in *. subst m.
    apply (req_bind _ _ _ _ al); [unfold windowing; apply (req_mapM _ _ _ _ len2); [exact H1|]; intros; apply windowing_row_req; assumption|]. intros u v Huv.
    apply (req_bind _ _ _ _ (Forall2 (fun _ _ => True))); [apply (req_mapM _ _ _ _ len2); [exact Huv|]; intros; apply dominant_of_any|]. intros d e Hde. cbn [req]. intros ->. rewrite !map_length. apply (al_len _ _ _ _ _ Hde). }
  assert (K2 : forall pos, req (fun l m => pos = false -> List.length l = List.length m) (get_dominant_frequencies_of x fs b lo up n wl wh wt pos) (get_dominant_frequencies_of y fs b lo up n wl wh wt pos)).
  { intros ps. unfold get_dominant_frequencies_of. destruct b; [|apply K]. destruct (butter_design fs lo up) as [ba|e]; [cbn [rbind]; apply K|reflexivity]. }
  pose proof (K2 pos) as A. pose proof (K2 false) as B. split.
  - unfold same_success. destruct (get_dominant_frequencies_of x fs b lo up n wl wh wt pos), (get_dominant_frequencies_of y fs b lo up n wl wh wt pos); auto.
  - unfold same_count. destruct (get_dominant_frequencies_of x fs b lo up n wl wh wt false), (get_dominant_frequencies_of y fs b lo up n wl wh wt false); auto.
Qed.
