(** * Facts about 2-D signals *)
From Coq Require Import Reals ZArith List String Bool Lia Lra.
From Flocq Require Import Core.Raux.
From Verif Require Import Base BaseFacts SpecBase SpecMat SpecFeatures MatFacts Preprocessing PreprocessingFacts Cepstral MelBanks BarkBank Gammatone
  Fourier Features FeaturesFacts Extractors Lpc Channels SpecChannels.
Import ListNotations.

(** ** N x 1 *)
Lemma column_layout : forall x l, layout_of (column x l) = COrder.
Proof. intros. unfold layout_of, column. cbn [rows2 cols2 lay2]. rewrite Nat.eqb_refl, orb_true_r. auto. Qed.
Lemma concat_single : forall (x : list F), List.concat (map (fun v => [v]) x) = x.
Proof. induction x; simpl; congruence. Qed.
Lemma pre_single : forall v c, pre_emphasis [v] c = Ok [v].
Proof.
  intros v c. destruct (pre_emphasis_ok [v] c) as [y Hy]; [discriminate|]. rewrite Hy. f_equal.
  apply pre_emphasis_spec in Hy as (Hl & H0 & _). destruct y as [|w [|u y]]; simpl in Hl; try lia. simpl in H0. congruence.
Qed.
Lemma pre_column : forall x l c, x <> [] -> pre_emphasis_2d (column x l) c = Ok (column x COrder).
Proof.
  intros x l c Hx. unfold pre_emphasis_2d, column. cbn [rows2 cols2].
  assert (Hm : mapM (fun row => pre_emphasis row c) (map (fun v => [v]) x) = Ok (map (fun v => [v]) x)).
  { clear Hx. induction x as [|v x IH]; [reflexivity|]. cbn [map mapM]. rewrite pre_single. cbn [rbind]. rewrite IH. reflexivity. }
  destruct x; [congruence|]. cbn [map] in *. rewrite Hm. reflexivity.
Qed.
Lemma framing_column : forall `{Env} x l fs wl wh, framing_2d (column x l) fs wl wh = framing x fs wl wh.
Proof.
  intros. unfold framing_2d, first_stride, memory, framing. rewrite column_layout. cbn [column rows2 cols2]. rewrite concat_single. reflexivity.
Qed.
Lemma framed_column : forall `{Env} x l fs pe c w, x <> [] -> framed_2d (column x l) fs pe c w = framed x fs false c w.
Proof.
  intros E x l fs pe c w Hx. unfold framed_2d, framed. cbn [rbind]. destruct pe.
  - rewrite pre_column by auto. cbn [rbind]. rewrite framing_column. reflexivity.
  - cbn [rbind]. rewrite framing_column. reflexivity.
Qed.
Lemma framed_coeff : forall `{Env} x fs c c' w, framed x fs false c w = framed x fs false c' w.
Proof. reflexivity. Qed.
Lemma spectrogram_column : forall `{Env} sp x l a, x <> [] -> spectrogram_2d sp (column x l) a = spectrogram sp x (without_pre a).
Proof.
  intros E sp x l a Hx. rewrite spectrogram_gram. unfold spectrogram_2d, gram_2d, spec_gram. rewrite framed_column by auto.
  destruct sp; reflexivity.
Qed.
Lemma compress_comp : forall e m, compress_2d e m = map (map (comp_of e)) m.
Proof. intros e m. destruct e; cbn [compress_2d comp_of]; auto using log_features_map, log_loud_map. Qed.
Lemma run_column : forall `{Env} e x l a c, x <> [] -> run_2d e (column x l) a c = run e x (without_pre a) c.
Proof.
  intros E e x l a c Hx. rewrite run_cep. unfold run_2d, cep, gram_2d, spec_gram. rewrite framed_column by auto.
  change (s_nfilts (without_pre a)) with (s_nfilts a). destruct (_ <? _)%Z; auto.
  assert (Eb : extractor_bank e (without_pre a) = extractor_bank e a) by (destruct e; reflexivity). rewrite Eb.
  destruct (extractor_bank e a) as [B|]; cbn [rbind]; auto.
  replace (mag_of e) with (match e with Bfcc | Ngcc => rfft_magnitude | _ => fft_magnitude end) by (destruct e; reflexivity).
  unfold without_pre; cbn [s_fs s_pre_emph s_window s_nfft]. rewrite (framed_coeff _ _ _ (extractor_coeff e (without_pre a))).
  unfold without_pre; cbn [s_fs s_pre_emph s_window s_nfft].
  destruct (framed _ _ _ _ _) as [[fr w]|]; cbn [rbind]; auto.
  destruct (match e with Bfcc | Ngcc => rfft_magnitude | _ => fft_magnitude end w (s_nfft a)); cbn [rbind]; auto.
  destruct (np_dot_T _ _); cbn [rbind]; auto. rewrite compress_comp. auto.
Qed.
Lemma lpc_column : forall `{Env} x l fs order pe co w, x <> [] -> lpc_2d (column x l) fs order pe w = lpc x fs order false co w.
Proof. intros E x l fs order pe co w Hx. unfold lpc_2d, lpc. rewrite framed_column by auto. reflexivity. Qed.

(** frames of the column and of the flat signal *)
Lemma column_differs : forall `{Env} a N L hop x l coeff, well_framed a N L hop -> s_pre_emph a = true -> (hop <= L)%nat ->
  exists fr w fr' w', framed_2d (column (fvec N x) l) (s_fs a) true coeff (s_window a) = Ok (fr, w) /\
    framed (fvec N x) (s_fs a) true coeff (s_window a) = Ok (fr', w') /\
    (fr = fr' <-> forall t, (S t < (frame_count N L hop - 1) * hop + L)%nat -> (coeff * x t = 0)%R).
Proof.
  intros E a N L hop x l coeff Hf Hpe Hhop. pose proof Hf as (_ & _ & _ & H0 & HN & _).
  assert (Hne : fvec N x <> []) by (intros X; apply (f_equal (@List.length _)) in X; rewrite fvec_length in X; simpl in X; lia).
  pose proof (framed_fvec a N L hop x coeff Hf) as Hflat. rewrite Hpe in Hflat.
  assert (Hf' : well_framed (without_pre a) N L hop) by exact Hf.
  pose proof (framed_fvec (without_pre a) N L hop x coeff Hf') as Hcol. cbn [without_pre s_pre_emph s_fs s_window] in Hcol.
  rewrite framed_column by auto. rewrite Hcol, Hflat. do 4 eexists. split; [reflexivity|]. split; [reflexivity|].
  pose proof (frame_count_pos N L hop) as Hpos. split.
  - intros Heq t Ht. assert (Hex : exists i j, (i < frame_count N L hop)%nat /\ (j < L)%nat /\ (i * hop + j)%nat = S t).
    { destruct (Nat.lt_ge_cases (S t) ((frame_count N L hop - 1) * hop)) as [Hlt|Hge].
      - exists (S t / hop)%nat, (S t mod hop)%nat. pose proof (Nat.mod_upper_bound (S t) hop ltac:(lia)).
        pose proof (Nat.div_mod (S t) hop ltac:(lia)). split; [|split; lia].
        enough (S t / hop < frame_count N L hop - 1)%nat by lia. apply Nat.div_lt_upper_bound; lia.
      - exists (frame_count N L hop - 1)%nat, (S t - (frame_count N L hop - 1) * hop)%nat. lia. }
    destruct Hex as (i & j & Hi & Hj & Hij). pose proof (fmat_inj _ _ _ _ Heq i j Hi Hj) as E'. cbv beta in E'.
    rewrite Hij in E'. unfold spec_pre in E'. lra.
  - intros Hz. apply fmat_ext. intros i j Hi Hj. unfold spec_pre. destruct (i * hop + j)%nat as [|t] eqn:Et; auto.
    rewrite Hz; [lra|]. assert (i * hop <= (frame_count N L hop - 1) * hop)%nat by (apply Nat.mul_le_mono_r; lia). lia.
Qed.

(** ** samples row after row *)
Lemma concat_zlen : forall s, regular s -> zlen (List.concat (rows2 s)) = (zlen (rows2 s) * Z.of_nat (cols2 s))%Z.
Proof.
  intros s Hr. unfold regular in Hr. induction Hr as [|r l Hr Hl IH]; [reflexivity|].
  cbn [List.concat]. unfold zlen in *. cbn [List.length]. rewrite app_length, Nat2Z.inj_add, IH, Hr, Nat2Z.inj_succ. ring.
Qed.
Lemma concat_nth : forall (m : list (list F)) c t k, Forall (fun row => List.length row = c) m -> (t < List.length m)%nat -> (k < c)%nat ->
  nth (t * c + k) (List.concat m) NaN = nth k (nth t m []) NaN.
Proof.
  intros m c. induction m as [|row m IH]; intros t k Hr Ht Hk; [simpl in Ht; lia|]. inversion Hr as [|? ? E1 E2]; subst.
  cbn [List.concat]. destruct t as [|t].
  - cbn [nth Nat.mul Nat.add]. apply app_nth1. auto.
  - rewrite app_nth2 by nia. cbn [nth]. replace (S t * List.length row + k - List.length row)%nat with (t * List.length row + k)%nat by lia.
    apply IH; auto. simpl in Ht. lia.
Qed.
(** the last sample read, counted in rows *)
Lemma interleaved : forall `{Env} s fs wl wh, regular s -> layout_of s = COrder -> (1 <= cols2 s)%nat -> (wh <= wl)%R ->
  let N := zlen (rows2 s) in let c := Z.of_nat (cols2 s) in let L := flen fs wl in let hop := flen fs wh in
  (1 <= hop)%Z -> (1 <= L <= N * c)%Z ->
  let reach := ((N * c - L) / hop * hop + L)%Z in
  ((reach <= N)%Z -> exists frames, framing_2d s fs wl wh = Ok (frames, L) /\
     zlen frames = ((N * c - L) / hop + 1)%Z /\
     forall i j, (0 <= i < zlen frames)%Z -> (0 <= j < L)%Z ->
       nth (Z.to_nat j) (nth (Z.to_nat i) frames []) NaN = sample s (Z.to_nat (i * hop + j)) 0) /\
  ((N < reach)%Z -> framing_2d s fs wl wh = Raise OutOfBoundsRead).
Proof.
  intros E s fs wl wh Hreg Hlay Hc Hw N c L hop Hhop HL reach. unfold framing_2d, first_stride, memory. rewrite Hlay. fold c.
  pose proof (concat_zlen s Hreg) as Hlen. fold N c in Hlen. set (q := ((N * c - L) / hop)%Z) in *.
  assert (Hq : (0 <= q)%Z) by (apply Z.div_pos; lia). split; intros Hreach.
  - destruct (as_strided_succeeds (List.concat (rows2 s)) (q + 1) L (hop * c) c) as [fr Hfr]; try lia.
    { intros i j Hi Hj. rewrite Hlen. assert (Hij : (0 <= i * hop + j < N)%Z) by (unfold reach in Hreach; nia).
      replace (i * (hop * c) + j * c)%Z with ((i * hop + j) * c)%Z by ring. nia. }
    pose proof (as_strided_ok _ _ _ _ _ _ Hfr) as (_ & _ & [Hs1 Hs2] & Hcont).
    assert (Hz : zlen fr = (q + 1)%Z) by (unfold zlen; lia).
    exists fr. split; [|split; auto].
    + apply framing_strided_eq; auto; fold hop; try lia.
      * destruct fr; [cbn in Hz; lia|discriminate].
      * fold L. rewrite Hlen. exact Hfr.
    + rewrite Hz. intros i j Hi Hj. destruct (Hcont i j Hi Hj) as [_ Hv]. rewrite Hv.
      assert (Hij : (0 <= i * hop + j < N)%Z) by (unfold reach in Hreach; nia).
      replace (i * (hop * c) + j * c)%Z with ((i * hop + j) * c + 0)%Z by ring. unfold sample.
      replace (Z.to_nat ((i * hop + j) * c + 0)) with (Z.to_nat (i * hop + j) * cols2 s + 0)%nat by (unfold c; nia).
      apply concat_nth; [exact Hreg|unfold N, zlen in *; lia|lia].
  - unfold framing_strided. fold (flen fs wl) (flen fs wh). fold L hop. rewrite Rltb_false by lra. unfold stride_trick.
    rewrite (proj2 (Z.eqb_neq hop 0)) by lia. rewrite Hlen. fold q.
    rewrite (as_strided_oob _ _ _ _ _ q (L - 1)); [reflexivity|lia|lia|].
    rewrite Hlen. intros [_ Hlt]. replace (q * (hop * c) + (L - 1) * c)%Z with ((q * hop + (L - 1)) * c)%Z in Hlt by ring.
    unfold reach in Hreach. nia.
Qed.
Lemma no_features : forall `{Env} e s a c, s_pre_emph a = false ->
  framing_2d s (s_fs a) (win_len (window_of a)) (win_hop (window_of a)) = Raise OutOfBoundsRead ->
  forall r, run_2d e s a c <> Ok r.
Proof.
  intros E e s a c Hpe Hf r. unfold run_2d. destruct (_ <? _)%Z; [discriminate|]. unfold gram_2d.
  destruct (extractor_bank e a); cbn [rbind]; [|discriminate]. unfold framed_2d. rewrite Hpe. cbn [rbind]. fold (window_of a).
  rewrite Hf. discriminate.
Qed.

(** ** samples channel after channel *)
Lemma planar_length : forall s, List.length (List.concat (map (fun j => map (fun row => nth j row NaN) (rows2 s)) (seq 0 (cols2 s))))
  = (cols2 s * List.length (rows2 s))%nat.
Proof.
  intros s. generalize 0%nat. induction (cols2 s) as [|c IH]; intros k; [reflexivity|]. cbn [seq map List.concat].
  rewrite app_length, map_length, IH. lia.
Qed.
Lemma planar : forall `{Env} s fs wl wh frames L, layout_of s = FOrder -> framing_2d s fs wl wh = Ok (frames, L) ->
  let N := zlen (rows2 s) in let hop := flen fs wh in
  (0 < hop)%Z -> zlen frames = ((N * Z.of_nat (cols2 s) - L) / hop + 1)%Z /\
  forall i j, (0 <= i < zlen frames)%Z -> (0 <= j < L)%Z ->
    nth (Z.to_nat j) (nth (Z.to_nat i) frames []) NaN
    = sample s (Z.to_nat ((i * hop + j) mod N)) (Z.to_nat ((i * hop + j) / N)).
Proof.
  intros E s fs wl wh frames L Hlay Hf N hop Hhop. unfold framing_2d, first_stride, memory in Hf. rewrite Hlay in Hf.
  apply framing_content in Hf. cbv zeta in Hf. fold hop in Hf. destruct Hf as (_ & Hz & _ & Hc).
  set (buf := List.concat _) in *. assert (Hlen : zlen buf = (N * Z.of_nat (cols2 s))%Z).
  { unfold zlen, buf. rewrite planar_length. unfold N, zlen. lia. }
  rewrite Hlen in *. split; auto. intros i j Hi Hj. destruct (Hc i j Hi Hj) as [Hb Hv]. rewrite Hv. set (t := (i * hop + j)%Z) in *.
  assert (HN : (0 < N)%Z). { assert (0 <= N)%Z by (unfold N, zlen; lia). destruct (Z.eq_dec N 0) as [E0|]; [rewrite E0 in Hb; lia|lia]. }
  assert (Hm := Z.mod_pos_bound t N HN). assert (Hd := Z.div_mod t N ltac:(lia)).
  assert (Hq : (0 <= t / N < Z.of_nat (cols2 s))%Z) by (split; [apply Z.div_pos; lia|apply Z.div_lt_upper_bound; lia]).
  set (ch := map (fun j => map (fun row => nth j row NaN) (rows2 s)) (seq 0 (cols2 s))) in *.
  assert (Hrows : Forall (fun row => List.length row = List.length (rows2 s)) ch).
  { apply Forall_forall. intros r Hr. apply in_map_iff in Hr as (k & <- & _). apply map_length. }
  assert (Hl : List.length ch = cols2 s) by (unfold ch; rewrite map_length, seq_length; auto).
  replace (Z.to_nat t) with (Z.to_nat (t / N) * List.length (rows2 s) + Z.to_nat (t mod N))%nat.
  2:{ rewrite Hd at 3. assert (EN : N = Z.of_nat (List.length (rows2 s))) by reflexivity. rewrite EN in *. nia. }
  unfold buf. rewrite (concat_nth ch (List.length (rows2 s))); auto; [|rewrite Hl; lia|unfold N, zlen in *; lia].
  unfold ch, sample. rewrite nth_map_seq by lia.
  set (g := fun row : list F => nth (Z.to_nat (t / N)) row NaN).
  rewrite (nth_indep (map g (rows2 s)) NaN (g [])) by (rewrite map_length; unfold N, zlen in *; lia).
  rewrite (map_nth g). reflexivity.
Qed.

(** ** pre-emphasis runs across the channels *)
Lemma pre_across : forall s c r, pre_emphasis_2d s c = Ok r -> regular s ->
  lay2 r = COrder /\ cols2 r = cols2 s /\ List.length (rows2 r) = List.length (rows2 s) /\ regular r /\
  forall t, (t < List.length (rows2 s))%nat -> sample r t 0 = sample s t 0 /\
    forall k, (S k < cols2 s)%nat -> sample r t (S k) = fsub (sample s t (S k)) (fmul (Fin c) (sample s t k)).
Proof.
  intros s c r H Hreg. unfold pre_emphasis_2d in H. destruct (rows2 s) as [|row0 rows] eqn:Er; [discriminate|]. rewrite <- Er in *.
  destruct (mapM _ (rows2 s)) as [m|] eqn:Em; [|discriminate]. cbn [rbind] in H. apply Ok_inj in H. subst r. cbn [lay2 cols2 rows2].
  pose proof (mapM_length _ _ _ _ _ Em) as Hl. split; auto. split; auto. split; auto.
  assert (Hn : forall t, (t < List.length (rows2 s))%nat -> pre_emphasis (nth t (rows2 s) []) c = Ok (nth t m [])) by
    (intros t Ht; apply (mapM_nth _ _ (fun row => pre_emphasis row c) (rows2 s) m [] [] t Em); auto).
  assert (Hrow : forall t, (t < List.length (rows2 s))%nat -> List.length (nth t (rows2 s) []) = cols2 s).
  { intros t Ht. unfold regular in Hreg. rewrite Forall_forall in Hreg. apply Hreg, nth_In, Ht. }
  split.
  - unfold regular. cbn [rows2 cols2]. apply Forall_forall. intros row Hin. apply (In_nth _ _ []) in Hin as (t & Ht & <-).
    rewrite Hl in Ht. specialize (Hn t Ht). apply pre_emphasis_spec in Hn as (Hn & _). rewrite Hn. auto.
  - intros t Ht. specialize (Hn t Ht). apply pre_emphasis_spec in Hn as (_ & H0 & Hs). unfold sample. cbn [rows2].
    split; [exact H0|]. intros k Hk. apply Hs. rewrite Hrow; auto.
Qed.
(** ** frames longer than the first axis *)
Lemma long_frames : forall `{Env} s fs wl wh, regular s -> layout_of s = COrder -> (1 <= cols2 s)%nat -> (wh <= wl)%R ->
  (1 <= flen fs wh)%Z -> (zlen (rows2 s) < flen fs wl <= zlen (rows2 s) * Z.of_nat (cols2 s))%Z ->
  framing_2d s fs wl wh = Raise OutOfBoundsRead.
Proof.
  intros E s fs wl wh Hreg Hlay Hc Hw Hhop HL. destruct (interleaved s fs wl wh Hreg Hlay Hc Hw Hhop) as [_ H].
  { unfold zlen in *. lia. }
  apply H. assert (0 <= (zlen (rows2 s) * Z.of_nat (cols2 s) - flen fs wl) / flen fs wh)%Z by (apply Z.div_pos; lia). nia.
Qed.
Lemma long_no_features : forall `{Env} e s a c, regular s -> (1 <= cols2 s)%nat -> (s_pre_emph a = true \/ layout_of s = COrder) ->
  (win_hop (window_of a) <= win_len (window_of a))%R -> (1 <= flen (s_fs a) (win_hop (window_of a)))%Z ->
  (zlen (rows2 s) < flen (s_fs a) (win_len (window_of a)) <= zlen (rows2 s) * Z.of_nat (cols2 s))%Z ->
  forall r, run_2d e s a c <> Ok r.
Proof.
  intros E e s a c Hreg Hc Hlay Hw Hhop HL r. unfold run_2d. destruct (_ <? _)%Z; [discriminate|]. unfold gram_2d.
  destruct (extractor_bank e a) as [B|]; cbn [rbind]; [|discriminate]. unfold framed_2d. fold (window_of a).
  destruct (s_pre_emph a) eqn:Hpe.
  - destruct (pre_emphasis_2d s (extractor_coeff e a)) as [s'|] eqn:Es; cbn [rbind]; [|discriminate].
    apply pre_across in Es as (L1 & L2 & L3 & L4 & _); auto. rewrite long_frames; auto; try discriminate.
    + unfold layout_of. rewrite L1. destruct (_ || _)%bool; auto.
    + lia.
    + unfold zlen in *. rewrite L2, L3. auto.
  - cbn [rbind]. destruct Hlay as [|Hlay]; [discriminate|]. rewrite long_frames; auto. discriminate.
Qed.
(** ** two or more channels stored row after row *)
Lemma reach_over : forall N c L hop, (1 <= N)%Z -> (2 <= c)%Z -> (1 <= hop <= L)%Z -> (L <= N * c)%Z ->
  (N < (N * c - L) / hop * hop + L)%Z.
Proof.
  intros N c L hop HN Hc Hh HL. pose proof (Z.div_mod (N * c - L) hop ltac:(lia)) as D.
  pose proof (Z.mod_pos_bound (N * c - L) hop ltac:(lia)) as M.
  assert (0 <= (N * c - L) / hop)%Z by (apply Z.div_pos; lia). set (q := ((N * c - L) / hop)%Z) in *.
  destruct (Z_lt_le_dec N L); [nia|]. nia.
Qed.
Lemma stereo_framing : forall `{Env} s fs wl wh, regular s -> layout_of s = COrder -> (2 <= cols2 s)%nat -> (wh <= wl)%R ->
  (1 <= flen fs wh <= flen fs wl)%Z -> (flen fs wl <= zlen (rows2 s) * Z.of_nat (cols2 s))%Z ->
  framing_2d s fs wl wh = Raise OutOfBoundsRead.
Proof.
  intros E s fs wl wh Hreg Hlay Hc Hw Hhop HL.
  destruct (interleaved s fs wl wh Hreg Hlay ltac:(lia) Hw) as [_ H]; [exact (proj1 Hhop)|fold (flen fs wl); lia|].
  apply H. apply reach_over; auto; lia.
Qed.
Lemma stereo_framed : forall `{Env} s a coeff, regular s -> (2 <= cols2 s)%nat -> (s_pre_emph a = true \/ layout_of s = COrder) ->
  (win_hop (window_of a) <= win_len (window_of a))%R ->
  (1 <= flen (s_fs a) (win_hop (window_of a)) <= flen (s_fs a) (win_len (window_of a)))%Z ->
  (flen (s_fs a) (win_len (window_of a)) <= zlen (rows2 s) * Z.of_nat (cols2 s))%Z ->
  framed_2d s (s_fs a) (s_pre_emph a) coeff (s_window a) = Raise OutOfBoundsRead.
Proof.
  intros E s a coeff Hreg Hc Hlay Hw Hhop HL. unfold framed_2d. fold (window_of a).
  assert (Hne : rows2 s <> []) by (intros Z; rewrite Z in HL; cbn in HL; lia).
  destruct (s_pre_emph a) eqn:Hpe.
  - destruct (pre_emphasis_2d s coeff) as [s'|ex] eqn:Es; cbn [rbind].
    + apply pre_across in Es as (L1 & L2 & L3 & L4 & _); auto. rewrite stereo_framing; auto.
      * unfold layout_of. rewrite L1. destruct (_ || _)%bool; auto.
      * lia.
      * unfold zlen in *. rewrite L2, L3. auto.
    + exfalso. unfold pre_emphasis_2d in Es. destruct (rows2 s) as [|r0 rs] eqn:Er; [congruence|].
      assert (K : forall rows, Forall (fun row : list F => List.length row = cols2 s) rows -> exists r, mapM (fun row => pre_emphasis row coeff) rows = Ok r).
      { intros rows HF. induction HF as [|row rows Hrow HF [r IH]]; [exists []; reflexivity|].
        cbn [mapM]. destruct row as [|v row]; [cbn in Hrow; lia|]. unfold pre_emphasis at 1. cbn [rbind]. rewrite IH. cbn [rbind]. eauto. }
      unfold regular in Hreg. rewrite Er in Hreg. destruct (K _ Hreg) as [r Kr]. rewrite Kr in Es. discriminate.
  - cbn [rbind]. destruct Hlay as [|Hlay]; [discriminate|]. rewrite stereo_framing; auto.
Qed.
Lemma stereo_nothing : forall `{Env} s a, regular s -> (2 <= cols2 s)%nat -> (s_pre_emph a = true \/ layout_of s = COrder) ->
  (win_hop (window_of a) <= win_len (window_of a))%R ->
  (1 <= flen (s_fs a) (win_hop (window_of a)) <= flen (s_fs a) (win_len (window_of a)))%Z ->
  (flen (s_fs a) (win_len (window_of a)) <= zlen (rows2 s) * Z.of_nat (cols2 s))%Z ->
  (forall e c r, run_2d e s a c <> Ok r) /\ (forall sp r, spectrogram_2d sp s a <> Ok r) /\
  (forall order, lpc_2d s (s_fs a) order (s_pre_emph a) (s_window a) = Raise OutOfBoundsRead).
Proof.
  intros E s a Hreg Hc Hlay Hw Hhop HL. pose proof (fun coeff => stereo_framed s a coeff Hreg Hc Hlay Hw Hhop HL) as F.
  split; [|split].
  - intros e c r. unfold run_2d. destruct (_ <? _)%Z; [discriminate|]. unfold gram_2d.
    destruct (extractor_bank e a); cbn [rbind]; [|discriminate]. rewrite F. discriminate.
  - intros sp r. unfold spectrogram_2d, gram_2d. destruct (spectro_bank sp a); cbn [rbind]; [|discriminate]. rewrite F. discriminate.
  - intros order. unfold lpc_2d. rewrite F. reflexivity.
Qed.
