(** * Property theorems: dominant frequencies (C59, C60, C88-C90) *)
From Coq Require Import Reals ZArith List String Bool Lia Lra.
From Flocq Require Import Core.Raux.
From Verif Require Import Base BaseFacts SpecBase SpecMat SpecFeatures BigSum MatFacts Preprocessing PreprocessingFacts
  WindowFacts ExampleTools Features Extractors ExampleFeatures SpecSpectral Dominant DominantFacts.
Import ListNotations.
Local Open Scope R_scope.

(** the default configuration at 16 kHz: frames of 400 samples every 160, Hamming window *)
Example default_cut : forall N, (400 <= N)%nat -> @cut_config exact_env 16000 0.025 0.010 "hamming" N 400 160.
Proof.
  intros N HN. pose proof (default_framed N HN) as (A & B & C & D & E & G).
  split; [lia|]. repeat (split; [assumption|]). assumption.
Qed.

(** C59. One value per frame: with k the first bin of largest power among the n/2+1 bins of the
    n-point spectrum of the windowed frame, the value is the frequency of index k of a transform of
    n/2+1 points (not n), to the nearest thousandth. *)
Theorem C59_value : forall `{Env} N x fs wl wh wt L hop n, cut_config fs wl wh wt N L hop -> (1 <= n)%nat ->
  exists k v, get_dominant_frequencies (fvec N x) fs None (Z.of_nat n) wl wh wt false
    = Ok (fvec (frame_count N L hop) v) /\
  forall i, (i < frame_count N L hop)%nat ->
    is_argmax (S (n / 2)) (spec_power n L (spec_frame wt L hop x i)) (k i) /\
    near_milli (signed_bin (S (n / 2)) (k i) * IZR fs / INR (S (n / 2))) (v i) /\
    Rabs (v i) <= IZR fs / 2 + / 2000.
Proof.
  intros E N x fs wl wh wt L hop n HC Hn. destruct (get_dominant_raw N x fs wl wh wt L hop n HC Hn) as (k & Hk & Ek).
  exists k, (fun i => freq3 n fs (k i)). split; [exact Ek|]. intros i Hi. split; [auto|].
  apply freq3_range; [apply HC|]. apply (Hk i Hi).
Qed.
Print Assumptions C59_value.
Example C59_value_example : forall x, exists k v,
  @get_dominant_frequencies exact_env (fvec 1000 x) 16000 None 512 0.025 0.010 "hamming" false = Ok (fvec 4 v) /\
  near_milli (signed_bin 257 (k 3%nat) * 16000 / INR 257) (v 3%nat).
Proof.
  intros x. destruct (C59_value (H := exact_env) 1000 x 16000 0.025 0.010 "hamming" 400 160 512) as (k & v & E & H); [apply default_cut; lia|lia|].
  exists k, v. split; [exact E|]. apply (H 3%nat). cbn. lia.
Qed.
(** That number is the frequency of bin k, k*fs/n, only for k = 0; in the lower half it is
    n/(n/2+1) (almost 2) times as large, in the upper half it is negative. *)
Theorem C59_true_frequency_refuted : forall n k fs, (0 < fs)%Z -> (2 <= n)%nat -> (k <= n / 2)%nat ->
  let M := S (n / 2) in let reported := signed_bin M k * IZR fs / INR M in
  (reported = INR k * IZR fs / INR n <-> k = O) /\
  ((2 * k < M)%nat -> reported = INR n / INR M * (INR k * IZR fs / INR n)) /\
  ((M <= 2 * k)%nat -> reported < 0).
Proof.
  intros n k fs Hfs Hn Hk M reported. split; [apply reported_true; auto|]. split.
  - intros H. apply reported_ratio; auto; lia.
  - intros H. assert (signed_bin M k < 0) by (apply signed_bin_half; unfold M in *; lia).
    unfold reported. assert (0 < INR M) by (apply lt_0_INR; unfold M; lia). apply IZR_lt in Hfs.
    assert (0 < - signed_bin M k * IZR fs / INR M) by (apply Rdiv_lt_0_compat; auto; apply Rmult_lt_0_compat; lra).
    replace (signed_bin M k * IZR fs / INR M) with (- (- signed_bin M k * IZR fs / INR M)) by (field; lra). lra.
Qed.
Print Assumptions C59_true_frequency_refuted.
(** 8 kHz at 512 points: a peak at bin 32 (500 Hz) is reported at 996 Hz, one at bin 200 (3125 Hz)
    at a negative frequency. *)
Example C59_example :
  signed_bin (S (512 / 2)) 32 * IZR 8000 / INR (S (512 / 2)) = 256000 / 257 /\
  signed_bin (S (512 / 2)) 200 * IZR 8000 / INR (S (512 / 2)) < 0.
Proof.
  split; [|apply (C59_true_frequency_refuted 512 200 8000); cbn; lia].
  destruct (C59_true_frequency_refuted 512 32 8000 ltac:(lia) ltac:(lia) ltac:(cbn; lia)) as (_ & H & _).
  rewrite H by (cbn; lia). rewrite !INR_IZR. change (Z.of_nat 512) with 512%Z. change (Z.of_nat 32) with 32%Z.
  change (Z.of_nat (S (512 / 2))) with 257%Z. lra.
Qed.

(** C60. For every signal, finite or not: without only_positive one finite value per frame; with it
    exactly the values that are not negative, in order; the same exceptions. *)
Theorem C60_count : forall `{Env} sig fs nfft wl wh wt v,
  get_dominant_frequencies sig fs None nfft wl wh wt false = Ok v ->
  (exists fr L, framing sig fs wl wh = Ok (fr, L) /\ List.length v = List.length fr) /\ Forall finite v.
Proof.
  intros E sig fs nfft wl wh wt v H. apply dominant_values in H as (_ & (fr & L & A & B) & C).
  split; [eauto|]. eapply Forall_impl; [|exact C]. intros q (k & _ & ->). apply finite_Fin.
Qed.
Print Assumptions C60_count.
Theorem C60_only_positive : forall `{Env} sig fs bu nfft wl wh wt,
  match get_dominant_frequencies sig fs bu nfft wl wh wt false with
  | Ok v => get_dominant_frequencies sig fs bu nfft wl wh wt true = Ok (filter (fun q => Rleb 0 (toR q)) v)
  | Raise e => get_dominant_frequencies sig fs bu nfft wl wh wt true = Raise e
  end.
Proof.
  intros E sig fs bu nfft wl wh wt. rewrite only_positive_ok.
  destruct (get_dominant_frequencies sig fs bu nfft wl wh wt false) as [v|e] eqn:H; [|reflexivity]. cbn [rmap]. f_equal.
  apply dominant_values in H as (_ & _ & H). apply filter_ext_in. intros q Hq. rewrite Forall_forall in H.
  destruct (H q Hq) as (k & _ & ->). reflexivity.
Qed.
Print Assumptions C60_only_positive.
Example C60_example : forall x, exists v, @get_dominant_frequencies exact_env (fvec 1000 x) 16000 None 512 0.025 0.010 "hamming" false = Ok v /\
  List.length v = 4%nat /\ Forall finite v /\
  @get_dominant_frequencies exact_env (fvec 1000 x) 16000 None 512 0.025 0.010 "hamming" true = Ok (filter (fun q => Rleb 0 (toR q)) v).
Proof.
  intros x. destruct (C59_value (H := exact_env) 1000 x 16000 0.025 0.010 "hamming" 400 160 512) as (k & v & E & H); [apply default_cut; lia|lia|].
  exists (fvec 4 v). split; [exact E|]. destruct (C60_count (H := exact_env) _ _ _ _ _ _ _ E) as (_ & K).
  split; [apply fvec_length|]. split; [exact K|]. pose proof (C60_only_positive (H := exact_env) (fvec 1000 x) 16000 None 512 0.025 0.010 "hamming") as Q. change 512%Z with (Z.of_nat 512) in Q. rewrite E in Q. exact Q.
Qed.

(** C88. The result does not depend on the volume or sign of the signal, with or without the
    band-pass filter, whatever its coefficients are. *)
Theorem C88_gain : forall `{Env} N x fs wl wh wt L hop n g p, cut_config fs wl wh wt N L hop -> (1 <= n)%nat -> g <> 0 ->
  get_dominant_frequencies (fvec N (fun t => g * x t)) fs None (Z.of_nat n) wl wh wt p
  = get_dominant_frequencies (fvec N x) fs None (Z.of_nat n) wl wh wt p.
Proof. exact @dominant_gain. Qed.
Print Assumptions C88_gain.
(** With butter_filter the analysed signal is the response of the recursive filter. *)
Theorem C88_filtered : forall `{Env} N x y fs wl wh wt n d b a p, (1 <= d)%nat -> iir_response d b a x y ->
  get_dominant_frequencies (fvec N x) fs (Some (fvec (S d) b, fvec (S d) a)) n wl wh wt p
  = get_dominant_frequencies (fvec N y) fs None n wl wh wt p.
Proof.
  intros. unfold get_dominant_frequencies. rewrite (lfilter_fvec d b a x y) by auto. reflexivity.
Qed.
Print Assumptions C88_filtered.
Theorem C88_filtered_gain : forall `{Env} N x fs wl wh wt L hop n d b a g p, cut_config fs wl wh wt N L hop -> (1 <= n)%nat ->
  (1 <= d)%nat -> g <> 0 -> let bu := Some (fvec (S d) b, fvec (S d) a) in
  get_dominant_frequencies (fvec N (fun t => g * x t)) fs bu (Z.of_nat n) wl wh wt p
  = get_dominant_frequencies (fvec N x) fs bu (Z.of_nat n) wl wh wt p.
Proof.
  intros E N x fs wl wh wt L hop n d b a g p HC Hn Hd Hg bu. destruct (iir_exists d b a x) as (y & Hy). unfold bu.
  rewrite (C88_filtered N x y) by auto. rewrite (C88_filtered N _ (fun t => g * y t)) by (auto; apply iir_gain; auto).
  eapply C88_gain; eauto.
Qed.
Print Assumptions C88_filtered_gain.
Example C88_gain_example : forall x,
  @get_dominant_frequencies exact_env (fvec 1000 (fun t => -3 * x t)) 16000 None 512 0.025 0.010 "hamming" true
  = @get_dominant_frequencies exact_env (fvec 1000 x) 16000 None 512 0.025 0.010 "hamming" true.
Proof.
  intros x. apply (C88_gain (H := exact_env) 1000 x 16000 0.025 0.010 "hamming" 400 160 512); [apply default_cut; lia|lia|lra].
Qed.
(** a first-order recursive filter: y(t) = x(t) + y(t-1)/2; its impulse response is 1/2^t *)
Example C88_example : iir_response 1 (fun j => if Nat.eqb j 0 then 1 else 0) (fun j => if Nat.eqb j 0 then 1 else -1/2)
                        (fun t => if Nat.eqb t 0 then 1 else 0) (fun t => (/ 2) ^ t).
Proof.
  intros [|n]; cbn [bigsum]; unfold past; cbn [Nat.leb Nat.eqb Nat.sub pow]; [lra|]. rewrite Nat.sub_0_r. cbn [Nat.eqb]. lra.
Qed.

(** C89. Signals with a known answer.  A signal without negative samples (a recording with a large
    offset) is reported as 0 Hz in every frame whatever oscillation it contains; ... *)
Theorem C89_offset : forall `{Env} N x fs wl wh wt L hop n p, cut_config fs wl wh wt N L hop -> (1 <= n)%nat ->
  (forall t, (t < N)%nat -> 0 <= x t) ->
  get_dominant_frequencies (fvec N x) fs None (Z.of_nat n) wl wh wt p = Ok (fvec (frame_count N L hop) (fun _ => 0)).
Proof. exact @dominant_dc. Qed.
Print Assumptions C89_offset.
(** ... a tone at half the sampling rate disappears from the result. *)
Theorem C89_nyquist : forall `{Env} N c fs wl wh L hop h, cut_config fs wl wh "hamming" N L hop ->
  (1 <= h)%nat -> (2 <= L)%nat -> c <> 0 -> (Z.of_nat (S h) < 2000 * fs)%Z ->
  get_dominant_frequencies (fvec N (fun t => (-1) ^ t * c)) fs None (Z.of_nat (2 * h)) wl wh "hamming" true = Ok [].
Proof. exact @dominant_nyquist. Qed.
Print Assumptions C89_nyquist.
Example C89_example :
  @get_dominant_frequencies exact_env (fvec 1000 (fun t => (-1) ^ t * 0.5)) 16000 None 512 0.025 0.010 "hamming" true = Ok [] /\
  @get_dominant_frequencies exact_env (fvec 1000 (fun t => 1 + 0.9 * sin (2 * PI * 1000 * INR t / 16000))) 16000 None 512
     0.025 0.010 "hamming" true = Ok (repeat (Fin 0) 4).
Proof.
  split.
  - apply (C89_nyquist (H := exact_env) 1000 0.5 16000 0.025 0.010 400 160 256); try lia; try lra. apply default_cut. lia.
  - change 512%Z with (Z.of_nat 512). rewrite (C89_offset (H := exact_env) 1000 _ 16000 0.025 0.010 "hamming" 400 160); try lia.
    + reflexivity.
    + apply default_cut. lia.
    + intros t Ht. pose proof (SIN_bound (2 * PI * 1000 * INR t / 16000)). lra.
Qed.

(** C90. A frame containing a NaN among the samples that enter the transform is reported as 0 Hz. *)
Theorem C90_nan_frame : forall `{Env} sig fs nfft wl wh wt v fr L i t,
  get_dominant_frequencies sig fs None nfft wl wh wt false = Ok v -> framing sig fs wl wh = Ok (fr, L) ->
  In wt window_names -> (i < List.length fr)%nat -> (t < List.length (nth i fr []))%nat -> (Z.of_nat t < nfft)%Z ->
  nth t (nth i fr []) f0 = NaN -> nth i v NaN = Fin 0.
Proof. exact @dominant_NaN. Qed.
Print Assumptions C90_nan_frame.
Example C90_example : @get_dominant_frequencies exact_env [NaN; Fin 3] 2 None 4 1 1 "hamming" false = Ok [Fin 0].
Proof.
  assert (Hf : @framing exact_env [NaN; Fin 3] 2 1 1 = Ok ([[NaN; Fin 3]], 2%Z)).
  { rewrite (framing_exact _ _ _ _ 2 2); try lra; try lia. reflexivity. }
  assert (Hv : exists q, @get_dominant_frequencies exact_env [NaN; Fin 3] 2 None 4 1 1 "hamming" false = Ok [q]).
  { unfold get_dominant_frequencies. rewrite Hf. cbn [rbind].
    rewrite windowing_eq by (try lia; try reflexivity; repeat constructor). cbn [rbind map mapM].
    change 4%Z with (Z.of_nat 4). rewrite (dominant_of_NaN 4 2 _ 0); try (cbn; lia); [eexists; reflexivity|reflexivity]. }
  destruct Hv as [q Hq]. rewrite Hq.
  assert (E : nth 0 [q] NaN = Fin 0); [|cbn [nth] in E; rewrite E; reflexivity].
  eapply (C90_nan_frame (H := exact_env) _ _ _ _ _ _ _ _ _ 0 0 Hq Hf); cbn; try lia; tauto.
Qed.
