(** * Property theorems: the YIN pitch estimator (C54-C58, C84-C87) *)
From Coq Require Import Reals ZArith List String Bool Lia Lra.
From Flocq Require Import Core.Raux.
From Verif Require BarkMore.
From Verif Require Import Base BaseFacts SpecBase SpecMat SpecFeatures SpecBanks BigSum MatFacts Yin SpecYin YinFacts.
Import ListNotations.
Local Open Scope R_scope.

(** C54. The difference function. *)
Theorem C54_difference : forall L f T, (0 <= T)%Z ->
  compute_difference (fvec L f) T
  = fvec (Nat.min (Z.to_nat T) L) (fun tau => bigsum (L - tau) (fun j => (f j - f (j + tau)%nat) ^ 2)).
Proof. exact compute_difference_fvec. Qed.
Print Assumptions C54_difference.
Theorem C54_nonneg : forall frame T, Forall finite frame ->
  Forall (fun v => exists r, v = Fin r /\ 0 <= r) (compute_difference frame T) /\
  ((1 <= T)%Z -> frame <> [] -> nth 0 (compute_difference frame T) NaN = Fin 0).
Proof. exact difference_nonneg. Qed.
Print Assumptions C54_nonneg.
Example C54_nonneg_example : forall a b c, nth 0 (compute_difference [Fin a; Fin b; Fin c] 5) NaN = Fin 0.
Proof. intros a b c. apply C54_nonneg; [repeat constructor; eexists; reflexivity|lia|discriminate]. Qed.
Example C54_example : compute_difference [Fin 1; Fin 3; Fin 2] 5 = [Fin 0; Fin 5; Fin 1].
Proof.
  change [Fin 1; Fin 3; Fin 2] with (fvec 3 (fun i => nth i [1; 3; 2] 0)).
  rewrite C54_difference by lia. change (Nat.min (Z.to_nat 5) 3) with 3%nat. cbn.
  repeat (apply f_equal2; [f_equal; ring|]). reflexivity.
Qed.

(** C55. Cumulative mean normalisation: 1 at lag 0, tau*d(tau)/(d(1)+...+d(tau)) at lag tau, NaN
    as long as that sum is 0. *)
Theorem C55_cmnd : forall T d, (forall k, (1 <= k <= T)%nat -> 0 <= d k) ->
  compute_cmnd (fvec (S T) d) (Z.of_nat (S T))
  = Ok (map (fun tau => if Nat.eqb tau 0 then Fin 1
                        else let s := bigsum tau (fun u => d (S u)) in
                             if Req_EM_T s 0 then NaN else Fin (d tau * INR tau / s)) (seq 0 (S T))).
Proof. exact compute_cmnd_fvec. Qed.
Print Assumptions C55_cmnd.
Theorem C55_gain : forall d T k, Forall finite d -> 0 < k ->
  compute_cmnd (map (fmul (Fin k)) d) T = compute_cmnd d T.
Proof. exact compute_cmnd_gain. Qed.
Print Assumptions C55_gain.
Theorem C55_mismatch : forall d T, let m := zlen (skipn 1 d) in
  (m <> Z.max 0 (T - 1))%Z -> (m <> 1)%Z -> (T <> 2)%Z -> compute_cmnd d T = Raise ValueError.
Proof. exact compute_cmnd_mismatch. Qed.
Print Assumptions C55_mismatch.
(** The values: the one at lag 1 is 1 (or NaN), the one at lag tau is between 0 and tau. *)
Theorem C55_range : forall d tau r, (forall k, 0 <= d k) -> yin_c d tau = Fin r ->
  0 <= r <= Rmax 1 (INR tau) /\ (tau = 1%nat -> r = 1).
Proof. exact yin_c_range. Qed.
Print Assumptions C55_range.
Example C55_range_example : forall r, yin_c (fun k => INR k) 3 = Fin r -> 0 <= r <= 3.
Proof.
  intros r E. destruct (C55_range INR 3 r pos_INR E) as ((H1 & H2) & _). split; [exact H1|].
  eapply Rle_trans; [exact H2|]. apply Rmax_lub; cbn; lra.
Qed.
Example C55_gain_example : forall a b c, compute_cmnd [Fin (7 * a); Fin (7 * b); Fin (7 * c)] 3 = compute_cmnd [Fin a; Fin b; Fin c] 3.
Proof. intros a b c. apply (C55_gain [Fin a; Fin b; Fin c] 3 7); [repeat constructor; eexists; reflexivity|lra]. Qed.
Example C55_example : compute_cmnd [Fin 0; Fin 5; Fin 1] 3 = Ok [Fin 1; Fin 1; Fin (1/3)] /\
                      compute_cmnd [Fin 0; Fin 5; Fin 1] 7 = Raise ValueError.
Proof.
  split.
  - change [Fin 0; Fin 5; Fin 1] with (fvec 3 (fun i => nth i [0; 5; 1] 0)).
    rewrite (C55_cmnd 2) by (intros [|[|[|k]]] Hk; cbn; lra || lia). cbn. f_equal.
    destruct (Req_EM_T (0 + 5) 0); [lra|]. destruct (Req_EM_T (0 + 5 + 1) 0); [lra|].
    repeat (apply f_equal2; [f_equal; lra|]). reflexivity.
  - apply C55_mismatch; cbn; lia.
Qed.

(** C56. The search.  For every curve at least as long as the range of lags: *)
Theorem C56_get_pitch : forall c lo hi th, (hi <= List.length c)%nat ->
  let v t := nth t c NaN in
  (get_pitch c (Z.of_nat lo) (Z.of_nat hi) th = Ok 0%Z /\ yin_unvoiced v lo hi th) \/
  (exists s p, get_pitch c (Z.of_nat lo) (Z.of_nat hi) th = Ok (Z.of_nat p) /\ yin_lag v lo hi th s p).
Proof. exact get_pitch_ok. Qed.
Print Assumptions C56_get_pitch.
(** ... and the lag is determined by that description. *)
Theorem C56_unique : forall c lo hi th s p s' p',
  yin_lag c lo hi th s p -> yin_lag c lo hi th s' p' -> s = s' /\ p = p' /\ ~ yin_unvoiced c lo hi th.
Proof.
  intros c lo hi th s p s' p' H1 H2. destruct (yin_lag_unique _ _ _ _ _ _ _ _ H1 H2).
  split; [auto|]. split; [auto|]. eapply yin_lag_voiced; eauto.
Qed.
Print Assumptions C56_unique.
(** A curve that is too short makes the search fail unless it ends before. *)
Theorem C56_short : forall c lo hi th, (List.length c < hi)%nat -> (lo < hi)%nat ->
  yin_unvoiced (fun t => nth t c NaN) lo (List.length c) th ->
  get_pitch c (Z.of_nat lo) (Z.of_nat hi) th = Raise IndexError.
Proof. exact get_pitch_short. Qed.
Print Assumptions C56_short.
Example C56_short_example : get_pitch [Fin 1; Fin 2; Fin 3] 1 6 1 = Raise IndexError.
Proof.
  apply (C56_short [Fin 1; Fin 2; Fin 3] 1 6 1); [cbn; lia|lia|]. intros t Ht. cbn in Ht.
  destruct t as [|[|[|t]]]; try lia; cbn; apply Rltb_false; lra.
Qed.
Example C56_example : get_pitch [Fin 1; Fin 2; Fin (1/2); Fin (1/4); Fin 3; Fin 0] 1 6 1 = Ok 3%Z.
Proof.
  set (c := [Fin 1; Fin 2; Fin (1/2); Fin (1/4); Fin 3; Fin 0]).
  assert (K : yin_lag (fun t => nth t c NaN) 1 6 1 2 3).
  { split; [lia|]. split; [lia|]. split; [cbn; apply Rltb_true; lra|]. split.
    - intros t Ht. assert (t = 1%nat) as -> by lia. cbn. apply Rltb_false. lra.
    - split; [|intros _; cbn; apply Rltb_false; lra]. intros t Ht. assert (t = 2%nat) as -> by lia. cbn. apply Rltb_true. lra. }
  destruct (C56_get_pitch c 1 6 1 ltac:(cbn; lia)) as [[_ H]|(s & p & H1 & H2)].
  - exfalso. exact (proj2 (proj2 (C56_unique _ _ _ _ _ _ _ _ K K)) H).
  - destruct (C56_unique _ _ _ _ _ _ _ _ K H2) as (_ & <- & _). exact H1.
Qed.

(** C57. compute_yin on every finite signal. [c] is the normalised difference curve of frame i. *)
Theorem C57_compute_yin : forall `{Env} N x fs wl wh low high th L hop lo T,
  yin_config fs wl wh low high L hop lo T -> (S T <= L)%nat ->
  let n := yin_frames N L hop in
  exists P H A, compute_yin (fvec N x) fs wl wh low high th
    = Ok (map P (seq 0 n), map H (seq 0 n), map A (seq 0 n), fvec n (fun i => INR (i * hop) / IZR fs)) /\
  forall i, (i < n)%nat -> let c := yin_c (yin_d L (yin_x hop x i)) in
    (exists a, is_argmin c (S T) a /\ A i = if Nat.ltb lo a then Fin (IZR fs / INR a) else Fin 0) /\
    ((exists s p, yin_lag c lo (S T) th s p /\ (1 <= p)%nat /\ P i = Fin (IZR fs / INR p) /\ H i = c p) \/
     ((yin_unvoiced c lo (S T) th \/ exists s, yin_lag c lo (S T) th s 0) /\ P i = Fin 0 /\
       H i <> NaN /\ (exists t, (t <= T)%nat /\ H i = c t) /\ forall t, (t <= T)%nat -> fltb (c t) (H i) = false)).
Proof. exact @compute_yin_ok. Qed.
Print Assumptions C57_compute_yin.
(** Every pitch is 0 or above low_freq, for every sensible rounding of the quotients; a pitch
    exceeds high_freq by less than the factor fs/(fs-high_freq). *)
Theorem C57_range : forall `{Env} N x fs wl wh low high th L hop lo T, sane_rounding rnd ->
  yin_config fs wl wh low high L hop lo T -> (S T <= L)%nat -> 0 < low -> 0 < high < IZR fs -> (1 <= lo)%nat ->
  (Z.of_nat (S T) <= 4503599627370496)%Z ->
  forall P H A tm, compute_yin (fvec N x) fs wl wh low high th = Ok (P, H, A, tm) ->
  forall v, In v P -> v = Fin 0 \/ exists r, v = Fin r /\ low < r /\ r < high * (IZR fs / (IZR fs - high)).
Proof. exact @yin_pitch_range. Qed.
Print Assumptions C57_range.
(** It can exceed high_freq: whenever fs/high_freq is not an integer there are signals for which
    every window reports a pitch above high_freq. *)
Theorem C57_high_freq_refuted : forall N fs wl wh low high th L hop lo T,
  @yin_config exact_env fs wl wh low high L hop lo T -> (S T <= L)%nat -> (2 <= lo <= T)%nat -> 0 < th -> 0 < high ->
  IZR fs / high <> INR lo ->
  let x t := if Nat.eqb (t mod lo) 0 then 1 else 0 in
  exists P H A tm, @compute_yin exact_env (fvec N x) fs wl wh low high th = Ok (P, H, A, tm) /\
    List.length P = yin_frames N L hop /\
    Forall (fun v => v = Fin (IZR fs / INR lo)) P /\ high < IZR fs / INR lo.
Proof. exact yin_high_refuted. Qed.
Print Assumptions C57_high_freq_refuted.
(** The window that ends exactly at the end of the signal is not analysed. *)
Theorem C57_last_window : forall L hop k, (1 <= hop)%nat ->
  yin_frames (L + k * hop) L hop = k /\ frame_count (L + k * hop) L hop = S k.
Proof. exact yin_last_window. Qed.
Print Assumptions C57_last_window.

(** the default parameters at 16 kHz: windows of 480 samples every 240, lags 5 to 319 *)
Lemma default_yin : @yin_config exact_env 16000 0.03 0.015 50 3000 480 240 5 319.
Proof.
  unfold yin_config. cbn [rnd exact_env]. split; [lia|]. split; [lra|]. split; [lra|].
  split; [replace (0.03 * 16000) with (IZR 480) by lra; apply Ztrunc_IZR|].
  split; [replace (0.015 * 16000) with (IZR 240) by lra; apply Ztrunc_IZR|]. split; [lia|].
  split; [|replace (16000 / 50) with (IZR 320) by lra; apply Ztrunc_IZR].
  rewrite Ztrunc_floor by lra. apply Zfloor_imp. cbn. lra.
Qed.
Example C57_example : forall N, let x t := if Nat.eqb (t mod 5) 0 then 1 else 0 in
  exists P H A tm, @compute_yin exact_env (fvec N x) 16000 0.03 0.015 50 3000 0.1 = Ok (P, H, A, tm) /\
    Forall (fun v => v = Fin (16000 / INR 5)) P /\ 3000 < 16000 / INR 5.
Proof.
  intros N x. destruct (C57_high_freq_refuted N 16000 0.03 0.015 50 3000 0.1 480 240 5 319 default_yin) as (P & H & A & tm & E1 & _ & E2 & E3);
    try lia; try lra; [cbn; lra|]. exists P, H, A, tm. auto.
Qed.
Example C57_range_example : forall N x P H A tm v, @compute_yin exact_env (fvec N x) 16000 0.03 0.015 50 3000 0.1 = Ok (P, H, A, tm) ->
  In v P -> v = Fin 0 \/ exists r, v = Fin r /\ 50 < r /\ r < 3000 * (16000 / (16000 - 3000)).
Proof.
  intros N x P H A tm v E. refine (@C57_range exact_env N x 16000 0.03 0.015 50 3000 0.1 480 240 5 319 _ default_yin _ _ _ _ _ P H A tm E v);
    try lia; try lra. exact BarkMore.exact_sane.
Qed.
Example C57_last_example : yin_frames 960 480 240 = 2%nat /\ frame_count 960 480 240 = 3%nat.
Proof. exact (C57_last_window 480 240 2 ltac:(lia)). Qed.

(** C58. A window that does not hold the longest period. *)
Theorem C58_short_window : forall `{Env} N x fs wl wh low high th L hop lo T,
  yin_config fs wl wh low high L hop lo T -> (L < N)%nat -> (L < S T)%nat -> (L <> 2)%nat -> (2 <= T)%nat ->
  compute_yin (fvec N x) fs wl wh low high th = Raise ValueError.
Proof. exact @yin_mismatch. Qed.
Print Assumptions C58_short_window.
Example C58_example : forall x, @compute_yin exact_env (fvec 1000 x) 16000 0.01 0.01 50 3000 0.1 = Raise ValueError.
Proof.
  intros x. apply (@C58_short_window exact_env 1000 x 16000 0.01 0.01 50 3000 0.1 160 160 5 319); try lia.
  destruct default_yin as (A & B & C & _ & _ & _ & D & E). repeat split; auto; try lia;
  cbn [rnd exact_env]; replace (0.01 * 16000) with (IZR 160) by lra; apply Ztrunc_IZR.
Qed.

(** C84. A window with a periodic, non-constant content whose period p is among the lags is
    reported as voiced, with a lag of at most p, whatever the (positive) threshold. *)
Theorem C84_periodic : forall `{Env} N x fs wl wh low high th L hop lo T p,
  yin_config fs wl wh low high L hop lo T -> (S T <= L)%nat -> (1 <= lo <= p)%nat -> (p <= T)%nat -> 0 < th ->
  let n := yin_frames N L hop in
  forall P H A tm, compute_yin (fvec N x) fs wl wh low high th = Ok (P, H, A, tm) ->
  forall i, (i < n)%nat -> (forall t, (t + p < L)%nat -> yin_x hop x i (t + p) = yin_x hop x i t) ->
  (exists u, (S u < L)%nat /\ yin_x hop x i u <> yin_x hop x i (S u)) ->
  exists q, (lo <= q <= p)%nat /\ nth i P NaN = Fin (IZR fs / INR q).
Proof. exact @yin_periodic. Qed.
Print Assumptions C84_periodic.
Example C84_example : forall N P H A tm i, let x t := if Nat.eqb (t mod 100) 0 then 1 else 0 in
  @compute_yin exact_env (fvec N x) 16000 0.03 0.015 50 3000 0.1 = Ok (P, H, A, tm) -> (i < yin_frames N 480 240)%nat ->
  exists q, (5 <= q <= 100)%nat /\ nth i P NaN = Fin (16000 / INR q).
Proof.
  intros N P H A tm i x Hy Hi.
  apply (@C84_periodic exact_env N x 16000 0.03 0.015 50 3000 0.1 480 240 5 319 100 default_yin ltac:(lia) ltac:(lia) ltac:(lia) ltac:(lra) P H A tm Hy i Hi).
  - intros t Ht. unfold yin_x, x. replace (i * 240 + (t + 100))%nat with (i * 240 + t + 1 * 100)%nat by lia.
    rewrite Nat.mod_add by lia. reflexivity.
  - destruct (pulse_train 100 (i * 240) ltac:(lia)) as (u & Hu & Hn). exists u. split; [lia|exact Hn].
Qed.

(** C85. compute_yin does not depend on the gain, the polarity or a constant offset of a finite
    signal: all four results are the same, for all parameters. *)
Theorem C85_gain : forall `{Env} g sig fs wl wh low high th, Forall finite sig -> g <> 0 ->
  compute_yin (map (fmul (Fin g)) sig) fs wl wh low high th = compute_yin sig fs wl wh low high th.
Proof. exact @yin_gain. Qed.
Print Assumptions C85_gain.
Theorem C85_offset : forall `{Env} c sig fs wl wh low high th, Forall finite sig ->
  compute_yin (map (fun v => fadd v (Fin c)) sig) fs wl wh low high th = compute_yin sig fs wl wh low high th.
Proof. exact @yin_offset. Qed.
Print Assumptions C85_offset.
Example C85_example :
  @compute_yin exact_env [Fin (-2); Fin (-4); Fin (-6)] 16000 0.03 0.015 50 3000 0.1
  = @compute_yin exact_env [Fin 1; Fin 2; Fin 3] 16000 0.03 0.015 50 3000 0.1.
Proof.
  rewrite <- (@C85_gain exact_env (-2) [Fin 1; Fin 2; Fin 3]) by (try lra; repeat constructor; apply finite_Fin).
  cbn [map fmul]. repeat f_equal; ring.
Qed.

(** C86. A constant (also silent) window has pitch 0, harmonic rate 1 and argmin value 0. *)
Theorem C86_constant : forall `{Env} N x fs wl wh low high th L hop lo T,
  yin_config fs wl wh low high L hop lo T -> (S T <= L)%nat -> (1 <= lo)%nat -> (1 <= T)%nat ->
  let n := yin_frames N L hop in
  forall P H A tm, compute_yin (fvec N x) fs wl wh low high th = Ok (P, H, A, tm) ->
  forall i, (i < n)%nat -> (forall t, (t < L)%nat -> yin_x hop x i t = yin_x hop x i 0) ->
  nth i P NaN = Fin 0 /\ nth i H NaN = Fin 1 /\ nth i A NaN = Fin 0.
Proof. exact @yin_constant. Qed.
Print Assumptions C86_constant.
Example C86_example : exists P H A tm,
  @compute_yin exact_env (fvec 1000 (fun _ => 7)) 16000 0.03 0.015 50 3000 0.1 = Ok (P, H, A, tm) /\
  nth 1 P NaN = Fin 0 /\ nth 1 H NaN = Fin 1 /\ nth 1 A NaN = Fin 0.
Proof.
  destruct (@C57_compute_yin exact_env 1000 (fun _ => 7) 16000 0.03 0.015 50 3000 0.1 480 240 5 319 default_yin ltac:(lia)) as (P & H & A & E & _).
  do 4 eexists. split; [exact E|].
  apply (@C86_constant exact_env 1000 (fun _ => 7) 16000 0.03 0.015 50 3000 0.1 480 240 5 319 default_yin ltac:(lia) ltac:(lia) ltac:(lia) _ _ _ _ E).
  - apply Nat.ltb_lt. reflexivity.
  - reflexivity.
Qed.

(** C87. Dropping the first hop samples drops the first value of the pitches, rates and argmins. *)
Theorem C87_shift : forall `{Env} N x fs wl wh low high th L hop lo T,
  yin_config fs wl wh low high L hop lo T -> (hop <= N)%nat ->
  forall P H A tm, compute_yin (fvec N x) fs wl wh low high th = Ok (P, H, A, tm) ->
  exists tm', compute_yin (skipn hop (fvec N x)) fs wl wh low high th = Ok (skipn 1 P, skipn 1 H, skipn 1 A, tm').
Proof. exact @yin_shift. Qed.
Print Assumptions C87_shift.
Example C87_example : forall x, exists P H A tm tm',
  @compute_yin exact_env (fvec 1000 x) 16000 0.03 0.015 50 3000 0.1 = Ok (P, H, A, tm) /\
  @compute_yin exact_env (skipn 240 (fvec 1000 x)) 16000 0.03 0.015 50 3000 0.1 = Ok (skipn 1 P, skipn 1 H, skipn 1 A, tm').
Proof.
  intros x. destruct (@C57_compute_yin exact_env 1000 x 16000 0.03 0.015 50 3000 0.1 480 240 5 319 default_yin ltac:(lia)) as (P & H & A & E & _).
  destruct (@C87_shift exact_env 1000 x 16000 0.03 0.015 50 3000 0.1 480 240 5 319 default_yin ltac:(lia) _ _ _ _ E) as (tm' & E').
  do 5 eexists. split; [exact E|exact E'].
Qed.
