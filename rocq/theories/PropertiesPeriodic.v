(** * C183-C184: which windows compute_yin calls voiced *)
From Coq Require Import Reals ZArith List String Bool Lia Lra Psatz.
From Verif Require Import Base BaseFacts SpecBase SpecMat BigSum MatFacts SpecFeatures Yin SpecYin YinFacts SpecPeriodic PeriodicFacts PropertiesYin.
Import ListNotations.
Local Open Scope R_scope.

(** ** C183: windows that nearly repeat *)
(** A window within [e] of a waveform that repeats every [p] samples is voiced, whatever the waveform. *)
Theorem C183_window : forall `{Env} N x y e fs wl wh low high th L hop lo T p,
  yin_config fs wl wh low high L hop lo T -> (S T <= L)%nat -> (1 <= lo <= p)%nat -> (p <= T)%nat ->
  let n := yin_frames N L hop in
  forall P H A tm, compute_yin (fvec N x) fs wl wh low high th = Ok (P, H, A, tm) ->
  forall i, (i < n)%nat -> repeats p y -> (forall t, (t < L)%nat -> Rabs (yin_x hop x i t - y t) <= e) -> 2 * e < period_dev p y ->
  (2 * e / (period_dev p y - 2 * e)) ^ 2 < th ->
  exists q h, (lo <= q <= T)%nat /\ nth i P NaN = Fin (IZR fs / INR q) /\ nth i H NaN = Fin h /\ h < th /\ ((p <= q)%nat -> h <= (2 * e / (period_dev p y - 2 * e)) ^ 2).
Proof. exact @yin_near. Qed.
Print Assumptions C183_window.
(** So is every window of a recording of a repeating sound in noise. *)
Theorem C183_noise : forall `{Env} N x y e fs wl wh low high th L hop lo T p,
  yin_config fs wl wh low high L hop lo T -> (S T <= L)%nat -> (1 <= lo <= p)%nat -> (p <= T)%nat ->
  repeats p y -> (forall t, (t < N)%nat -> Rabs (x t - y t) <= e) -> 2 * e < period_dev p y -> (2 * e / (period_dev p y - 2 * e)) ^ 2 < th ->
  let n := yin_frames N L hop in
  exists P H A tm, compute_yin (fvec N x) fs wl wh low high th = Ok (P, H, A, tm) /\
  forall i, (i < n)%nat -> exists q h, (lo <= q <= T)%nat /\ nth i P NaN = Fin (IZR fs / INR q) /\ nth i H NaN = Fin h /\ h < th /\ ((p <= q)%nat -> h <= (2 * e / (period_dev p y - 2 * e)) ^ 2).
Proof. exact @yin_near_all. Qed.
Print Assumptions C183_noise.
(** A window whose differences are alike at all lags is not. *)
Theorem C183_unvoiced : forall `{Env} N x fs wl wh low high th L hop lo T a b,
  yin_config fs wl wh low high L hop lo T -> (S T <= L)%nat -> (1 <= lo)%nat ->
  let n := yin_frames N L hop in
  forall P H A tm, compute_yin (fvec N x) fs wl wh low high th = Ok (P, H, A, tm) ->
  forall i, (i < n)%nat -> 0 < b -> th * b <= a -> 0 < a -> (forall k, (1 <= k <= T)%nat -> a <= yin_d L (yin_x hop x i) k <= b) ->
  nth i P NaN = Fin 0.
Proof. exact @yin_alike. Qed.
Print Assumptions C183_unvoiced.

(** a square wave of period 100 *)
Definition square (t : nat) : R := if Nat.ltb (t mod 100) 50 then 1 else -1.
Lemma square_repeats : repeats 100 square.
Proof. intros t. unfold square. replace (t + 100)%nat with (t + 1 * 100)%nat by lia. rewrite Nat.mod_add by lia. reflexivity. Qed.
Lemma square_dev : period_dev 100 square = 1.
Proof.
  assert (S50 : forall g, bigsum 100 (fun t => g (square t)) = 50 * g 1 + 50 * g (-1)).
  { intros g. change 100%nat with (50 + 50)%nat. rewrite bigsum_split.
    rewrite (bigsum_ext 50 (fun t => g (square t)) (fun _ => g 1)), (bigsum_ext 50 (fun t => g (square (50 + t))) (fun _ => g (-1))).
    - rewrite !bigsum_const, INR_IZR_INZ. reflexivity.
    - intros t Ht. unfold square. rewrite Nat.mod_small by lia. destruct (Nat.ltb_spec (50 + t) 50); [lia|reflexivity].
    - intros t Ht. unfold square. rewrite Nat.mod_small by lia. destruct (Nat.ltb_spec t 50); [reflexivity|lia]. }
  assert (M : period_mean 100 square = 0) by (unfold period_mean; pose proof (S50 (fun v => v)) as Q; change (bigsum 100 square = 50 * 1 + 50 * -1) in Q; rewrite Q; unfold Rdiv; ring).
  unfold period_dev. rewrite M. pose proof (S50 (fun v => (v - 0) ^ 2)) as Q. cbv beta in Q. rewrite Q. rewrite INR_IZR_INZ. change (IZR (Z.of_nat 100)) with 100.
  replace ((50 * (1 - 0) ^ 2 + 50 * (-1 - 0) ^ 2) / 100) with 1 by field. apply sqrt_1.
Qed.
(** with a buzz of a tenth of its amplitude *)
Example C183_noise_example : forall N, exists P H A tm, @compute_yin exact_env (fvec N (fun t => square t + (-1) ^ t / 10)) 16000 0.03 0.015 50 3000 0.1 = Ok (P, H, A, tm) /\
  forall i, (i < yin_frames N 480 240)%nat -> exists q h, (5 <= q <= 319)%nat /\ nth i P NaN = Fin (16000 / INR q) /\ nth i H NaN = Fin h /\ h < 0.1 /\ ((100 <= q)%nat -> h <= 1 / 16).
Proof.
  intros N. destruct (@C183_noise exact_env N (fun t => square t + (-1) ^ t / 10) square (1 / 10) 16000 0.03 0.015 50 3000 0.1 480 240 5 319 100 default_yin) as (P & H & A & tm & E & B); try lia.
  - exact square_repeats.
  - intros t _. replace (square t + (-1) ^ t / 10 - square t) with ((-1) ^ t * (1 / 10)) by field. rewrite Rabs_mult, pow_1_abs, Rabs_pos_eq; lra.
  - rewrite square_dev. lra.
  - rewrite square_dev. lra.
  - exists P, H, A, tm. split; [exact E|]. intros i Hi. destruct (B i Hi) as (q & h & B1 & B2 & B3 & B4 & B5). exists q, h. do 4 (split; [assumption|]).
    intros K. specialize (B5 K). rewrite square_dev in B5. lra.
Qed.
(** fading by one percent per 100 samples: the first window *)
Example C183_window_example : forall P H A tm, @compute_yin exact_env (fvec 2000 (fun t => square t * (1 - INR t / 10000))) 16000 0.03 0.015 50 3000 0.1 = Ok (P, H, A, tm) ->
  exists q h, (5 <= q <= 319)%nat /\ nth 0 P NaN = Fin (16000 / INR q) /\ nth 0 H NaN = Fin h /\ h < 0.1.
Proof.
  intros P H A tm E. destruct (@C183_window exact_env 2000 _ square (48 / 1000) 16000 0.03 0.015 50 3000 0.1 480 240 5 319 100 default_yin ltac:(lia) ltac:(lia) ltac:(lia) P H A tm E 0%nat) as (q & h & B1 & B2 & B3 & B4 & _).
  - change (0 < (2000 - 480 + (240 - 1)) / 240)%nat. apply Nat.div_str_pos. lia.
  - exact square_repeats.
  - intros t Ht. unfold yin_x. rewrite Nat.mul_0_l, Nat.add_0_l. replace (square t * (1 - INR t / 10000) - square t) with (- (square t * (INR t / 10000))) by ring.
    rewrite Rabs_Ropp, Rabs_mult. assert (T1 : INR t <= 480) by (rewrite INR_IZR_INZ; apply IZR_le; lia). pose proof (pos_INR t) as T0.
    assert (S1 : Rabs (square t) = 1) by (unfold square; destruct (Nat.ltb _ _); [apply Rabs_pos_eq; lra|rewrite Rabs_left; lra]). rewrite S1, Rabs_pos_eq by lra. lra.
  - rewrite square_dev. lra.
  - rewrite square_dev. lra.
  - exists q, h. auto.
Qed.
(** a click at the start of the window *)
Example C183_unvoiced_example : forall P H A tm, @compute_yin exact_env (fvec 2000 (fun t => if Nat.eqb t 0 then 1 else 0)) 16000 0.03 0.015 50 3000 0.1 = Ok (P, H, A, tm) -> nth 0 P NaN = Fin 0.
Proof.
  intros P H A tm E. apply (@C183_unvoiced exact_env 2000 _ 16000 0.03 0.015 50 3000 0.1 480 240 5 319 1 1 default_yin ltac:(lia) ltac:(lia) P H A tm E 0%nat); try lra.
  - change (0 < (2000 - 480 + (240 - 1)) / 240)%nat. apply Nat.div_str_pos. lia.
  - intros k Hk. rewrite (click_d 480 _ 0 1 0 k); try lia.
    + destruct (Nat.ltb_spec (0 + k) 480); [|lia]. destruct (Nat.leb_spec k 0); [lia|]. lra.
    + intros t _. unfold yin_x. rewrite Nat.mul_0_l, Nat.add_0_l. destruct (Nat.eqb t 0); lra.
Qed.

(** ** C184: windows of silence around a burst *)
(** Whatever happens between samples a and b of a window, with silence (or any constant) before and after, is
    reported as voiced once max(b, L-a) is among the lags: noise and clicks too. *)
Theorem C184_burst_unvoiced_refuted : forall `{Env} N x fs wl wh low high th L hop lo T a b c,
  yin_config fs wl wh low high L hop lo T -> (S T <= L)%nat -> (1 <= lo)%nat -> 0 < th -> (lo <= Nat.max b (L - a) <= T)%nat ->
  let n := yin_frames N L hop in
  forall P H A tm, compute_yin (fvec N x) fs wl wh low high th = Ok (P, H, A, tm) ->
  forall i, (i < n)%nat -> (forall t, (t < L)%nat -> (t < a \/ b <= t)%nat -> yin_x hop x i t = c) ->
  (exists u, (S u < L)%nat /\ yin_x hop x i u <> yin_x hop x i (S u)) ->
  exists q, (lo <= q <= Nat.max b (L - a))%nat /\ nth i P NaN = Fin (IZR fs / INR q).
Proof. exact @yin_burst. Qed.
Print Assumptions C184_burst_unvoiced_refuted.
(** The pitch of a single click tells where in the window it is. *)
Theorem C184_click : forall `{Env} N x fs wl wh low high th L hop lo T j g c,
  yin_config fs wl wh low high L hop lo T -> (S T <= L)%nat -> 0 < th <= / 2 -> (j < L)%nat -> g <> 0 ->
  let m := S (Nat.max j (L - 1 - j)) in (1 <= lo <= m)%nat -> (m <= T)%nat ->
  let n := yin_frames N L hop in
  forall P H A tm, compute_yin (fvec N x) fs wl wh low high th = Ok (P, H, A, tm) ->
  forall i, (i < n)%nat -> (forall t, (t < L)%nat -> yin_x hop x i t = if Nat.eqb t j then c + g else c) ->
  nth i P NaN = Fin (IZR fs / INR m) /\ nth i H NaN = Fin 0.
Proof. exact @yin_click. Qed.
Print Assumptions C184_click.
(** 100 arbitrary samples in the middle of 30 ms of silence at 16 kHz *)
Example C184_burst_example : forall w P H A tm, w 200%nat <> 0 -> let x t := if andb (Nat.leb 200 t) (Nat.ltb t 300) then w t else 0 in
  @compute_yin exact_env (fvec 2000 x) 16000 0.03 0.015 50 3000 0.1 = Ok (P, H, A, tm) -> exists q, (5 <= q <= 300)%nat /\ nth 0 P NaN = Fin (16000 / INR q).
Proof.
  intros w P H A tm Hw x E.
  apply (@C184_burst_unvoiced_refuted exact_env 2000 x 16000 0.03 0.015 50 3000 0.1 480 240 5 319 200 300 0 default_yin ltac:(lia) ltac:(lia) ltac:(lra) ltac:(cbn; lia) P H A tm E 0%nat).
  - change (0 < (2000 - 480 + (240 - 1)) / 240)%nat. apply Nat.div_str_pos. lia.
  - intros t Ht K. unfold yin_x, x. rewrite Nat.mul_0_l, Nat.add_0_l. destruct (Nat.leb_spec 200 t), (Nat.ltb_spec t 300); cbn [andb]; try lia; reflexivity.
  - exists 199%nat. split; [lia|]. unfold yin_x, x. cbn [Nat.mul Nat.add Nat.leb Nat.ltb andb]. intros K. apply Hw. symmetry. exact K.
Qed.
(** a click at sample 240 of the window: 16000/241, about 66 Hz *)
Example C184_click_example : forall P H A tm, @compute_yin exact_env (fvec 2000 (fun t => if Nat.eqb t 240 then 1 else 0)) 16000 0.03 0.015 50 3000 0.1 = Ok (P, H, A, tm) ->
  nth 0 P NaN = Fin (16000 / INR 241) /\ nth 0 H NaN = Fin 0.
Proof.
  intros P H A tm E. apply (@C184_click exact_env 2000 _ 16000 0.03 0.015 50 3000 0.1 480 240 5 319 240 1 0 default_yin ltac:(lia) ltac:(lra) ltac:(lia) ltac:(lra) ltac:(cbn; lia) ltac:(cbn; lia) P H A tm E 0%nat).
  - change (0 < (2000 - 480 + (240 - 1)) / 240)%nat. apply Nat.div_str_pos. lia.
  - intros t _. unfold yin_x. rewrite Nat.mul_0_l, Nat.add_0_l. destruct (Nat.eqb t 240); lra.
Qed.
