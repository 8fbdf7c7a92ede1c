(** * Property theorems: framing, pre-emphasis, zero handling, windows (C01-C10) *)
From Coq Require Import Reals ZArith List String Bool Lia Lra.
From Flocq Require Import Core.Raux.
From Verif Require Import Base BaseFacts SpecBase Preprocessing PreprocessingFacts WindowFacts
  Binary64 Binary64Facts ExampleTools.
Import ListNotations.
Local Open Scope R_scope.

(** C01. Row i, column j of the frames is sample i*hop+j, for any rounding. *)
Theorem C01_framing_content : forall `{Env} sig fs wl wh frames L,
  framing sig fs wl wh = Ok (frames, L) ->
  let hop := Ztrunc (rnd (wh * IZR fs)) in
  L = Ztrunc (rnd (wl * IZR fs)) /\
  zlen frames = ((zlen sig - L) / hop + 1)%Z /\
  Forall (fun row => zlen row = L) frames /\
  forall i j, (0 <= i < zlen frames)%Z -> (0 <= j < L)%Z ->
    (0 <= i * hop + j < zlen sig)%Z /\
    nth (Z.to_nat j) (nth (Z.to_nat i) frames []) NaN = nth (Z.to_nat (i * hop + j)) sig NaN.
Proof. exact @framing_content. Qed.
Print Assumptions C01_framing_content.

Example C01_example :
  framing (H := exact_env) (map Fin [1; 2; 3; 4; 5; 6]) 1000 (3 / 1000) (2 / 1000)
  = Ok ([map Fin [1; 2; 3]; map Fin [3; 4; 5]], 3%Z).
Proof. rewrite (framing_exact _ _ _ _ 3 2); try lra; try lia. reflexivity. Qed.

(** C02. A mono signal and a positive hop are always safe. *)
Theorem C02_framing_memory_safe : forall `{Env} sig fs wl wh,
  (0 < Ztrunc (rnd (wh * IZR fs)))%Z -> framing sig fs wl wh <> Raise OutOfBoundsRead.
Proof. exact @framing_safe. Qed.
Print Assumptions C02_framing_memory_safe.
Example C02_example : forall sig, framing (H := exact_env) sig 1000 (3 / 1000) (2 / 1000) <> Raise OutOfBoundsRead.
Proof.
  intros sig. apply C02_framing_memory_safe. cbn. replace (2 / 1000 * 1000) with (IZR 2) by lra. rewrite Ztrunc_IZR. lia.
Qed.

(** C02. Every signal with c >= 2 columns whose hop is at most (c-1)*N samples is
    read outside its buffer. *)
Theorem C02_multichannel_refuted : forall `{Env} c sig fs wl wh,
  (2 <= c)%nat -> Forall (fun row => List.length row = c) sig ->
  wh <= wl -> (1 <= Ztrunc (rnd (wh * IZR fs)) <= (Z.of_nat c - 1) * zlen sig)%Z ->
  (1 <= Ztrunc (rnd (wl * IZR fs)) <= zlen sig * Z.of_nat c)%Z ->
  framing_multi c sig fs wl wh = Raise OutOfBoundsRead.
Proof. exact @framing_multi_unsafe. Qed.
Print Assumptions C02_multichannel_refuted.

Example C02_multichannel_example :
  framing_multi (H := exact_env) 2 [map Fin [1; 1]; map Fin [2; 2]; map Fin [3; 3]] 1000
    (2 / 1000) (1 / 1000) = Raise OutOfBoundsRead.
Proof.
  apply C02_multichannel_refuted; simpl (rnd _); try lra; try lia.
  - repeat constructor.
  - replace (1 / 1000 * 1000) with (IZR 1) by lra. rewrite Ztrunc_IZR. simpl. lia.
  - replace (2 / 1000 * 1000) with (IZR 2) by lra. rewrite Ztrunc_IZR. simpl. lia.
Qed.

(** C02. A negative hop with a signal shorter than the window is unsafe as well. *)
Theorem C02_negative_hop_refuted : forall `{Env} sig fs wl wh,
  wh <= wl -> (Ztrunc (rnd (wh * IZR fs)) < 0)%Z -> (0 <= Ztrunc (rnd (wl * IZR fs)))%Z ->
  (zlen sig < Ztrunc (rnd (wl * IZR fs)))%Z ->
  framing sig fs wl wh = Raise OutOfBoundsRead.
Proof. intros. apply (framing_neg_hop sig fs wl wh); auto. Qed.
Print Assumptions C02_negative_hop_refuted.

(** C03. Exactly (N-len) mod hop trailing samples are in no frame, all others are. *)
Theorem C03_framing_coverage : forall `{Env} sig fs wl wh frames L,
  framing sig fs wl wh = Ok (frames, L) -> (0 < Ztrunc (rnd (wh * IZR fs)) <= L)%Z ->
  let hop := Ztrunc (rnd (wh * IZR fs)) in
  let covered := ((zlen frames - 1) * hop + L)%Z in
  covered = (zlen sig - (zlen sig - L) mod hop)%Z /\
  (forall t, (0 <= t < covered)%Z -> exists i j,
     (0 <= i < zlen frames)%Z /\ (0 <= j < L)%Z /\ (i * hop + j = t)%Z) /\
  (forall i j, (0 <= i < zlen frames)%Z -> (0 <= j < L)%Z -> (i * hop + j < covered)%Z).
Proof. exact @framing_coverage. Qed.
Print Assumptions C03_framing_coverage.
Example C03_coverage_example : forall frames L,
  framing (H := exact_env) (map Fin [1; 2; 3; 4; 5; 6]) 1000 (3 / 1000) (2 / 1000) = Ok (frames, L) ->
  ((zlen frames - 1) * 2 + L = 5)%Z /\ forall t, (0 <= t < 5)%Z -> exists i j, (0 <= i < 2)%Z /\ (0 <= j < 3)%Z /\ (i * 2 + j = t)%Z.
Proof.
  intros frames L E. assert (Hh : Ztrunc (@rnd exact_env (2 / 1000 * IZR 1000)) = 2%Z) by (cbn; replace (2 / 1000 * 1000) with (IZR 2) by lra; apply Ztrunc_IZR).
  pose proof E as E'. rewrite (framing_exact _ _ _ _ 3 2) in E' by (try lra; try lia). apply Ok_inj in E'. injection E' as E1 E2.
  assert (EL : L = 3%Z) by (rewrite <- E2; reflexivity). assert (EF : zlen frames = 2%Z) by (rewrite <- E1; reflexivity).
  destruct (C03_framing_coverage (H := exact_env) _ _ _ _ _ _ E) as (H1 & H2 & _); rewrite Hh, EL in *; [lia|].
  rewrite EF in *. split; [reflexivity|]. exact H2.
Qed.

(** the sixth sample of C01_example is in no frame: (6-3) mod 2 = 1 *)
Example C03_example :
  framing (H := exact_env) (map Fin [1; 2; 3; 4; 5; 6]) 1000 (3 / 1000) (2 / 1000)
  = framing (H := exact_env) (map Fin [1; 2; 3; 4; 5; 99]) 1000 (3 / 1000) (2 / 1000).
Proof. rewrite !(framing_exact _ _ _ _ 3 2); try lra; try lia. reflexivity. Qed.

(** C04. The complete table of outcomes of framing on a mono signal. *)
Theorem C04_framing_outcomes : forall `{Env} sig fs wl wh,
  let len := Ztrunc (rnd (wl * IZR fs)) in
  let hop := Ztrunc (rnd (wh * IZR fs)) in
  let N := zlen sig in
  (wl < wh -> framing sig fs wl wh = Raise (ParameterError msg_win)) /\
  (wh <= wl -> hop = 0%Z -> framing sig fs wl wh = Raise ZeroDivisionError) /\
  (wh <= wl -> hop <> 0%Z -> (len < 0)%Z -> framing sig fs wl wh = Raise ValueError) /\
  (wh <= wl -> (0 < hop)%Z -> (0 <= len)%Z ->
     ((N < len - hop)%Z -> framing sig fs wl wh = Raise ValueError) /\
     ((len - hop <= N < len)%Z -> framing sig fs wl wh = Raise IndexError) /\
     ((len <= N)%Z -> exists frames, framing sig fs wl wh = Ok (frames, len) /\ frames <> [])) /\
  (wh <= wl -> (hop < 0)%Z -> (0 <= len)%Z ->
     ((N < len)%Z -> framing sig fs wl wh = Raise OutOfBoundsRead) /\
     (N = len -> framing sig fs wl wh = Ok ([sig], len)) /\
     ((len < N <= len - hop)%Z -> framing sig fs wl wh = Raise IndexError) /\
     ((len - hop < N)%Z -> framing sig fs wl wh = Raise ValueError)).
Proof.
  intros E sig fs wl wh len hop N.
  exact (conj (framing_param_error sig fs wl wh)
        (conj (framing_zero_div sig fs wl wh)
        (conj (framing_neg_len sig fs wl wh)
        (conj (framing_outcomes sig fs wl wh)
              (framing_neg_hop sig fs wl wh))))).
Qed.
Print Assumptions C04_framing_outcomes.

(** the branches are inhabited: one call per outcome *)
Example C04_example_short :
  framing (H := exact_env) (map Fin [1; 2]) 1000 (3 / 1000) (2 / 1000) = Raise IndexError /\
  framing (H := exact_env) [] 1000 (5 / 1000) (2 / 1000) = Raise ValueError /\
  framing (H := exact_env) (map Fin [1]) 1000 (1 / 1000) (2 / 1000) = Raise (ParameterError msg_win).
Proof.
  split; [|split].
  - rewrite (framing_exact _ _ _ _ 3 2); try lra; try lia. reflexivity.
  - rewrite (framing_exact _ _ _ _ 5 2); try lra; try lia. reflexivity.
  - apply framing_param_error; lra.
Qed.

(** C05. Binary64: a duration of k samples becomes k or k-1 samples. *)
Theorem C05_duration_truncation : forall k fs : Z,
  (1 <= k <= 2 ^ 50)%Z -> (1 <= fs <= 2 ^ 50)%Z ->
  let n := Ztrunc (rnd64 (rnd64 (IZR k / IZR fs) * IZR fs)) in n = k \/ n = (k - 1)%Z.
Proof. exact duration_truncation. Qed.
Print Assumptions C05_duration_truncation.
Example C05_example : let n := Ztrunc (rnd64 (rnd64 (IZR 400 / IZR 16000) * IZR 16000)) in n = 400%Z \/ n = 399%Z.
Proof. apply (C05_duration_truncation 400 16000); lia. Qed.

(** C05. ... and k-1 does happen: 0.29 s at 100 Hz gives 28 samples. *)
Theorem C05_exact_samples_refuted :
  exists k fs : Z, (1 <= k <= 2 ^ 50)%Z /\ (1 <= fs <= 2 ^ 50)%Z /\
    Ztrunc (rnd64 (rnd64 (IZR k / IZR fs) * IZR fs)) = (k - 1)%Z.
Proof. exists 29%Z, 100%Z. repeat split; try lia. exact duration_truncation_witness. Qed.
Print Assumptions C05_exact_samples_refuted.

(** C06. The pre-emphasis equation, for every float signal including inf/NaN. *)
Theorem C06_pre_emphasis_equation : forall sig c, sig <> [] ->
  exists y, pre_emphasis sig c = Ok y /\
  List.length y = List.length sig /\
  nth 0 y NaN = nth 0 sig NaN /\
  forall t, (S t < List.length sig)%nat ->
    nth (S t) y NaN = fsub (nth (S t) sig NaN) (fmul (Fin c) (nth t sig NaN)).
Proof.
  intros sig c Hs. destruct (pre_emphasis_ok sig c Hs) as [y Hy].
  exact (ex_intro _ y (conj Hy (pre_emphasis_spec sig c y Hy))).
Qed.
Print Assumptions C06_pre_emphasis_equation.

Theorem C06_pre_emphasis_empty : forall c, pre_emphasis [] c = Raise ValueError.
Proof. exact (fun c => eq_refl). Qed.
Print Assumptions C06_pre_emphasis_empty.

Example C06_example : pre_emphasis (map Fin [1; 2; 4]) (1 / 2) = Ok (map Fin [1; 3 / 2; 3]).
Proof. rewrite pre_emphasis_real by congruence. unfold rpre; simpl. do 4 f_equal; [lra|f_equal; lra]. Qed.

(** C07. Streaming: the prefix of the output is the output of the prefix. *)
Theorem C07_pre_emphasis_causal : forall sig c m, (0 < m)%nat -> sig <> [] ->
  pre_emphasis (firstn m sig) c = rmap (firstn m) (pre_emphasis sig c).
Proof. exact pre_emphasis_prefix. Qed.
Print Assumptions C07_pre_emphasis_causal.

Example C07_example :
  pre_emphasis (firstn 2 (map Fin [1; 2; 4])) (1 / 2) = Ok (map Fin [1; 3 / 2]).
Proof. rewrite C07_pre_emphasis_causal by (lia || discriminate). rewrite C06_example. reflexivity. Qed.

(** C06. Linearity, identity at 0 and recovery of the signal (finite signals). *)
Theorem C06_pre_emphasis_linear : forall c a b x z, List.length x = List.length z -> x <> [] ->
  exists y1 y2,
    pre_emphasis (map Fin x) c = Ok (map Fin y1) /\
    pre_emphasis (map Fin z) c = Ok (map Fin y2) /\
    pre_emphasis (map Fin (map2 (fun u v => a * u + b * v) x z)) c
    = Ok (map Fin (map2 (fun u v => a * u + b * v) y1 y2)).
Proof. exact pre_emphasis_linear. Qed.
Print Assumptions C06_pre_emphasis_linear.
Example C06_linear_example : exists y1 y2,
  pre_emphasis (map Fin [1; 2; 7]) (1 / 2) = Ok (map Fin y1) /\ pre_emphasis (map Fin [1; 0; 4]) (1 / 2) = Ok (map Fin y2) /\
  pre_emphasis (map Fin [2 * 1 + 3 * 1; 2 * 2 + 3 * 0; 2 * 7 + 3 * 4]) (1 / 2) = Ok (map Fin (map2 (fun u v => 2 * u + 3 * v) y1 y2)).
Proof. exact (C06_pre_emphasis_linear (1 / 2) 2 3 [1; 2; 7] [1; 0; 4] eq_refl ltac:(discriminate)). Qed.

Theorem C06_pre_emphasis_zero : forall x, x <> [] -> pre_emphasis (map Fin x) 0 = Ok (map Fin x).
Proof. exact pre_emphasis_zero. Qed.
Print Assumptions C06_pre_emphasis_zero.

(** [deemph c 0 y] is the recursion x[t] = y[t] + c*x[t-1] with x[-1] = 0 *)
Theorem C06_pre_emphasis_recover : forall c x y, x <> [] ->
  pre_emphasis (map Fin x) c = Ok (map Fin y) -> deemph c 0 y = x.
Proof. exact pre_emphasis_recover. Qed.
Print Assumptions C06_pre_emphasis_recover.

Example C06_recover_example : deemph (1 / 2) 0 [1; 3 / 2; 3] = [1; 2; 4].
Proof. apply (C06_pre_emphasis_recover (1 / 2)); [discriminate | exact C06_example]. Qed.

(** C08. zero_handling. *)
Theorem C08_zero_handling : forall x,
  List.length (zero_handling x) = List.length x /\
  (forall i, (i < List.length x)%nat ->
     (nth i x NaN = Fin 0 -> nth i (zero_handling x) NaN = Fin (/ 2 ^ 52)) /\
     (nth i x NaN <> Fin 0 -> nth i (zero_handling x) NaN = nth i x NaN)) /\
  ~ In (Fin 0) (zero_handling x) /\
  zero_handling (zero_handling x) = zero_handling x /\
  (forall i r, nth i x NaN = Fin r -> 0 <= r -> finite (flog (nth i (zero_handling x) NaN))).
Proof. exact zero_handling_spec. Qed.
Print Assumptions C08_zero_handling.

Theorem C08_negative_log : forall x i r, nth i x NaN = Fin r -> r < 0 ->
  flog (nth i (zero_handling x) NaN) = NaN.
Proof. exact zero_handling_negative. Qed.
Print Assumptions C08_negative_log.

Example C08_example :
  zero_handling [Fin 0; Fin 3; NaN; PInf] = [Fin (/ 2 ^ 52); Fin 3; NaN; PInf] /\
  flog (nth 0 (zero_handling [Fin (-1)]) NaN) = NaN.
Proof.
  split.
  - unfold zero_handling, zero_handling1; simpl. rewrite Reqb_refl, Reqb_false by lra. reflexivity.
  - apply (C08_negative_log _ _ (-1)); [reflexivity | lra].
Qed.

(** C09. For the five names, windowing is the product with that window ... *)
Theorem C09_windowing_product : forall frames M wt,
  (1 <= M)%Z -> Forall (fun row => zlen row = M) frames -> In wt window_names ->
  exists out, windowing frames M wt = Ok out /\
    has_shape out (List.length frames) (Z.to_nat M) /\
    forall i j, (i < List.length frames)%nat -> (j < Z.to_nat M)%nat ->
      nth j (nth i out []) NaN =
      fmul (Fin (spec_window wt (Z.to_nat M) j)) (nth j (nth i frames []) NaN).
Proof. exact windowing_spec. Qed.
Print Assumptions C09_windowing_product.

(** ... which is symmetric and between 0 and 1 (so no magnitude grows) ... *)
Theorem C09_window_symmetric_bounded : forall wt M n, (n < M)%nat ->
  spec_window wt M (M - 1 - n) = spec_window wt M n /\ 0 <= spec_window wt M n <= 1 /\
  forall x, Rabs (spec_window wt M n * x) <= Rabs x.
Proof.
  intros wt M n Hn. split; [exact (spec_window_sym wt M n Hn)|]. split; [exact (spec_window_bounds wt M n Hn)|].
  intros x. rewrite Rabs_mult. pose proof (spec_window_bounds wt M n Hn). rewrite (Rabs_pos_eq (spec_window wt M n)) by lra.
  pose proof (Rabs_pos x). nra.
Qed.
Print Assumptions C09_window_symmetric_bounded.

Theorem C09_hamming_lower_bound : forall M n, 0.08 <= spec_window "hamming" M n.
Proof. exact spec_hamming_lower. Qed.
Print Assumptions C09_hamming_lower_bound.

(** ... and any other name is a KeyError. *)
Theorem C09_unknown_window : forall frames M wt,
  (1 <= M)%Z -> Forall (fun row => zlen row = M) frames -> frames <> [] ->
  ~ In wt window_names -> windowing frames M wt = Raise KeyError.
Proof.
  intros frames M wt H1 H2 H3 H4. apply windowing_key_error; auto.
  destruct (known_window wt) eqn:E; auto. apply known_window_iff in E. tauto.
Qed.
Print Assumptions C09_unknown_window.

Example C09_example :
  windowing [map Fin [5; 5; 5]] 3 "bartlett" = Raise KeyError /\
  exists out, windowing [map Fin [5; 5; 5]] 3 "bartlet" = Ok out /\
              nth 1 (nth 0 out []) NaN = Fin 5.
Proof.
  split.
  - apply C09_unknown_window; try lia; try discriminate; [repeat constructor|].
    simpl. intuition discriminate.
  - destruct (C09_windowing_product [map Fin [5; 5; 5]] 3 "bartlet") as (out & H & _ & Hn);
      try lia; [repeat constructor|simpl; tauto|].
    exists out. split; auto. rewrite Hn by (simpl; lia). simpl.
    unfold spec_window; simpl. unfold spec_bartlett; simpl.
    replace (2 * 1 / (1 + 1) - 1) with 0 by field. rewrite Rabs_R0. f_equal; lra.
Qed.

(** C10. The coefficient numpy computes is the textbook coefficient. *)
Theorem C10_window_formulas : forall M n, (2 <= M)%nat ->
  hanning_at M n = spec_hann M n /\ hamming_at M n = spec_hamming M n /\
  blackman_at M n = spec_blackman M n /\ bartlett_at M n = spec_bartlett M n /\
  kaiser_at 14 M n = spec_kaiser M n.
Proof.
  exact (fun M n H => conj (hanning_spec M n H) (conj (hamming_spec M n H)
    (conj (blackman_spec M n H) (conj (bartlett_spec M n H) (kaiser_spec M n H))))).
Qed.
Print Assumptions C10_window_formulas.

Example C10_example : spec_hann 5 2 = 1 /\ spec_hamming 5 0 = 0.08.
Proof.
  unfold spec_hann, spec_hamming, spec_theta; simpl. split.
  - replace (2 * PI * (1 + 1) / (1 + 1 + 1 + 1)) with PI by field. rewrite cos_PI. lra.
  - replace (2 * PI * 0 / (1 + 1 + 1 + 1)) with 0 by field. rewrite cos_0. lra.
Qed.
