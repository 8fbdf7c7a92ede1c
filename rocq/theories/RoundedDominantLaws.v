(** * Dominant frequencies in floating point *)
From Coq Require Import Reals ZArith List String Bool Lia Lra Psatz.
From Flocq Require Import Core.
From Coquelicot Require Import Complex.
From Verif Require Import Base SpecBase BigSum Preprocessing PreprocessingFacts SpecMat SpecFilters SpecFeatures SpecSpectral
  Dominant DominantFacts Binary64 Rounded SpecRounded RoundedFacts RoundedLaws RoundedWindows RoundedBanksError
  RoundedCeps SpecRoundedCeps RoundedCepsLaws RoundedDominant SpecRoundedDominant.
Import ListNotations.
Local Open Scope R_scope.

Lemma rltb_case : forall a b, (Rltb a b = true /\ a < b) \/ (Rltb a b = false /\ b <= a).
Proof. intros a b. unfold Rltb. destruct (Rlt_dec a b); [left|right]; split; auto; lra. Qed.

(** ** the first maximum *)
Lemma first_max_argmax : forall p n, (0 < n)%nat -> is_argmax n p (first_max p n).
Proof.
  intros p n. induction n as [|n IH]; [lia|]. intros _. destruct n as [|n].
  - cbn [first_max]. destruct (rltb_case (p 0%nat) (p 0%nat)) as [[-> _]|[-> _]].
    + split; [lia|]. split; [intros j Hj; assert (j = 0)%nat as -> by lia; lra|intros; lia].
    + split; [lia|]. split; [intros j Hj; assert (j = 0)%nat as -> by lia; lra|intros; lia].
  - destruct (IH ltac:(lia)) as (A & B & C). set (b := first_max p (S n)) in *.
    change (first_max p (S (S n))) with (let b := first_max p (S n) in if Rltb (p b) (p (S n)) then S n else b). fold b. cbv zeta.
    destruct (rltb_case (p b) (p (S n))) as [[-> K]|[-> K]].
    + split; [lia|]. split.
      * intros j Hj. destruct (Nat.eq_dec j (S n)) as [->|]; [lra|]. specialize (B j ltac:(lia)). lra.
      * intros j Hj. specialize (B j Hj). lra.
    + split; [lia|]. split; [|exact C]. intros j Hj. destruct (Nat.eq_dec j (S n)) as [->|]; [exact K|]. apply B. lia.
Qed.
Lemma argmax_unique : forall n p a b, is_argmax n p a -> is_argmax n p b -> a = b.
Proof.
  intros n p a b (A1 & A2 & A3) (B1 & B2 & B3). destruct (Nat.lt_trichotomy a b) as [H|[H|H]]; auto.
  - specialize (B3 a H). specialize (A2 b B1). lra.
  - specialize (A3 b H). specialize (B2 a A1). lra.
Qed.
Lemma first_max_ext : forall p q n, (forall k, (k < n)%nat -> p k = q k) -> first_max p n = first_max q n.
Proof.
  intros p q n. induction n as [|n IH]; intros H; [reflexivity|]. cbn [first_max].
  assert (E : first_max p n = first_max q n) by (apply IH; intros; apply H; lia). rewrite E.
  destruct n as [|n]; [rewrite (H 0%nat) by lia; cbn [first_max]; rewrite (H 0%nat) by lia; reflexivity|].
  destruct (first_max_argmax q (S n) ltac:(lia)) as (A & _). rewrite (H (first_max q (S n))), (H (S n)) by lia. reflexivity.
Qed.
(** a scaling that keeps the order keeps the position *)
Lemma first_max_order : forall p q n, (forall i j, (i < n)%nat -> (j < n)%nat -> p i < p j <-> q i < q j) -> first_max p n = first_max q n.
Proof.
  intros p q n H. destruct n as [|n]; [reflexivity|].
  apply (argmax_unique (S n) p); [apply first_max_argmax; lia|].
  destruct (first_max_argmax q (S n) ltac:(lia)) as (A & B & C). split; [exact A|]. split.
  - intros j Hj. destruct (Rle_or_lt (p j) (p (first_max q (S n)))) as [K|K]; [exact K|]. apply H in K; auto. specialize (B j Hj). lra.
  - intros j Hj. apply H; auto; try lia.
Qed.

(** ** powers *)
Lemma dom_power_bounds : forall (E : Env) u nfft m k, accurate u 0 (@rnd E) -> u <= 1 -> 0 <= m k ->
  let e := m k ^ 2 / INR nfft ^ 3 in (1 - u) ^ 7 * e <= @dom_power E nfft m k <= (1 + u) ^ 7 * e.
Proof.
  intros E u nfft m k Ha H1 Hm e. pose proof Ha as (Hu & _ & _). unfold dom_power.
  pose proof (inv_nfft nfft) as Hn. set (w := 1 / INR nfft) in *.
  assert (Ee : e = w * ((w * m k) * (w * m k))).
  { unfold e, w, Rdiv. rewrite !Rmult_1_l, <- pow_inv. ring. }
  rewrite Ee. clear Ee e. set (t := w * m k).
  assert (Ht : 0 <= t) by (apply Rmult_le_pos; assumption).
  destruct (relative_bounds _ u _ Ha H1 Hn) as [A B].
  assert (Hw0 : 0 <= (1 - u) * w) by (apply Rmult_le_pos; lra).
  (* the scaled magnitude *)
  assert (M1 : (1 - u) ^ 2 * t <= @rnd E (@rnd E w * m k) <= (1 + u) ^ 2 * t).
  { apply (bounds_step _ u _ _ 1 Ha H1 Ht). unfold t. split.
    - replace ((1 - u) ^ 1 * (w * m k)) with ((1 - u) * w * m k) by ring. apply Rmult_le_compat_r; assumption.
    - replace ((1 + u) ^ 1 * (w * m k)) with ((1 + u) * w * m k) by ring. apply Rmult_le_compat_r; assumption. }
  set (a := @rnd E (@rnd E w * m k)) in *.
  assert (P1 : 0 <= (1 - u) ^ 2 * t) by (apply Rmult_le_pos; [apply pow2_ge_0|exact Ht]).
  assert (M2 : (1 - u) ^ 5 * (t * t) <= @rnd E (a * a) <= (1 + u) ^ 5 * (t * t)).
  { apply (bounds_step _ u _ _ 4 Ha H1); [apply Rmult_le_pos; assumption|]. destruct M1 as [M1 M1']. split.
    - replace ((1 - u) ^ 4 * (t * t)) with (((1 - u) ^ 2 * t) * ((1 - u) ^ 2 * t)) by ring. apply Rmult_le_compat; assumption.
    - replace ((1 + u) ^ 4 * (t * t)) with (((1 + u) ^ 2 * t) * ((1 + u) ^ 2 * t)) by ring. apply Rmult_le_compat; lra. }
  set (b := @rnd E (a * a)) in *.
  assert (Htt : 0 <= t * t) by (apply Rmult_le_pos; assumption).
  assert (P2 : 0 <= (1 - u) ^ 5 * (t * t)) by (apply Rmult_le_pos; [apply pow_le; lra|exact Htt]).
  apply (bounds_step _ u _ _ 6 Ha H1); [apply Rmult_le_pos; assumption|]. destruct M2 as [M2 M2']. split.
  - replace ((1 - u) ^ 6 * (w * (t * t))) with (((1 - u) * w) * ((1 - u) ^ 5 * (t * t))) by ring. apply Rmult_le_compat; assumption.
  - replace ((1 + u) ^ 6 * (w * (t * t))) with (((1 + u) * w) * ((1 + u) ^ 5 * (t * t))) by ring. apply Rmult_le_compat; lra.
Qed.

(** ** the modulus of a bin *)
Lemma bin_modulus : forall (E : Env) u v D hyp re im x k, accurate u 0 (@rnd E) -> hypot_within v hyp ->
  (lin_depth2 (re k) <= D)%nat -> (lin_depth2 (im k) <= D)%nat ->
  let q := sqrt (lin_exact x (re k) ^ 2 + lin_exact x (im k) ^ 2) in let nu := bin_noise u D x re im k in
  let m := @bin_magnitude E hyp (fun k => @lin_stored E (re k)) (fun k => @lin_stored E (im k)) x k in
  0 <= m /\ (1 - v) * (q - nu) <= m <= (1 + v) * (q + nu).
Proof.
  intros E u v D hyp re im x k Ha (Hv & Hh) D1 D2 q nu m. pose proof Ha as (Hu & _ & _).
  set (a := lin_exact x (re k)) in *. set (b := lin_exact x (im k)) in *.
  set (a' := @lin_run E x (@lin_stored E (re k))). set (b' := @lin_run E x (@lin_stored E (im k))).
  assert (Ea : Rabs (a' - a) <= ((1 + u) ^ D - 1) * lin_size x (re k)).
  { eapply Rle_trans; [apply (lin_stored_error E u x (re k) Ha)|]. apply depth_up; auto using lin_size_nonneg. }
  assert (Eb : Rabs (b' - b) <= ((1 + u) ^ D - 1) * lin_size x (im k)).
  { eapply Rle_trans; [apply (lin_stored_error E u x (im k) Ha)|]. apply depth_up; auto using lin_size_nonneg. }
  assert (Ed : sqrt ((a' - a) ^ 2 + (b' - b) ^ 2) <= nu).
  { unfold nu, bin_noise. apply sqrt_le_1_alt. apply Rplus_le_compat.
    - rewrite <- (pow2_abs (a' - a)). apply pow_incr. split; [apply Rabs_pos|exact Ea].
    - rewrite <- (pow2_abs (b' - b)). apply pow_incr. split; [apply Rabs_pos|exact Eb]. }
  set (q' := sqrt (a' ^ 2 + b' ^ 2)).
  assert (T1 : q' <= q + nu).
  { pose proof (Cmod_triangle (a, b) (a' - a, b' - b)) as T. unfold Cmod, Cplus in T. cbn [fst snd] in T.
    replace (a + (a' - a)) with a' in T by ring. replace (b + (b' - b)) with b' in T by ring. fold q q' in T. lra. }
  assert (T2 : q <= q' + nu).
  { pose proof (Cmod_triangle (a', b') (a - a', b - b')) as T. unfold Cmod, Cplus in T. cbn [fst snd] in T.
    replace (a' + (a - a')) with a in T by ring. replace (b' + (b - b')) with b in T by ring. fold q q' in T.
    replace ((a - a') ^ 2 + (b - b') ^ 2) with ((a' - a) ^ 2 + (b' - b) ^ 2) in T by ring. lra. }
  specialize (Hh a' b'). fold q' in Hh. apply Rabs_le_inv in Hh.
  assert (Hq' : 0 <= q') by apply sqrt_pos.
  change m with (hyp a' b').
  assert (K1 : (1 - v) * (q - nu) <= (1 - v) * q') by (apply Rmult_le_compat_l; lra).
  assert (K2 : (1 + v) * q' <= (1 + v) * (q + nu)) by (apply Rmult_le_compat_l; lra).
  assert (K3 : 0 <= (1 - v) * q') by (apply Rmult_le_pos; lra).
  split; lra.
Qed.

(** ** the peak *)
Lemma peak_near : forall (E : Env) u v D nfft hyp re im x M q, accurate u 0 (@rnd E) -> u < 1 -> hypot_within v hyp ->
  (1 <= nfft)%nat -> (q < M)%nat ->
  (forall k, (k < M)%nat -> (lin_depth2 (re k) <= D)%nat /\ (lin_depth2 (im k) <= D)%nat) ->
  let mag k := sqrt (lin_exact x (re k) ^ 2 + lin_exact x (im k) ^ 2) in let nu := bin_noise u D x re im in
  let c := first_max (@dom_power E nfft (@bin_magnitude E hyp (fun k => @lin_stored E (re k)) (fun k => @lin_stored E (im k)) x)) M in
  (c < M)%nat /\ peak_ratio u v * (mag q - nu q) <= mag c + nu c.
Proof.
  intros E u v D nfft hyp re im x M q Ha Hu1 Hh Hn Hq HD mag nu. pose proof Ha as (Hu & _ & _). pose proof Hh as (Hv & _).
  set (m := @bin_magnitude E hyp _ _ x). cbv zeta. set (c := first_max (@dom_power E nfft m) M).
  destruct (first_max_argmax (@dom_power E nfft m) M ltac:(lia)) as (Hc & Hmax & _). fold c in Hc, Hmax. split; [exact Hc|].
  assert (HN : 0 < INR nfft ^ 3) by (apply pow_lt, lt_0_INR; lia).
  assert (N : forall k, 0 <= nu k) by (intros k; apply sqrt_pos). assert (Mg : forall k, 0 <= mag k) by (intros k; apply sqrt_pos).
  assert (R0 : 0 <= peak_ratio u v).
  { unfold peak_ratio. apply Rmult_le_pos; [apply sqrt_pos|]. apply Rlt_le, Rdiv_lt_0_compat; lra. }
  destruct (Rle_or_lt (mag q - nu q) 0) as [Hneg|Hpos].
  { pose proof (N c). pose proof (Mg c). pose proof (Rmult_le_compat_l _ _ _ R0 Hneg). lra. }
  specialize (Hmax q Hq). destruct (HD c Hc) as [A B]. destruct (HD q Hq) as [A2 B2].
  destruct (bin_modulus E u v D hyp re im x c Ha Hh A B) as (P1 & _ & P2). destruct (bin_modulus E u v D hyp re im x q Ha Hh A2 B2) as (Q1 & Q2 & _).
  fold m in P1, P2, Q1, Q2. fold (mag c) (nu c) in P2. fold (mag q) (nu q) in Q2.
  destruct (dom_power_bounds E u nfft m c Ha ltac:(lra) P1) as [_ U]. destruct (dom_power_bounds E u nfft m q Ha ltac:(lra) Q1) as [V _].
  assert (K : (1 - u) ^ 7 * m q ^ 2 <= (1 + u) ^ 7 * m c ^ 2).
  { apply (Rmult_le_reg_r (/ INR nfft ^ 3)); [apply Rinv_0_lt_compat; exact HN|]. unfold Rdiv in U, V. lra. }
  assert (P7 : 0 < (1 + u) ^ 7) by (apply pow_lt; lra). assert (Q7 : 0 < (1 - u) ^ 7) by (apply pow_lt; lra).
  set (s := sqrt (((1 - u) / (1 + u)) ^ 7)).
  assert (Hs : s * s = (1 - u) ^ 7 / (1 + u) ^ 7).
  { unfold s. rewrite sqrt_sqrt; [|apply pow_le, Rlt_le, Rdiv_lt_0_compat; lra]. unfold Rdiv. rewrite Rpow_mult_distr, pow_inv. reflexivity. }
  assert (Hs0 : 0 <= s) by apply sqrt_pos.
  assert (K2 : s * m q <= m c).
  { apply Rsqr_incr_0_var; [|exact P1]. unfold Rsqr. replace (s * m q * (s * m q)) with (s * s * m q ^ 2) by ring. rewrite Hs.
    apply (Rmult_le_reg_l ((1 + u) ^ 7)); [exact P7|]. unfold Rdiv.
    replace ((1 + u) ^ 7 * ((1 - u) ^ 7 * / (1 + u) ^ 7 * m q ^ 2)) with ((1 - u) ^ 7 * m q ^ 2 * ((1 + u) ^ 7 * / (1 + u) ^ 7)) by ring.
    rewrite Rinv_r by lra. lra. }
  assert (K3 : s * ((1 - v) * (mag q - nu q)) <= (1 + v) * (mag c + nu c)).
  { eapply Rle_trans; [apply Rmult_le_compat_l; [exact Hs0|exact Q2]|]. lra. }
  unfold peak_ratio. fold s. apply (Rmult_le_reg_l (1 + v)); [lra|].
  replace ((1 + v) * (s * ((1 - v) / (1 + v)) * (mag q - nu q))) with (s * ((1 - v) * (mag q - nu q))) by (field; lra). exact K3.
Qed.

(** ** the frequency axis *)
Lemma axis_sign : forall n k, (0 < n)%nat -> (if Nat.ltb k (S ((n - 1) / 2)) then INR k else INR k - INR n) = signed_bin n k.
Proof.
  intros n k Hn. unfold signed_bin. pose proof (Nat.div_mod (n - 1) 2 ltac:(lia)) as D. pose proof (Nat.mod_upper_bound (n - 1) 2 ltac:(lia)).
  destruct (Nat.ltb_spec k (S ((n - 1) / 2))), (Nat.ltb_spec (2 * k) n); try reflexivity; lia.
Qed.

Lemma axis_error : forall (E : Env) u n fs k, accurate u 0 (@rnd E) -> u < 1 -> (0 < n)%nat -> (0 < fs)%Z ->
  let t := signed_bin n k * IZR fs / INR n in
  Rabs (@freq_axis E n fs k - t) <= (((1 + u) / (1 - u)) ^ 2 - 1) * Rabs t.
Proof.
  intros E u n fs k Ha Hu1 Hn Hfs t. pose proof Ha as (Hu & _ & Hr). unfold freq_axis. rewrite axis_sign by exact Hn.
  assert (HN : 0 < INR n) by (apply lt_0_INR; exact Hn). apply IZR_lt in Hfs.
  assert (H0 : 0 < 1 / IZR fs) by (apply Rdiv_lt_0_compat; lra).
  destruct (relative_bounds _ u _ Ha (Rlt_le _ _ Hu1) (Rlt_le _ _ H0)) as [A B]. set (d := @rnd E (1 / IZR fs)) in *.
  assert (Hd : 0 < d). { eapply Rlt_le_trans; [|exact A]. apply Rmult_lt_0_compat; lra. }
  set (nd := @rnd E (INR n * d)).
  assert (E0 : 0 < INR n / IZR fs) by (apply Rdiv_lt_0_compat; lra).
  assert (ND : (1 - u) ^ 2 * (INR n / IZR fs) <= nd <= (1 + u) ^ 2 * (INR n / IZR fs)).
  { apply (bounds_step _ u _ _ 1 Ha (Rlt_le _ _ Hu1) (Rlt_le _ _ E0)). split.
    - replace ((1 - u) ^ 1 * (INR n / IZR fs)) with (INR n * ((1 - u) * (1 / IZR fs))) by (unfold Rdiv; ring). apply Rmult_le_compat_l; lra.
    - replace ((1 + u) ^ 1 * (INR n / IZR fs)) with (INR n * ((1 + u) * (1 / IZR fs))) by (unfold Rdiv; ring). apply Rmult_le_compat_l; lra. }
  assert (P1 : 0 < (1 - u) ^ 2) by (apply pow_lt; lra). assert (P2 : 0 < (1 + u) ^ 2) by (apply pow_lt; lra).
  assert (N1 : 0 < (1 - u) ^ 2 * (INR n / IZR fs)) by (apply Rmult_lt_0_compat; assumption).
  assert (Hnd : 0 < nd) by lra.
  set (s := IZR fs / INR n). assert (Hs : 0 < s) by (apply Rdiv_lt_0_compat; lra).
  assert (I1 : s / (1 + u) ^ 2 <= 1 / nd <= s / (1 - u) ^ 2).
  { unfold Rdiv. rewrite Rmult_1_l. split.
    - replace (s * / (1 + u) ^ 2) with (/ ((1 + u) ^ 2 * (INR n / IZR fs))) by (unfold s; field; lra). apply Rinv_le_contravar; lra.
    - replace (s * / (1 - u) ^ 2) with (/ ((1 - u) ^ 2 * (INR n / IZR fs))) by (unfold s; field; lra). apply Rinv_le_contravar; lra. }
  assert (I0 : 0 <= 1 / nd) by (apply Rlt_le, Rdiv_lt_0_compat; lra).
  destruct (relative_bounds _ u _ Ha (Rlt_le _ _ Hu1) I0) as [V1 V2]. set (val := @rnd E (1 / nd)) in *.
  set (g := (1 + u) / (1 - u)).
  assert (Hg : 1 <= g). { unfold g. apply (Rmult_le_reg_r (1 - u)); [lra|]. unfold Rdiv. rewrite Rmult_assoc, Rinv_l, Rmult_1_r by lra. lra. }
  (* val within (1-u)/(1+u)^2 .. (1+u)/(1-u)^2 of s *)
  assert (W2 : val <= (1 + u) * (s / (1 - u) ^ 2)) by (eapply Rle_trans; [exact V2|apply Rmult_le_compat_l; lra]).
  assert (W1 : (1 - u) * (s / (1 + u) ^ 2) <= val) by (eapply Rle_trans; [apply Rmult_le_compat_l; [lra|apply I1]|exact V1]).
  assert (Hval : 0 <= val) by (pose proof (Rmult_le_pos (1 - u) (1 / nd) ltac:(lra) I0); lra).
  set (b := signed_bin n k). specialize (Hr (b * val)). rewrite Rplus_0_r in Hr.
  assert (Et : t = b * s) by (unfold t, s, b; unfold Rdiv; ring). rewrite Et.
  (* relative error of b * val *)
  assert (X2 : (1 + u) * val <= g ^ 2 * s).
  { replace (g ^ 2 * s) with ((1 + u) * ((1 + u) * (s / (1 - u) ^ 2))) by (unfold g; field; lra). apply Rmult_le_compat_l; lra. }
  assert (X1 : (2 - g ^ 2) * s <= (1 - u) * val).
  { apply Rle_trans with ((1 - u) * ((1 - u) * (s / (1 + u) ^ 2))); [|apply Rmult_le_compat_l; lra].
    replace ((1 - u) * ((1 - u) * (s / (1 + u) ^ 2))) with (/ (g ^ 2) * s).
    2:{ unfold g. field. lra. }
    apply Rmult_le_compat_r; [lra|]. assert (1 <= g ^ 2) by nra. set (h := g ^ 2) in *.
    apply (Rmult_le_reg_r h); [lra|]. rewrite Rinv_l by lra. nra. }
  assert (Hb : Rabs (b * val) = Rabs b * val) by (rewrite Rabs_mult, (Rabs_pos_eq val Hval); reflexivity).
  rewrite Hb in Hr. rewrite Rabs_mult, (Rabs_pos_eq s) by lra.
  pose proof (Rabs_pos b) as Hb0.
  replace (@rnd E (b * val) - b * s) with ((@rnd E (b * val) - b * val) + b * (val - s)) by ring.
  eapply Rle_trans; [apply Rabs_triang|]. rewrite Rabs_mult.
  assert (Y : u * val + Rabs (val - s) <= (g ^ 2 - 1) * s).
  { unfold Rabs. destruct (Rcase_abs (val - s)); lra. }
  pose proof (Rmult_le_compat_l _ _ _ Hb0 Y). lra.
Qed.

Lemma round3_error : forall (E : Env) u v, accurate u 0 (@rnd E) ->
  Rabs (@round3 E v - v) <= (1 + u) * (u * Rabs v + / 2000) + u * Rabs v.
Proof.
  intros E u v (Hu & _ & Hr). unfold round3. set (w := @rnd E (v * 1000)).
  assert (A : Rabs (w - v * 1000) <= 1000 * (u * Rabs v)).
  { specialize (Hr (v * 1000)). rewrite Rplus_0_r, Rabs_mult, (Rabs_pos_eq 1000) in Hr by lra. fold w in Hr. lra. }
  pose proof (Znearest_half (fun x => negb (Z.even x)) w) as B. set (z := IZR (ZnearestE w)) in *.
  assert (B' : Rabs (z - w) <= / 2) by (rewrite Rabs_minus_sym; exact B).
  assert (C : Rabs (z / 1000 - v) <= u * Rabs v + / 2000).
  { replace (z / 1000 - v) with ((z - w + (w - v * 1000)) / 1000) by (field). unfold Rdiv. rewrite Rabs_mult, (Rabs_pos_eq (/ 1000)) by lra.
    pose proof (Rabs_triang (z - w) (w - v * 1000)). lra. }
  specialize (Hr (z / 1000)). rewrite Rplus_0_r in Hr.
  assert (D : Rabs (z / 1000) <= Rabs v + (u * Rabs v + / 2000)).
  { replace (z / 1000) with (v + (z / 1000 - v)) by ring. eapply Rle_trans; [apply Rabs_triang|]. lra. }
  replace (@rnd E (z / 1000) - v) with ((@rnd E (z / 1000) - z / 1000) + (z / 1000 - v)) by ring.
  eapply Rle_trans; [apply Rabs_triang|]. pose proof (Rmult_le_compat_l _ _ _ Hu D). lra.
Qed.

Lemma dominant_value : forall (E : Env) u nfft fs m, accurate u 0 (@rnd E) -> u < 1 -> (0 < fs)%Z ->
  let n := S (nfft / 2) in let t := signed_bin n (first_max (@dom_power E nfft m) n) * IZR fs / INR n in
  Rabs (@dominant_in E nfft fs m - t) <= freq_slack u t.
Proof.
  intros E u nfft fs m Ha Hu1 Hfs n t. pose proof Ha as (Hu & _ & _). unfold dominant_in. fold n. set (c := first_max _ n) in *.
  pose proof (axis_error E u n fs c Ha Hu1 ltac:(unfold n; lia) Hfs) as A. cbv zeta in A. fold t in A. set (f := @freq_axis E n fs c) in *.
  pose proof (round3_error E u f Ha) as B. unfold freq_slack. set (d := (((1 + u) / (1 - u)) ^ 2 - 1) * Rabs t) in *.
  assert (C : Rabs f <= Rabs t + d). { replace f with (t + (f - t)) by ring. eapply Rle_trans; [apply Rabs_triang|]. lra. }
  replace (@round3 E f - t) with ((@round3 E f - f) + (f - t)) by ring. eapply Rle_trans; [apply Rabs_triang|].
  pose proof (Rmult_le_compat_l _ _ _ Hu C) as D. assert ((1 + u) * (u * Rabs f + / 2000) <= (1 + u) * (u * (Rabs t + d) + / 2000)) by (apply Rmult_le_compat_l; lra).
  lra.
Qed.

(** ** sign and gain *)
Lemma dominant_polarity : forall (E : Env) hyp re im x nfft fs, odd (@rnd E) -> (forall a b, hyp (- a) (- b) = hyp a b) ->
  @dominant_in E nfft fs (@bin_magnitude E hyp re im (fun t => - x t)) = @dominant_in E nfft fs (@bin_magnitude E hyp re im x).
Proof.
  intros E hyp re im x nfft fs Ho Hh. unfold dominant_in. do 2 f_equal. apply first_max_ext. intros k _.
  unfold dom_power, bin_magnitude. rewrite !lin_run_opp by exact Ho. rewrite Hh. reflexivity.
Qed.
Lemma dominant_gain : forall hyp re im x nfft fs g, (forall a b, hyp (bpow radix2 g * a) (bpow radix2 g * b) = bpow radix2 g * hyp a b) ->
  @dominant_in binary53 nfft fs (@bin_magnitude binary53 hyp re im (fun t => bpow radix2 g * x t))
  = @dominant_in binary53 nfft fs (@bin_magnitude binary53 hyp re im x).
Proof.
  intros hyp re im x nfft fs g Hh. unfold dominant_in. do 2 f_equal. apply first_max_order. intros i j _ _.
  assert (S : forall k, @dom_power binary53 nfft (@bin_magnitude binary53 hyp re im (fun t => bpow radix2 g * x t)) k
                = bpow radix2 (2 * g) * @dom_power binary53 nfft (@bin_magnitude binary53 hyp re im x) k).
  { intros k. unfold dom_power, bin_magnitude. rewrite !lin_run_scale, Hh. cbn [rnd binary53]. set (h := hyp _ _). set (w := rnd53 (1 / INR nfft)).
    replace (w * (bpow radix2 g * h)) with (bpow radix2 g * (w * h)) by ring. rewrite rnd53_scale. set (a := rnd53 (w * h)).
    replace (bpow radix2 g * a * (bpow radix2 g * a)) with (bpow radix2 (2 * g) * (a * a)).
    2:{ replace (2 * g)%Z with (g + g)%Z by lia. rewrite bpow_plus. ring. }
    rewrite (rnd53_scale (2 * g) (a * a)), <- (rnd53_scale (2 * g) (w * rnd53 (a * a))). f_equal. ring. }
  rewrite !S. pose proof (bpow_gt_0 radix2 (2 * g)). split; intros K.
  - apply (Rmult_lt_reg_l (bpow radix2 (2 * g))); assumption.
  - apply Rmult_lt_compat_l; assumption.
Qed.

(** ** underflow *)
Lemma rnd64_tiny : forall x, Rabs x < bpow radix2 (-1075) -> rnd64 x = 0.
Proof.
  intros x Hx. destruct (Req_dec x 0) as [->|H0]; [apply rnd64_0|].
  unfold rnd64. pose proof (bpow_mag_le radix2 x H0) as A. pose proof (bpow_mag_gt radix2 x) as B.
  apply (round_N_small _ _ _ x (mag radix2 x)); [lra|].
  assert (C : (mag radix2 x - 1 < -1075)%Z) by (apply (lt_bpow radix2); lra). unfold FLT_exp. lia.
Qed.
Lemma power_underflow : forall nfft m k, (1 <= nfft)%nat -> 0 <= m k <= bpow radix2 (-538) -> @dom_power binary64 nfft m k = 0.
Proof.
  intros nfft m k Hn [H0 Hm]. unfold dom_power. cbn [rnd binary64].
  assert (Hw : 0 <= rnd64 (1 / INR nfft) <= 1).
  { assert (1 <= INR nfft) by (change 1 with (INR 1); apply le_INR; exact Hn). split.
    - rewrite <- rnd64_0. apply rnd64_monotone. apply Rlt_le, Rdiv_lt_0_compat; lra.
    - rewrite <- rnd64_1 at 2. apply rnd64_monotone. apply (Rmult_le_reg_r (INR nfft)); [lra|]. unfold Rdiv. rewrite Rmult_assoc, Rinv_l; lra. }
  set (w := rnd64 (1 / INR nfft)) in *.
  assert (Ha : 0 <= rnd64 (w * m k) <= bpow radix2 (-538)).
  { split.
    - rewrite <- rnd64_0. apply rnd64_monotone. apply Rmult_le_pos; lra.
    - rewrite <- (rnd64_bpow (-538)) by lia. apply rnd64_monotone. rewrite <- (Rmult_1_l (bpow radix2 (-538))). apply Rmult_le_compat; lra. }
  set (a := rnd64 (w * m k)) in *.
  rewrite (rnd64_tiny (a * a)); [rewrite Rmult_0_r; apply rnd64_0|].
  rewrite Rabs_pos_eq by (apply Rmult_le_pos; lra).
  apply Rle_lt_trans with (bpow radix2 (-538) * bpow radix2 (-538)); [apply Rmult_le_compat; lra|].
  rewrite <- bpow_plus. apply bpow_lt. lia.
Qed.
Lemma first_max_zero : forall p n, (forall k, (k < n)%nat -> p k = 0) -> first_max p n = 0%nat.
Proof.
  intros p n H. destruct n as [|n]; [reflexivity|]. apply (argmax_unique (S n) p); [apply first_max_argmax; lia|].
  split; [lia|]. split; [|intros; lia]. intros j Hj. rewrite !H by lia. lra.
Qed.
Lemma dominant_zero : forall nfft fs m, first_max (@dom_power binary64 nfft m) (S (nfft / 2)) = 0%nat -> @dominant_in binary64 nfft fs m = 0.
Proof.
  intros nfft fs m H. unfold dominant_in. rewrite H. unfold freq_axis. cbn [Nat.ltb Nat.leb INR rnd binary64]. rewrite Rmult_0_l, rnd64_0.
  unfold round3. cbn [rnd binary64]. rewrite Rmult_0_l, rnd64_0. rewrite (Znearest_imp _ 0 0).
  - unfold Rdiv. rewrite Rmult_0_l. apply rnd64_0.
  - rewrite Rminus_0_r, Rabs_R0. lra.
Qed.
Lemma quiet_modulus : forall hyp (re im : nat -> lin) x k, hypot_sane hyp ->
  (let bound p := (1 + / 2 ^ 53) ^ lin_depth p * (lin_size x p + lin_amp p * bpow radix2 (-1075)) in
     bound (re k) <= bpow radix2 (-541) /\ bound (im k) <= bpow radix2 (-541)) ->
  0 <= @bin_magnitude binary64 hyp re im x k <= bpow radix2 (-538).
Proof.
  intros hyp re im x k Hh [A B].
  assert (L : forall p, Rabs (@lin_run binary64 x p) <= (1 + / 2 ^ 53) ^ lin_depth p * (lin_size x p + lin_amp p * bpow radix2 (-1075))).
  { intros p. pose proof (lin_error binary64 (/ 2 ^ 53) (bpow radix2 (-1075)) x p rnd64_accurate) as K. pose proof (lin_exact_size x p) as S.
    replace (@lin_run binary64 x p) with (lin_exact x p + (@lin_run binary64 x p - lin_exact x p)) by ring.
    eapply Rle_trans; [apply Rabs_triang|]. lra. }
  unfold bin_magnitude. set (a := @lin_run binary64 x (re k)). set (b := @lin_run binary64 x (im k)).
  assert (A' : Rabs a <= bpow radix2 (-541)) by (eapply Rle_trans; [apply L|exact A]).
  assert (B' : Rabs b <= bpow radix2 (-541)) by (eapply Rle_trans; [apply L|exact B]).
  destruct (Hh a b) as [H0 H1]. split; [exact H0|]. eapply Rle_trans; [exact H1|].
  change (-538)%Z with (3 + -541)%Z. rewrite bpow_plus. change (bpow radix2 3) with 8. lra.
Qed.
Lemma quiet_dominant : forall hyp re im x nfft fs, hypot_sane hyp -> (1 <= nfft)%nat ->
  (forall k, (k <= nfft / 2)%nat -> let bound p := (1 + / 2 ^ 53) ^ lin_depth p * (lin_size x p + lin_amp p * bpow radix2 (-1075)) in
     bound (re k) <= bpow radix2 (-541) /\ bound (im k) <= bpow radix2 (-541)) ->
  @dominant_in binary64 nfft fs (@bin_magnitude binary64 hyp re im x) = 0.
Proof.
  intros hyp re im x nfft fs Hh Hn H. apply dominant_zero. apply first_max_zero. intros k Hk. apply power_underflow; [exact Hn|].
  apply (quiet_modulus hyp re im x k Hh). apply H. lia.
Qed.

(** the same for band energies and cepstra *)
Lemma lin_run_reads : forall (E : Env) n x y p, (forall i, (i < n)%nat -> x i = y i) -> reads n p -> @lin_run E x p = @lin_run E y p.
Proof.
  intros E n x y p H. induction p as [i| |p IHp q IHq|p IHp q IHq|c p IHp|c p IHp q IHq]; cbn [reads lin_run]; intros Hr; auto.
  - destruct Hr. rewrite IHp, IHq; auto.
  - destruct Hr. rewrite IHp, IHq; auto.
  - rewrite IHp; auto.
  - destruct Hr. rewrite IHp, IHq; auto.
Qed.
Lemma lin_run_zero : forall p, @lin_run binary64 (fun _ => 0) p = 0.
Proof.
  induction p as [i| |p IHp q IHq|p IHp q IHq|c p IHp|c p IHp q IHq]; cbn [lin_run rnd binary64]; auto; rewrite ?IHp, ?IHq, ?Rmult_0_r, ?Rplus_0_r, ?Rminus_0_r; apply rnd64_0.
Qed.
Lemma quiet_band : forall hyp re im x nfft bins bank j, hypot_sane hyp -> reads bins (bank j) ->
  (forall k, (k < bins)%nat -> let bound p := (1 + / 2 ^ 53) ^ lin_depth p * (lin_size x p + lin_amp p * bpow radix2 (-1075)) in
     bound (re k) <= bpow radix2 (-541) /\ bound (im k) <= bpow radix2 (-541)) ->
  @band_energy binary64 nfft (@bin_magnitude binary64 hyp re im x) bank j = 0.
Proof.
  intros hyp re im x nfft bins bank j Hh Hr H. unfold band_energy. rewrite <- (lin_run_zero (bank j)).
  apply (lin_run_reads binary64 bins); [|exact Hr]. intros k Hk. destruct (quiet_modulus hyp re im x k Hh (H k Hk)) as [A B].
  unfold bin_power. cbn [rnd binary64]. set (m := @bin_magnitude binary64 hyp re im x k) in *.
  rewrite (rnd64_tiny (m * m)); [rewrite Rmult_0_r; apply rnd64_0|].
  rewrite Rabs_pos_eq by (apply Rmult_le_pos; lra).
  apply Rle_lt_trans with (bpow radix2 (-538) * bpow radix2 (-538)); [apply Rmult_le_compat; lra|].
  rewrite <- bpow_plus. apply bpow_lt. lia.
Qed.
Lemma lin_size_zero : forall p, lin_size (fun _ => 0) p = 0.
Proof. induction p as [i| |p IHp q IHq|p IHp q IHq|c p IHp|c p IHp q IHq]; cbn [lin_size]; rewrite ?IHp, ?IHq, ?Rabs_R0; ring. Qed.
Lemma quiet_cepstra : forall lnf powf hyp re im x nfft bins bank dct k, hypot_sane hyp -> (forall j, reads bins (bank j)) ->
  (forall q, (q < bins)%nat -> let bound p := (1 + / 2 ^ 53) ^ lin_depth p * (lin_size x p + lin_amp p * bpow radix2 (-1075)) in
     bound (re q) <= bpow radix2 (-541) /\ bound (im q) <= bpow radix2 (-541)) ->
  (forall j, @band_energy binary64 nfft (@bin_magnitude binary64 hyp re im x) bank j = 0) /\
  @log_cepstrum binary64 lnf hyp re im nfft bank dct x k = @log_cepstrum binary64 lnf hyp re im nfft bank dct (fun _ => 0) k /\
  @root_cepstrum binary64 powf hyp re im nfft bank dct x k = @root_cepstrum binary64 powf hyp re im nfft bank dct (fun _ => 0) k.
Proof.
  intros lnf powf hyp re im x nfft bins bank dct k Hh Hr H.
  assert (H0 : forall q, (q < bins)%nat -> let bound p := (1 + / 2 ^ 53) ^ lin_depth p * (lin_size (fun _ => 0) p + lin_amp p * bpow radix2 (-1075)) in
     bound (re q) <= bpow radix2 (-541) /\ bound (im q) <= bpow radix2 (-541)).
  { intros q Hq bound. destruct (H q Hq) as [A B].
    assert (M : forall p, bound p <= (1 + / 2 ^ 53) ^ lin_depth p * (lin_size x p + lin_amp p * bpow radix2 (-1075))).
    { intros p. unfold bound. rewrite lin_size_zero. apply Rmult_le_compat_l; [apply pow_le; lra|]. pose proof (lin_size_nonneg x p). lra. }
    split; (eapply Rle_trans; [apply M|]); assumption. }
  assert (E1 : forall j, @band_energy binary64 nfft (@bin_magnitude binary64 hyp re im x) bank j = 0) by (intros j; apply (quiet_band hyp re im x nfft bins bank j Hh (Hr j) H)).
  assert (E2 : forall j, @band_energy binary64 nfft (@bin_magnitude binary64 hyp re im (fun _ => 0)) bank j = 0) by (intros j; apply (quiet_band hyp re im (fun _ => 0) nfft bins bank j Hh (Hr j) H0)).
  split; [exact E1|]. split.
  - unfold log_cepstrum. apply lin_run_ext. intros j. unfold log_band. rewrite E1, E2. reflexivity.
  - unfold root_cepstrum. apply lin_run_ext. intros j. unfold root_band. rewrite E1, E2. reflexivity.
Qed.

(** ** the function of the package *)
Lemma dominant_rounded : forall `{Env} N x fs wl wh wt L hop n, cut_config fs wl wh wt N L hop -> (1 <= n)%nat ->
  exists k v, get_dominant_frequencies (fvec N x) fs None (Z.of_nat n) wl wh wt false = Ok (fvec (frame_count N L hop) v) /\
  forall (E' : Env) u w D hyp re im i, accurate u 0 (@rnd E') -> u < 1 -> hypot_within w hyp -> (i < frame_count N L hop)%nat ->
    frame_programs n L (fun z => spec_frame wt L hop z i) (S (n / 2)) re im ->
    (forall q, (q <= n / 2)%nat -> (lin_depth2 (re q) <= D)%nat /\ (lin_depth2 (im q) <= D)%nat) ->
    let mag := spec_mag n L (spec_frame wt L hop x i) in let nu := bin_noise u D x re im in
    let true_freq q := signed_bin (S (n / 2)) q * IZR fs / INR (S (n / 2)) in
    let computed := @dominant_in E' n fs (@bin_magnitude E' hyp (fun q => @lin_stored E' (re q)) (fun q => @lin_stored E' (im q)) x) in
    is_argmax (S (n / 2)) mag (k i) /\ near_milli (true_freq (k i)) (v i) /\
    (exists c, (c <= n / 2)%nat /\ peak_ratio u w * (mag (k i) - nu (k i)) <= mag c + nu c /\
       Rabs (computed - true_freq c) <= freq_slack u (true_freq c)) /\
    ((forall c, (c <= n / 2)%nat -> c <> k i -> mag c + nu c < peak_ratio u w * (mag (k i) - nu (k i))) ->
       Rabs (computed - v i) <= freq_slack u (true_freq (k i)) + / 2000).
Proof.
  intros E N x fs wl wh wt L hop n HC Hn. destruct (get_dominant_raw N x fs wl wh wt L hop n HC Hn) as (k & Hk & Ek).
  exists k, (fun i => freq3 n fs (k i)). split; [exact Ek|].
  intros E' u w D hyp re im i Ha Hu1 Hh Hi HP HD mag nu tf computed.
  assert (Hfs : (0 < fs)%Z) by apply HC.
  assert (HN : 0 < INR n) by (apply lt_0_INR; lia).
  destruct (Hk i Hi) as (K1 & K2 & K3). set (M := S (n / 2)) in *.
  assert (Hmono : forall a b, spec_power n L (spec_frame wt L hop x i) a <= spec_power n L (spec_frame wt L hop x i) b -> mag a <= mag b).
  { intros a b Hab. unfold mag, spec_mag. apply sqrt_le_1_alt. unfold spec_power in Hab. apply (Rmult_le_reg_r (/ INR n)); [apply Rinv_0_lt_compat; exact HN|exact Hab]. }
  assert (Hmono2 : forall a b, spec_power n L (spec_frame wt L hop x i) a < spec_power n L (spec_frame wt L hop x i) b -> mag a < mag b).
  { intros a b Hab. unfold mag, spec_mag. apply sqrt_lt_1_alt. split; [unfold spec_sq; nra|]. unfold spec_power in Hab.
    apply (Rmult_lt_reg_r (/ INR n)); [apply Rinv_0_lt_compat; exact HN|exact Hab]. }
  assert (Hmag : forall q, (q < M)%nat -> sqrt (lin_exact x (re q) ^ 2 + lin_exact x (im q) ^ 2) = mag q).
  { intros q Hq. destruct (HP x q Hq) as [-> ->]. reflexivity. }
  destruct (freq3_range n fs (k i) Hfs K1) as (Hm & _). fold (tf (k i)) in Hm.
  split; [split; [exact K1|split; [intros j Hj; apply Hmono, K2, Hj|intros j Hj; apply Hmono2, K3, Hj]]|].
  split; [exact Hm|].
  assert (HD' : forall q, (q < M)%nat -> (lin_depth2 (re q) <= D)%nat /\ (lin_depth2 (im q) <= D)%nat) by (intros q Hq; apply HD; unfold M in Hq; lia).
  pose proof (peak_near E' u w D n hyp re im x M (k i) Ha Hu1 Hh Hn K1 HD') as (C1 & C2).
  pose proof (dominant_value E' u n fs (@bin_magnitude E' hyp (fun q => @lin_stored E' (re q)) (fun q => @lin_stored E' (im q)) x) Ha Hu1 Hfs) as V.
  cbv zeta in V. fold M in V. fold computed in V. set (c := first_max _ M) in *. fold (tf c) in V. cbv zeta in C2. fold c in C1, C2. rewrite !Hmag in C2 by assumption. fold nu in C2.
  split; [exists c; split; [unfold M in C1; lia|split; assumption]|].
  intros Hgap. assert (Ec : c = k i).
  { destruct (Nat.eq_dec c (k i)) as [e|ne]; [exact e|]. specialize (Hgap c ltac:(unfold M in C1; lia) ne). lra. }
  rewrite Ec in V. destruct Hm as [_ Hm]. replace (computed - freq3 n fs (k i)) with ((computed - tf (k i)) - (freq3 n fs (k i) - tf (k i))) by ring.
  pose proof (Rabs_triang (computed - tf (k i)) (- (freq3 n fs (k i) - tf (k i)))) as T. rewrite Rabs_Ropp in T.
  fold M in Hm. fold (tf (k i)) in Hm.
  apply Rle_trans with (1 := T). apply Rplus_le_compat; assumption.
Qed.
