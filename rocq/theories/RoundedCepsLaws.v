(** * End-to-end rounding errors of cepstral coefficients *)
From Coq Require Import Reals ZArith List Lia Lra Psatz.
From Coquelicot Require Rcomplements.
From Verif Require Import Base SpecBase BigSum Rounded SpecRounded RoundedFacts RoundedLaws RoundedCeps SpecRoundedCeps.
Local Open Scope R_scope.

(** ** squares of perturbed numbers *)
Lemma square_up : forall a b d r, 0 < r -> Rabs (b - a) <= d -> b ^ 2 <= (1 + r) * a ^ 2 + (1 + / r) * d ^ 2.
Proof.
  intros a b d r Hr H. pose proof (Rabs_pos (b - a)) as H0.
  assert (H2 : (b - a) ^ 2 <= d ^ 2). { rewrite <- (pow2_abs (b - a)). apply pow_incr. lra. }
  assert (Hi : 0 < / r) by (apply Rinv_0_lt_compat; exact Hr).
  assert (H3 : 2 * a * (b - a) <= r * a ^ 2 + / r * (b - a) ^ 2).
  { assert (0 <= / r * (r * a - (b - a)) ^ 2) by (apply Rmult_le_pos; [lra|apply pow2_ge_0]).
    replace (/ r * (r * a - (b - a)) ^ 2) with (r * a ^ 2 + / r * (b - a) ^ 2 - 2 * a * (b - a)) in H1 by (field; lra). lra. }
  pose proof (Rmult_le_compat_l (/ r) _ _ (Rlt_le _ _ Hi) H2).
  replace (b ^ 2) with (a ^ 2 + 2 * a * (b - a) + (b - a) ^ 2) by ring. lra.
Qed.
Lemma square_down : forall a b d r, 0 < r <= 1 -> Rabs (b - a) <= d -> (1 - r) * a ^ 2 - (/ r - 1) * d ^ 2 <= b ^ 2.
Proof.
  intros a b d r Hr H. pose proof (Rabs_pos (b - a)) as H0.
  assert (H2 : (b - a) ^ 2 <= d ^ 2). { rewrite <- (pow2_abs (b - a)). apply pow_incr. lra. }
  assert (Hi : 0 < / r) by (apply Rinv_0_lt_compat; lra).
  assert (Hi1 : 1 <= / r). { rewrite <- Rinv_1. apply Rinv_le_contravar; lra. }
  assert (H3 : - (2 * a * (b - a)) <= r * a ^ 2 + / r * (b - a) ^ 2).
  { assert (H1 : 0 <= / r * (r * a + (b - a)) ^ 2) by (apply Rmult_le_pos; [lra|apply pow2_ge_0]).
    replace (/ r * (r * a + (b - a)) ^ 2) with (r * a ^ 2 + / r * (b - a) ^ 2 + 2 * a * (b - a)) in H1 by (field; lra). lra. }
  assert (H4 : (/ r - 1) * (b - a) ^ 2 <= (/ r - 1) * d ^ 2) by (apply Rmult_le_compat_l; lra).
  replace (b ^ 2) with (a ^ 2 + 2 * a * (b - a) + (b - a) ^ 2) by ring. lra.
Qed.

Lemma depth_up : forall u a b s, 0 <= u -> (a <= b)%nat -> 0 <= s -> ((1 + u) ^ a - 1) * s <= ((1 + u) ^ b - 1) * s.
Proof. intros. apply Rmult_le_compat_r; [assumption|]. pose proof (pow_u_le u a b H H0). lra. Qed.

(** energy of the perturbed bins *)
Lemma perturbed_energy : forall n (w a b a' b' da db : nat -> R) r, 0 < r <= 1 -> (forall k, 0 <= w k) ->
  (forall k, (k < n)%nat -> Rabs (a' k - a k) <= da k /\ Rabs (b' k - b k) <= db k) ->
  let e := bigsum n (fun k => w k * (a k ^ 2 + b k ^ 2)) in
  bigsum n (fun k => w k * (da k ^ 2 + db k ^ 2)) <= r ^ 2 * e ->
  (1 - r) ^ 2 * e <= bigsum n (fun k => w k * (a' k ^ 2 + b' k ^ 2)) <= (1 + r) ^ 2 * e.
Proof.
  intros n w a b a' b' da db r Hr Hw H e Hn.
  set (d := bigsum n (fun k => w k * (da k ^ 2 + db k ^ 2))) in *.
  assert (Hi : 0 < / r) by (apply Rinv_0_lt_compat; lra).
  assert (Hi1 : 1 <= / r). { rewrite <- Rinv_1. apply Rinv_le_contravar; lra. }
  split.
  - apply Rle_trans with ((1 - r) * e - (/ r - 1) * d).
    + pose proof (Rmult_le_compat_l (/ r - 1) _ _ ltac:(lra) Hn) as K.
      replace ((/ r - 1) * (r ^ 2 * e)) with (r * e - r ^ 2 * e) in K by (field; lra). nra.
    + unfold e, d. rewrite <- !bigsum_scal, <- bigsum_minus. apply bigsum_le. intros k Hk.
      destruct (H k Hk) as [A B]. pose proof (square_down _ _ _ r Hr A) as A2. pose proof (square_down _ _ _ r Hr B) as B2.
      pose proof (Rmult_le_compat_l _ _ _ (Hw k) (Rplus_le_compat _ _ _ _ A2 B2)) as K. eapply Rle_trans; [|exact K]. right. ring.
  - apply Rle_trans with ((1 + r) * e + (1 + / r) * d).
    + unfold e, d. rewrite <- !bigsum_scal, <- bigsum_plus. apply bigsum_le. intros k Hk.
      destruct (H k Hk) as [A B]. pose proof (square_up _ _ _ r (proj1 Hr) A) as A2. pose proof (square_up _ _ _ r (proj1 Hr) B) as B2.
      pose proof (Rmult_le_compat_l _ _ _ (Hw k) (Rplus_le_compat _ _ _ _ A2 B2)) as K. eapply Rle_trans; [exact K|]. right. ring.
    + pose proof (Rmult_le_compat_l (1 + / r) _ _ ltac:(lra) Hn) as K.
      replace ((1 + / r) * (r ^ 2 * e)) with (r ^ 2 * e + r * e) in K by (field; lra). nra.
Qed.

(** ** the logarithm of a band energy, from the samples on *)
Lemma ln_factor : forall v e f g, 0 < e -> 0 < f -> 0 < g -> g <= / f -> f * e <= v <= g * e -> 0 < v /\ Rabs (ln v - ln e) <= - ln f.
Proof.
  intros v e f g He Hf Hg Hfg [A B].
  assert (Hv : 0 < v) by (eapply Rlt_le_trans; [|exact A]; apply Rmult_lt_0_compat; assumption).
  split; [exact Hv|].
  assert (ln f + ln e <= ln v).
  { rewrite <- ln_mult by assumption. apply Rcomplements.ln_le; [apply Rmult_lt_0_compat; assumption|exact A]. }
  assert (ln v <= ln g + ln e).
  { rewrite <- ln_mult by assumption. apply Rcomplements.ln_le; assumption. }
  assert (ln g <= - ln f). { rewrite <- ln_Rinv by assumption. apply Rcomplements.ln_le; assumption. }
  apply Rabs_le. lra.
Qed.
Lemma one_plus_inv : forall t, 0 <= t < 1 -> 1 + t <= / (1 - t).
Proof.
  intros t H. apply (Rmult_le_reg_r (1 - t)); [lra|]. rewrite Rinv_l by lra. nra.
Qed.
Lemma prod_inv : forall a b c d, 0 < a -> 0 < c -> 0 <= b -> 0 <= d -> b <= / a -> d <= / c -> b * d <= / (a * c).
Proof. intros. rewrite Rinv_mult. apply Rmult_le_compat; assumption. Qed.
Lemma pow_inv_le : forall a b n, 0 < a -> 0 <= b -> b <= / a -> b ^ n <= / a ^ n.
Proof. intros. rewrite <- pow_inv. apply pow_incr. split; assumption. Qed.

(** the energy of the actual errors of the bins *)
Definition actual_noise (E : Env) (nfft bins : nat) (x : nat -> R) (re im : nat -> lin) (w : nat -> R) : R :=
  bigsum bins (fun k => w k * ((@lin_run E x (@lin_stored E (re k)) - lin_exact x (re k)) ^ 2 +
    (@lin_run E x (@lin_stored E (im k)) - lin_exact x (im k)) ^ 2) / INR nfft).
Lemma actual_noise_le : forall (E : Env) u D nfft bins x re im w, accurate u 0 (@rnd E) ->
  (forall k, (k < bins)%nat -> (lin_depth2 (re k) <= D)%nat /\ (lin_depth2 (im k) <= D)%nat) -> (forall k, 0 <= w k) ->
  actual_noise E nfft bins x re im w <= noise u D nfft bins x re im w.
Proof.
  intros E u D nfft bins x re im w Ha HD Hw. pose proof Ha as (Hu & _ & _).
  pose proof (inv_nfft nfft) as Hinv. unfold Rdiv in Hinv. rewrite Rmult_1_l in Hinv.
  apply bigsum_le. intros k Hk. unfold Rdiv. apply Rmult_le_compat_r; [exact Hinv|]. apply Rmult_le_compat_l; [apply Hw|].
  destruct (HD k Hk) as [D1 D2].
  apply Rplus_le_compat; (rewrite <- (pow2_abs (_ - _)); apply pow_incr; split; [apply Rabs_pos|]).
  - eapply Rle_trans; [apply (lin_stored_error E u x (re k) Ha)|]. apply depth_up; auto using lin_size_nonneg.
  - eapply Rle_trans; [apply (lin_stored_error E u x (im k) Ha)|]. apply depth_up; auto using lin_size_nonneg.
Qed.
Lemma band_actual : forall (E : Env) u v r nfft bins hyp re im x w bank j,
  accurate u 0 (@rnd E) -> u < 1 -> hypot_within v hyp -> 0 < r < 1 ->
  (forall k, 0 <= w k) -> dot_program w bins (bank j) ->
  let e := bigsum bins (fun k => w k * (lin_exact x (re k) ^ 2 + lin_exact x (im k) ^ 2) / INR nfft) in
  0 < e -> actual_noise E nfft bins x re im w <= r ^ 2 * e ->
  let m := @bin_magnitude E hyp (fun k => @lin_stored E (re k)) (fun k => @lin_stored E (im k)) x in
  let e' := @band_energy E nfft m bank j in
  0 < e' /\ Rabs (ln e' - ln e) <= band_log_bound u v r bins.
Proof.
  intros E u v r nfft bins hyp re im x w bank j Ha Hu1 (Hv & Hh) Hr Hw Hb e He Hn m e'.
  pose proof Ha as (Hu & _ & _).
  set (a' := fun k => @lin_run E x (@lin_stored E (re k))). set (b' := fun k => @lin_run E x (@lin_stored E (im k))).
  set (q := fun k => sqrt (a' k ^ 2 + b' k ^ 2)).
  pose proof (band_magnitudes E u v nfft m q w bins bank j Ha (Rlt_le _ _ Hu1) ltac:(lra) Hw Hb) as K. cbv zeta in K.
  assert (Hm : forall k, (k < bins)%nat -> 0 <= q k /\ (1 - v) * q k <= m k <= (1 + v) * q k).
  { intros k _. split; [apply sqrt_pos|]. specialize (Hh (a' k) (b' k)). fold (q k) in Hh.
    apply Rcomplements.Rabs_le_between in Hh. unfold m, bin_magnitude. fold (a' k) (b' k). lra. }
  specialize (K Hm). fold e' in K.
  assert (Hq : forall k, q k ^ 2 = a' k ^ 2 + b' k ^ 2).
  { intros k. unfold q. apply pow2_sqrt. pose proof (pow2_ge_0 (a' k)). pose proof (pow2_ge_0 (b' k)). lra. }
  pose proof (inv_nfft nfft) as Hinv. unfold Rdiv in Hinv. rewrite Rmult_1_l in Hinv.
  assert (Hw' : forall k, 0 <= w k / INR nfft) by (intros k; apply Rmult_le_pos; auto).
  pose proof (perturbed_energy bins (fun k => w k / INR nfft) (fun k => lin_exact x (re k)) (fun k => lin_exact x (im k)) a' b'
    (fun k => Rabs (a' k - lin_exact x (re k))) (fun k => Rabs (b' k - lin_exact x (im k))) r ltac:(lra) Hw') as P.
  cbv zeta beta in P.
  rewrite (bigsum_ext bins (fun k => w k / INR nfft * (lin_exact x (re k) ^ 2 + lin_exact x (im k) ^ 2))
    (fun k => w k * (lin_exact x (re k) ^ 2 + lin_exact x (im k) ^ 2) / INR nfft)) in P by (intros; unfold Rdiv; ring).
  fold e in P.
  assert (P1 : (1 - r) ^ 2 * e <= bigsum bins (fun k => w k / INR nfft * (a' k ^ 2 + b' k ^ 2)) <= (1 + r) ^ 2 * e).
  { apply P.
    - intros k _. split; apply Rle_refl.
    - eapply Rle_trans; [|exact Hn]. right. unfold actual_noise. apply bigsum_ext. intros k _. rewrite !pow2_abs. fold (a' k) (b' k). unfold Rdiv. ring. }
  rewrite (bigsum_ext bins (fun k => q k ^ 2 / INR nfft * w k) (fun k => w k / INR nfft * (a' k ^ 2 + b' k ^ 2))) in K
    by (intros k _; rewrite Hq; unfold Rdiv; ring).
  set (s := bigsum bins _) in *. clearbody s e'. clear - K P1 He Hu Hu1 Hv Hr.
  assert (A1 : 0 < (1 - u) ^ (bins + 3)) by (apply pow_lt; lra).
  assert (A2 : 0 < (1 - v) ^ 2) by (apply pow_lt; lra). assert (A3 : 0 < (1 - r) ^ 2) by (apply pow_lt; lra).
  assert (B1 : 0 < (1 + u) ^ (bins + 3)) by (apply pow_lt; lra).
  assert (B2 : 0 < (1 + v) ^ 2) by (apply pow_lt; lra). assert (B3 : 0 < (1 + r) ^ 2) by (apply pow_lt; lra).
  assert (A23 : 0 < (1 - v) ^ 2 * (1 - r) ^ 2) by (apply Rmult_lt_0_compat; assumption).
  assert (B23 : 0 < (1 + v) ^ 2 * (1 + r) ^ 2) by (apply Rmult_lt_0_compat; assumption).
  assert (Hb : band_log_bound u v r bins = - ln ((1 - u) ^ (bins + 3) * ((1 - v) ^ 2 * (1 - r) ^ 2))).
  { unfold band_log_bound. rewrite !ln_mult by assumption. rewrite !ln_pow by lra. simpl (INR 2). ring. }
  rewrite Hb.
  apply (ln_factor e' e _ ((1 + u) ^ (bins + 3) * ((1 + v) ^ 2 * (1 + r) ^ 2))); auto using Rmult_lt_0_compat.
  - apply prod_inv; try lra.
    + apply pow_inv_le; try lra. apply one_plus_inv. lra.
    + apply prod_inv; try lra; apply pow_inv_le; try lra; apply one_plus_inv; lra.
  - destruct K as [K1 K2], P1 as [P1 P2]. split.
    + eapply Rle_trans; [|exact K1]. rewrite Rmult_assoc. apply Rmult_le_compat_l; [lra|]. rewrite Rmult_assoc.
      apply Rmult_le_compat_l; [lra|exact P1].
    + eapply Rle_trans; [exact K2|]. rewrite Rmult_assoc. apply Rmult_le_compat_l; [lra|]. rewrite Rmult_assoc.
      apply Rmult_le_compat_l; [lra|exact P2].
Qed.

(** ** programs applied to inaccurate numbers *)
Lemma lin_size_bound : forall n p y M, reads n p -> (forall j, (j < n)%nat -> Rabs (y j) <= M) -> 0 <= M -> lin_size y p <= gain p * M.
Proof.
  intros n p y M Hp Hy HM. unfold gain. revert Hp.
  induction p as [i| |p IHp q IHq|p IHp q IHq|c p IHp|c p IHp q IHq]; cbn [lin_size reads]; intros Hp.
  - rewrite Rabs_R1, Rmult_1_l. auto.
  - lra.
  - destruct Hp. specialize (IHp H). specialize (IHq H0). lra.
  - destruct Hp. specialize (IHp H). specialize (IHq H0). lra.
  - rewrite Rmult_assoc. apply Rmult_le_compat_l; [apply Rabs_pos|auto].
  - destruct Hp as [H H0]. specialize (IHp H). specialize (IHq H0).
    pose proof (Rmult_le_compat_l _ _ _ (Rabs_pos c) IHp). lra.
Qed.
Lemma lin_exact_minus : forall p y z, lin_exact y p - lin_exact z p = lin_exact (fun j => y j - z j) p.
Proof. intros p y z. induction p; cbn [lin_exact]; try rewrite <- IHp; try rewrite <- IHp1; try rewrite <- IHp2; ring. Qed.

Lemma program_on_inputs : forall (E : Env) u n p y y' Y h, accurate u 0 (@rnd E) -> reads n p -> 0 <= h -> 0 <= Y ->
  (forall j, (j < n)%nat -> Rabs (y j) <= Y /\ Rabs (y' j - y j) <= h) ->
  Rabs (@lin_run E y' (@lin_stored E p) - lin_exact y p) <= gain p * ((1 + u) ^ lin_depth2 p * (Y + h) - Y).
Proof.
  intros E u n p y y' Y h Ha Hp Hh HY Hy. pose proof Ha as (Hu & _ & _).
  pose proof (lin_stored_error E u y' p Ha) as S1.
  assert (S2 : lin_size y' p <= gain p * (Y + h)).
  { apply (lin_size_bound n); auto; [|lra]. intros j Hj. destruct (Hy j Hj).
    replace (y' j) with (y j + (y' j - y j)) by ring. eapply Rle_trans; [apply Rabs_triang|]. lra. }
  assert (S3 : Rabs (lin_exact y' p - lin_exact y p) <= gain p * h).
  { rewrite lin_exact_minus. eapply Rle_trans; [apply lin_exact_size|]. apply (lin_size_bound n); auto. intros j Hj. apply Hy, Hj. }
  pose proof (pow_u_ge1 u (lin_depth2 p) Hu) as H1.
  replace (@lin_run E y' (@lin_stored E p) - lin_exact y p)
    with ((@lin_run E y' (@lin_stored E p) - lin_exact y' p) + (lin_exact y' p - lin_exact y p)) by ring.
  eapply Rle_trans; [apply Rabs_triang|].
  pose proof (Rmult_le_compat_l ((1 + u) ^ lin_depth2 p - 1) _ _ ltac:(lra) S2). lra.
Qed.

(** ** cepstral coefficients *)
Section Cepstra.
Context (E : Env) (u v r : R) (nfft bins n : nat) (hyp : R -> R -> R) (re im : nat -> lin) (x : nat -> R)
  (W : nat -> nat -> R) (bank : nat -> lin).
Hypothesis Ha : accurate u 0 (@rnd E).
Hypothesis Hu1 : u < 1.
Hypothesis Hh : hypot_within v hyp.
Hypothesis Hr : 0 < r < 1.
Hypothesis HW : forall j k, 0 <= W j k.
Hypothesis Hb : forall j, (j < n)%nat -> dot_program (W j) bins (bank j).
Let e (j : nat) : R := bigsum bins (fun k => W j k * (lin_exact x (re k) ^ 2 + lin_exact x (im k) ^ 2) / INR nfft).
Hypothesis He : forall j, (j < n)%nat -> 0 < e j.
Hypothesis Hn : forall j, (j < n)%nat -> actual_noise E nfft bins x re im (W j) <= r ^ 2 * e j.
Let sre (k : nat) : lin := @lin_stored E (re k).
Let sim (k : nat) : lin := @lin_stored E (im k).
Let lam : R := band_log_bound u v r bins.

Lemma lam_nonneg : 0 <= lam.
Proof.
  unfold lam, band_log_bound. pose proof Ha as (Hu & _ & _). destruct Hh as (Hv & _).
  assert (L : forall t, 0 <= t < 1 -> 0 <= - ln (1 - t)).
  { intros t Ht. rewrite <- ln_Rinv by lra. rewrite <- ln_1. apply Rcomplements.ln_le; [lra|].
    pose proof (one_plus_inv t Ht). lra. }
  pose proof (L u ltac:(lra)) as L1. pose proof (L v Hv). pose proof (L r ltac:(lra)).
  pose proof (Rmult_le_pos _ _ (pos_INR (bins + 3)) L1). lra.
Qed.

Lemma log_cepstrum_actual : forall wl lnf Y dct k, ln_within wl lnf -> reads n (dct k) ->
  (forall j, (j < n)%nat -> Rabs (ln (e j)) <= Y) -> 0 <= Y ->
  Rabs (@log_cepstrum E lnf hyp sre sim nfft bank (fun k => @lin_stored E (dct k)) x k - lin_exact (fun j => ln (e j)) (dct k))
  <= gain (dct k) * ((1 + u) ^ lin_depth2 (dct k) * ((1 + wl) * (Y + lam)) - Y).
Proof.
  intros wl lnf Y dct k (Hwl & Hl) Hrd HY HY0. pose proof lam_nonneg as Hlam.
  unfold log_cepstrum.
  eapply Rle_trans; [apply (program_on_inputs E u n (dct k) (fun j => ln (e j)) _ Y ((1 + wl) * lam + wl * Y) Ha Hrd)|].
  - pose proof (Rmult_le_pos _ _ Hwl HY0). pose proof (Rmult_le_pos _ _ Hwl Hlam). lra.
  - exact HY0.
  - intros j Hj. split; [auto|].
    destruct (band_actual E u v r nfft bins hyp re im x (W j) bank j Ha Hu1 Hh Hr (HW j) (Hb j Hj) (He j Hj) (Hn j Hj)) as [P Q].
    fold sre sim lam in Q. fold (e j) in Q. unfold log_band. fold sre sim in P. set (g := @band_energy E _ _ _ _) in *.
    unfold zeroed. destruct (Req_EM_T g 0) as [Z|_]; [lra|].
    specialize (Hl g P). specialize (HY j Hj).
    assert (Hg : Rabs (ln g) <= Y + lam).
    { replace (ln g) with (ln (e j) + (ln g - ln (e j))) by ring. eapply Rle_trans; [apply Rabs_triang|]. lra. }
    replace (lnf g - ln (e j)) with ((lnf g - ln g) + (ln g - ln (e j))) by ring.
    eapply Rle_trans; [apply Rabs_triang|]. pose proof (Rmult_le_compat_l _ _ _ Hwl Hg). lra.
  - right. ring.
Qed.

Lemma root_cepstrum_actual : forall p wp powf Y dct k, pow_within wp p powf -> reads n (dct k) ->
  (forall j, (j < n)%nat -> Rpower (e j) p <= Y) -> 0 <= Y ->
  Rabs (@root_cepstrum E powf hyp sre sim nfft bank (fun k => @lin_stored E (dct k)) x k - lin_exact (fun j => Rpower (e j) p) (dct k))
  <= gain (dct k) * ((1 + u) ^ lin_depth2 (dct k) * ((1 + wp) * exp (Rabs p * lam)) - 1) * Y.
Proof.
  intros p wp powf Y dct k (Hwp & Hp) Hrd HY HY0. pose proof lam_nonneg as Hlam.
  set (G := exp (Rabs p * lam)).
  assert (HG : 1 <= G).
  { unfold G. rewrite <- exp_0. pose proof (Rmult_le_pos _ _ (Rabs_pos p) Hlam) as [K|<-]; [left; apply exp_increasing, K|lra]. }
  unfold root_cepstrum.
  assert (H0 : 0 <= ((1 + wp) * G - 1) * Y).
  { apply Rmult_le_pos; [|exact HY0]. nra. }
  eapply Rle_trans; [apply (program_on_inputs E u n (dct k) (fun j => Rpower (e j) p) _ Y (((1 + wp) * G - 1) * Y) Ha Hrd H0 HY0)|].
  - intros j Hj. pose proof (HY j Hj) as HYj.
    assert (Hpos : 0 < Rpower (e j) p) by apply exp_pos.
    split; [rewrite Rabs_pos_eq; lra|].
    destruct (band_actual E u v r nfft bins hyp re im x (W j) bank j Ha Hu1 Hh Hr (HW j) (Hb j Hj) (He j Hj) (Hn j Hj)) as [P Q].
    fold sre sim lam in Q. fold (e j) in Q. unfold root_band. fold sre sim in P. set (g := @band_energy E _ _ _ _) in *.
    specialize (Hp g P). set (R0 := Rpower (e j) p) in *.
    (* the exact power of the computed energy *)
    assert (HR : Rabs (p * (ln g - ln (e j))) <= Rabs p * lam).
    { rewrite Rabs_mult. apply Rmult_le_compat_l; [apply Rabs_pos|exact Q]. }
    assert (HE : Rpower g p = R0 * exp (p * (ln g - ln (e j)))).
    { unfold R0, Rpower. rewrite <- exp_plus. f_equal. ring. }
    set (t := p * (ln g - ln (e j))) in *.
    assert (Ht : / G <= exp t <= G).
    { apply Rcomplements.Rabs_le_between in HR. unfold G. rewrite <- exp_Ropp. split.
      - destruct (proj1 HR) as [K|<-]; [left; apply exp_increasing; lra|lra].
      - destruct (proj2 HR) as [K| ->]; [left; apply exp_increasing; lra|lra]. }
    assert (HiG : 2 - G <= / G).
    { apply (Rmult_le_reg_r G); [lra|]. rewrite Rinv_l by lra. nra. }
    assert (HRg : Rabs (Rpower g p - R0) <= (G - 1) * R0).
    { rewrite HE. replace (R0 * exp t - R0) with (R0 * (exp t - 1)) by ring. rewrite Rabs_mult, (Rabs_pos_eq R0) by lra.
      rewrite Rmult_comm. apply Rmult_le_compat_r; [lra|]. apply Rabs_le. lra. }
    assert (HRp : Rpower g p <= G * R0).
    { rewrite HE, Rmult_comm. apply Rmult_le_compat_r; lra. }
    replace (powf g - R0) with ((powf g - Rpower g p) + (Rpower g p - R0)) by ring.
    eapply Rle_trans; [apply Rabs_triang|].
    pose proof (Rmult_le_compat_l _ _ _ Hwp HRp) as K.
    apply Rle_trans with (((1 + wp) * G - 1) * R0); [lra|]. apply Rmult_le_compat_l; [nra|exact HYj].
  - right. ring.
Qed.
End Cepstra.
