(** * A library and a signal of three floats for the comparison with exact arithmetic *)
From Coq Require Import Reals ZArith List String Bool Lia Lra Psatz Permutation.
From Flocq Require Import Core IEEE754.BinarySingleNaN Relative.
From Coquelicot Require Rcomplements.
From Verif Require Import Base SpecBase BigSum Preprocessing SpecMat SpecFilters SpecBanks SpecFeatures DctFacts Features Extractors FeaturesFacts
  Binary64 Binary64Facts Rounded RoundedCeps SpecRounded RoundedFacts SpecRoundedCeps SpecRoundedDominant RoundedLaws RoundedCepsLaws ExampleTools RoundedCepsEnd RoundedWindows RoundedBanksError RoundedDominantLaws
  Ieee SpecIeee SpecIeeeEnd IeeeFacts IeeeLaws IeeeCases IeeeEnd.
Import ListNotations.
Local Open Scope R_scope.

Lemma near_error : forall r, Rabs (near r - r) <= / 2 ^ 52 * Rabs r + tiny.
Proof.
  intros r. unfold near. set (t := r * bpow radix2 1074). pose proof (Znearest_half (fun x => negb (Z.even x)) t) as N. set (z := ZnearestE t) in *. fold z in N.
  assert (E : bpow radix2 1074 * bpow radix2 (-1074) = 1) by (rewrite <- bpow_plus; reflexivity).
  assert (T : tiny = bpow radix2 (-1074) / 2) by (unfold tiny; change (-1075)%Z with (-1074 + -1)%Z; rewrite bpow_plus; change (bpow radix2 (-1)) with (/ 2); reflexivity).
  pose proof (bpow_gt_0 radix2 (-1074)) as B. set (b := bpow radix2 (-1074)) in *.
  assert (Hr : r = t * b) by (unfold t; rewrite Rmult_assoc, E; ring).
  assert (A : Rabs (IZR z * b - r) <= tiny).
  { rewrite Hr. replace (IZR z * b - t * b) with (- (t - IZR z) * b) by ring. rewrite Rabs_mult, Rabs_Ropp, (Rabs_pos_eq b) by lra. rewrite T.
    pose proof (Rmult_le_compat_r b _ _ (Rlt_le _ _ B) N). lra. }
  assert (U : Rabs (rnd64 (IZR z * b) - IZR z * b) <= / 2 ^ 53 * Rabs (IZR z * b)).
  { unfold rnd64. pose proof (relative_error_N_FLT_F2R_emin radix2 (-1074) 53 ltac:(lia) (fun x => negb (Z.even x)) z) as K. unfold F2R in K. cbn [Fnum Fexp] in K. fold b in K.
    change (bpow radix2 (- (53) + 1)) with (/ 4503599627370496) in K. eapply Rle_trans; [exact K|]. apply Rmult_le_compat_r; [apply Rabs_pos|].
 lra. }
  destruct (Z.eq_dec z 0) as [Z|Z].
  - rewrite Z in *. rewrite Rmult_0_l in *. rewrite rnd64_0. pose proof (Rabs_pos r). lra.
  - assert (G : tiny <= Rabs r).
    { rewrite Hr, Rabs_mult, (Rabs_pos_eq b) by lra. rewrite T. unfold Rdiv. rewrite Rmult_comm. apply Rmult_le_compat_r; [lra|].
      destruct (Rlt_or_le (Rabs t) (/ 2)) as [L|L]; [|exact L]. exfalso. apply Z. apply Znearest_imp. rewrite Rminus_0_r. exact L. }
    replace (rnd64 (IZR z * b) - r) with ((rnd64 (IZR z * b) - IZR z * b) + (IZR z * b - r)) by ring. eapply Rle_trans; [apply Rabs_triang|].
    assert (Q : Rabs (IZR z * b) <= Rabs r + tiny).
    { replace (IZR z * b) with (r + (IZR z * b - r)) by ring. eapply Rle_trans; [apply Rabs_triang|]. lra. }
    lra.
Qed.
Lemma hypot_r_close : hypot_close (/ 2 ^ 52) hypot_r.
Proof.
  split; [lra|]. intros a b. unfold hypot_r. split; [apply near_nonneg, sqrt_pos|]. eapply Rle_trans; [apply near_error|].
  rewrite Rabs_pos_eq by apply sqrt_pos. lra.
Qed.
Lemma ln_r_close : ln_close (/ 2 ^ 52) ln_r.
Proof. split; [lra|]. intros x _. apply near_error. Qed.
Definition pow64 (p : R) (a : f64) : f64 := if is_finite a then of_R (Rpower (val a) p) else a.
Definition pow_r (p v : R) : R := near (Rpower v p).
Lemma pow64_ok : forall p, implements1 (fun v => 0 < v) (pow64 p) (pow_r p).
Proof. intros p a Ha _ H. unfold pow64. unfold fin in Ha. rewrite Ha. apply of_R_ok. exact H. Qed.
Lemma pow_r_close : forall p, pow_close (/ 2 ^ 52) p (pow_r p).
Proof.
  intros p. split; [lra|]. intros x _. unfold pow_r. eapply Rle_trans; [apply near_error|]. rewrite Rabs_pos_eq; [lra|]. left. apply exp_pos.
Qed.

(** three samples, a Hann window, pre-emphasis 1/2, a 2-point transform, one band with weights 1/2 *)
Definition three_args : sargs := mkS 1 true (/ 2) (Some (mkWindow 3 3 "hanning")) 1 2 0 None "constant" (Some (fmat 1 2 (fun _ _ => / 2))) "Oshaghnessy".
Definition three_re (k : nat) : lin :=
  match k with O => Sub (Load 1) (Scale (/ 2) (Load 0)) | _ => Sub (Scale (/ 2) (Load 0)) (Load 1) end.
Definition three_im (k : nat) : lin := Zero.
Definition three_fre (k : nat) : flin :=
  match k with O => FSub (FLoad 1) (FScale half64 (FLoad 0)) | _ => FSub (FScale half64 (FLoad 0)) (FLoad 1) end.
Definition three_fim (k : nat) : flin := FZero.
Definition three_signal (t : nat) : f64 := match t with O => of_Z 1 (-1) | 1%nat => of_Z 1 0 | _ => zero64 end.

Lemma half_half : val half64 = / 2.
Proof. destruct (power_of_2 (-1)) as [_ B]; [lia|]. unfold half64. rewrite B. reflexivity. Qed.
Lemma three_values : val (three_signal 0) = / 2 /\ val (three_signal 1) = 1 /\ val (three_signal 2) = 0.
Proof. split; [exact half_half|]. split; [|reflexivity]. destruct (power_of_2 0) as [_ B]; [lia|]. cbn [three_signal]. rewrite B. reflexivity. Qed.
Lemma three_framed : @well_framed exact_env three_args 3 3 3.
Proof.
  unfold well_framed, window_of. cbn [three_args s_window win_len win_hop win_type s_fs].
  split; [lra|]. split; [apply flen_exact; simpl; lra|]. split; [apply flen_exact; simpl; lra|].
  split; [lia|]. split; [lia|]. simpl; tauto.
Qed.
Lemma three_ok : forall t, (t < 3)%nat -> fin (three_signal t) /\ Rabs (val (three_signal t)) <= bpow radix2 400.
Proof.
  destruct three_values as (V0 & V1 & V2). assert (1 <= bpow radix2 400) by (change 1 with (bpow radix2 0); apply bpow_le; lia).
  intros [|[|[|t]]] Ht; [| | |lia]; (split; [first [reflexivity|apply power_of_2; lia]|]); [rewrite V0|rewrite V1|rewrite V2]; apply Rabs_le; lra.
Qed.
Lemma three_programs : frame_programs 2 3 (fun z => frame_of three_args (s_coeff three_args) 3 3 z 0) 2 three_re three_im.
Proof.
  intros z k Hk. destruct hann3 as [W0 W1].
  unfold spec_re, spec_im, frame_of, spec_frame. cbn [Nat.min bigsum three_args window_of s_window win_type s_pre_emph s_coeff Nat.mul Nat.add].
  rewrite W0, W1. unfold spec_pre. destruct k as [|[|k]]; [| |lia]; cbn [three_re three_im lin_exact Nat.mul Nat.add].
  - replace (2 * PI * INR 0 / INR 2) with 0 by (cbn [INR]; lra). rewrite cos_0, sin_0. split; ring.
  - replace (2 * PI * INR 1 / INR 2) with PI by (cbn [INR]; field). rewrite cos_PI, sin_PI. split; ring.
Qed.
Lemma half_normal : normal (/ 2) /\ Rabs (/ 2) <= 1.
Proof. split; [right; rewrite Rabs_pos_eq by lra; change (/ 2) with (bpow radix2 (-1)); apply bpow_le; lia|rewrite Rabs_pos_eq; lra]. Qed.
Lemma half_rounded : rnd64 (/ 2) = / 2.
Proof. change (/ 2) with (bpow radix2 (-1)). apply rnd64_bpow. lia. Qed.
Lemma three_float : forall q, (q < 2)%nat -> float_program 3 (three_re q) (three_fre q) /\ float_program 3 (three_im q) (three_fim q).
Proof.
  intros q _. destruct half_ok as [A B]. destruct half_normal as [C D]. unfold float_program, program.
  destruct q; cbn [three_re three_im three_fre three_fim unit_consts reals reads nodes INR Nat.add lin_stored unit_normal rnd binary64]; rewrite ?half_rounded, ?half_half;
    repeat split; try lia; try lra; try assumption.
Qed.
Lemma three_bank : program 2 (two_bank 0) /\ dot_program (fun _ => / 2) 2 (reals (two_bank 0)).
Proof.
  split; [apply two_bank_ok|]. exists [0%nat; 1%nat]. split; [reflexivity|]. cbn [two_bank reals]. rewrite half_half.
  apply (dots_fma (fun _ => / 2)). apply (dots_mul (fun _ => / 2)).
Qed.
Lemma three_dct : float_program 1 (Load 0) (FLoad 0).
Proof. unfold float_program, program. cbn [unit_consts reals reads nodes INR lin_stored unit_normal]. repeat split; try lia; lra. Qed.
Lemma three_band : spec_band 1 2 3 (frame_of three_args (s_coeff three_args) 3 3 (fun t => val (three_signal t)) 0) (fun _ => / 2) = 9 / 32.
Proof.
  rewrite <- (spec_band_programs 1 2 3 (fun z => frame_of three_args (s_coeff three_args) 3 3 z 0) three_re three_im (fun t => val (three_signal t)) (fun _ => / 2)).
  - destruct three_values as (V0 & V1 & _). cbn [bigsum three_re three_im lin_exact]. rewrite V0, V1. replace (INR 2) with 2 by (cbn [INR]; ring). lra.
  - exact three_programs.
Qed.
Lemma three_noise : float_noise 3 2 2 (fun t => val (three_signal t)) three_re three_im (fun _ => / 2) <= (/ 2 ^ 40) ^ 2 * (9 / 32).
Proof.
  destruct three_values as (V0 & V1 & _). unfold float_noise. cbn [bigsum three_re three_im lin_size]. rewrite V0, V1. replace (INR 2) with 2 by (cbn [INR]; ring).
  assert (P := bpow_gt_0 radix2 (-1030)). assert (Q : bpow radix2 (-1030) <= / 2 ^ 60).
  { replace (/ 2 ^ 60) with (bpow radix2 (-60)) by (change (bpow radix2 (-60)) with (/ 1152921504606846976); lra). apply bpow_le. lia. }
  set (b := bpow radix2 (-1030)) in *. rewrite (Rabs_pos_eq (/ 2)), (Rabs_pos_eq 1) by lra.
  set (d := ((1 + / 2 ^ 53) ^ 3 - 1) * (1 + / 2 * / 2) + b). set (d' := ((1 + / 2 ^ 53) ^ 3 - 1) * (/ 2 * / 2 + 1) + b).
  assert (G : (1 + / 2 ^ 53) ^ 3 - 1 <= / 2 ^ 51 /\ 0 <= (1 + / 2 ^ 53) ^ 3 - 1) by lra.
  assert (D1 : 0 <= d <= / 2 ^ 50) by (unfold d; lra). assert (D2 : 0 <= d' <= / 2 ^ 50) by (unfold d'; lra).
  assert (D3 : 0 <= ((1 + / 2 ^ 53) ^ 3 - 1) * 0 + b <= / 2 ^ 50) by lra.
  assert (SQ : forall t, 0 <= t <= / 2 ^ 50 -> t ^ 2 <= / 2 ^ 100).
  { intros t [T1 T2]. apply Rle_trans with ((/ 2 ^ 50) ^ 2); [apply pow_incr; lra|lra]. }
  pose proof (SQ _ D1). pose proof (SQ _ D2). pose proof (SQ _ D3). lra.
Qed.
