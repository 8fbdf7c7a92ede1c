(** * Proofs about the Butterworth design: its magnitude response *)
From Coq Require Import Reals ZArith String List Bool Lia Lra Permutation.
From Coquelicot Require Import Complex.
From Verif Require Import Base BaseFacts SpecBase SpecMat BigSum MatFacts SpecSpectral Dominant DominantFacts Butter ButterFacts ButterResponse.
Import ListNotations.
Local Open Scope R_scope.

Lemma cis_add : forall s t, Cmult (cis s) (cis t) = cis (s + t).
Proof. intros. unfold cis, Cmult. cbn [fst snd]. rewrite cos_plus, sin_plus. f_equal; ring. Qed.
Lemma Cmod_cis : forall t, Cmod (cis t) = 1.
Proof.
  intros. unfold cis, Cmod. cbn [fst snd]. replace (cos t ^ 2 + sin t ^ 2) with 1; [apply sqrt_1|].
  pose proof (sin2_cos2 t) as H. unfold Rsqr in H. nra.
Qed.
Lemma Cmod_sq : forall z, Cmod z ^ 2 = fst z ^ 2 + snd z ^ 2.
Proof. intros. unfold Cmod. rewrite pow2_sqrt; [reflexivity|]. pose proof (pow2_ge_0 (fst z)). pose proof (pow2_ge_0 (snd z)). lra. Qed.
Lemma unit_angle : forall x y, x * x + y * y = 1 -> exists t, cos t = x /\ sin t = y.
Proof.
  intros x y H. assert (B : -1 <= x <= 1) by (split; nra).
  assert (Q : sqrt (1 - Rsqr x) = Rabs y).
  { unfold Rsqr. replace (1 - x * x) with (Rsqr y) by (unfold Rsqr; lra). apply sqrt_Rsqr_abs. }
  destruct (Rle_lt_dec 0 y).
  - exists (acos x). rewrite cos_acos by auto. split; auto. rewrite sin_acos by auto. rewrite Q. apply Rabs_pos_eq; auto.
  - exists (- acos x). rewrite cos_neg, sin_neg, cos_acos by auto. split; auto. rewrite sin_acos by auto. rewrite Q, Rabs_left; lra.
Qed.
Lemma polar : forall z, exists t, z = Cmult (RtoC (Cmod z)) (cis t).
Proof.
  intros z. destruct (Req_dec (Cmod z) 0) as [E|E].
  - exists 0. rewrite (Cmod_eq_0 z E). rewrite Cmod_0. unfold Cmult, RtoC. cbn [fst snd]. f_equal; ring.
  - destruct (unit_angle (fst z / Cmod z) (snd z / Cmod z)) as (t & C1 & S1).
    + replace (fst z / Cmod z * (fst z / Cmod z) + snd z / Cmod z * (snd z / Cmod z))
        with ((fst z ^ 2 + snd z ^ 2) / Cmod z ^ 2) by (field; auto).
      rewrite <- Cmod_sq. field. auto.
    + exists t. unfold cis. rewrite C1, S1. destruct z as [x y]. unfold Cmult, RtoC. cbn [fst snd].
      f_equal; field; auto.
Qed.

Fixpoint rprod (l : list R) : R := match l with [] => 1 | c :: t => c * rprod t end.
Lemma Cmod_prod : forall l, Cmod (cprodr l) = rprod (map Cmod l).
Proof. induction l; cbn [cprodr map rprod]; [apply Cmod_1|]. rewrite Cmod_mult, IHl. reflexivity. Qed.
Lemma rprod_sq : forall l, rprod l ^ 2 = rprod (map (fun x => x ^ 2) l).
Proof. induction l; cbn [map rprod]; [ring|]. rewrite <- IHl. ring. Qed.
Lemma cprodr_repeat : forall c n, Cmod (cprodr (repeat c n)) = Cmod c ^ n.
Proof. induction n; cbn [repeat cprodr pow]; [apply Cmod_1|]. rewrite Cmod_mult, IHn. reflexivity. Qed.
Lemma cprodr_mult : forall (f g : C -> C) l, Cmult (cprodr (map f l)) (cprodr (map g l)) = cprodr (map (fun x => Cmult (f x) (g x)) l).
Proof. intros f g. induction l; cbn [map cprodr]; [ring|]. rewrite <- IHl. ring. Qed.
Lemma conj_prod : forall l, Cconj (cprodr l) = cprodr (map Cconj l).
Proof. induction l; cbn [map cprodr]; [apply conj_real|]. rewrite conj_mult, IHl. reflexivity. Qed.
Lemma cprodr_nonzero : forall l, (forall c, In c l -> c <> RtoC 0) -> cprodr l <> RtoC 0.
Proof.
  induction l; intros H; cbn [cprodr].
  - intros E. injection E. lra.
  - apply Cmult_neq_0; [apply H; left; auto|]. apply IHl. intros; apply H; right; auto.
Qed.

Lemma map_repeat : forall (f : C -> C) c n, map f (repeat c n) = repeat (f c) n.
Proof. induction n; cbn [repeat map]; congruence. Qed.

Section Gain.
Context (N : nat) (w1 w2 : R).
Hypothesis W : 0 < w1 /\ w1 < w2 /\ w2 < 1.
Notation bw := (bw w1 w2).
Notation wo := (wo w1 w2).
Notation bp := (bp N w1 w2).
Notation gain := (gain N w1 w2).
Notation num := (num N w1 w2).
Notation den := (np_poly (proots N w1 w2)).
Notation dist := (cprodr (map (fun v => Cminus (RtoC 4) v) bp)).

Lemma dist_nonzero : dist <> RtoC 0.
Proof.
  apply cprodr_nonzero. intros c Hc. apply in_map_iff in Hc as (s & <- & Hs). apply four_minus. eapply bp_left; eauto.
Qed.
Lemma dist_conj : Cconj dist = dist.
Proof.
  rewrite conj_prod, map_map. rewrite (map_ext _ (fun v => Cminus (RtoC 4) (Cconj v))).
  - rewrite <- (map_map Cconj (fun v => Cminus (RtoC 4) v)). apply cprodr_perm, Permutation_map, bp_conj.
  - intros v. rewrite conj_minus, conj_real. reflexivity.
Qed.
Lemma fours : cprod (map (fun v => Cminus (RtoC 4) v) (repeat (RtoC 0) N)) = RtoC (4 ^ N).
Proof.
  rewrite cprod_eq. induction N; cbn [repeat map cprodr pow]; [reflexivity|]. rewrite IHn, RtoC_mult. f_equal. ring.
Qed.
Lemma gain_dist : Cmult (RtoC gain) dist = RtoC (bw ^ N * 4 ^ N).
Proof.
  unfold gain, ButterResponse.gain. fold bp. rewrite fours, cprod_eq.
  set (q := Cdiv (RtoC (4 ^ N)) dist).
  assert (Q : q = RtoC (fst q)).
  { apply conj_fixed. unfold q, Cdiv. rewrite conj_mult, conj_inv, dist_conj, conj_real. reflexivity. }
  rewrite RtoC_mult, <- Q. unfold q. rewrite RtoC_mult. field. apply dist_nonzero.
Qed.
Lemma num_mod : forall w, Cmod (peval num w) * Cmod dist
  = bw ^ N * 4 ^ N * (Cmod (Cminus (RtoC 1) w) ^ N * Cmod (Cplus (RtoC 1) w) ^ N).
Proof.
  intros w. rewrite <- Cmod_mult. unfold num, ButterResponse.num. rewrite peval_scal, peval_poly, zroots_eq.
  rewrite map_app, cprodr_app, !map_repeat.
  replace (Cminus (RtoC 1) (Cmult (RtoC 1) w)) with (Cminus (RtoC 1) w) by ring.
  replace (Cminus (RtoC 1) (Cmult (RtoC (-1)) w)) with (Cplus (RtoC 1) w)
    by (unfold Cminus, Cplus, Copp, Cmult, RtoC; cbn [fst snd]; f_equal; ring).
  set (P := cprodr (repeat (Cminus _ _) N)). set (Q := cprodr (repeat (Cplus _ _) N)).
  replace (Cmult (Cmult (RtoC gain) (Cmult P Q)) dist) with (Cmult (Cmult (RtoC gain) dist) (Cmult P Q)) by ring.
  rewrite gain_dist, !Cmod_mult, Cmod_R. unfold P, Q. rewrite !cprodr_repeat. f_equal.
  apply Rabs_pos_eq. pose proof (bw_pos w1 w2 W). apply Rmult_le_pos; apply pow_le; lra.
Qed.
Lemma den_prod : forall w, let al := Cmult (RtoC 4) (Cminus (RtoC 1) w) in let be := Cplus (RtoC 1) w in
  Cmult (peval den w) dist
  = cprodr (map (fun p => Cplus (Cminus (Cmult al al) (Cmult (Cmult p (RtoC bw)) (Cmult al be))) (Cmult (RtoC (wo * wo)) (Cmult be be))) (buttap N)).
Proof.
  intros w al be. rewrite peval_poly. unfold proots. rewrite map_map, cprodr_mult.
  transitivity (cprodr (map (fun s => Cminus al (Cmult s be)) bp)).
  { f_equal. apply map_ext_in. intros s Hs. unfold bilinear, al, be. field.
    apply four_minus. eapply bp_left; eauto. }
  unfold bp, ButterResponse.bp. rewrite lp2bp_pairs, map_app, cprodr_app, !map_map, cprodr_mult.
  f_equal. apply map_ext. intros p. rewrite <- (pair_sum wo bw p), <- (pair_prod wo bw p). ring.
Qed.

Section Tone.
Context (om : R).
Hypothesis O : 0 <= om <= PI.
Let s := sin (om / 2).
Let c := cos (om / 2).
Let w := cis (- om).
Definition gD : R := 4 * (wo * wo) * c ^ 2 - 64 * s ^ 2.
Definition gE : R := 16 * bw * s * c.
Let P0 : 0 < PI := PI_RGT_0.
Lemma s_pos : 0 <= s.
Proof. unfold s. apply sin_ge_0; lra. Qed.
Lemma c_pos : 0 <= c.
Proof. unfold c. apply cos_ge_0; lra. Qed.
Lemma half_cos : cos om = 1 - 2 * s ^ 2.
Proof. unfold s. replace om with (2 * (om / 2)) at 1 by field. rewrite cos_2a_sin. ring. Qed.
Lemma half_sin : sin om = 2 * s * c.
Proof. unfold s, c. replace om with (2 * (om / 2)) at 1 by field. apply sin_2a. Qed.
Lemma half_one : s ^ 2 + c ^ 2 = 1.
Proof. unfold s, c. pose proof (sin2_cos2 (om / 2)) as H. unfold Rsqr in H. lra. Qed.
Lemma one_minus : Cminus (RtoC 1) w = Cmult (RtoC (2 * s)) (s, c).
Proof.
  unfold w, cis. rewrite cos_neg, sin_neg, half_cos, half_sin. unfold Cminus, Cplus, Copp, Cmult, RtoC. cbn [fst snd]. f_equal; ring.
Qed.
Lemma one_plus : Cplus (RtoC 1) w = Cmult (RtoC (2 * c)) (c, - s).
Proof.
  pose proof half_one. unfold w, cis. rewrite cos_neg, sin_neg, half_cos, half_sin. unfold Cminus, Cplus, Copp, Cmult, RtoC. cbn [fst snd]. f_equal; [|ring].
  replace (c ^ 2) with (1 - s ^ 2) by lra. nra.
Qed.
Lemma unit_sc : Cmod (s, c) = 1 /\ Cmod (c, - s) = 1.
Proof.
  pose proof half_one as H. unfold Cmod. cbn [fst snd]. split; rewrite <- sqrt_1; f_equal; lra.
Qed.
Lemma num_tone : Cmod (peval num w) * Cmod dist = gE ^ N.
Proof.
  rewrite num_mod, one_minus, one_plus, !Cmod_mult. destruct unit_sc as [-> ->]. rewrite !Cmod_R.
  pose proof s_pos. pose proof c_pos. rewrite !Rabs_pos_eq by lra. unfold gE.
  rewrite <- !Rpow_mult_distr. f_equal. ring.
Qed.
Lemma factor_tone : forall th, let al := Cmult (RtoC 4) (Cminus (RtoC 1) w) in let be := Cplus (RtoC 1) w in
  Cmod (Cplus (Cminus (Cmult al al) (Cmult (Cmult (Copp (cis th)) (RtoC bw)) (Cmult al be))) (Cmult (RtoC (wo * wo)) (Cmult be be))) ^ 2
  = gD ^ 2 - 2 * gD * gE * sin th + gE ^ 2.
Proof.
  intros th al be.
  assert (E : Cplus (Cminus (Cmult al al) (Cmult (Cmult (Copp (cis th)) (RtoC bw)) (Cmult al be))) (Cmult (RtoC (wo * wo)) (Cmult be be))
    = Cmult (Cmult (c, - s) (c, - s)) (gD - gE * sin th, gE * cos th)).
  { unfold al, be. rewrite one_minus, one_plus. unfold gD, gE, cis. generalize (sin th) (cos th) (wo * wo). intros x y z.
    unfold Cminus, Cplus, Copp, Cmult, RtoC. cbn [fst snd]. f_equal; ring. }
  rewrite E, !Cmod_mult. destruct unit_sc as [_ ->]. rewrite !Rmult_1_l, Cmod_sq. cbn [fst snd].
  pose proof (sin2_cos2 th) as T. unfold Rsqr in T.
  replace ((gD - gE * sin th) ^ 2 + (gE * cos th) ^ 2) with (gD ^ 2 - 2 * gD * gE * sin th + gE ^ 2 * (sin th * sin th + cos th * cos th)) by ring.
  rewrite T. ring.
Qed.
End Tone.
End Gain.

Lemma six_angles : forall D E : R,
  rprod (map (fun p => p) (map (fun i : nat => D ^ 2 - 2 * D * E * sin (PI * (2 * INR i - INR 6 + 1) / (2 * INR 6)) + E ^ 2) (seq 0 6)))
  = D ^ 12 + E ^ 12.
Proof.
  intros D E. cbn [seq map rprod].
  replace (PI * (2 * INR 0 - INR 6 + 1) / (2 * INR 6)) with (- (5 * (PI / 12))) by (cbn; field).
  replace (PI * (2 * INR 1 - INR 6 + 1) / (2 * INR 6)) with (- (PI / 4)) by (cbn; field).
  replace (PI * (2 * INR 2 - INR 6 + 1) / (2 * INR 6)) with (- (PI / 12)) by (cbn; field).
  replace (PI * (2 * INR 3 - INR 6 + 1) / (2 * INR 6)) with (PI / 12) by (cbn; field).
  replace (PI * (2 * INR 4 - INR 6 + 1) / (2 * INR 6)) with (PI / 4) by (cbn; field).
  replace (PI * (2 * INR 5 - INR 6 + 1) / (2 * INR 6)) with (5 * (PI / 12)) by (cbn; field).
  rewrite !sin_neg.
  assert (A1 : 2 * (sin (PI / 12) * sin (PI / 12)) = 1 - sqrt 3 / 2).
  { rewrite <- cos_PI6. replace (PI / 6) with (2 * (PI / 12)) by field. rewrite cos_2a_sin. ring. }
  assert (A2 : 2 * (sin (PI / 4) * sin (PI / 4)) = 1).
  { replace 1 with (1 - cos (PI / 2)) by (rewrite cos_PI2; ring). replace (PI / 2) with (2 * (PI / 4)) by field. rewrite cos_2a_sin. ring. }
  assert (A3 : 2 * (sin (5 * (PI / 12)) * sin (5 * (PI / 12))) = 1 + sqrt 3 / 2).
  { rewrite <- cos_PI6. replace (PI / 6) with (PI - 2 * (5 * (PI / 12))) by field. rewrite Rtrigo_facts.cos_pi_minus, cos_2a_sin. ring. }
  set (x := sin (PI / 12)) in *. set (y := sin (PI / 4)) in *. set (z := sin (5 * (PI / 12))) in *. clearbody x y z.
  assert (K : sqrt 3 * sqrt 3 = 3) by (apply sqrt_sqrt; lra). set (k := sqrt 3) in *. clearbody k.
  set (X := D ^ 2). set (Y := E ^ 2).
  assert (P1 : (X - 2 * D * E * - x + Y) * (X - 2 * D * E * x + Y) = X ^ 2 + Y ^ 2 + k * X * Y).
  { transitivity ((X + Y) ^ 2 - 2 * X * Y * (2 * (x * x))); [unfold X, Y; ring|]. rewrite A1. field. }
  assert (P2 : (X - 2 * D * E * - y + Y) * (X - 2 * D * E * y + Y) = X ^ 2 + Y ^ 2).
  { transitivity ((X + Y) ^ 2 - 2 * X * Y * (2 * (y * y))); [unfold X, Y; ring|]. rewrite A2. field. }
  assert (P3 : (X - 2 * D * E * - z + Y) * (X - 2 * D * E * z + Y) = X ^ 2 + Y ^ 2 - k * X * Y).
  { transitivity ((X + Y) ^ 2 - 2 * X * Y * (2 * (z * z))); [unfold X, Y; ring|]. rewrite A3. field. }
  transitivity ((X ^ 2 + Y ^ 2 + k * X * Y) * (X ^ 2 + Y ^ 2) * (X ^ 2 + Y ^ 2 - k * X * Y)).
  - rewrite <- P1, <- P3, <- P2. ring.
  - transitivity ((X ^ 2 + Y ^ 2) * ((X ^ 2 + Y ^ 2) ^ 2 - (k * k) * X ^ 2 * Y ^ 2)); [ring|]. rewrite K. unfold X, Y. ring.
Qed.

Lemma div_mult : forall u v : C, v <> RtoC 0 -> Cmult (Cdiv u v) v = u.
Proof. intros. field. auto. Qed.
Lemma den_tone : forall w1 w2 om, 0 < w1 /\ w1 < w2 /\ w2 < 1 -> 0 <= om <= PI ->
  (Cmod (peval (np_poly (proots 6 w1 w2)) (cis (- om))) * Cmod (cprodr (map (fun v => Cminus (RtoC 4) v) (bp 6 w1 w2)))) ^ 2
  = gD w1 w2 om ^ 12 + gE w1 w2 om ^ 12.
Proof.
  intros w1 w2 om W O. rewrite <- Cmod_mult, den_prod by auto. rewrite Cmod_prod, rprod_sq, !map_map.
  rewrite <- six_angles. unfold buttap. rewrite !map_map. f_equal. apply map_ext. intros i. apply factor_tone; auto.
Qed.
(** ** the response to a tone *)
Lemma butter_tone : forall w1 w2 A ph om x y, 0 < w1 /\ w1 < w2 /\ w2 < 1 -> 0 <= om <= PI ->
  (forall t, x t = A * cos (om * INR t + ph)) ->
  iir_response 12 (coeff (num 6 w1 w2)) (coeff (np_poly (proots 6 w1 w2))) x y ->
  exists g ps, 0 <= g /\ g ^ 2 * (gD w1 w2 om ^ 12 + gE w1 w2 om ^ 12) = gE w1 w2 om ^ 12 /\
  Un_cv (fun t => y t - A * g * cos (om * INR t + ps)) 0.
Proof.
  intros w1 w2 A ph om x y W O Hx Hy.
  set (w := cis (- om)). set (U := fun t : nat => Cmult (RtoC A) (cis (om * INR t + ph))).
  set (dn := peval (np_poly (proots 6 w1 w2)) w). set (nu := peval (num 6 w1 w2) w).
  assert (Dn : dn <> RtoC 0) by (apply inside_nonzero; [apply proots_inside; auto|apply Cmod_cis]).
  assert (HH0 := div_mult nu dn Dn).
  set (H := Cdiv nu dn) in *. destruct (polar H) as (th & Hth).
  exists (Cmod H), (ph + th). split; [apply Cmod_ge_0|].
  assert (HH : Cmult H dn = nu) by exact HH0.
  assert (K := dist_nonzero 6 w1 w2 W). apply Cmod_gt_0 in K.
  assert (E1 := num_tone 6 w1 w2 W om O). assert (E2 := den_tone w1 w2 om W O). fold w in E1, E2. fold nu in E1. fold dn in E2.
  set (ds := Cmod (cprodr _)) in *.
  split.
  - rewrite <- E2. rewrite <- HH, Cmod_mult in E1.
    transitivity ((Cmod H * Cmod dn * ds) ^ 2); [ring|]. rewrite E1. ring.
  - assert (T := iir_tone 12 (num 6 w1 w2) (proots 6 w1 w2) (num_length 6 w1 w2) (proots_length 6 w1 w2) (num_real 6 w1 w2)
      (proots_conj 6 w1 w2) (proots_inside 6 w1 w2 W) U w H x y).
    eapply Un_cv_ext; [|apply T]; clear T.
    + intros t. f_equal. cbv beta. rewrite Hth at 1. unfold U.
      replace (Cmult (Cmult (RtoC (Cmod H)) (cis th)) (Cmult (RtoC A) (cis (om * INR t + ph))))
        with (Cmult (RtoC (A * Cmod H)) (Cmult (cis (om * INR t + ph)) (cis th))) by (rewrite RtoC_mult; ring).
      rewrite cis_add. unfold Cmult, RtoC, cis. cbn [fst snd]. rewrite Rplus_assoc. ring.
    + intros m. unfold U, w. transitivity (Cmult (RtoC A) (Cmult (cis (- om)) (cis (om * INR (S m) + ph)))); [|ring].
      rewrite cis_add. do 2 f_equal. rewrite S_INR. ring.
    + apply Cmod_cis.
    + exact HH.
    + intros t. rewrite Hx. unfold U, Cmult, RtoC, cis. cbn [fst snd]. ring.
    + exact Hy.
Qed.
