(** * Linear prediction: positive definiteness, minimality, stability *)
From Coq Require Import Reals ZArith List Bool Lia Lra Psatz Wf_nat.
From Verif Require Import SpecBase BigSum SpecLpc.
Import ListNotations.
Local Open Scope R_scope.

Lemma dist_sym : forall i j, dist i j = dist j i.
Proof. intros. unfold dist. destruct (Nat.leb_spec j i); destruct (Nat.leb_spec i j); lia. Qed.
Lemma dist_S : forall i j, dist (S i) (S j) = dist i j.
Proof. intros. unfold dist. cbn [Nat.leb]. destruct (Nat.leb j i); lia. Qed.

Lemma delayed_before : forall L f k t, (t < k)%nat -> delayed L f k t = 0.
Proof. intros. unfold delayed. destruct (Nat.leb_spec k t); [lia|reflexivity]. Qed.
Lemma delayed_after : forall L f k t, (k + L <= t)%nat -> delayed L f k t = 0.
Proof.
  intros. unfold delayed. destruct (Nat.ltb_spec (t - k) L); [lia|]. rewrite andb_false_r. reflexivity.
Qed.
Lemma delayed_in : forall L f k u, (u < L)%nat -> delayed L f k (k + u) = f u.
Proof.
  intros. unfold delayed. replace (k + u - k)%nat with u by lia.
  destruct (Nat.leb_spec k (k + u)); [|lia]. destruct (Nat.ltb_spec u L); [|lia]. reflexivity.
Qed.

Lemma delayed_product_le : forall L f n i j, (i <= j)%nat -> (j <= n)%nat ->
  bigsum (L + n) (fun t => delayed L f i t * delayed L f j t) = acf L f (j - i).
Proof.
  intros L f n i j Hij Hj.
  replace (L + n)%nat with (j + (L + n - j))%nat by lia.
  rewrite bigsum_split, (bigsum_zero j), Rplus_0_l.
  2:{ intros t Ht. rewrite (delayed_before L f j) by lia. ring. }
  replace (L + n - j)%nat with ((L - (j - i)) + (L + n - j - (L - (j - i))))%nat by lia.
  rewrite bigsum_split, (bigsum_zero (L + n - j - (L - (j - i)))), Rplus_0_r.
  2:{ intros t Ht. rewrite (delayed_after L f i) by lia. ring. }
  unfold acf. apply bigsum_ext. intros u Hu.
  rewrite delayed_in by lia. replace (j + u)%nat with (i + (u + (j - i)))%nat by lia.
  rewrite delayed_in by lia. ring.
Qed.
Lemma delayed_product : forall L f n i j, (i <= n)%nat -> (j <= n)%nat ->
  bigsum (L + n) (fun t => delayed L f i t * delayed L f j t) = acf L f (dist i j).
Proof.
  intros. unfold dist. destruct (Nat.leb_spec j i).
  - rewrite <- (delayed_product_le L f n j i) by lia. apply bigsum_ext. intros. ring.
  - apply delayed_product_le; lia.
Qed.

(** the Toeplitz form of the autocorrelation, as a sum over time *)
Definition form (L p : nat) (f u v : nat -> R) : R :=
  bigsum (L + p) (fun t => residual L p f u t * residual L p f v t).

Lemma form_toeplitz : forall L p f u v,
  form L p f u v = bigsum (S p) (fun i => u i * bigsum (S p) (fun j => acf L f (dist i j) * v j)).
Proof.
  intros. unfold form, residual.
  rewrite (bigsum_ext (L + p) _ (fun t => bigsum (S p) (fun i => bigsum (S p) (fun j =>
     u i * (v j * (delayed L f i t * delayed L f j t)))))).
  2:{ intros t Ht. rewrite bigsum_mult. apply bigsum_ext. intros. apply bigsum_ext. intros. ring. }
  rewrite bigsum_swap. apply bigsum_ext. intros i Hi. rewrite <- bigsum_scal.
  rewrite bigsum_swap. apply bigsum_ext. intros j Hj.
  rewrite !bigsum_scal, delayed_product by lia. ring.
Qed.

Lemma form_self : forall L p f a, form L p f a a = residual_energy L p f a.
Proof. intros. unfold form, residual_energy. apply bigsum_ext. intros. ring. Qed.
Lemma form_sym : forall L p f u v, form L p f u v = form L p f v u.
Proof. intros. unfold form. apply bigsum_ext. intros. ring. Qed.
Lemma residual_lin : forall L p f u v a b t,
  residual L p f (fun k => a * u k + b * v k) t = a * residual L p f u t + b * residual L p f v t.
Proof.
  intros. unfold residual. rewrite <- !bigsum_scal, <- bigsum_plus. apply bigsum_ext. intros. ring.
Qed.
Lemma form_lin : forall L p f u v w a b,
  form L p f (fun k => a * u k + b * v k) w = a * form L p f u w + b * form L p f v w.
Proof.
  intros. unfold form. rewrite <- !bigsum_scal, <- bigsum_plus. apply bigsum_ext. intros.
  rewrite residual_lin. ring.
Qed.
Lemma form_ext : forall L p f u u' v v', (forall k, (k <= p)%nat -> u k = u' k) ->
  (forall k, (k <= p)%nat -> v k = v' k) -> form L p f u v = form L p f u' v'.
Proof.
  intros. unfold form. apply bigsum_ext. intros. unfold residual. f_equal; apply bigsum_ext; intros.
  - rewrite H by lia. reflexivity.
  - rewrite H0 by lia. reflexivity.
Qed.

Lemma residual_energy_nonneg : forall L p f a, 0 <= residual_energy L p f a.
Proof. intros. apply bigsum_nonneg. intros. apply pow2_ge_0. Qed.

(** first index with a property *)
Lemma first_index : forall (P : nat -> Prop) n, (forall i, P i \/ ~ P i) -> (exists i, (i < n)%nat /\ P i) ->
  exists i, (i < n)%nat /\ P i /\ forall j, (j < i)%nat -> ~ P j.
Proof.
  intros P n Hd. induction n as [|n IH]; intros (i & Hi & Hp); [lia|].
  destruct (Hd n) as [Hn|Hn].
  - assert (D : (exists i, (i < n)%nat /\ P i) \/ ~ (exists i, (i < n)%nat /\ P i)).
    { clear - Hd. induction n as [|n [H|H]].
      - right. intros (i & Hi & _). lia.
      - left. destruct H as (i & Hi & Hp). exists i. split; [lia|exact Hp].
      - destruct (Hd n) as [Hn|Hn]; [left; exists n; split; [lia|exact Hn]|].
        right. intros (i & Hi & Hp). destruct (Nat.eq_dec i n) as [->|Hne]; [contradiction|].
        apply H. exists i. split; [lia|exact Hp]. }
    destruct D as [D|D].
    + destruct (IH D) as (k & Hk & Hk1 & Hk2). exists k. split; [lia|]. split; assumption.
    + exists n. split; [lia|]. split; [exact Hn|]. intros j Hj Hc. apply D. exists j. split; assumption.
  - destruct IH as (k & Hk & Hk1 & Hk2).
    + exists i. split; [|exact Hp]. destruct (Nat.eq_dec i n) as [->|]; [contradiction|lia].
    + exists k. split; [lia|]. split; assumption.
Qed.

Lemma residual_energy_pos : forall L p f a, sounding L f -> (exists k, (k <= p)%nat /\ a k <> 0) ->
  0 < residual_energy L p f a.
Proof.
  intros L p f a Hf (k & Hk & Ha).
  destruct (first_index (fun t => f t <> 0) L) as (t0 & Ht0 & Hft & Hmin).
  { intros i. destruct (Req_EM_T (f i) 0); [right|left]; auto. }
  { destruct Hf as (t & Ht & Hn). exists t. split; assumption. }
  destruct (first_index (fun k => a k <> 0) (S p)) as (k0 & Hk0 & Hak & Hkmin).
  { intros i. destruct (Req_EM_T (a i) 0); [right|left]; auto. }
  { exists k. split; [lia|exact Ha]. }
  assert (E : residual L p f a (k0 + t0) = a k0 * f t0).
  { unfold residual.
    rewrite (bigsum_ext (S p) _ (fun k => if Nat.eqb k k0 then (fun k => a k * f t0) k else 0)).
    - rewrite bigsum_delta by lia. reflexivity.
    - intros j Hj. destruct (Nat.eqb_spec j k0) as [->|Hne].
      + rewrite delayed_in by lia. reflexivity.
      + destruct (Nat.lt_ge_cases j k0) as [Hlt|Hge].
        * assert (a j = 0) as -> by (destruct (Req_EM_T (a j) 0) as [E|E]; [exact E|exfalso; apply (Hkmin j Hlt E)]).
          ring.
        * destruct (Nat.lt_ge_cases (k0 + t0) j) as [Hb|Hb]; [rewrite delayed_before by lia; ring|].
          replace (k0 + t0)%nat with (j + (k0 + t0 - j))%nat by lia. rewrite delayed_in by lia.
          assert (f (k0 + t0 - j)%nat = 0) as ->.
          { destruct (Req_EM_T (f (k0 + t0 - j)%nat) 0) as [E|E]; [exact E|exfalso].
            apply (Hmin (k0 + t0 - j)%nat); [lia|exact E]. }
          ring. }
  apply (bigsum_pos _ _ (k0 + t0)%nat).
  - intros. apply pow2_ge_0.
  - lia.
  - rewrite E. assert (a k0 * f t0 <> 0) by (apply Rmult_integral_contrapositive_currified; assumption).
    pose proof (pow2_ge_0 (a k0 * f t0)). destruct H0 as [H0|H0]; [exact H0|].
    exfalso. apply H. symmetry in H0. simpl in H0. nra.
Qed.

(** the part of the form orthogonal to the normal equations *)
Lemma normal_form : forall L p f a c, normal_equations L p f a -> c O = 0 -> form L p f c a = 0.
Proof.
  intros L p f a c [_ Ha] Hc. rewrite form_toeplitz. apply bigsum_zero. intros i Hi.
  destruct i as [|i]; [rewrite Hc; ring|]. rewrite Ha by lia. ring.
Qed.

Lemma normal_pythagoras : forall L p f a b, normal_equations L p f a -> b O = 1 ->
  residual_energy L p f b = residual_energy L p f a + residual_energy L p f (fun k => b k - a k).
Proof.
  intros L p f a b Ha Hb. rewrite <- !form_self.
  set (c := fun k => b k - a k).
  assert (Hc : c O = 0) by (unfold c; destruct Ha as [-> _]; rewrite Hb; ring).
  assert (E : form L p f b b = form L p f a a + 2 * form L p f c a + form L p f c c).
  { rewrite (form_ext L p f b (fun k => 1 * a k + 1 * c k) b b) by (intros; unfold c; try ring; reflexivity).
    rewrite form_lin, !(form_sym L p f _ b).
    rewrite !(form_ext L p f b (fun k => 1 * a k + 1 * c k) _ _ (fun k _ => ltac:(unfold c; ring)) (fun k _ => eq_refl)).
    rewrite !form_lin, (form_sym L p f a c). ring. }
  rewrite E, (normal_form L p f a c Ha Hc). ring.
Qed.

Lemma normal_minimal : forall L p f a b, normal_equations L p f a -> b O = 1 ->
  residual_energy L p f a <= residual_energy L p f b.
Proof.
  intros L p f a b Ha Hb. rewrite (normal_pythagoras L p f a b Ha Hb).
  pose proof (residual_energy_nonneg L p f (fun k => b k - a k)). lra.
Qed.
Lemma normal_strictly_minimal : forall L p f a b, sounding L f -> normal_equations L p f a -> b O = 1 ->
  (exists k, (k <= p)%nat /\ b k <> a k) ->
  residual_energy L p f a < residual_energy L p f b.
Proof.
  intros L p f a b Hf Ha Hb (k & Hk & Hne). rewrite (normal_pythagoras L p f a b Ha Hb).
  assert (0 < residual_energy L p f (fun k => b k - a k)); [|lra].
  apply residual_energy_pos; [exact Hf|]. exists k. split; [exact Hk|lra].
Qed.
Lemma normal_unique : forall L p f a b, sounding L f -> normal_equations L p f a -> normal_equations L p f b ->
  forall k, (k <= p)%nat -> b k = a k.
Proof.
  intros L p f a b Hf Ha Hb k Hk. destruct (Req_EM_T (b k) (a k)) as [E|E]; [exact E|exfalso].
  pose proof (normal_strictly_minimal L p f a b Hf Ha (proj1 Hb) (ex_intro _ k (conj Hk E))).
  pose proof (normal_minimal L p f b a Hb (proj1 Ha)). lra.
Qed.

(** the residual energy of the solution: r0 + sum a_k r_k *)
Lemma normal_energy : forall L p f a, normal_equations L p f a ->
  residual_energy L p f a = bigsum (S p) (fun k => a k * acf L f k).
Proof.
  intros L p f a Ha. rewrite <- form_self, form_toeplitz, bigsum_S_l.
  destruct Ha as [H0 Ha]. rewrite (bigsum_zero p).
  2:{ intros i Hi. rewrite Ha by lia. ring. }
  rewrite H0, Rplus_0_r, Rmult_1_l. apply bigsum_ext. intros. unfold dist.
  destruct (Nat.leb_spec i 0); [replace (0 - i)%nat with i by lia|rewrite Nat.sub_0_r]; ring.
Qed.

(** the Toeplitz matrix of order p (p x p) has trivial kernel *)
Lemma toeplitz_kernel : forall L n f v, sounding L f ->
  (forall i, (i < n)%nat -> bigsum n (fun j => acf L f (dist i j) * v j) = 0) ->
  forall i, (i < n)%nat -> v i = 0.
Proof.
  intros L n f v Hf Hk i Hi. destruct (Req_EM_T (v i) 0) as [E|E]; [exact E|exfalso].
  destruct n as [|p]; [lia|].
  assert (H : 0 < residual_energy L p f v).
  { apply residual_energy_pos; [exact Hf|]. exists i. split; [lia|exact E]. }
  rewrite <- form_self, form_toeplitz in H.
  rewrite (bigsum_zero (S p)) in H; [lra|]. intros k Hk'. rewrite Hk by exact Hk'. ring.
Qed.

(** ** stability: the roots of the prediction polynomial lie inside the unit circle *)
(** delay by one *)
Definition sh (u : nat -> R) (k : nat) : R := match k with O => 0 | S j => u j end.

Lemma form_shift : forall L p f u v, u p = 0 -> v p = 0 ->
  form L p f (sh u) (sh v) = form L p f u v.
Proof.
  intros L p f u v Hu Hv. rewrite !form_toeplitz.
  rewrite bigsum_S_l. cbn [sh]. rewrite Rmult_0_l, Rplus_0_l.
  rewrite (bigsum_S p). rewrite Hu, Rmult_0_l, Rplus_0_r.
  apply bigsum_ext. intros i Hi. f_equal.
  rewrite bigsum_S_l. cbn [sh]. rewrite Rmult_0_r, Rplus_0_l.
  rewrite (bigsum_S p), Hv, Rmult_0_r, Rplus_0_r.
  apply bigsum_ext. intros j Hj. rewrite dist_S. reflexivity.
Qed.

(** the quotient of the polynomial by (z - root): real and imaginary parts *)
Fixpoint quot_re_im (a : nat -> R) (x y : R) (k : nat) : R * R :=
  match k with
  | O => (a O, 0)
  | S j => let (u, v) := quot_re_im a x y j in (a k + (x * u - y * v), x * v + y * u)
  end.
Lemma quot_cpow : forall a x y n,
  fst (quot_re_im a x y n) = bigsum (S n) (fun k => a k * fst (cpow x y (n - k))) /\
  snd (quot_re_im a x y n) = bigsum (S n) (fun k => a k * snd (cpow x y (n - k))).
Proof.
  intros a x y. induction n as [|n [IH1 IH2]]; [cbn; split; ring|].
  cbn [quot_re_im]. destruct (quot_re_im a x y n) as [u v]. cbn [fst snd] in *. subst u v.
  rewrite !(bigsum_S (S n)). replace (S n - S n)%nat with O by lia. cbn [cpow fst snd].
  assert (E : forall k, (k < S n)%nat -> cpow x y (S n - k) =
     (x * fst (cpow x y (n - k)) - y * snd (cpow x y (n - k)), x * snd (cpow x y (n - k)) + y * fst (cpow x y (n - k)))).
  { intros k Hk. replace (S n - k)%nat with (S (n - k)) by lia. cbn [cpow].
    destruct (cpow x y (n - k)). reflexivity. }
  split.
  - rewrite (bigsum_ext (S n) (fun k => a k * fst (cpow x y (S n - k)))
      (fun k => x * (a k * fst (cpow x y (n - k))) - y * (a k * snd (cpow x y (n - k))))).
    2:{ intros k Hk. rewrite E by exact Hk. cbn [fst]. ring. }
    rewrite bigsum_minus, !bigsum_scal. ring.
  - rewrite (bigsum_ext (S n) (fun k => a k * snd (cpow x y (S n - k)))
      (fun k => x * (a k * snd (cpow x y (n - k))) + y * (a k * fst (cpow x y (n - k))))).
    2:{ intros k Hk. rewrite E by exact Hk. cbn [snd]. ring. }
    rewrite bigsum_plus, !bigsum_scal. ring.
Qed.

Lemma normal_stable : forall L p f a x y, sounding L f -> normal_equations L p f a ->
  poly_root p a x y -> x ^ 2 + y ^ 2 < 1.
Proof.
  intros L p f a x y Hf Ha [Hre Him].
  destruct p as [|q].
  { cbn in Hre. destruct Ha as [H0 _]. rewrite H0 in Hre. lra. }
  set (p := S q) in *.
  set (u := fun k => if Nat.ltb k p then fst (quot_re_im a x y k) else 0).
  set (v := fun k => if Nat.ltb k p then snd (quot_re_im a x y k) else 0).
  assert (Hup : u p = 0) by (unfold u; rewrite Nat.ltb_irrefl; reflexivity).
  assert (Hvp : v p = 0) by (unfold v; rewrite Nat.ltb_irrefl; reflexivity).
  destruct (quot_cpow a x y p) as [Q1 Q2]. rewrite Hre in Q1. rewrite Him in Q2.
  (* a = b - z * shift b *)
  assert (Ea : forall k, (k <= p)%nat -> a k = u k - (x * sh u k - y * sh v k) /\
                                         0 = v k - (x * sh v k + y * sh u k)).
  { intros k Hk. unfold u, v. destruct k as [|j].
    - cbn [sh]. destruct (Nat.ltb_spec 0 p); [|lia]. cbn [quot_re_im fst snd]. split; ring.
    - cbn [sh]. destruct (Nat.ltb_spec j p); [|lia].
      destruct (Nat.ltb_spec (S j) p) as [Hlt|Hge].
      + cbn [quot_re_im]. destruct (quot_re_im a x y j). cbn [fst snd]. split; ring.
      + assert (j = q) by lia. subst j. unfold p in Q1, Q2. cbn [quot_re_im] in Q1, Q2.
        destruct (quot_re_im a x y q). cbn [fst snd] in *. split; lra. }
  set (E := form L p f u u + form L p f v v).
  set (fo := form L p f) in *.
  (* orthogonality to the two delayed vectors *)
  assert (Oa : forall c, c O = 0 -> fo c a = 0) by (intros; apply normal_form; auto).
  assert (Fa : forall c, fo c a = fo c u - (x * fo c (sh u) - y * fo c (sh v))).
  { intros c. unfold fo. rewrite (form_ext L p f c c a (fun k => 1 * u k + 1 * (- x * sh u k + y * sh v k)))
      by (intros; try reflexivity; rewrite (proj1 (Ea k H)); ring).
    rewrite form_sym, !form_lin, !(form_sym L p f _ c). ring. }
  assert (F0 : forall c, 0 = fo c v - (x * fo c (sh v) + y * fo c (sh u))).
  { intros c. assert (Z : fo c (fun _ => 0) = 0).
    { unfold fo. rewrite form_toeplitz. apply bigsum_zero. intros.
      rewrite (bigsum_zero (S p)) by (intros; ring). ring. }
    rewrite <- Z at 1. unfold fo.
    rewrite (form_ext L p f c c (fun _ => 0) (fun k => 1 * v k + 1 * (- x * sh v k + - y * sh u k)))
      by (intros; try reflexivity; rewrite (proj2 (Ea k H)); ring).
    rewrite form_sym, !form_lin, !(form_sym L p f _ c). ring. }
  assert (Ssu : fo (sh u) (sh u) = fo u u) by (apply form_shift; auto).
  assert (Ssv : fo (sh v) (sh v) = fo v v) by (apply form_shift; auto).
  assert (Suv : fo (sh u) (sh v) = fo u v) by (apply form_shift; auto).
  assert (Sy : forall c d, fo c d = fo d c) by (intros; apply form_sym).
  assert (Hpos : 0 < fo a a).
  { unfold fo. rewrite form_self. apply residual_energy_pos; [exact Hf|]. exists O. split; [lia|].
    rewrite (proj1 Ha). lra. }
  pose proof (Oa (sh u) eq_refl) as A1. pose proof (Oa (sh v) eq_refl) as A2.
  rewrite Fa in A1, A2.
  pose proof (Fa a) as A3. pose proof (F0 a) as A4.
  pose proof (F0 u) as B1. pose proof (F0 v) as B2. pose proof (F0 (sh u)) as B3. pose proof (F0 (sh v)) as B4.
  rewrite (Sy a (sh u)), (Sy a (sh v)) in A3. rewrite (Oa (sh u) eq_refl), (Oa (sh v) eq_refl) in A3.
  rewrite (Sy a u), (Fa u) in A3.
  rewrite (Sy u (sh u)), (Sy u (sh v)) in A3.
  rewrite (Sy v (sh u)), (Sy v (sh v)) in B2.
  rewrite (Sy (sh v) (sh u)) in A2, B4. rewrite Ssu, Suv in A1. rewrite Suv, Ssv in A2.
  rewrite Suv, Ssu in B3. rewrite Ssv, Suv in B4.
  set (uu := fo u u) in *. set (vv := fo v v) in *. set (uv := fo u v) in *.
  set (suu := fo (sh u) u) in *. set (suv := fo (sh u) v) in *.
  set (svu := fo (sh v) u) in *. set (svv := fo (sh v) v) in *.
  assert (EE : (1 - (x ^ 2 + y ^ 2)) * E = fo a a).
  { unfold E. fold fo. fold uu vv. rewrite A3.
    assert (suu = x * uu - y * uv) as -> by lra. assert (svu = x * uv - y * vv) as -> by lra.
    assert (R1 : svv = x * vv + y * uv) by lra. assert (R2 : suv = x * uv + y * uu) by lra.
    rewrite R1, R2 in B2. clear - B2. nra. }
  assert (HE : 0 <= E).
  { unfold E, uu, vv, fo. rewrite !form_self. pose proof (residual_energy_nonneg L p f u).
    pose proof (residual_energy_nonneg L p f v). lra. }
  nra.
Qed.
