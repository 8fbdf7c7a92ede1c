(** * Proofs for C183: sounds that nearly repeat *)
From Coq Require Import Reals ZArith List String Bool Lia Lra Psatz.
From Verif Require Import Base BaseFacts SpecBase SpecMat BigSum MatFacts SpecFeatures Yin SpecYin YinFacts SpecPeriodic ContractFacts YinToneFacts.
Import ListNotations.
Local Open Scope R_scope.

Lemma period_shift : forall p f s, repeats p f -> bigsum p (fun k => f (k + s)%nat) = bigsum p f.
Proof.
  intros p f s Hf. induction s as [|s IH].
  - apply bigsum_ext. intros k _. rewrite Nat.add_0_r. reflexivity.
  - rewrite <- IH. pose proof (bigsum_S_l p (fun k => f (k + s)%nat)) as A. pose proof (bigsum_S p (fun k => f (k + s)%nat)) as B. cbv beta in A, B. rewrite A in B.
    rewrite (Nat.add_comm p s), (Hf s) in B. cbn [Nat.add] in B. rewrite (bigsum_ext p (fun k => f (k + S s)%nat) (fun k => f (S (k + s)))); [lra|]. intros k _. f_equal. lia.
Qed.
Lemma mean_shift : forall p y s, repeats p y -> period_mean p (fun t => y (t + s)%nat) = period_mean p y.
Proof. intros p y s H. unfold period_mean. rewrite period_shift by exact H. reflexivity. Qed.
Lemma dev_shift : forall p y s, repeats p y -> period_dev p (fun t => y (t + s)%nat) = period_dev p y.
Proof.
  intros p y s H. unfold period_dev. rewrite mean_shift by exact H. rewrite (period_shift p (fun t => (y t - period_mean p y) ^ 2)); [reflexivity|].
  intros t. rewrite H. reflexivity.
Qed.
Lemma dev_pos : forall p y, 0 <= period_dev p y.
Proof. intros. apply sqrt_pos. Qed.
(** a period seen from one of its samples *)
Lemma period_spread : forall p y t, (1 <= p)%nat -> repeats p y -> INR p * period_dev p y ^ 2 <= bigsum p (fun k => (y t - y (t + S k)%nat) ^ 2).
Proof.
  intros p y t Hp Hy. assert (P : 0 < INR p) by (apply lt_0_INR; lia). set (m := period_mean p y).
  rewrite (bigsum_ext p _ (fun k => (y t - y (k + S t)%nat) ^ 2)) by (intros k _; do 3 f_equal; lia).
  rewrite (period_shift p (fun u => (y t - y u) ^ 2) (S t)) by (intros u; rewrite Hy; reflexivity).
  assert (S0 : bigsum p (fun k => y k - m) = 0).
  { rewrite bigsum_minus, bigsum_const. unfold m, period_mean. field. lra. }
  rewrite (bigsum_ext p _ (fun k => (y k - m) ^ 2 - (2 * (y t - m) * (y k - m) - (y t - m) ^ 2))) by (intros; ring).
  rewrite bigsum_minus, bigsum_minus, bigsum_scal, S0, bigsum_const. unfold period_dev. fold m.
  rewrite pow2_sqrt.
  2:{ apply Rmult_le_pos; [apply bigsum_nonneg; intros; apply pow2_ge_0|left; apply Rinv_0_lt_compat; exact P]. }
  set (v := bigsum p (fun k => (y k - m) ^ 2)). replace (INR p * (v / INR p)) with v by (field; lra).
  assert (0 <= INR p * (y t - m) ^ 2) by (apply Rmult_le_pos; [lra|apply pow2_ge_0]). lra.
Qed.
Lemma square_below : forall a b c s, Rabs (b - a) <= c -> 0 <= c -> c < s -> (1 - c / s) * (a ^ 2 - s * c) <= b ^ 2.
Proof.
  intros a b c s Hb Hc Hs. assert (Q : 0 < s) by lra. apply Rmult_le_reg_l with s; [exact Q|]. replace (s * ((1 - c / s) * (a ^ 2 - s * c))) with ((s - c) * (a ^ 2 - s * c)) by (field; lra).
  rewrite <- (pow2_abs a), <- (pow2_abs b). set (u := Rabs a). set (w := Rabs b).
  assert (U : 0 <= u) by apply Rabs_pos. assert (W : 0 <= w) by apply Rabs_pos.
  assert (UW : u - c <= w) by (unfold u, w; pose proof (Rabs_triang (a - b) b) as T; replace (a - b + b) with a in T by ring; rewrite Rabs_minus_sym in Hb; lra).
  destruct (Rle_dec c u) as [K|K].
  - assert (w1 : (u - c) ^ 2 <= w ^ 2) by (apply pow_incr; lra). assert (0 <= c * (u - s) ^ 2) by (apply Rmult_le_pos; [exact Hc|apply pow2_ge_0]).
    assert (s * (u - c) ^ 2 <= s * w ^ 2) by (apply Rmult_le_compat_l; lra). nra.
  - assert (u ^ 2 <= c ^ 2) by (apply pow_incr; lra). assert (c ^ 2 <= s * c) by nra. assert (0 <= s * w ^ 2) by (apply Rmult_le_pos; [lra|apply pow2_ge_0]).
    assert (0 <= (s - c) * (s * c - u ^ 2)) by (apply Rmult_le_pos; lra). lra.
Qed.

(** ** The normalised difference at the period *)
Section Near.
Variables (L p : nat) (f y : nat -> R) (e : R).
Hypothesis Hp : (1 <= p < L)%nat.
Hypothesis Hy : repeats p y.
Hypothesis He : forall t, (t < L)%nat -> Rabs (f t - y t) <= e.
Hypothesis Hs : 2 * e < period_dev p y.
Lemma near_nonneg : 0 <= e.
Proof. eapply Rle_trans; [apply Rabs_pos|apply (He 0%nat); lia]. Qed.
Lemma near_step : forall j k, (j < L)%nat -> (k < L)%nat -> Rabs ((f j - f k) - (y j - y k)) <= 2 * e.
Proof.
  intros j k Hj Hk. pose proof (He j Hj). pose proof (He k Hk). replace (f j - f k - (y j - y k)) with ((f j - y j) - (f k - y k)) by ring.
  eapply Rle_trans; [apply Rabs_triang|]. rewrite Rabs_Ropp. lra.
Qed.
Lemma near_d : yin_d L f p <= INR (L - p) * (2 * e) ^ 2.
Proof.
  unfold yin_d. rewrite <- (bigsum_const (L - p)). apply bigsum_le. intros j Hj. rewrite <- pow2_abs. apply pow_incr. split; [apply Rabs_pos|].
  pose proof (near_step j (j + p) ltac:(lia) ltac:(lia)) as N. rewrite (Hy j) in N. replace (f j - f (j + p)%nat - (y j - y j)) with (f j - f (j + p)%nat) in N by ring. exact N.
Qed.
Lemma near_sum : INR p * INR (L - p) * (period_dev p y - 2 * e) ^ 2 <= yin_sum (yin_d L f) p.
Proof.
  set (s := period_dev p y) in *. pose proof near_nonneg as E0.
  apply Rle_trans with (bigsum p (fun u => bigsum (L - p) (fun j => (1 - 2 * e / s) * ((y j - y (j + S u)%nat) ^ 2 - s * (2 * e))))).
  - rewrite bigsum_swap. 
    apply Rle_trans with (bigsum (L - p) (fun _ => INR p * (s - 2 * e) ^ 2)); [rewrite bigsum_const; lra|]. apply bigsum_le. intros j Hj.
    rewrite bigsum_scal, bigsum_minus, bigsum_const. pose proof (period_spread p y j ltac:(lia) Hy) as PS. fold s in PS.
    assert (Q : 0 < s) by lra. apply Rle_trans with ((1 - 2 * e / s) * (INR p * s ^ 2 - INR p * (s * (2 * e)))).
    + right. field. lra.
    + apply Rmult_le_compat_l; [|lra]. apply Rmult_le_reg_r with s; [exact Q|]. unfold Rdiv. rewrite Rmult_0_l, Rmult_minus_distr_r, Rmult_assoc, Rinv_l by lra. lra.
  - unfold yin_sum. apply bigsum_le. intros u Hu. unfold yin_d. eapply Rle_trans; [|apply (bigsum_more (L - p) (L - S u)); [lia|intros; apply pow2_ge_0]].
    apply bigsum_le. intros j Hj. apply square_below; [apply near_step; lia|lra|exact Hs].
Qed.
Lemma near_c : exists v, yin_c (yin_d L f) p = Fin v /\ v <= (2 * e / (period_dev p y - 2 * e)) ^ 2.
Proof.
  pose proof near_sum as S1. pose proof near_d as D1. set (s := period_dev p y) in *. set (a := yin_sum (yin_d L f) p) in *. set (d := yin_d L f p) in *.
  assert (Q : 0 < s - 2 * e) by lra. assert (P1 : 0 < INR p) by (apply lt_0_INR; lia). assert (P2 : 0 < INR (L - p)) by (apply lt_0_INR; lia).
  assert (A : 0 < a) by (eapply Rlt_le_trans; [|exact S1]; apply Rmult_lt_0_compat; [apply Rmult_lt_0_compat; assumption|apply pow_lt; exact Q]).
  unfold yin_c. fold a d. destruct (Nat.eqb_spec p 0); [lia|]. destruct (Req_EM_T a 0); [lra|]. eexists. split; [reflexivity|].
  apply Rmult_le_reg_r with a; [exact A|]. unfold Rdiv at 1. rewrite Rmult_assoc, Rinv_l, Rmult_1_r by lra.
  apply Rle_trans with (INR (L - p) * (2 * e) ^ 2 * INR p); [apply Rmult_le_compat_r; lra|].
  apply Rle_trans with ((2 * e / (s - 2 * e)) ^ 2 * (INR p * INR (L - p) * (s - 2 * e) ^ 2)); [right; field; lra|]. apply Rmult_le_compat_l; [apply pow2_ge_0|exact S1].
Qed.
End Near.

(** ** What is reported *)
Lemma lag_value : forall L f lo hi th s q, yin_lag (yin_c (yin_d L f)) lo hi th s q -> exists v, yin_c (yin_d L f) q = Fin v /\ v < th.
Proof.
  intros L f lo hi th s q (B1 & B2 & B3 & B4 & B5 & _). set (c := yin_c (yin_d L f)) in *.
  assert (K : forall k, (s + k <= q)%nat -> exists v, c (s + k)%nat = Fin v /\ v < th).
  { induction k as [|k IH]; intros Hk.
    - rewrite Nat.add_0_r. unfold c, yin_c in *. destruct (Nat.eqb s 0); [|destruct (Req_EM_T _ _)]; cbn [fltb] in B3; try discriminate; eexists; (split; [reflexivity|]); apply Rltb_lt in B3; exact B3.
    - destruct (IH ltac:(lia)) as (v & E & V). specialize (B5 (s + k)%nat ltac:(lia)). rewrite E in B5. replace (s + S k)%nat with (S (s + k)) by lia.
      unfold c, yin_c in B5 |- *. cbn [Nat.eqb] in *. destruct (Req_EM_T _ _); cbn [fltb] in B5; [discriminate|]. eexists. split; [reflexivity|]. apply Rltb_lt in B5. lra. }
  destruct (K (q - s)%nat ltac:(lia)) as (v & E & V). replace (s + (q - s))%nat with q in E by lia. exists v. split; assumption.
Qed.
Lemma lag_falls : forall L f lo hi th s q p, yin_lag (yin_c (yin_d L f)) lo hi th s q -> (s <= p <= q)%nat ->
  forall v u, yin_c (yin_d L f) p = Fin v -> yin_c (yin_d L f) q = Fin u -> u <= v.
Proof.
  intros L f lo hi th s q p (B1 & B2 & B3 & B4 & B5 & _) Hp v u Ep Eq. set (c := yin_c (yin_d L f)) in *.
  assert (K : forall k, (p + k <= q)%nat -> exists w, c (p + k)%nat = Fin w /\ w <= v).
  { induction k as [|k IH]; intros Hk; [rewrite Nat.add_0_r; exists v; split; [exact Ep|lra]|]. destruct (IH ltac:(lia)) as (w & E & V). specialize (B5 (p + k)%nat ltac:(lia)). rewrite E in B5.
    replace (p + S k)%nat with (S (p + k)) by lia. unfold c, yin_c in B5 |- *. cbn [Nat.eqb] in *. destruct (Req_EM_T _ _); cbn [fltb] in B5; [discriminate|]. eexists. split; [reflexivity|]. apply Rltb_lt in B5. lra. }
  destruct (K (q - p)%nat ltac:(lia)) as (w & E & V). replace (p + (q - p))%nat with q in E by lia. congruence || (rewrite Eq in E; injection E as <-; exact V).
Qed.
Lemma yin_near : forall `{Env} N x y e fs wl wh low high th L hop lo T p,
  yin_config fs wl wh low high L hop lo T -> (S T <= L)%nat -> (1 <= lo <= p)%nat -> (p <= T)%nat ->
  let n := yin_frames N L hop in
  forall P H A tm, compute_yin (fvec N x) fs wl wh low high th = Ok (P, H, A, tm) ->
  forall i, (i < n)%nat -> repeats p y -> (forall t, (t < L)%nat -> Rabs (yin_x hop x i t - y t) <= e) -> 2 * e < period_dev p y ->
  (2 * e / (period_dev p y - 2 * e)) ^ 2 < th ->
  exists q h, (lo <= q <= T)%nat /\ nth i P NaN = Fin (IZR fs / INR q) /\ nth i H NaN = Fin h /\ h < th /\ ((p <= q)%nat -> h <= (2 * e / (period_dev p y - 2 * e)) ^ 2).
Proof.
  intros E N x y e fs wl wh low high th L hop lo T p Hc HL Hlo Hp n P0 H0 A0 tm Hy i Hi Hr Hx Hs Hth.
  destruct (compute_yin_ok N x fs wl wh low high th L hop lo T Hc HL) as (P & H & A & E1 & E2). fold n in E1, E2.
  rewrite E1 in Hy. apply Ok_inj in Hy. injection Hy as <- <- _ _. rewrite !nth_map_seq by auto.
  destruct (E2 i Hi) as (_ & Hq). cbv zeta in *.
  destruct (near_c L p (yin_x hop x i) y e ltac:(lia) Hr Hx Hs) as (v & Ev & Bv).
  assert (Hv : fltb (yin_c (yin_d L (yin_x hop x i)) p) (Fin th) = true) by (rewrite Ev; cbn [fltb]; apply Rltb_true; lra).
  destruct Hq as [(s & q & Hl & Hq & EP & EH)|([Hun|(s & Hl)] & _)].
  - destruct (lag_value L _ _ _ _ _ _ Hl) as (h & Eh & Bh). exists q, h. rewrite EP, EH. split; [destruct Hl as (B1 & B2 & _); lia|]. split; [reflexivity|]. split; [exact Eh|]. split; [exact Bh|].
    intros K. apply Rle_trans with v; [|exact Bv]. apply (lag_falls L (yin_x hop x i) lo (S T) th s q p Hl); [|exact Ev|exact Eh]. split; [|exact K].
    destruct (Nat.le_gt_cases s p) as [K1|K1]; [exact K1|exfalso]. destruct Hl as (B1 & _ & _ & B4 & _). rewrite B4 in Hv by lia. discriminate.
  - exfalso. rewrite Hun in Hv by lia. discriminate.
  - exfalso. destruct Hl as (B1 & _). lia.
Qed.
Lemma yin_near_all : forall `{Env} N x y e fs wl wh low high th L hop lo T p,
  yin_config fs wl wh low high L hop lo T -> (S T <= L)%nat -> (1 <= lo <= p)%nat -> (p <= T)%nat ->
  repeats p y -> (forall t, (t < N)%nat -> Rabs (x t - y t) <= e) -> 2 * e < period_dev p y -> (2 * e / (period_dev p y - 2 * e)) ^ 2 < th ->
  let n := yin_frames N L hop in
  exists P H A tm, compute_yin (fvec N x) fs wl wh low high th = Ok (P, H, A, tm) /\
  forall i, (i < n)%nat -> exists q h, (lo <= q <= T)%nat /\ nth i P NaN = Fin (IZR fs / INR q) /\ nth i H NaN = Fin h /\ h < th /\ ((p <= q)%nat -> h <= (2 * e / (period_dev p y - 2 * e)) ^ 2).
Proof.
  intros E N x y e fs wl wh low high th L hop lo T p Hc HL Hlo Hp Hr Hx Hs Hth n.
  destruct (compute_yin_ok N x fs wl wh low high th L hop lo T Hc HL) as (P & H & A & E1 & _). fold n in E1.
  do 4 eexists. split; [exact E1|]. intros i Hi.
  pose proof (dev_shift p y (i * hop) Hr) as DS.
  destruct (yin_near N x (fun t => y (t + i * hop)%nat) e fs wl wh low high th L hop lo T p Hc HL Hlo Hp _ _ _ _ E1 i Hi) as (q & h & B).
  - intros t. cbv beta. replace (t + p + i * hop)%nat with (t + i * hop + p)%nat by lia. apply Hr.
  - intros t Ht. unfold yin_x. rewrite (Nat.add_comm t). apply Hx. destruct Hc as (_ & _ & _ & _ & _ & Hh & _). pose proof (yin_frames_lt N L hop i Hh) as YF. fold n in YF. lia.
  - rewrite DS. exact Hs.
  - rewrite DS. exact Hth.
  - rewrite DS in B. exists q, h. exact B.
Qed.

(** ** Windows whose differences are all alike *)
Lemma yin_alike : forall `{Env} N x fs wl wh low high th L hop lo T a b,
  yin_config fs wl wh low high L hop lo T -> (S T <= L)%nat -> (1 <= lo)%nat ->
  let n := yin_frames N L hop in
  forall P H A tm, compute_yin (fvec N x) fs wl wh low high th = Ok (P, H, A, tm) ->
  forall i, (i < n)%nat -> 0 < b -> th * b <= a -> 0 < a -> (forall k, (1 <= k <= T)%nat -> a <= yin_d L (yin_x hop x i) k <= b) ->
  nth i P NaN = Fin 0.
Proof.
  intros E N x fs wl wh low high th L hop lo T a b Hc HL Hlo n P0 H0 A0 tm Hy i Hi Hb Hab Ha Hd.
  destruct (compute_yin_ok N x fs wl wh low high th L hop lo T Hc HL) as (P & H & A & E1 & E2). fold n in E1, E2.
  rewrite E1 in Hy. apply Ok_inj in Hy. injection Hy as <- _ _ _. rewrite !nth_map_seq by auto.
  destruct (E2 i Hi) as (_ & Hq). cbv zeta in *. destruct Hq as [(s & q & Hl & _)|(_ & EP & _)]; [exfalso|exact EP].
  destruct Hl as (B1 & B2 & B3 & _). set (d := yin_d L (yin_x hop x i)) in *.
  assert (S1 : yin_sum d s <= INR s * b) by (unfold yin_sum; rewrite <- (bigsum_const s); apply bigsum_le; intros k Hk; apply (Hd (S k)); lia).
  assert (S2 : INR s * a <= yin_sum d s) by (unfold yin_sum; rewrite <- (bigsum_const s a); apply bigsum_le; intros k Hk; apply (Hd (S k)); lia).
  assert (SP : 0 < INR s) by (apply lt_0_INR; lia). assert (YP : 0 < yin_sum d s) by (eapply Rlt_le_trans; [|exact S2]; apply Rmult_lt_0_compat; assumption).
  unfold yin_c in B3. destruct (Nat.eqb_spec s 0); [lia|]. destruct (Req_EM_T (yin_sum d s) 0); [lra|]. cbn [fltb] in B3. apply Rltb_lt in B3.
  apply (Rmult_lt_compat_r (yin_sum d s)) in B3; [|exact YP]. unfold Rdiv in B3. rewrite Rmult_assoc, Rinv_l, Rmult_1_r in B3 by lra.
  pose proof (Hd s ltac:(lia)) as [D1 _]. assert (INR s * a <= d s * INR s) by (rewrite Rmult_comm; apply Rmult_le_compat_r; lra).
  destruct (Rle_dec 0 th) as [K|K].
  - assert (th * yin_sum d s <= th * (INR s * b)) by (apply Rmult_le_compat_l; assumption). assert (INR s * (th * b) <= INR s * a) by (apply Rmult_le_compat_l; lra). lra.
  - assert (th * yin_sum d s < 0) by nra. assert (0 < INR s * a) by (apply Rmult_lt_0_compat; assumption). lra.
Qed.

(** ** A burst between two stretches of silence *)
Lemma burst_quiet : forall L f a b c k, (forall t, (t < L)%nat -> (t < a \/ b <= t)%nat -> f t = c) -> (b <= k)%nat -> (L - a <= k)%nat -> yin_d L f k = 0.
Proof.
  intros L f a b c k Hf H1 H2. apply bigsum_zero. intros j Hj. rewrite (Hf j) by lia. rewrite (Hf (j + k)%nat) by lia. ring.
Qed.
Lemma yin_burst : forall `{Env} N x fs wl wh low high th L hop lo T a b c,
  yin_config fs wl wh low high L hop lo T -> (S T <= L)%nat -> (1 <= lo)%nat -> 0 < th -> (lo <= Nat.max b (L - a) <= T)%nat ->
  let n := yin_frames N L hop in
  forall P H A tm, compute_yin (fvec N x) fs wl wh low high th = Ok (P, H, A, tm) ->
  forall i, (i < n)%nat -> (forall t, (t < L)%nat -> (t < a \/ b <= t)%nat -> yin_x hop x i t = c) ->
  (exists u, (S u < L)%nat /\ yin_x hop x i u <> yin_x hop x i (S u)) ->
  exists q, (lo <= q <= Nat.max b (L - a))%nat /\ nth i P NaN = Fin (IZR fs / INR q).
Proof.
  intros E N x fs wl wh low high th L hop lo T a b c0 Hc HL Hlo Hth Hm n P0 H0 A0 tm Hy i Hi Hf (u & Hu & Hne).
  destruct (compute_yin_ok N x fs wl wh low high th L hop lo T Hc HL) as (P & H & A & E1 & E2). fold n in E1, E2.
  rewrite E1 in Hy. apply Ok_inj in Hy. injection Hy as <- _ _ _. rewrite !nth_map_seq by auto.
  destruct (E2 i Hi) as (_ & Hq). cbv zeta in *. set (p := Nat.max b (L - a)) in *. set (d := yin_d L (yin_x hop x i)) in *.
  assert (Hs : 0 < yin_sum d p).
  { apply (bigsum_pos p (fun k => d (S k)) 0); [intros; apply yin_d_nonneg|lia|].
    apply (bigsum_pos (L - 1) _ u); [intros; apply pow2_ge_0|lia|]. rewrite Nat.add_1_r. apply pow2_pos. lra. }
  assert (Hz : yin_c d p = Fin 0).
  { unfold yin_c. destruct (Nat.eqb_spec p 0); [lia|]. destruct (Req_EM_T (yin_sum d p) 0); [lra|].
    assert (d p = 0) as -> by (apply (burst_quiet L _ a b c0); [exact Hf|unfold p; lia|unfold p; lia]). f_equal. field. lra. }
  assert (Hv : fltb (yin_c d p) (Fin th) = true) by (rewrite Hz; cbn; apply Rltb_true; auto).
  destruct Hq as [(s & q & Hl & Hq & EP & _)|([Hun|(s & Hl)] & _)].
  - exists q. split; [|exact EP]. destruct Hl as (B1 & B2 & B3 & B4 & B5 & B6). split; [lia|].
    destruct (Nat.le_gt_cases q p) as [K|K]; [exact K|exfalso].
    assert (s <= p)%nat. { destruct (Nat.le_gt_cases s p) as [K1|K1]; [exact K1|exfalso]. rewrite B4 in Hv by lia. discriminate. }
    specialize (B5 p ltac:(lia)). rewrite Hz in B5. apply yin_c_nonneg in B5. lra.
  - exfalso. rewrite Hun in Hv by lia. discriminate.
  - exfalso. destruct Hl as (B1 & _). lia.
Qed.
(** the differences of a single click at sample j of the window *)
Lemma bigsum_hit : forall n k v, bigsum n (fun t => if Nat.eqb t k then v else 0) = if Nat.ltb k n then v else 0.
Proof.
  intros n k v. destruct (Nat.ltb_spec k n) as [K|K].
  - exact (bigsum_delta n k (fun _ => v) K).
  - apply bigsum_zero. intros t Ht. destruct (Nat.eqb_spec t k); [lia|reflexivity].
Qed.
Lemma click_d : forall L f j g c k, (j < L)%nat -> (1 <= k)%nat -> (forall t, (t < L)%nat -> f t = if Nat.eqb t j then c + g else c) ->
  yin_d L f k = ((if Nat.ltb (j + k) L then 1 else 0) + (if Nat.leb k j then 1 else 0)) * g ^ 2.
Proof.
  intros L f j g c k Hj Hk Hf. unfold yin_d.
  rewrite (bigsum_ext _ _ (fun t => (if Nat.eqb t j then g ^ 2 else 0) + (if Nat.eqb t (if Nat.leb k j then j - k else L)%nat then g ^ 2 else 0))).
  2:{ intros t Ht. rewrite (Hf t), (Hf (t + k)%nat) by lia. destruct (Nat.leb_spec k j); [destruct (Nat.eqb_spec t (j - k))|destruct (Nat.eqb_spec t L)]; destruct (Nat.eqb_spec t j), (Nat.eqb_spec (t + k) j); try lia; ring. }
  rewrite bigsum_plus, !bigsum_hit. destruct (Nat.ltb_spec (j + k) L), (Nat.leb_spec k j), (Nat.ltb_spec j (L - k)); try lia;
  match goal with |- context [Nat.ltb ?a ?b] => destruct (Nat.ltb_spec a b) end; try lia; ring.
Qed.
Lemma yin_click : forall `{Env} N x fs wl wh low high th L hop lo T j g c,
  yin_config fs wl wh low high L hop lo T -> (S T <= L)%nat -> 0 < th <= / 2 -> (j < L)%nat -> g <> 0 ->
  let m := S (Nat.max j (L - 1 - j)) in (1 <= lo <= m)%nat -> (m <= T)%nat ->
  let n := yin_frames N L hop in
  forall P H A tm, compute_yin (fvec N x) fs wl wh low high th = Ok (P, H, A, tm) ->
  forall i, (i < n)%nat -> (forall t, (t < L)%nat -> yin_x hop x i t = if Nat.eqb t j then c + g else c) ->
  nth i P NaN = Fin (IZR fs / INR m) /\ nth i H NaN = Fin 0.
Proof.
  intros E N x fs wl wh low high th L hop lo T j g c0 Hc HL Hth Hj Hg m Hlo Hm n P0 H0 A0 tm Hy i Hi Hf.
  destruct (compute_yin_ok N x fs wl wh low high th L hop lo T Hc HL) as (P & H & A & E1 & E2). fold n in E1, E2.
  rewrite E1 in Hy. apply Ok_inj in Hy. injection Hy as <- <- _ _. rewrite !nth_map_seq by auto.
  destruct (E2 i Hi) as (_ & Hq). cbv zeta in *. set (d := yin_d L (yin_x hop x i)) in *.
  assert (G : 0 < g ^ 2) by (apply pow2_pos; exact Hg).
  assert (D : forall k, (1 <= k)%nat -> d k = ((if Nat.ltb (j + k) L then 1 else 0) + (if Nat.leb k j then 1 else 0)) * g ^ 2) by (intros k Hk; apply (click_d L _ j g c0); assumption).
  assert (D1 : forall k, (1 <= k < m)%nat -> g ^ 2 <= d k).
  { intros k Hk. rewrite D by lia. unfold m in Hk. destruct (Nat.ltb_spec (j + k) L), (Nat.leb_spec k j); try lia; lra. }
  assert (D2 : forall k, (1 <= k)%nat -> d k <= 2 * g ^ 2).
  { intros k Hk. rewrite D by lia. destruct (Nat.ltb (j + k) L), (Nat.leb k j); lra. }
  assert (D3 : forall k, (m <= k)%nat -> d k = 0).
  { intros k Hk. unfold m in Hk. rewrite D by lia. destruct (Nat.ltb_spec (j + k) L), (Nat.leb_spec k j); try lia; lra. }
  assert (SP : forall k, (2 <= m)%nat -> (1 <= k)%nat -> 0 < yin_sum d k).
  { intros k M2 Hk. apply (bigsum_pos k (fun k => d (S k)) 0); [intros; apply yin_d_nonneg|lia|]. pose proof (D1 1%nat ltac:(lia)). lra. }
  assert (M2 : (2 <= m)%nat) by (unfold m in *; lia).
  assert (CZ : forall k, (m <= k)%nat -> yin_c d k = Fin 0).
  { intros k Hk. unfold yin_c. destruct (Nat.eqb_spec k 0); [lia|]. pose proof (SP k M2 ltac:(lia)). destruct (Req_EM_T (yin_sum d k) 0); [lra|]. rewrite D3 by exact Hk. f_equal. field. lra. }
  assert (CL : forall k, (1 <= k < m)%nat -> fltb (yin_c d k) (Fin th) = false).
  { intros k Hk. unfold yin_c. destruct (Nat.eqb_spec k 0); [lia|]. pose proof (SP k M2 ltac:(lia)) as SK. destruct (Req_EM_T (yin_sum d k) 0); [lra|]. cbn [fltb]. apply Rltb_false.
    assert (K0 : 0 < INR k) by (apply lt_0_INR; lia).
    assert (S1 : yin_sum d k <= INR k * (2 * g ^ 2)) by (unfold yin_sum; rewrite <- (bigsum_const k); apply bigsum_le; intros u Hu; apply D2; lia).
    pose proof (D1 k Hk) as DK. apply Rle_trans with (/ 2); [lra|]. apply Rmult_le_reg_r with (yin_sum d k); [exact SK|]. unfold Rdiv. rewrite (Rmult_assoc _ (/ yin_sum d k)), Rinv_l, Rmult_1_r by lra.
    assert (INR k * g ^ 2 <= d k * INR k) by (rewrite (Rmult_comm (d k)); apply Rmult_le_compat_l; lra). lra. }
  assert (Hv : fltb (yin_c d m) (Fin th) = true) by (rewrite CZ by lia; cbn; apply Rltb_true; lra).
  destruct Hq as [(s & q & Hl & Hq & EP & EH)|([Hun|(s & Hl)] & _)].
  - destruct Hl as (B1 & B2 & B3 & B4 & B5 & B6).
    assert (s = m) as ->.
    { destruct (Nat.lt_trichotomy s m) as [K|[K|K]]; [rewrite CL in B3 by lia; discriminate|exact K|rewrite B4 in Hv by lia; discriminate]. }
    assert (q = m) as ->.
    { destruct (Nat.eq_dec q m) as [K|K]; [exact K|exfalso]. specialize (B5 m ltac:(lia)). rewrite !CZ in B5 by lia. cbn [fltb] in B5. rewrite Rltb_false in B5 by lra. discriminate. }
    split; [exact EP|]. rewrite EH. apply CZ. lia.
  - exfalso. rewrite Hun in Hv by lia. discriminate.
  - exfalso. destruct Hl as (B1 & _). lia.
Qed.
