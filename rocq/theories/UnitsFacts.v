(** * Proofs for C169: only ratios to the sampling rate matter *)
From Coq Require Import Reals ZArith List String Bool Lia Lra.
From Flocq Require Import Core.
From Verif Require Import Base BaseFacts Cplx SpecBase SpecMat MatFacts Preprocessing Converters Filters MelBanks Fourier Cepstral Features Extractors
  Lpc Yin Dominant Butter Cqt SpFeats SpecUnits.
Import ListNotations.
Local Open Scope R_scope.

(** ** Multiplying a float by a positive number *)
Section Scale.
Context (l : R) (Hl : 0 < l).
Definition sc (x : F) : F := match x with Fin r => Fin (l * r) | y => y end.
Lemma finfmul_sc : forall a, finfmul (l * a) = finfmul a.
Proof.
  intros. unfold finfmul. destruct (Req_EM_T a 0) as [->|N].
  - rewrite Rmult_0_r. destruct (Req_EM_T 0 0); [reflexivity|lra].
  - destruct (Req_EM_T (l * a) 0) as [E|_]; [apply Rmult_integral in E; lra|].
    destruct (Rlt_dec 0 a), (Rlt_dec 0 (l * a)); auto; exfalso.
    + apply n. apply Rmult_lt_0_compat; assumption.
    + apply n. apply Rmult_lt_reg_l with l; lra.
Qed.
Lemma sc_times : forall x, times l x = sc x.
Proof.
  intros [r| | |]; cbn; auto; unfold finfmul.
  - destruct (Req_EM_T l 0); [lra|]. destruct (Rlt_dec 0 l); [reflexivity|lra].
  - destruct (Req_EM_T (- l) 0); [lra|]. destruct (Rlt_dec 0 (- l)); [lra|reflexivity].
Qed.
Lemma sc_neg : forall x, fneg (sc x) = sc (fneg x).
Proof. intros [r| | |]; cbn; auto. f_equal. ring. Qed.
Lemma sc_add : forall x y, fadd (sc x) (sc y) = sc (fadd x y).
Proof. intros [r| | |] [s| | |]; cbn; auto. f_equal. ring. Qed.
Lemma sc_sub : forall x y, fsub (sc x) (sc y) = sc (fsub x y).
Proof. intros. unfold fsub. rewrite sc_neg. apply sc_add. Qed.
Lemma sc_abs : forall x, fabs (sc x) = sc (fabs x).
Proof. intros [r| | |]; cbn; auto. rewrite Rabs_mult, (Rabs_right l); [reflexivity|lra]. Qed.
Lemma sc_mul_l : forall x y, fmul (sc x) y = sc (fmul x y).
Proof.
  assert (J : forall a, finfmul a = sc (finfmul a)).
  { intros. unfold finfmul. destruct Req_EM_T; [reflexivity|]. destruct Rlt_dec; reflexivity. }
  intros [r| | |] [s| | |]; cbn; auto.
  - f_equal. ring.
  - rewrite finfmul_sc. apply J.
  - replace (- (l * r)) with (l * - r) by ring. rewrite finfmul_sc. apply J.
Qed.
Lemma fmul_comm : forall x y, fmul x y = fmul y x.
Proof. intros [r| | |] [s| | |]; cbn; auto. f_equal. ring. Qed.
Lemma sc_mul_r : forall x y, fmul x (sc y) = sc (fmul x y).
Proof. intros. rewrite fmul_comm, sc_mul_l, fmul_comm. reflexivity. Qed.
Lemma sc_div_l : forall x y, fdiv (sc x) y = sc (fdiv x y).
Proof.
  intros [r| | |] [s| | |]; cbn; auto.
  - destruct (Req_EM_T s 0) as [E|N].
    + rewrite finfmul_sc. unfold finfmul. destruct Req_EM_T; [reflexivity|]. destruct Rlt_dec; reflexivity.
    + cbn. f_equal. field. assumption.
  - rewrite Rmult_0_r. reflexivity.
  - rewrite Rmult_0_r. reflexivity.
  - destruct Rlt_dec; reflexivity.
  - destruct Rlt_dec; reflexivity.
Qed.
Lemma pos_iff : forall a, l * a < 0 <-> a < 0.
Proof. intros. split; intros K; nra. Qed.
(** quotients do not depend on the unit *)
Lemma sc_div : forall x y, fdiv (sc x) (sc y) = fdiv x y.
Proof.
  intros [r| | |] [s| | |]; cbn; auto.
  - destruct (Req_EM_T s 0) as [->|N].
    + rewrite Rmult_0_r. destruct (Req_EM_T 0 0); [apply finfmul_sc|lra].
    + destruct (Req_EM_T (l * s) 0) as [E|_]; [apply Rmult_integral in E; lra|]. f_equal. field. lra.
  - destruct (Rlt_dec s 0), (Rlt_dec (l * s) 0); auto; exfalso; rewrite pos_iff in *; lra.
  - destruct (Rlt_dec s 0), (Rlt_dec (l * s) 0); auto; exfalso; rewrite pos_iff in *; lra.
Qed.
Lemma le_iff : forall a b, l * a <= l * b <-> a <= b.
Proof. intros. split; intros K; nra. Qed.
Lemma lt_iff : forall a b, l * a < l * b <-> a < b.
Proof. intros. split; intros K; nra. Qed.
Lemma Rleb_sc : forall a b, Rleb (l * a) (l * b) = Rleb a b.
Proof. intros. unfold Rleb. destruct (Rle_dec (l * a) (l * b)), (Rle_dec a b); auto; exfalso; rewrite le_iff in *; lra. Qed.
Lemma Rltb_sc : forall a b, Rltb (l * a) (l * b) = Rltb a b.
Proof. intros. unfold Rltb. destruct (Rlt_dec (l * a) (l * b)), (Rlt_dec a b); auto; exfalso; rewrite lt_iff in *; lra. Qed.
Lemma sc_leb : forall x y, fleb (sc x) (sc y) = fleb x y.
Proof. intros [r| | |] [s| | |]; cbn; auto. apply Rleb_sc. Qed.
Lemma sc_geb : forall x y, fgeb (sc x) (sc y) = fgeb x y.
Proof. intros. apply sc_leb. Qed.
Lemma sc_sum : forall v, fsum (map sc v) = sc (fsum v).
Proof.
  induction v as [|x v IH]; cbn.
  - unfold f0. cbn. rewrite Rmult_0_r. reflexivity.
  - unfold fsum in IH. rewrite IH. apply sc_add.
Qed.
Lemma map2_map_r : forall A B C D (f : A -> B -> C) (g : D -> B) u v, map2 f u (map g v) = map2 (fun a d => f a (g d)) u v.
Proof. intros A B C D f g. induction u as [|a u IH]; intros [|d v]; cbn; auto. f_equal. apply IH. Qed.
Lemma map2_map_l : forall A B C D (f : A -> B -> C) (g : D -> A) u v, map2 f (map g u) v = map2 (fun d b => f (g d) b) u v.
Proof. intros A B C D f g. induction u as [|a u IH]; intros [|d v]; cbn; auto. f_equal. apply IH. Qed.
Lemma map_map2 : forall A B C D (g : C -> D) (f : A -> B -> C) u v, map g (map2 f u v) = map2 (fun a b => g (f a b)) u v.
Proof. intros A B C D g f. induction u as [|a u IH]; intros [|d v]; cbn; auto. f_equal. apply IH. Qed.
Lemma map2_ext : forall A B C (f g : A -> B -> C), (forall a b, f a b = g a b) -> forall u v, map2 f u v = map2 g u v.
Proof. intros A B C f g E. induction u as [|a u IH]; intros [|d v]; cbn; auto. rewrite E, IH. reflexivity. Qed.
Lemma mapM_rel : forall A A' B (f : A -> result B) (f' : A' -> result B) (g : A -> A'),
  (forall a, f' (g a) = f a) -> forall v, mapM f' (map g v) = mapM f v.
Proof. intros A A' B f f' g E. induction v as [|a v IH]; cbn; auto. rewrite E, IH. reflexivity. Qed.
Lemma mapM_out : forall A B B' (f : A -> result B) (f' : A -> result B') (g : B -> B'),
  (forall a, f' a = rmap g (f a)) -> forall v, mapM f' v = rmap (map g) (mapM f v).
Proof.
  intros A B B' f f' g E. induction v as [|a v IH]; cbn; auto. rewrite E, IH.
  destruct (f a); cbn; auto. destruct (mapM f v); reflexivity.
Qed.
End Scale.

Lemma sc_sc : forall a b x, 0 < a -> 0 < b -> sc a (sc b x) = sc (a * b) x.
Proof. intros a b [r| | |] _ _; cbn; auto. f_equal. ring. Qed.
Lemma sc_1 : forall x, sc 1 x = x.
Proof. intros [r| | |]; cbn; auto. f_equal. ring. Qed.
Lemma sc_pow : forall l, 0 < l -> forall p x, fpown (sc l x) p = sc (l ^ p) (fpown x p).
Proof.
  intros l Hl. induction p as [|p IH]; intros x; cbn.
  - f_equal. ring.
  - rewrite IH, sc_mul_l, sc_mul_r, sc_sc by (try assumption; apply pow_lt; assumption). reflexivity.
Qed.
Lemma sc_sqrt : forall l, 0 < l -> forall x, fsqrt (sc (l ^ 2) x) = sc l (fsqrt x).
Proof.
  intros l Hl [r| | |]; cbn [sc fsqrt]; auto.
  assert (P : 0 < l ^ 2) by (apply pow_lt; assumption).
  destruct (Rlt_dec (l ^ 2 * r) 0) as [K|K], (Rlt_dec r 0) as [J|J]; cbn [sc]; auto.
  - apply (proj1 (pos_iff _ P r)) in K. lra.
  - exfalso. apply K. apply (proj2 (pos_iff _ P r)). lra.
  - f_equal. rewrite sqrt_mult by lra. f_equal. apply sqrt_pow2. lra.
Qed.
(** (a x) / (b y) = (a / b) (x / y) *)
Lemma sc_div_r : forall b, 0 < b -> forall x y, fdiv x (sc b y) = sc (/ b) (fdiv x y).
Proof.
  intros b Hb x y. assert (I : 0 < / b) by (apply Rinv_0_lt_compat; assumption).
  assert (E : x = sc b (sc (/ b) x)).
  { rewrite sc_sc by assumption. rewrite Rinv_r by lra. rewrite sc_1. reflexivity. }
  rewrite E at 1. rewrite sc_div by assumption. apply sc_div_l; assumption.
Qed.

Lemma pair_map : forall A B (f : A -> B) u v, map2 pair (map f u) (map f v) = map (fun p => (f (fst p), f (snd p))) (map2 pair u v).
Proof. intros A B f. induction u as [|a u IH]; intros [|b v]; cbn; auto. f_equal. apply IH. Qed.

(** ** The linear bank *)
Lemma or_half_sc : forall l fs fs2 h h2, faster l fs fs2 -> freq_scaled l h h2 -> or_half h2 fs2 = l * or_half h fs.
Proof.
  intros l fs fs2 h h2 [Hl E] K. unfold or_half. destruct h as [v|], h2 as [v2|]; cbn in K; try contradiction; [subst v2|rewrite E; field].
  destruct (Req_EM_T v 0) as [->|N].
  - destruct (Req_EM_T (l * 0) 0); [|lra]. rewrite E. field.
  - destruct (Req_EM_T (l * v) 0) as [J|_]; [apply Rmult_integral in J; lra|]. reflexivity.
Qed.
Lemma scale_points_sc : forall l, 0 < l -> forall lo hi n, scale_points (sc l lo) (sc l hi) n = map (sc l) (scale_points lo hi n).
Proof.
  intros l Hl lo hi n. unfold scale_points. rewrite map_map. apply map_ext. intros k.
  rewrite sc_sub, sc_abs, sc_div_l, sc_mul_l, sc_add by assumption. reflexivity.
Qed.
Lemma flinspace_sc : forall l, 0 < l -> forall a b n, flinspace (sc l a) (sc l b) n = map (sc l) (flinspace a b n).
Proof.
  intros l Hl a b [|[|m]]; cbn [flinspace]; auto.
  - cbn [map]. rewrite sc_sub, sc_mul_r, sc_add by assumption. reflexivity.
  - rewrite map_app, map_map. cbn [map]. f_equal. apply map_ext. intros k.
    rewrite sc_sub, sc_div_l, sc_mul_r, sc_add by assumption. reflexivity.
Qed.
Lemma slope_row_sc : forall l, 0 < l -> forall fr c lo up, slope_row (map (sc l) fr) (sc l c) (sc l lo) (sc l up) = slope_row fr c lo up.
Proof.
  intros l Hl fr c lo up. unfold slope_row. rewrite map_map. apply map_ext. intros f. cbv zeta.
  rewrite !sc_geb, !sc_leb, !sc_sub, !sc_div by assumption. reflexivity.
Qed.
Lemma bank_units : forall l nfilts nfft fs fs2 lo lo2 h h2 s, faster l fs fs2 -> lo2 = l * lo -> freq_scaled l h h2 ->
  linear_filter_banks nfilts nfft fs2 lo2 h2 s = rmap (fun bc => (fst bc, map (times l) (snd bc))) (linear_filter_banks nfilts nfft fs lo h s).
Proof.
  intros l nfilts nfft fs fs2 lo lo2 h h2 s HF -> HH. pose proof HF as [Hl E].
  unfold linear_filter_banks, mel_filter_banks_helper. rewrite (or_half_sc l fs fs2 h h2 HF HH).
  replace (Rltb (l * lo) 0) with (Rltb lo 0) by (rewrite <- (Rltb_sc l Hl lo 0), Rmult_0_r; reflexivity).
  replace (Rltb (IZR fs2 / 2) (l * or_half h fs)) with (Rltb (IZR fs / 2) (or_half h fs))
    by (rewrite <- (Rltb_sc l Hl), E; f_equal; field).
  destruct (Rltb lo 0); [reflexivity|]. destruct (Rltb (IZR fs / 2) (or_half h fs)); [reflexivity|]. cbn [String.eqb Ascii.eqb Bool.eqb].
  change (String.eqb "lin" "mel") with false. cbv iota.
  destruct (nfilts + 1 =? 0)%Z; [reflexivity|].
  change (Fin (l * lo)) with (sc l (Fin lo)). change (Fin (l * or_half h fs)) with (sc l (Fin (or_half h fs))).
  rewrite scale_points_sc, flinspace_sc by assumption. cbn [rbind].
  rewrite !skipn_map, !firstn_map.
  destruct ((nfft / 2 + 1 <? 0) || (nfilts <? 0))%Z; [reflexivity|].
  set (sf := scale_points (Fin lo) (Fin (or_half h fs)) (Z.to_nat nfilts)).
  rewrite pair_map, map2_map_l, map2_map_r.
  rewrite (map2_ext _ _ _ _ (fun c lu => slope_row (flinspace (Fin lo) (Fin (or_half h fs)) (Z.to_nat (nfft / 2 + 1))) c (fst lu) (snd lu)))
    by (intros; cbn [fst snd]; apply slope_row_sc; assumption).
  destruct (scale_fbank s nfilts) as [sca|]; cbn; [|reflexivity].
  f_equal. f_equal. apply map_ext. intros x. symmetry. apply sc_times. assumption.
Qed.

(** ** Framing *)
Lemma framing_units : forall `{Env} l fs fs2 sig wl wh wl2 wh2, faster l fs fs2 -> wl = l * wl2 -> wh = l * wh2 ->
  framing sig fs2 wl2 wh2 = framing sig fs wl wh.
Proof.
  intros E l fs fs2 sig wl wh wl2 wh2 [Hl K] -> ->. unfold framing, framing_strided.
  rewrite Rltb_sc by assumption.
  replace (wl2 * IZR fs2) with (l * wl2 * IZR fs) by (rewrite K; ring).
  replace (wh2 * IZR fs2) with (l * wh2 * IZR fs) by (rewrite K; ring). reflexivity.
Qed.
Lemma framed_units : forall `{Env} l fs fs2 sig p c w w2, faster l fs fs2 -> window_scaled l w w2 ->
  framed sig fs2 p c w2 = framed sig fs p c w.
Proof.
  intros E l fs fs2 sig p c w w2 HF (A & B & C). unfold framed. fold (the_window w) (the_window w2).
  destruct (if p then pre_emphasis sig c else Ok sig) as [v|]; cbn [rbind]; [|reflexivity].
  rewrite (framing_units l fs fs2 v _ _ _ _ HF A B), C. reflexivity.
Qed.

Section Extract.
Context `{Env} (l : R) (a a2 : sargs) (HU : same_but_units l a a2).
Lemma spectrogram_units : forall s sig, s = Linear \/ s_fbanks a <> None -> spectrogram s sig a2 = spectrogram s sig a.
Proof.
  intros s sig K. destruct HU as (HF & Lo & Hi & W & E1 & E2 & E3 & E4 & E5 & E6 & E7).
  destruct K as [->|K].
  - cbn [spectrogram]. unfold linear_spectrogram. rewrite E6, E4, E1, E3, E5, (framed_units l _ _ _ _ _ _ _ HF W).
    destruct (s_fbanks a); [reflexivity|]. rewrite (bank_units l _ _ _ _ _ _ _ _ _ HF Lo Hi).
    destruct linear_filter_banks as [[b c]|]; reflexivity.
  - destruct (s_fbanks a) as [b|] eqn:B; [|congruence].
    destruct s; cbn [spectrogram]; unfold mel_spectrogram, linear_spectrogram, bark_spectrogram, erb_spectrogram;
      rewrite E6, E4, E1, B, (framed_units l _ _ _ _ _ _ _ HF W), ?E2; reflexivity.
Qed.
Lemma run_units : forall e sig c, e = Lfcc \/ s_fbanks a <> None -> run e sig a2 c = run e sig a c.
Proof.
  intros e sig c K. pose proof HU as (HF & Lo & Hi & W & E1 & E2 & E3 & E4 & E5 & E6 & E7).
  destruct K as [->|K].
  - cbn [run]. unfold lfcc. rewrite E3, E4. pose proof (spectrogram_units Linear sig (or_introl eq_refl)) as Q. cbn [spectrogram] in Q.
    rewrite Q. reflexivity.
  - assert (FR : forall x, framed sig (s_fs a2) (s_pre_emph a) x (s_window a2) = framed sig (s_fs a) (s_pre_emph a) x (s_window a))
      by (intros; apply (framed_units l); assumption).
    destruct (s_fbanks a) as [b|] eqn:B; [|congruence].
    destruct e; cbn [run]; unfold mfcc, imfcc, lfcc, bfcc, gfcc, ngcc, msrcc, mfcc, mel_spectrogram, linear_spectrogram, bark_spectrogram, erb_spectrogram;
      rewrite ?E6, ?B; cbn [rbind with_fbanks s_fs s_pre_emph s_coeff s_window s_nfilts s_nfft s_low s_high s_scale s_fbanks s_approach];
      rewrite ?E6, ?B, ?E3, ?E4, ?E1, ?E2, ?FR; reflexivity.
Qed.
Lemma psrcc_units : forall sig g c, s_fbanks a <> None -> psrcc sig a2 g c = psrcc sig a g c.
Proof.
  intros sig g c K. pose proof HU as (HF & Lo & Hi & W & E1 & E2 & E3 & E4 & E5 & E6 & E7).
  destruct (s_fbanks a) as [b|] eqn:B; [|congruence].
  unfold psrcc. rewrite E6, B, E3, E4, E1, E2, (framed_units l _ _ _ _ _ _ _ HF W). reflexivity.
Qed.
End Extract.

Lemma lpc_units : forall `{Env} l fs fs2 sig order p c w w2, faster l fs fs2 -> window_scaled l w w2 ->
  lpc sig fs2 order p c w2 = lpc sig fs order p c w /\
  forall lift norm, lpcc sig fs2 order p c w2 lift norm = lpcc sig fs order p c w lift norm.
Proof.
  intros E l fs fs2 sig order p c w w2 HF W. unfold lpc, lpcc. rewrite (framed_units l fs fs2 sig p 0.97 w w2 HF W). split; reflexivity.
Qed.

(** ** YIN *)
Lemma faster_0 : forall l fs fs2, faster l fs fs2 -> (fs2 =? 0)%Z = (fs =? 0)%Z.
Proof.
  intros l fs fs2 [Hl K]. destruct (Z.eqb_spec fs 0) as [->|N], (Z.eqb_spec fs2 0) as [->|M]; auto; exfalso.
  - rewrite Rmult_0_r in K. apply eq_IZR in K. contradiction.
  - symmetry in K. apply Rmult_integral in K as [K|K]; [lra|]. apply eq_IZR in K. contradiction.
Qed.
Lemma fZ_sc : forall l fs fs2, faster l fs fs2 -> fZ fs2 = sc l (fZ fs).
Proof. intros l fs fs2 [_ K]. cbn. unfold fZ. rewrite K. reflexivity. Qed.
Lemma sc_f0 : forall l, sc l f0 = f0.
Proof. intros. unfold f0. cbn. rewrite Rmult_0_r. reflexivity. Qed.
Lemma yin_frame_units : forall l fs fs2 fr tmin tmax th, faster l fs fs2 ->
  yin_frame fr fs2 tmin tmax th = rmap (fun o => (sc l (fst (fst o)), snd (fst o), sc l (snd o))) (yin_frame fr fs tmin tmax th).
Proof.
  intros l fs fs2 fr tmin tmax th HF. pose proof HF as [Hl _]. unfold yin_frame. rewrite (fZ_sc l fs fs2 HF).
  destruct compute_cmnd as [cm|]; cbn [rbind]; [|reflexivity]. destruct get_pitch as [p|]; cbn [rbind]; [|reflexivity].
  destruct np_argmin as [am|]; cbn [rbind]; [|reflexivity].
  assert (A : (if (tmin <? Z.of_nat am)%Z then fdiv (sc l (fZ fs)) (fnat am) else f0)
            = sc l (if (tmin <? Z.of_nat am)%Z then fdiv (fZ fs) (fnat am) else f0)).
  { destruct (tmin <? Z.of_nat am)%Z; [|symmetry; apply sc_f0]. apply sc_div_l; assumption. }
  rewrite A. destruct (negb (p =? 0)%Z).
  - destruct py_nth as [h|]; cbn [rbind rmap]; [|reflexivity]. cbn [fst snd].
    rewrite sc_div_l by assumption. reflexivity.
  - destruct py_min as [h|]; cbn [rbind rmap]; [|reflexivity]. cbn [fst snd]. rewrite sc_f0. reflexivity.
Qed.
Lemma compute_yin_units : forall `{Env} l fs fs2 sig wl wh lo hi th wl2 wh2 lo2 hi2, faster l fs fs2 ->
  wl = l * wl2 -> wh = l * wh2 -> lo2 = l * lo -> hi2 = l * hi ->
  compute_yin sig fs2 wl2 wh2 lo2 hi2 th =
  rmap (fun '(p, h, m, t) => (map (times l) p, h, map (times l) m, map (times (/ l)) t)) (compute_yin sig fs wl wh lo hi th).
Proof.
  intros E l fs fs2 sig wl wh lo hi th wl2 wh2 lo2 hi2 HF -> -> -> ->. pose proof HF as [Hl K].
  assert (I : 0 < / l) by (apply Rinv_0_lt_compat; assumption).
  assert (Z0 : forall v (A : Type) (x y : A), (if Req_EM_T (l * v) 0 then x else y) = if Req_EM_T v 0 then x else y).
  { intros v A x y. destruct (Req_EM_T v 0) as [->|N].
    - destruct (Req_EM_T (l * 0) 0); [reflexivity|lra].
    - destruct (Req_EM_T (l * v) 0) as [J|_]; [apply Rmult_integral in J; lra|reflexivity]. }
  unfold compute_yin. rewrite !Z0.
  destruct (Req_EM_T hi 0) as [|Nh]; [reflexivity|]. destruct (Req_EM_T lo 0) as [|Nl]; [reflexivity|]. cbv zeta.
  replace (IZR fs2 / (l * hi)) with (IZR fs / hi) by (rewrite K; field; lra).
  replace (IZR fs2 / (l * lo)) with (IZR fs / lo) by (rewrite K; field; lra).
  replace (wl2 * IZR fs2) with (l * wl2 * IZR fs) by (rewrite K; ring).
  replace (wh2 * IZR fs2) with (l * wh2 * IZR fs) by (rewrite K; ring).
  destruct range_step as [ts|]; cbn [rbind]; [|reflexivity].
  rewrite (faster_0 l fs fs2 HF).
  rewrite (mapM_out _ _ _ (fun t => if (fs =? 0)%Z then Raise ZeroDivisionError else Ok (fdiv (fZ t) (fZ fs))) _ (sc (/ l))).
  2:{ intros t. destruct (fs =? 0)%Z; [reflexivity|]. cbn [rmap]. rewrite (fZ_sc l fs fs2 HF), sc_div_r by assumption. reflexivity. }
  destruct (mapM (fun t => if (fs =? 0)%Z then Raise ZeroDivisionError else Ok (fdiv (fZ t) (fZ fs))) ts) as [tt|]; cbn [rbind rmap]; [|reflexivity].
  rewrite (mapM_out _ _ _ _ _ _ (fun fr => yin_frame_units l fs fs2 fr _ _ th HF)).
  destruct mapM as [out|]; cbn [rbind rmap]; [|reflexivity].
  rewrite !map_map. cbn [fst snd].
  f_equal. f_equal; [f_equal; [f_equal|]|].
  - apply map_ext. intros o. symmetry. apply sc_times. assumption.
  - apply map_ext. intros o. symmetry. apply sc_times. assumption.
  - apply map_ext. intros o. symmetry. apply sc_times. assumption.
Qed.

(** ** Dominant frequencies *)
Lemma fftfreq_units : forall l n fs fs2, faster l fs fs2 -> fftfreq n fs2 = rmap (map (sc l)) (fftfreq n fs).
Proof.
  intros l n fs fs2 HF. pose proof HF as [Hl _]. unfold fftfreq. rewrite (faster_0 l fs fs2 HF), (fZ_sc l fs fs2 HF).
  destruct (fs =? 0)%Z; [reflexivity|]. destruct (Nat.eqb n 0); [reflexivity|]. cbn [rmap]. f_equal. rewrite map_map. apply map_ext. intros k.
  rewrite sc_div_l, sc_mul_r by assumption. reflexivity.
Qed.
Lemma py_nth_map : forall A B (f : A -> B) v i, py_nth (map f v) i = rmap f (py_nth v i).
Proof.
  intros A B f v i. unfold py_nth, zlen. rewrite map_length. cbv zeta.
  set (j := if (i <? 0)%Z then _ else _). destruct ((0 <=? j) && (j <? Z.of_nat (List.length v)))%Z; [|reflexivity].
  rewrite nth_error_map. destruct nth_error; reflexivity.
Qed.
Lemma dominant_of_units : forall l nfft fs fs2 w, faster l fs fs2 -> dominant_of nfft fs2 w = rmap (sc l) (dominant_of nfft fs w).
Proof.
  intros l nfft fs fs2 w HF. unfold dominant_of. destruct np_rfft as [X|]; cbn [rbind]; [|reflexivity]. cbv zeta.
  rewrite (fftfreq_units l _ fs fs2 HF). destruct fftfreq as [fr|]; cbn [rbind rmap]; [|reflexivity].
  destruct np_argmax as [i|]; cbn [rbind rmap]; [|reflexivity]. apply py_nth_map.
Qed.
(** the call before np.round and the selection of positive values *)
Lemma dominant_units : forall `{Env} l fs fs2 sig bf lower upper lower2 upper2 nfft wl wh wl2 wh2 wt,
  faster l fs fs2 -> wl = l * wl2 -> wh = l * wh2 ->
  (bf = true -> lower2 = l * lower /\ upper2 = l * upper /\ forall x, rnd (l * x) = l * rnd x) ->
  exists v : result (list F),
    (forall pos, get_dominant_frequencies_of sig fs bf lower upper nfft wl wh wt pos =
      rmap (fun d => (if pos then filter (fun x => fgeb x f0) (map fround3 d) else map fround3 d)) v) /\
    (forall pos, get_dominant_frequencies_of sig fs2 bf lower2 upper2 nfft wl2 wh2 wt pos =
      rmap (fun d => (if pos then filter (fun x => fgeb x f0) (map fround3 d) else map fround3 d)) (rmap (map (times l)) v)).
Proof.
  intros E l fs fs2 sig bf lower upper lower2 upper2 nfft wl wh wl2 wh2 wt HF A B HB. pose proof HF as [Hl K].
  assert (G : forall b, exists v : result (list F),
    (forall pos, get_dominant_frequencies sig fs b nfft wl wh wt pos =
      rmap (fun d => (if pos then filter (fun x => fgeb x f0) (map fround3 d) else map fround3 d)) v) /\
    (forall pos, get_dominant_frequencies sig fs2 b nfft wl2 wh2 wt pos =
      rmap (fun d => (if pos then filter (fun x => fgeb x f0) (map fround3 d) else map fround3 d)) (rmap (map (times l)) v))).
  { intros b. set (s := match b with Some (b0, a0) => lfilter b0 a0 sig | None => sig end).
    exists (do (frames, frame_length) <- framing s fs wl wh; do windows <- windowing frames frame_length wt; mapM (dominant_of nfft fs) windows).
    split; intros pos; unfold get_dominant_frequencies; fold s.
    - destruct framing as [[fr fl]|]; cbn [rbind rmap]; [|reflexivity]. destruct windowing as [w|]; cbn [rbind rmap]; [|reflexivity].
      destruct mapM; reflexivity.
    - rewrite (framing_units l fs fs2 s wl wh wl2 wh2 HF A B).
      destruct framing as [[fr fl]|]; cbn [rbind rmap]; [|reflexivity]. destruct windowing as [w|]; cbn [rbind rmap]; [|reflexivity].
      rewrite (mapM_out _ _ _ _ _ _ (fun w => dominant_of_units l nfft fs fs2 w HF)).
      destruct mapM as [d|]; cbn [rbind rmap]; [|reflexivity]. do 2 f_equal.
      rewrite (map_ext (times l) (sc l) (sc_times l Hl)). reflexivity. }
  unfold get_dominant_frequencies_of. destruct bf; [|apply G].
  destruct (HB eq_refl) as (-> & -> & HR). unfold butter_design. rewrite (faster_0 l fs fs2 HF).
  destruct (Z.eqb_spec fs 0) as [|N]; [exists (Raise ZeroDivisionError); split; reflexivity|]. cbv zeta.
  assert (C : forall c, cutoff_of fs2 (l * c) = cutoff_of fs c).
  { intros c. unfold cutoff_of. rewrite Rmult_assoc, HR, K. f_equal. field. split; [|lra]. intros J. apply eq_IZR in J. contradiction. }
  rewrite !C. destruct (_ || _); [exists (Raise ValueError); split; reflexivity|]. cbn [rbind]. apply G.
Qed.

(** ** Constant-Q transform *)
Lemma cqt_freqs_units : forall l f0 o b, tmp_cqt_freqs (l * f0) o b = map (Rmult l) (tmp_cqt_freqs f0 o b).
Proof.
  intros l f0 o b. unfold tmp_cqt_freqs. rewrite !flat_map_concat_map, concat_map, map_map. f_equal. apply map_ext. intros m.
  rewrite map_map. apply map_ext. intros n. ring.
Qed.
Lemma filter_map : forall A B (g : A -> B) p v, filter p (map g v) = map g (filter (fun a => p (g a)) v).
Proof. intros A B g p. induction v as [|a v IH]; cbn; auto. destruct (p (g a)); cbn; rewrite IH; reflexivity. Qed.
Lemma filter_ext' : forall A (p q : A -> bool) v, (forall a, p a = q a) -> filter p v = filter q v.
Proof. intros A p q v E. induction v as [|a v IH]; cbn; auto. rewrite E, IH. reflexivity. Qed.
Lemma py_drop_map : forall A B (g : A -> B) z v, py_drop z (map g v) = map g (py_drop z v).
Proof. intros A B g z v. unfold py_drop, zlen. rewrite map_length. destruct (z <? 0)%Z; apply skipn_map. Qed.
Lemma cqt_frames_units : forall l frames fs fs2 lo lo2 h h2 nfft o b wt th f0 f02 q, faster l fs fs2 -> lo2 = l * lo -> freq_scaled l h h2 -> f02 = l * f0 ->
  (fs <> 0)%Z ->
  cqt_frames frames fs2 lo2 h2 nfft o b wt th f02 q = cqt_frames frames fs lo h nfft o b wt th f0 q.
Proof.
  intros l frames fs fs2 lo lo2 h h2 nfft o b wt th f0 f02 q HF -> HH -> Nz. pose proof HF as [Hl K].
  assert (Nf : IZR fs <> 0) by (intros J; apply eq_IZR in J; contradiction).
  unfold cqt_frames. rewrite (or_half_sc l fs fs2 h h2 HF HH), cqt_freqs_units, filter_map. cbv zeta.
  rewrite (filter_ext' _ (fun f => Rleb (l * lo) (l * f) && Rleb (l * f) (l * or_half h fs))%bool (fun f => Rleb lo f && Rleb f (or_half h fs))%bool)
    by (intros f; rewrite !Rleb_sc by assumption; reflexivity).
  set (fr := filter _ (tmp_cqt_freqs f0 o b)). clearbody fr.
  destruct (if (b =? 0)%Z then Raise ZeroDivisionError else Ok (q / (Rpower 2 (1 / IZR b) - 1))) as [Q|]; cbn [rbind]; [|reflexivity].
  rewrite map_map.
  assert (W : map (fun x => cqt_win_len Q fs2 (l * x)) fr = map (cqt_win_len Q fs) fr).
  { apply map_ext. intros f. unfold cqt_win_len. f_equal. rewrite K. unfold Rdiv. destruct (Req_dec f 0) as [->|Nf0].
    - rewrite Rmult_0_r, Rinv_0. ring.
    - field. lra. }
  rewrite W. set (wl := filter (fun N => (N <=? nfft)%Z) (map (cqt_win_len Q fs) fr)). clearbody wl.
  rewrite py_drop_map. set (fq := py_drop (-1 * zlen wl) fr). clearbody fq.
  destruct (nfft <? 0)%Z; [reflexivity|]. rewrite map_length.
  assert (M : mapM (fun k => do Nk <- py_nth wl (Z.of_nat k); cqt_kernel fs2 nfft wt th (nth k (map (Rmult l) fq) 0) Nk) (seq 0 (List.length fq)) =
    mapM (fun k => do Nk <- py_nth wl (Z.of_nat k); cqt_kernel fs nfft wt th (nth k fq 0) Nk) (seq 0 (List.length fq))).
  { rewrite <- (map_id (seq 0 (List.length fq))) at 1. apply (mapM_rel _ _ _ _ _ (fun k => k)). intros k.
    destruct py_nth as [Nk|]; cbn [rbind]; [|reflexivity].
    replace (nth k (map (Rmult l) fq) 0) with (l * nth k fq 0).
    2:{ symmetry. rewrite <- (Rmult_0_r l) at 1. apply (map_nth (Rmult l)). }
    unfold cqt_kernel, cqt_atom. cbv zeta.
    replace (l * nth k fq 0 / IZR fs2) with (nth k fq 0 / IZR fs); [reflexivity|]. rewrite K. field. lra. }
  rewrite M. reflexivity.
Qed.
Lemma faster_nz : forall l fs fs2, faster l fs fs2 -> fs = 0%Z -> fs2 = 0%Z.
Proof. intros l fs fs2 [_ K] ->. rewrite Rmult_0_r in K. apply eq_IZR in K. assumption. Qed.
Lemma cqt_units : forall `{Env} l a a2 sig, same_but_units_q l a a2 -> q_fs a <> 0%Z -> cqt_spectrogram sig a2 = cqt_spectrogram sig a.
Proof.
  intros E l a a2 sig (HF & Lo & Hi & F0 & W & E1 & E2 & E3 & E4 & E5 & E6 & E7) Nz. pose proof HF as [Hl K].
  unfold cqt_spectrogram. rewrite (or_half_sc l _ _ _ _ HF Hi). cbv zeta.
  replace (Rltb (IZR (q_fs a2) / 2) (l * or_half (q_high a) (q_fs a))) with (Rltb (IZR (q_fs a) / 2) (or_half (q_high a) (q_fs a)))
    by (rewrite <- (Rltb_sc l Hl), K; f_equal; field).
  destruct (Rltb (IZR (q_fs a) / 2) (or_half (q_high a) (q_fs a))); [reflexivity|].
  rewrite E1, E2, E3, E4, E5, E6, E7, (framed_units l _ _ _ _ _ _ _ HF W).
  destruct framed as [[fr w]|]; cbn [rbind]; [|reflexivity]. fold (the_window (q_window a)) (the_window (q_window a2)).
  destruct W as (_ & _ & T). rewrite T. unfold compute_constant_qtransform.
  rewrite (cqt_frames_units l w _ _ _ _ (Some (or_half (q_high a) (q_fs a))) (Some (l * or_half (q_high a) (q_fs a))) _ _ _ _ _ _ _ _ HF Lo eq_refl F0 Nz).
  reflexivity.
Qed.
Lemma cqcc_units : forall `{Env} l a a2 sig r c, same_but_units_q l a a2 -> q_fs a <> 0%Z -> cqcc sig a2 r c = cqcc sig a r c.
Proof.
  intros E l a a2 sig r c HU Nz. unfold cqcc. rewrite (cqt_units l a a2 sig HU Nz). destruct HU as (_ & _ & _ & _ & _ & _ & _ & E3 & _). rewrite E3. reflexivity.
Qed.

(** ** Spectral features *)
Section Spectral.
Context (l : R) (fs fs2 : Z) (HF : faster l fs fs2).
Lemma l_pos : 0 < l. Proof. exact (proj1 HF). Qed.
Lemma abs_freqs_units : forall s, abs_freqs s fs2 = rmap (map (sc l)) (abs_freqs s fs).
Proof.
  intros s. unfold abs_freqs. rewrite (fftfreq_units l _ fs fs2 HF). destruct fftfreq as [fr|]; cbn [rbind rmap]; [|reflexivity].
  f_equal. rewrite !map_map. apply map_ext. intros x. apply sc_abs. exact l_pos.
Qed.
Lemma centroid_units : forall s i, spectral_centroid fs2 s i = rmap (sc (l ^ i)) (spectral_centroid fs s i).
Proof.
  intros s i. pose proof l_pos as Hl. assert (P : 0 < l ^ i) by (apply pow_lt; assumption). unfold spectral_centroid. rewrite abs_freqs_units.
  destruct abs_freqs as [fr|]; cbn [rbind rmap]; [|reflexivity]. f_equal. rewrite map_map, (map_ext (fun x => fpown (sc l x) i) (fun x => sc (l ^ i) (fpown x i)))
    by (intros; apply sc_pow; assumption).
  rewrite <- (map_map (fun f => fpown f i) (sc (l ^ i))), map2_map_r, (map2_ext _ _ _ _ (fun a d => sc (l ^ i) (fmul a d))) by (intros; apply sc_mul_r; assumption).
  rewrite <- map_map2, sc_sum, sc_div_l by assumption. reflexivity.
Qed.
Lemma moment_units : forall p s, spectral_moment p fs2 s = rmap (sc (/ l ^ p)) (spectral_moment p fs s).
Proof.
  intros p s. pose proof l_pos as Hl. assert (P : 0 < l ^ p) by (apply pow_lt; assumption). assert (P2 : 0 < l ^ 2) by (apply pow_lt; assumption).
  unfold spectral_moment. rewrite !centroid_units, abs_freqs_units.
  destruct (spectral_centroid fs s 1) as [m1|]; cbn [rbind rmap]; [|reflexivity].
  destruct (spectral_centroid fs s 2) as [m2|]; cbn [rbind rmap]; [|reflexivity].
  destruct abs_freqs as [fr|]; cbn [rbind rmap]; [|reflexivity]. f_equal. rewrite pow_1.
  rewrite map_map, (map_ext (fun x => fpown (fsub (sc l x) (sc l m1)) p) (fun x => sc (l ^ p) (fpown (fsub x m1) p)))
    by (intros; rewrite sc_sub, sc_pow by assumption; reflexivity).
  rewrite <- (map_map (fun f => fpown (fsub f m1) p) (sc (l ^ p))), map2_map_r, (map2_ext _ _ _ _ (fun a d => sc (l ^ p) (fmul a d))) by (intros; apply sc_mul_r; assumption).
  rewrite <- map_map2, sc_sum, sc_pow, sc_mul_r by (try assumption; apply pow_lt; assumption).
  rewrite sc_div_l, sc_div_r, sc_sc by (try assumption; try apply Rinv_0_lt_compat; apply pow_lt; assumption).
  f_equal. rewrite <- pow_mult, Nat.mul_comm, pow_mult. field. lra.
Qed.
Lemma spread_units : forall s, spectral_spread fs2 s = rmap (map (sc l)) (spectral_spread fs s).
Proof.
  intros s. pose proof l_pos as Hl. assert (P2 : 0 < l ^ 2) by (apply pow_lt; assumption).
  unfold spectral_spread. rewrite abs_freqs_units, centroid_units.
  destruct abs_freqs as [fr|]; cbn [rbind rmap]; [|reflexivity].
  destruct (spectral_centroid fs s 1) as [m1|]; cbn [rbind rmap]; [|reflexivity]. f_equal. rewrite pow_1.
  rewrite map_map, (map_ext (fun x => fsub (sc l x) (sc l m1)) (fun x => sc l (fsub x m1))) by (intros; apply sc_sub).
  rewrite <- (map_map (fun f => fsub f m1) (sc l)), sc_sum, sc_pow by assumption. rewrite map_map. apply map_ext. intros m.
  rewrite sc_mul_l, sc_div_l, sc_sqrt by assumption. reflexivity.
Qed.
Lemma rolloff_units : forall s, spectral_rolloff_swapped fs2 s = map (fun z => (sc l (fst z), sc l (snd z))) (spectral_rolloff_swapped fs s).
Proof.
  intros s. pose proof l_pos as Hl. unfold spectral_rolloff_swapped. rewrite (fZ_sc l fs fs2 HF), sc_abs, map_map by assumption. apply map_ext.
  intros z. unfold cscal. cbn [fst snd]. rewrite !sc_mul_l by assumption. reflexivity.
Qed.
Lemma extract_feats_units : forall sig nfft, extract_feats sig fs2 nfft = rmap (feats_units l) (extract_feats sig fs nfft).
Proof.
  intros sig nfft. pose proof l_pos as Hl. unfold extract_feats. destruct np_rfft as [X|]; cbn [rbind]; [|reflexivity]. cbv zeta.
  unfold spectral_skewness, spectral_kurtosis. rewrite centroid_units, !moment_units, spread_units, rolloff_units.
  set (s := nth 0 X []).
  destruct (spectral_centroid fs s 1) as [m1|]; cbn [rbind rmap]; [|reflexivity].
  destruct (spectral_moment 3 fs s) as [m3|]; cbn [rbind rmap]; [|reflexivity].
  destruct (spectral_moment 4 fs s) as [m4|]; cbn [rbind rmap]; [|reflexivity].
  destruct (spectral_spread fs s) as [sp|]; cbn [rbind rmap]; [|reflexivity].
  destruct (spectral_flux s 2) as [fl|]; cbn [rbind rmap]; [|reflexivity]. f_equal. unfold feats_units.
  cbn [sf_centroid sf_skewness sf_kurtosis sf_entropy sf_spread sf_flatness sf_rolloff sf_flux sf_mean sf_rms sf_std sf_variance].
  rewrite !sc_times by (try assumption; apply Rinv_0_lt_compat, pow_lt; assumption). rewrite pow_1.
  rewrite (map_ext (times l) (sc l) (sc_times l Hl)).
  rewrite (map_ext (fun z : cplx => (times l (fst z), times l (snd z))) (fun z => (sc l (fst z), sc l (snd z))))
    by (intros; rewrite !sc_times by assumption; reflexivity).
  reflexivity.
Qed.
End Spectral.
