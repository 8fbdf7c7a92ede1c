(** * Lemmas about the dB image and the tick labels *)
From Coq Require Import Reals ZArith List String Bool Lia Lra Psatz.
From Flocq Require Import Core.
From Verif Require Import Base BaseFacts SpecBase SpecMat BigSum MatFacts CepstralFacts Converters ConvertersFacts Vis SpecVis.
Import ListNotations.
Local Open Scope R_scope.

Lemma ln10_pos : 0 < ln 10.
Proof. rewrite <- ln_1. apply ln_increasing; lra. Qed.
Lemma amin_pos : 0 < 1 / 10 ^ 10.
Proof. lra. Qed.
Lemma fmax2_Fin : forall a b, fmax2 (Fin a) (Fin b) = Fin (Rmax a b).
Proof. intros. unfold fmax2, fleb, Rleb, Rmax. destruct (Rle_dec a b); auto. Qed.
Lemma db_entry_eq : forall m v, db_entry (Fin m) (Fin v) = Fin (spec_db m v).
Proof.
  intros m v. unfold db_entry, vis_amin. rewrite !fmax2_Fin.
  assert (P : forall w, 0 < Rmax (1 / 10 ^ 10) w) by (intros w; pose proof (Rmax_l (1 / 10 ^ 10) w); lra).
  rewrite fdiv_Fin by (apply Rgt_not_eq, P). rewrite flog10_pos by (apply Rdiv_lt_0_compat; apply P). reflexivity.
Qed.
Lemma spec_db_mono : forall m v w, v <= w -> spec_db m v <= spec_db m w.
Proof.
  intros m v w H. unfold spec_db. pose proof ln10_pos. set (a := 1 / 10 ^ 10). assert (0 < a) by (unfold a; lra).
  assert (P : forall u, 0 < Rmax a u) by (intros u; pose proof (Rmax_l a u); lra).
  apply Rmult_le_compat_l; [lra|]. unfold Rdiv at 1 3. apply Rmult_le_compat_r; [left; apply Rinv_0_lt_compat; auto|].
  assert (Q : Rmax a v / Rmax a m <= Rmax a w / Rmax a m).
  { apply Rmult_le_compat_r; [left; apply Rinv_0_lt_compat; auto|]. apply Rle_max_compat_l. auto. }
  destruct Q as [Q|Q]; [left; apply ln_increasing; auto; apply Rdiv_lt_0_compat; auto|rewrite Q; lra].
Qed.
Lemma spec_db_0 : forall m, spec_db m m = 0.
Proof.
  intros m. unfold spec_db. pose proof (Rmax_l (1 / 10 ^ 10) m). pose proof ln10_pos. unfold Rdiv at 2. rewrite Rinv_r by lra. rewrite ln_1. lra.
Qed.

Section Image.
Variables (r c : nat) (x : nat -> nat -> R).
Hypotheses (Hr : (0 < r)%nat) (Hc : (0 < c)%nat).

Lemma db_image_value : forall dbf, exists i0 j0, (i0 < r)%nat /\ (j0 < c)%nat /\
  (forall i j, (i < r)%nat -> (j < c)%nat -> Rabs (x i j) <= Rabs (x i0 j0)) /\
  db_image (fmat r c x) (Fin dbf) = Ok (fmat r c (fun i j => Rmax (spec_db (Rabs (x i0 j0)) (Rabs (x i j))) (- dbf))).
Proof.
  intros dbf. unfold db_image. rewrite (fmat_map _ _ _ fabs Rabs) by reflexivity.
  destruct (minmax_all r c (fun i j => Rabs (x i j)) Hr Hc) as (i0 & j0 & i9 & j9 & Hi & Hj & _ & _ & E & _ & B).
  exists i0, j0. split; auto. split; auto. split; [intros; apply B; auto|].
  rewrite E. cbn [rbind]. rewrite (fmat_map _ _ _ (db_entry (Fin (Rabs (x i0 j0)))) (spec_db (Rabs (x i0 j0)))) by (intros; apply db_entry_eq).
  destruct (minmax_all r c (fun i j => spec_db (Rabs (x i0 j0)) (Rabs (x i j))) Hr Hc) as (i1 & j1 & i8 & j8 & Hi1 & Hj1 & _ & _ & E1 & _ & B1).
  rewrite E1. cbn [rbind]. f_equal.
  assert (M : spec_db (Rabs (x i0 j0)) (Rabs (x i1 j1)) = 0).
  { apply Rle_antisym.
    - rewrite <- (spec_db_0 (Rabs (x i0 j0))). apply spec_db_mono. apply B; auto.
    - rewrite <- (spec_db_0 (Rabs (x i0 j0))) at 1. apply B1; auto. }
  rewrite M. unfold fsub. cbn [fneg fadd].
  rewrite (fmat_map _ _ _ (fun v => fmax2 v (Fin (0 + - dbf))) (fun v => Rmax v (- dbf))); [reflexivity|].
  intros v. rewrite fmax2_Fin. do 2 f_equal. ring.
Qed.
End Image.

(** ** one NaN *)
Lemma fold_max_NaN : forall l a, a = NaN \/ In NaN l -> fold_left fmax2 l a = NaN.
Proof.
  induction l as [|x l IH]; intros a Ha; cbn [fold_left]; [destruct Ha as [H|[]]; auto|]. apply IH.
  destruct Ha as [->|[->|Ha]]; [left; destruct x; auto|left; destruct a; auto|right; auto].
Qed.
Lemma fmaxl_NaN : forall l, In NaN l -> fmaxl l = Ok NaN.
Proof. intros [|x l] Hl; [destruct Hl|]. cbn [fmaxl]. f_equal. apply fold_max_NaN. destruct Hl; auto. Qed.
Lemma fmax2_NaN_r : forall v, fmax2 v NaN = NaN.
Proof. intros []; auto. Qed.
Lemma db_image_NaN : forall spec dbf, (exists row, In row spec /\ In NaN row) ->
  db_image spec dbf = Ok (map (map (fun _ => NaN)) spec).
Proof.
  intros spec dbf (row & Hrow & Hn). unfold db_image.
  rewrite fmaxl_NaN by (apply in_concat; exists (map fabs row); split; [apply in_map; auto|apply in_map_iff; exists NaN; auto]). cbn [rbind].
  assert (D : forall v, db_entry NaN v = NaN).
  { intros v. unfold db_entry. generalize (fmax2 vis_amin v). intros []; reflexivity. }
  rewrite fmaxl_NaN.
  2:{ apply in_concat. exists (map (db_entry NaN) (map fabs row)). split; [apply in_map, in_map; auto|].
      apply in_map_iff. exists NaN. split; auto. apply in_map_iff. exists NaN. auto. }
  cbn [rbind]. f_equal. rewrite !map_map. apply map_ext. intros w. rewrite !map_map. apply map_ext. intros v. cbn [fsub fneg fadd].
  apply fmax2_NaN_r.
Qed.

(** ** labels *)
Lemma percent_shows : forall v, shows (percent_1f (Fin v)) v.
Proof.
  intros v. unfold shows, percent_1f. cbn [label_value]. eexists. split; [reflexivity|].
  pose proof (Znearest_half (fun z => negb (Z.even z)) (v * 10)) as H. set (k := ZnearestE (v * 10)) in *.
  rewrite Z2N.id by apply Z.abs_nonneg.
  assert (E : (if if Rlt_dec v 0 then true else false then -1 else 1) * IZR (Z.abs k) = IZR k).
  { destruct (Rlt_dec v 0).
    - assert (k <= 0)%Z. { apply le_IZR. change (IZR 0) with (IZR 0). destruct (Z_le_gt_dec k 0); [apply IZR_le; auto|]. exfalso.
        assert (1 <= k)%Z by lia. apply IZR_le in H0. apply Rabs_le_inv in H. lra. }
      rewrite Z.abs_neq by lia. rewrite opp_IZR. ring.
    - assert (0 <= k)%Z. { destruct (Z_le_gt_dec 0 k); auto. exfalso.
        assert (k <= -1)%Z by lia. apply IZR_le in H0. apply Rabs_le_inv in H. lra. }
      rewrite Z.abs_eq by lia. ring. }
  rewrite E. replace (IZR k / 10 - v) with (- ((v * 10 - IZR k) / 10)) by field. rewrite Rabs_Ropp. unfold Rdiv. rewrite Rabs_mult.
  rewrite (Rabs_pos_eq (/ 10)) by lra. lra.
Qed.
Lemma percent_value : forall v, label_value (percent_1f (Fin v)) = Some (IZR (ZnearestE (v * 10)) / 10).
Proof.
  intros v. unfold percent_1f. cbn [label_value]. set (k := ZnearestE (v * 10)) in *.
  pose proof (Znearest_half (fun z => negb (Z.even z)) (v * 10)) as H. fold k in H. rewrite Z2N.id by apply Z.abs_nonneg. do 2 f_equal.
  destruct (Rlt_dec v 0).
  - assert (k <= 0)%Z. { destruct (Z_le_gt_dec k 0); auto. exfalso. assert (H0 : (1 <= k)%Z) by lia. apply IZR_le in H0. apply Rabs_le_inv in H. lra. }
    rewrite Z.abs_neq by lia. rewrite opp_IZR. ring.
  - assert (0 <= k)%Z. { destruct (Z_le_gt_dec 0 k); auto. exfalso. assert (H0 : (k <= -1)%Z) by lia. apply IZR_le in H0. apply Rabs_le_inv in H. lra. }
    rewrite Z.abs_eq by lia. ring.
Qed.
Lemma percent_mono : forall v w a b, v <= w -> label_value (percent_1f (Fin v)) = Some a -> label_value (percent_1f (Fin w)) = Some b -> a <= b.
Proof.
  intros v w a b H. rewrite !percent_value. intros Ha Hb. injection Ha as <-. injection Hb as <-.
  apply Rmult_le_compat_r; [lra|]. apply IZR_le. apply (@Zrnd_le ZnearestE _). lra.
Qed.
Lemma mapM_pure : forall A B (f : A -> B) g l, (forall x, In x l -> g x = Ok (f x)) -> mapM g l = Ok (map f l).
Proof.
  induction l as [|x l IH]; intros H; [reflexivity|]. cbn [mapM map]. rewrite H by (left; auto). cbn [rbind]. rewrite IH by (intros; apply H; right; auto). reflexivity.
Qed.
(** the value behind a label *)
Definition tick_value (fb_type : string) (y : F) : F :=
  if String.eqb fb_type "mel" then fmul (Fin 2595) (flog10 (fadd f1 (fdiv y (Fin 700))))
  else if String.eqb fb_type "bark" then hz2bark y "Wang"
  else if String.eqb fb_type "gamma" then fmul (Fin erb_A) (flog10 (fadd f1 (fmul y (Fin 0.00437))))
  else y.
Lemma tick_labels : forall X fb_type, tick_function X fb_type = Ok (map (fun y => percent_1f (tick_value fb_type y)) X).
Proof.
  intros X t. unfold tick_function.
  rewrite (mapM_pure _ _ (fun y => percent_1f (fmul (Fin 2595) (flog10 (fadd f1 (fdiv y (Fin 700))))))) by reflexivity. cbn [rbind].
  rewrite (mapM_pure _ _ (fun y => percent_1f (fmul (Fin erb_A) (flog10 (fadd f1 (fmul y (Fin 0.00437))))))) by reflexivity. cbn [rbind].
  unfold tick_value. destruct (String.eqb t "mel"); auto. destruct (String.eqb t "bark"); auto. destruct (String.eqb t "gamma"); auto.
Qed.
Lemma tick_value_spec : forall t f, -200 <= f -> tick_value t (Fin f) = Fin (spec_tick t f).
Proof.
  intros t f Hf. unfold tick_value, spec_tick. destruct (String.eqb t "mel").
  - rewrite fdiv_Fin by lra. unfold f1. cbn [fadd]. rewrite flog10_pos by lra. reflexivity.
  - destruct (String.eqb t "bark"); [apply hz2bark_Wang; simpl; intuition discriminate|].
    destruct (String.eqb t "gamma"); [|reflexivity]. unfold f1. cbn [fadd fmul]. rewrite flog10_pos by lra. reflexivity.
Qed.
Lemma spec_tick_mono : forall t f g, -200 <= f -> f <= g -> spec_tick t f <= spec_tick t g.
Proof.
  intros t f g Hf Hg. destruct Hg as [Hg| ->]; [|lra]. left. unfold spec_tick. destruct (String.eqb t "mel").
  - pose proof (melR_incr "Oshaghnessy" f g) as M. unfold melR, mel_C, mel_D in M. simpl in M. apply M; lra.
  - destruct (String.eqb t "bark").
    + apply Rmult_lt_compat_l; [lra|]. apply arcsinh_lt. lra.
    + destruct (String.eqb t "gamma"); auto. pose proof (erbR_incr f g) as M. unfold erbR, erb_A in M. apply M; lra.
Qed.
Lemma tick_mel_low : forall X f i, nth_error X i = Some (Fin f) -> f < -700 ->
  exists ls, tick_function X "mel" = Ok ls /\ nth_error ls i = Some TextNaN.
Proof.
  intros X f i Hi Hf. rewrite tick_labels. eexists. split; [reflexivity|]. rewrite nth_error_map, Hi. cbn [option_map]. f_equal.
  unfold tick_value. cbn [String.eqb Ascii.eqb Bool.eqb]. rewrite fdiv_Fin by lra. unfold f1. cbn [fadd].
  unfold flog10, flog. destruct (Rlt_dec 0 _); [lra|]. destruct (Req_EM_T _ 0); [lra|]. reflexivity.
Qed.

Lemma db_image_gain : forall r c x g dbf, (0 < r)%nat -> (0 < c)%nat -> 
  (forall i j, (i < r)%nat -> (j < c)%nat -> 1 / 10 ^ 10 <= Rabs (x i j) /\ 1 / 10 ^ 10 <= Rabs (g * x i j)) ->
  db_image (fmat r c (fun i j => g * x i j)) (Fin dbf) = db_image (fmat r c x) (Fin dbf).
Proof.
  intros r c x g dbf Hr Hc Ha. pose proof amin_pos as Pa.
  destruct (db_image_value r c x Hr Hc dbf) as (i0 & j0 & Hi0 & Hj0 & B0 & ->).
  destruct (db_image_value r c (fun i j => g * x i j) Hr Hc dbf) as (i1 & j1 & Hi1 & Hj1 & B1 & ->).
  assert (Hg : 0 < Rabs g).
  { destruct (Ha i0 j0 Hi0 Hj0) as [_ H]. rewrite Rabs_mult in H. destruct (Req_dec (Rabs g) 0) as [E|E]; [rewrite E in H; lra|]. pose proof (Rabs_pos g). lra. }
  assert (M : Rabs (g * x i1 j1) = Rabs g * Rabs (x i0 j0)).
  { rewrite Rabs_mult. f_equal. apply Rle_antisym; [apply B0; auto|]. specialize (B1 i0 j0 Hi0 Hj0). cbv beta in B1. rewrite !Rabs_mult in B1.
    apply Rmult_le_reg_l with (Rabs g); auto. }
  f_equal. apply fmat_ext. intros i j Hi Hj. f_equal. unfold spec_db.
  destruct (Ha i j Hi Hj) as [H1 H2]. destruct (Ha i0 j0 Hi0 Hj0) as [H3 H4]. rewrite Rabs_mult in H4.
  rewrite M. rewrite !Rmax_right by lra. do 3 f_equal. rewrite Rabs_mult. field. split; lra.
Qed.
