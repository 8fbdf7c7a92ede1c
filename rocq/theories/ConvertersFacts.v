(** * Lemmas about the frequency converters *)
From Coq Require Import Reals ZArith List String Bool Lia Lra Psatz.
From Verif Require Import Base BaseFacts Converters.
Import ListNotations.
Local Open Scope R_scope.

Lemma Rpower10_log : forall a, 0 < a -> Rpower 10 (ln a / ln 10) = a.
Proof.
  intros. unfold Rpower. replace (ln a / ln 10 * ln 10) with (ln a).
  apply exp_ln; auto. field. pose proof ln10_pos; lra.
Qed.

Lemma log_Rpower10 : forall x, ln (Rpower 10 x) / ln 10 = x.
Proof. intros. unfold Rpower. rewrite ln_exp. field. pose proof ln10_pos; lra. Qed.

Lemma Rpower_pos : forall a x, 0 < Rpower a x.
Proof. intros; unfold Rpower; apply exp_pos. Qed.

Lemma log10_incr : forall a b, 0 < a -> a < b -> ln a / ln 10 < ln b / ln 10.
Proof.
  intros. unfold Rdiv. apply Rmult_lt_compat_r.
  apply Rinv_0_lt_compat, ln10_pos. apply ln_increasing; auto.
Qed.

(** ** mel, in closed form: C * log10 (1 + f / D) *)
Definition mel_C (a : string) : R := if String.eqb a "Oshaghnessy" then 2595 else 2410.
Definition mel_D (a : string) : R := if String.eqb a "Oshaghnessy" then 700 else 625.
Definition mel_names : list string := ["Oshaghnessy"; "Lindsay"]%string.

Definition melR (a : string) (f : R) : R := mel_C a * (ln (1 + f / mel_D a) / ln 10).
Definition melinvR (a : string) (m : R) : R := mel_D a * (Rpower 10 (m / mel_C a) - 1).

Lemma mel_CD : forall a, (mel_C a = 2595 /\ mel_D a = 700) \/ (mel_C a = 2410 /\ mel_D a = 625).
Proof. intros; unfold mel_C, mel_D; destruct (String.eqb a "Oshaghnessy"); auto. Qed.

Lemma mel_arg_pos : forall a f, - mel_D a < f -> 0 < 1 + f / mel_D a.
Proof.
  intros a f H. destruct (mel_CD a) as [[_ E]|[_ E]]; rewrite E in *; lra.
Qed.

Lemma hz2mel_eq : forall a f, In a mel_names -> - mel_D a < f ->
  hz2mel (Fin f) a = Ok (Fin (melR a f)).
Proof.
  intros a f Ha Hf. pose proof (mel_arg_pos a f Hf) as Hp. unfold hz2mel, melR, mel_C, mel_D in *.
  destruct Ha as [<-|[<-|[]]]; cbn [String.eqb Ascii.eqb Bool.eqb] in *.
  - rewrite (fdiv_Fin f 700) by lra. unfold f1. cbn [fadd]. rewrite flog10_pos by auto. reflexivity.
  - rewrite (fdiv_Fin f 625) by lra. unfold f1. cbn [fadd]. rewrite flog10_pos by auto. reflexivity.
Qed.

Lemma mel2hz_eq : forall a m, In a mel_names -> mel2hz (Fin m) a = Ok (Fin (melinvR a m)).
Proof.
  intros a m Ha. unfold mel2hz, melinvR, mel_C, mel_D.
  destruct Ha as [<-|[<-|[]]]; cbn [String.eqb Ascii.eqb Bool.eqb].
  - rewrite (fdiv_Fin m 2595) by lra. reflexivity.
  - rewrite (fdiv_Fin m 2410) by lra. reflexivity.
Qed.

Lemma melinv_mel : forall a f, - mel_D a < f -> melinvR a (melR a f) = f.
Proof.
  intros a f H. unfold melinvR, melR.
  destruct (mel_CD a) as [[E1 E2]|[E1 E2]]; pose proof (mel_arg_pos a f H) as Hp; rewrite E1, E2 in *.
  - replace (2595 * (ln (1 + f / 700) / ln 10) / 2595) with (ln (1 + f / 700) / ln 10) by (field; pose proof ln10_pos; lra).
    rewrite Rpower10_log by auto. field.
  - replace (2410 * (ln (1 + f / 625) / ln 10) / 2410) with (ln (1 + f / 625) / ln 10) by (field; pose proof ln10_pos; lra).
    rewrite Rpower10_log by auto. field.
Qed.

Lemma melinv_range : forall a m, - mel_D a < melinvR a m.
Proof.
  intros a m. unfold melinvR. pose proof (Rpower_pos 10 (m / mel_C a)).
  destruct (mel_CD a) as [[E1 E2]|[E1 E2]]; rewrite E2; nra.
Qed.

Lemma mel_melinv : forall a m, melR a (melinvR a m) = m.
Proof.
  intros a m. unfold melinvR, melR.
  destruct (mel_CD a) as [[E1 E2]|[E1 E2]]; rewrite E1, E2.
  - replace (1 + 700 * (Rpower 10 (m / 2595) - 1) / 700) with (Rpower 10 (m / 2595)) by field.
    rewrite log_Rpower10. field.
  - replace (1 + 625 * (Rpower 10 (m / 2410) - 1) / 625) with (Rpower 10 (m / 2410)) by field.
    rewrite log_Rpower10. field.
Qed.

Lemma melR_incr : forall a f g, - mel_D a < f -> f < g -> melR a f < melR a g.
Proof.
  intros a f g Hf Hg. unfold melR.
  assert (H : ln (1 + f / mel_D a) / ln 10 < ln (1 + g / mel_D a) / ln 10).
  { apply log10_incr. apply mel_arg_pos; auto.
    destruct (mel_CD a) as [[_ E]|[_ E]]; rewrite E; lra. }
  destruct (mel_CD a) as [[E _]|[E _]]; rewrite E; lra.
Qed.

Lemma melinvR_incr : forall a m n, m < n -> melinvR a m < melinvR a n.
Proof.
  intros a m n H. destruct (Rlt_dec (melinvR a m) (melinvR a n)); auto. exfalso.
  assert (Hle : melinvR a n <= melinvR a m) by lra. destruct Hle as [Hlt|He].
  - apply (melR_incr a) in Hlt; [|apply melinv_range]. rewrite !mel_melinv in Hlt. lra.
  - apply (f_equal (melR a)) in He. rewrite !mel_melinv in He. lra.
Qed.

Lemma melR_0 : forall a, melR a 0 = 0.
Proof. intros. unfold melR. unfold Rdiv at 2. rewrite Rmult_0_l, Rplus_0_r, ln_1. unfold Rdiv. ring. Qed.

Lemma mel_D_pos : forall a, 0 < mel_D a.
Proof. intros a; destruct (mel_CD a) as [[_ E]|[_ E]]; rewrite E; lra. Qed.

Lemma mel_key_error : forall a x, ~ In a mel_names ->
  hz2mel x a = Raise KeyError /\ mel2hz x a = Raise KeyError.
Proof.
  intros a x H. unfold hz2mel, mel2hz.
  destruct (String.eqb_spec a "Oshaghnessy"); [exfalso; apply H; subst; simpl; auto|].
  destruct (String.eqb_spec a "Lindsay"); [exfalso; apply H; subst; simpl; auto|]. auto.
Qed.

Lemma hz2mel_below : forall a f, In a mel_names -> f < - mel_D a -> hz2mel (Fin f) a = Ok NaN.
Proof.
  intros a f Ha Hf. unfold hz2mel, mel_D in *.
  destruct Ha as [<-|[<-|[]]]; cbn [String.eqb Ascii.eqb Bool.eqb] in *.
  - rewrite (fdiv_Fin f 700) by lra. unfold f1; cbn [fadd]. unfold flog10, flog.
    destruct (Rlt_dec 0 (1 + f / 700)); [lra|]. destruct (Req_EM_T (1 + f / 700) 0); [lra|]. reflexivity.
  - rewrite (fdiv_Fin f 625) by lra. unfold f1; cbn [fadd]. unfold flog10, flog.
    destruct (Rlt_dec 0 (1 + f / 625)); [lra|]. destruct (Req_EM_T (1 + f / 625) 0); [lra|]. reflexivity.
Qed.

(** ** ERB *)
Lemma erb_A_pos : 0 < erb_A.
Proof. unfold erb_A. pose proof ln10_pos. apply Rdiv_lt_0_compat; lra. Qed.

Definition erbR (f : R) : R := erb_A * (ln (1 + f * 0.00437) / ln 10).
Definition erbinvR (e : R) : R := (Rpower 10 (e / erb_A) - 1) / 0.00437.

Lemma hz2erb_eq : forall f, - (1 / 0.00437) < f -> hz2erb (Fin f) "Glasberg" = Some (Fin (erbR f)).
Proof.
  intros f H. unfold hz2erb. cbn [String.eqb Ascii.eqb Bool.eqb]. unfold f1; cbn [fadd fmul].
  rewrite flog10_pos by lra. reflexivity.
Qed.
Lemma erb2hz_eq : forall e, erb2hz (Fin e) "Glasberg" = Some (Fin (erbinvR e)).
Proof.
  intros e. unfold erb2hz. cbn [String.eqb Ascii.eqb Bool.eqb].
  rewrite fdiv_Fin by (pose proof erb_A_pos; lra). unfold fexp10, fsub, f1, fneg. cbn [fadd].
  rewrite fdiv_Fin by lra. reflexivity.
Qed.
Lemma erbinv_erb : forall f, - (1 / 0.00437) < f -> erbinvR (erbR f) = f.
Proof.
  intros f H. unfold erbinvR, erbR.
  replace (erb_A * (ln (1 + f * 0.00437) / ln 10) / erb_A) with (ln (1 + f * 0.00437) / ln 10).
  - rewrite Rpower10_log by lra. lra.
  - field. pose proof erb_A_pos; pose proof ln10_pos; lra.
Qed.
Lemma erbinv_range : forall e, - (1 / 0.00437) < erbinvR e.
Proof. intros e. unfold erbinvR. pose proof (Rpower_pos 10 (e / erb_A)). lra. Qed.
Lemma erb_erbinv : forall e, erbR (erbinvR e) = e.
Proof.
  intros e. unfold erbinvR, erbR.
  replace (1 + (Rpower 10 (e / erb_A) - 1) / 0.00437 * 0.00437) with (Rpower 10 (e / erb_A)) by lra.
  rewrite log_Rpower10. field. pose proof erb_A_pos; lra.
Qed.
Lemma erbR_incr : forall f g, - (1 / 0.00437) < f -> f < g -> erbR f < erbR g.
Proof.
  intros f g Hf Hg. unfold erbR. apply Rmult_lt_compat_l; [apply erb_A_pos|].
  apply log10_incr; lra.
Qed.
Lemma erbR_0 : erbR 0 = 0.
Proof. unfold erbR. rewrite Rmult_0_l, Rplus_0_r, ln_1. unfold Rdiv. ring. Qed.
Lemma hz2erb_below : forall f, f <= - (1 / 0.00437) ->
  exists x, hz2erb (Fin f) "Glasberg" = Some x /\ ~ finite x.
Proof.
  intros f H. unfold hz2erb. cbn [String.eqb Ascii.eqb Bool.eqb]. unfold f1; cbn [fadd fmul].
  eexists; split; [reflexivity|]. unfold flog10, flog.
  pose proof erb_A_pos.
  destruct (Rlt_dec 0 (1 + f * 0.00437)); [lra|].
  destruct (Req_EM_T (1 + f * 0.00437) 0).
  - simpl. destruct (Rlt_dec (ln 10) 0); [pose proof ln10_pos; lra|]. simpl. unfold finfmul.
    destruct (Req_EM_T (- erb_A) 0); [lra|]. destruct (Rlt_dec 0 (- erb_A)); [lra|].
    intros [r Hr]; discriminate.
  - intros [r Hr]; discriminate.
Qed.

(** ** Bark *)
Definition bark_special : list string := ["Tjomov"; "Schroeder"; "Terhardt"; "Zwicker"; "Traunmueller"]%string.

Lemma hz2bark_Wang : forall a f, ~ In a bark_special -> hz2bark (Fin f) a = Fin (6 * arcsinh (f / 600)).
Proof.
  intros a f H. unfold hz2bark.
  destruct (String.eqb a "Wang").
  { rewrite fdiv_Fin by lra. reflexivity. }
  repeat match goal with
  | |- context [String.eqb a ?s] => destruct (String.eqb_spec a s);
      [exfalso; apply H; subst; simpl; tauto|] end.
  rewrite fdiv_Fin by lra. reflexivity.
Qed.
Lemma bark2hz_Wang : forall a b, ~ In a bark_special -> bark2hz (Fin b) a = Fin (600 * sinh (b / 6)).
Proof.
  intros a f H. unfold bark2hz.
  destruct (String.eqb a "Wang").
  { rewrite fdiv_Fin by lra. reflexivity. }
  repeat match goal with
  | |- context [String.eqb a ?s] => destruct (String.eqb_spec a s);
      [exfalso; apply H; subst; simpl; tauto|] end.
  rewrite fdiv_Fin by lra. reflexivity.
Qed.
Lemma hz2bark_Tjomov : forall f, hz2bark (Fin f) "Tjomov" = Fin (6.7 * arcsinh ((f + 20) / 600)).
Proof.
  intros. unfold hz2bark. cbn [String.eqb Ascii.eqb Bool.eqb fadd]. rewrite fdiv_Fin by lra. reflexivity.
Qed.
Lemma bark2hz_Tjomov : forall b, bark2hz (Fin b) "Tjomov" = Fin (600 * sinh (b / 6.7) - 20).
Proof.
  intros. unfold bark2hz. cbn [String.eqb Ascii.eqb Bool.eqb fadd]. rewrite fdiv_Fin by lra. reflexivity.
Qed.
Lemma hz2bark_Schroeder : forall f, hz2bark (Fin f) "Schroeder" = Fin (7 * arcsinh (f / 650)).
Proof.
  intros. unfold hz2bark. cbn [String.eqb Ascii.eqb Bool.eqb fadd]. rewrite fdiv_Fin by lra. reflexivity.
Qed.
Lemma bark2hz_Schroeder : forall b, bark2hz (Fin b) "Schroeder" = Fin (650 * sinh (b / 7)).
Proof.
  intros. unfold bark2hz. cbn [String.eqb Ascii.eqb Bool.eqb fadd]. rewrite fdiv_Fin by lra. reflexivity.
Qed.
Lemma hz2bark_Terhardt : forall f, hz2bark (Fin f) "Terhardt" = Fin (13.3 * atan ((f * 0.75) / 1000)).
Proof.
  intros. unfold hz2bark. cbn [String.eqb Ascii.eqb Bool.eqb fmul]. rewrite fdiv_Fin by lra. reflexivity.
Qed.
Lemma hz2bark_Zwicker : forall f, 0 < f ->
  hz2bark (Fin f) "Zwicker" = Fin (8.7 + 14.2 * (ln (f / 1000) / ln 10)).
Proof.
  intros. unfold hz2bark. cbn [String.eqb Ascii.eqb Bool.eqb fmul]. rewrite fdiv_Fin by lra.
  rewrite flog10_pos by lra. reflexivity.
Qed.
Lemma bark2hz_Zwicker : forall b, bark2hz (Fin b) "Zwicker" = Fin (Rpower 10 ((b - 8.7) / 14.2 + 3)).
Proof.
  intros. unfold bark2hz. cbn [String.eqb Ascii.eqb Bool.eqb]. unfold fsub, fneg. cbn [fadd].
  rewrite fdiv_Fin by lra. reflexivity.
Qed.
Lemma hz2bark_Traun : forall f, hz2bark (Fin f) "Traunmueller" = Fin (26.28 * f / 1961 - 0.53).
Proof.
  intros. unfold hz2bark. cbn [String.eqb Ascii.eqb Bool.eqb fmul]. rewrite fdiv_Fin by lra.
  unfold fsub; cbn [fneg fadd]. f_equal; lra.
Qed.

Lemma bark_roundtrip_Wang : forall a f, ~ In a bark_special -> bark2hz (hz2bark (Fin f) a) a = Fin f.
Proof.
  intros. rewrite hz2bark_Wang, bark2hz_Wang by auto.
  replace (6 * arcsinh (f / 600) / 6) with (arcsinh (f / 600)) by field.
  rewrite sinh_arcsinh. f_equal; lra.
Qed.
Lemma bark_roundtrip_Tjomov : forall f, bark2hz (hz2bark (Fin f) "Tjomov") "Tjomov" = Fin f.
Proof.
  intros. rewrite hz2bark_Tjomov, bark2hz_Tjomov.
  replace (6.7 * arcsinh ((f + 20) / 600) / 6.7) with (arcsinh ((f + 20) / 600)) by lra.
  rewrite sinh_arcsinh. f_equal; lra.
Qed.
Lemma bark_roundtrip_Schroeder : forall f, bark2hz (hz2bark (Fin f) "Schroeder") "Schroeder" = Fin f.
Proof.
  intros. rewrite hz2bark_Schroeder, bark2hz_Schroeder.
  replace (7 * arcsinh (f / 650) / 7) with (arcsinh (f / 650)) by lra.
  rewrite sinh_arcsinh. f_equal; lra.
Qed.
Lemma bark_roundtrip_Zwicker : forall f, 0 < f -> bark2hz (hz2bark (Fin f) "Zwicker") "Zwicker" = Fin f.
Proof.
  intros. rewrite hz2bark_Zwicker, bark2hz_Zwicker by auto.
  replace ((8.7 + 14.2 * (ln (f / 1000) / ln 10) - 8.7) / 14.2 + 3) with (ln (f / 1000) / ln 10 + 3) by lra.
  rewrite Rpower_plus, Rpower10_log by lra.
  replace (Rpower 10 3) with 1000. f_equal; lra.
  replace 3 with (INR 3) by (simpl; lra). rewrite Rpower_pow by lra. simpl; lra.
Qed.

(** Terhardt: the converted value is strictly too high *)
Lemma Terhardt_roundtrip_high : forall f, 0 < f ->
  13.3 * atan ((f * 0.75) / 1000) / 13 < PI / 2 ->
  exists g, bark2hz (hz2bark (Fin f) "Terhardt") "Terhardt" = Fin g /\ f < g.
Proof.
  intros f Hf Hb. rewrite hz2bark_Terhardt. unfold bark2hz. cbn [String.eqb Ascii.eqb Bool.eqb].
  rewrite fdiv_Fin by lra. set (t := 13.3 * atan (f * 0.75 / 1000) / 13) in *.
  assert (Ha : 0 < atan (f * 0.75 / 1000)).
  { rewrite <- atan_0. apply atan_increasing. lra. }
  assert (Ht : atan (f * 0.75 / 1000) < t) by (unfold t; lra).
  assert (Hc : 0 < cos t) by (apply cos_gt_0; lra).
  unfold ftan. rewrite fdiv_Fin by lra. cbn [fmul]. eexists; split; [reflexivity|].
  assert (Htan : tan (atan (f * 0.75 / 1000)) < tan t) by (apply tan_increasing; lra).
  unfold tan in Htan at 2. rewrite tan_atan in Htan. lra.
Qed.

Lemma bark_incr : forall a f g, f < g -> (a = "Zwicker"%string -> 0 < f) ->
  exists x y, hz2bark (Fin f) a = Fin x /\ hz2bark (Fin g) a = Fin y /\ x < y.
Proof.
  intros a f g Hfg Hz.
  destruct (in_dec string_dec a bark_special) as [Hin|Hin].
  - destruct Hin as [<-|[<-|[<-|[<-|[<-|[]]]]]].
    + rewrite !hz2bark_Tjomov. do 2 eexists; repeat split.
      assert (arcsinh ((f + 20) / 600) < arcsinh ((g + 20) / 600)) by (apply arcsinh_lt; lra). lra.
    + rewrite !hz2bark_Schroeder. do 2 eexists; repeat split.
      assert (arcsinh (f / 650) < arcsinh (g / 650)) by (apply arcsinh_lt; lra). lra.
    + rewrite !hz2bark_Terhardt. do 2 eexists; repeat split.
      assert (atan (f * 0.75 / 1000) < atan (g * 0.75 / 1000)) by (apply atan_increasing; lra). lra.
    + specialize (Hz eq_refl). rewrite !hz2bark_Zwicker by lra. do 2 eexists; repeat split.
      assert (ln (f / 1000) / ln 10 < ln (g / 1000) / ln 10) by (apply log10_incr; lra). lra.
    + rewrite !hz2bark_Traun. do 2 eexists; repeat split. lra.
  - rewrite !hz2bark_Wang by auto. do 2 eexists; repeat split.
    assert (arcsinh (f / 600) < arcsinh (g / 600)) by (apply arcsinh_lt; lra). lra.
Qed.

Lemma bark_zero : forall a, a = "Schroeder"%string \/ a = "Terhardt"%string \/ ~ In a bark_special ->
  hz2bark (Fin 0) a = Fin 0.
Proof.
  intros a [->|[->|H]].
  - rewrite hz2bark_Schroeder. replace (0 / 650) with 0 by lra. rewrite arcsinh_0. f_equal; lra.
  - rewrite hz2bark_Terhardt. replace (0 * 0.75 / 1000) with 0 by lra. rewrite atan_0. f_equal; lra.
  - rewrite hz2bark_Wang by auto. replace (0 / 600) with 0 by lra. rewrite arcsinh_0. f_equal; lra.
Qed.

(** Traunmueller *)
Definition traunR (b : R) : R :=
  if Rlt_dec b 2 then (b - 0.3) / 0.85 else if Rlt_dec 20.1 b then (b + 4.422) / 1.22 else b.

Lemma traun_helper_eq : forall b, traunmueller_helper (Fin b) = Fin (traunR b).
Proof.
  intros. unfold traunmueller_helper, traunR, fgtb. simpl. unfold Rltb.
  destruct (Rlt_dec b 2).
  - destruct (Req_EM_T 0.85 0); [lra|]. f_equal; lra.
  - destruct (Rlt_dec 20.1 b); auto. destruct (Req_EM_T 1.22 0); [lra|]. f_equal; lra.
Qed.

Lemma traunR_incr : forall a b, a < b -> traunR a < traunR b.
Proof.
  intros a b H. unfold traunR.
  destruct (Rlt_dec a 2), (Rlt_dec b 2), (Rlt_dec 20.1 a), (Rlt_dec 20.1 b); lra.
Qed.

Lemma traunR_pole : forall b, traunR b < 26.28 <-> b < 27.6396.
Proof.
  intros b. unfold traunR. destruct (Rlt_dec b 2); [split; lra|].
  destruct (Rlt_dec 20.1 b); split; lra.
Qed.

Lemma bark2hz_Traun : forall b, b <> 27.6396 ->
  bark2hz (Fin b) "Traunmueller" = Fin (1960 * ((traunR b + 0.53) / (26.28 - traunR b))).
Proof.
  intros b H. unfold bark2hz. cbn [String.eqb Ascii.eqb Bool.eqb]. rewrite traun_helper_eq.
  unfold fsub, fneg. cbn [fadd]. rewrite fdiv_Fin. reflexivity.
  destruct (Rtotal_order b 27.6396) as [Hl|[He|Hg]]; [apply traunR_pole in Hl; lra | contradiction |].
  assert (traunR 27.6396 < traunR b) by (apply traunR_incr; auto).
  assert (traunR 27.6396 = 26.28). { unfold traunR. destruct (Rlt_dec 27.6396 2); [lra|]. destruct (Rlt_dec 20.1 27.6396); lra. }
  lra.
Qed.

Lemma bark2hz_Traun_incr : forall a b, a < b -> b < 27.6396 ->
  exists x y, bark2hz (Fin a) "Traunmueller" = Fin x /\ bark2hz (Fin b) "Traunmueller" = Fin y /\ x < y.
Proof.
  intros a b Hab Hb. rewrite !bark2hz_Traun by lra. do 2 eexists; repeat split.
  pose proof (traunR_incr a b Hab). apply traunR_pole in Hb.
  set (u := traunR a) in *. set (v := traunR b) in *.
  apply Rmult_lt_compat_l; [lra|].
  apply Rmult_lt_reg_r with ((26.28 - u) * (26.28 - v)); [apply Rmult_lt_0_compat; lra|].
  replace ((u + 0.53) / (26.28 - u) * ((26.28 - u) * (26.28 - v))) with ((u + 0.53) * (26.28 - v)) by (field; lra).
  replace ((v + 0.53) / (26.28 - v) * ((26.28 - u) * (26.28 - v))) with ((v + 0.53) * (26.28 - u)) by (field; lra).
  nra.
Qed.

Lemma bark2hz_Traun_pieces : forall b, b <> 27.6396 ->
  (b <= 2 -> bark2hz (Fin b) "Traunmueller"
             = Fin (1960 * (((b - 0.3) / 0.85 + 0.53) / (26.28 - (b - 0.3) / 0.85)))) /\
  (2 <= b <= 20.1 -> bark2hz (Fin b) "Traunmueller" = Fin (1960 * ((b + 0.53) / (26.28 - b)))) /\
  (20.1 <= b -> bark2hz (Fin b) "Traunmueller"
             = Fin (1960 * (((b + 4.422) / 1.22 + 0.53) / (26.28 - (b + 4.422) / 1.22)))).
Proof.
  intros b Hb. rewrite bark2hz_Traun by auto. repeat split; intros H.
  - replace (traunR b) with ((b - 0.3) / 0.85); auto.
    unfold traunR. destruct (Rlt_dec b 2); auto. destruct (Rlt_dec 20.1 b); lra.
  - replace (traunR b) with b; auto.
    unfold traunR. destruct (Rlt_dec b 2); [lra|]. destruct (Rlt_dec 20.1 b); lra.
  - replace (traunR b) with ((b + 4.422) / 1.22); auto.
    unfold traunR. destruct (Rlt_dec b 2); [lra|]. destruct (Rlt_dec 20.1 b); lra.
Qed.

Lemma bark2hz_Traun_pole : bark2hz (Fin 27.6396) "Traunmueller" = PInf.
Proof.
  unfold bark2hz. cbn [String.eqb Ascii.eqb Bool.eqb]. rewrite traun_helper_eq.
  replace (traunR 27.6396) with 26.28.
  2:{ unfold traunR. destruct (Rlt_dec 27.6396 2); [lra|]. destruct (Rlt_dec 20.1 27.6396); lra. }
  assert (E : fdiv (fadd (Fin 26.28) (Fin 0.53)) (fsub (Fin 26.28) (Fin 26.28)) = PInf).
  { unfold fsub, fneg. cbn [fadd]. unfold fdiv, finfmul.
    destruct (Req_EM_T (26.28 + - (26.28)) 0); [|lra].
    destruct (Req_EM_T (26.28 + 0.53) 0); [lra|].
    destruct (Rlt_dec 0 (26.28 + 0.53)); [reflexivity|lra]. }
  rewrite E. unfold fmul, finfmul.
  destruct (Req_EM_T 1960 0); [lra|]. destruct (Rlt_dec 0 1960); [reflexivity|lra].
Qed.

(** no frequency whose bark value is in the uncorrected range survives the round trip *)
Lemma Traun_roundtrip_never : forall f,
  2 <= 26.28 * f / 1961 - 0.53 <= 20.1 ->
  bark2hz (hz2bark (Fin f) "Traunmueller") "Traunmueller" <> Fin f.
Proof.
  intros f H. rewrite hz2bark_Traun. set (b := 26.28 * f / 1961 - 0.53) in *.
  destruct (bark2hz_Traun_pieces b ltac:(lra)) as (_ & H2 & _). rewrite H2 by auto.
  intro HH. apply Fin_inj in HH.
  assert (Hf : 26.28 * f = 1961 * (b + 0.53)) by (unfold b; lra).
  assert (1960 * (b + 0.53) = f * (26.28 - b)). { rewrite <- HH. field. lra. }
  clearbody b. nra.
Qed.

(** ** Decade laws *)
Lemma ln_times10 : forall x, 0 < x -> ln (10 * x) / ln 10 = 1 + ln x / ln 10.
Proof. intros. rewrite ln_mult by lra. field. pose proof ln10_pos; lra. Qed.

Lemma mel_decade : forall a f, In a mel_names -> - mel_D a < f ->
  exists m, hz2mel (Fin f) a = Ok (Fin m) /\
            hz2mel (Fin (10 * f + 9 * mel_D a)) a = Ok (Fin (m + mel_C a)).
Proof.
  intros a f Ha Hf. pose proof (mel_D_pos a) as HD.
  exists (melR a f). rewrite !hz2mel_eq by (auto; lra). split; auto.
  do 2 f_equal. unfold melR.
  replace (1 + (10 * f + 9 * mel_D a) / mel_D a) with (10 * (1 + f / mel_D a)) by (field; lra).
  rewrite ln_times10 by (apply mel_arg_pos; auto). ring.
Qed.

Lemma erb_decade : forall f, - (1 / 0.00437) < f ->
  exists e, hz2erb (Fin f) "Glasberg" = Some (Fin e) /\
            hz2erb (Fin (10 * f + 9 / 0.00437)) "Glasberg" = Some (Fin (e + erb_A)).
Proof.
  intros f Hf. exists (erbR f). rewrite !hz2erb_eq by lra. split; auto.
  do 2 f_equal. unfold erbR.
  replace (1 + (10 * f + 9 / 0.00437) * 0.00437) with (10 * (1 + f * 0.00437)) by lra.
  rewrite ln_times10 by lra. ring.
Qed.

Lemma Zwicker_decade : forall f, 0 < f ->
  exists b, hz2bark (Fin f) "Zwicker" = Fin b /\ hz2bark (Fin (10 * f)) "Zwicker" = Fin (b + 14.2).
Proof.
  intros f Hf. eexists. rewrite !hz2bark_Zwicker by lra. split; [reflexivity|].
  f_equal. replace (10 * f / 1000) with (10 * (f / 1000)) by lra. rewrite ln_times10 by lra. lra.
Qed.
