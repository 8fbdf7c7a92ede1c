(** * Properties: the Bark conversion of Zwicker in floating point *)
From Coq Require Import Reals ZArith List String Bool Lia Lra.
From Verif Require Import Base Binary64 Binary64Facts Converters Rounded SpecRounded RoundedFacts RoundedBanksFacts RoundedBanksError RoundedMel RoundedScales SpecRoundedScales RoundedScalesFacts ZwickerFacts.
Local Open Scope R_scope.

(** ** C191: hz2bark and bark2hz with "Zwicker" undo each other up to a relative error that grows with the number of
    decades between f and 1 kHz only; u is the unit of rounding, v the accuracy of log10 and 10 ** x *)
Theorem C191_zwicker : forall (E : Env) u v log10f pow10f a b f, accurate u 0 (@rnd E) -> u < 1 -> log10_near v log10f -> pow10_near v pow10f -> v <= 1 ->
  0 < b -> Rabs a <= 3 * b -> 0 < f ->
  let decades := Rabs (ln (f / 1000) / ln 10) in
  let slip := (1 + u) ^ 5 * (1 + v) * (3 + decades + - ln (1 - u) / ln 10) - (3 + decades) in
  Rabs (zwicker2hz_of pow10f a b (hz2zwicker_of log10f a b f) - f) <= ((1 + v) * exp (ln 10 * slip) - 1) * f.
Proof. intros E u v lf pf a b f Ha Hu HL HP Hv Hb Hab Hf. exact (zwicker_roundtrip u v lf pf Ha Hu HL HP Hv a b f Hb Hab Hf). Qed.
Print Assumptions C191_zwicker.
(** with exact arithmetic nothing is left of the error *)
Example C191_zwicker_case : forall f, 0 < f -> Rabs (@zwicker2hz_of exact_env (Rpower 10) 8.7 14.2 (@hz2zwicker_of exact_env (fun x => ln x / ln 10) 8.7 14.2 f) - f) <= 0.
Proof.
  intros f Hf. assert (A : Rabs 8.7 <= 3 * 14.2) by (rewrite Rabs_pos_eq; lra).
  assert (L : log10_near 0 (fun x => ln x / ln 10)) by (split; [lra|]; intros x _; rewrite Rminus_diag_eq, Rabs_R0 by reflexivity; lra).
  assert (P : pow10_near 0 (Rpower 10)) by (split; [lra|]; intros x; rewrite Rminus_diag_eq, Rabs_R0 by reflexivity; lra).
  eapply Rle_trans; [apply (C191_zwicker exact_env 0 0 _ _ 8.7 14.2 f exact_accurate ltac:(lra) L P ltac:(lra) ltac:(lra) A Hf)|].
  rewrite Rminus_0_r, ln_1. pose proof ln10_pos. replace (_ - _) with 0; [lra|].
  match goal with |- _ = (1 + 0) * exp ?t - 1 => replace t with 0 by (field; lra) end. rewrite exp_0. ring.
Qed.
Theorem C191_numbers : forall (E : Env) log10f pow10f a b f, accurate (/ 2 ^ 53) 0 (@rnd E) -> log10_near (/ 2 ^ 50) log10f -> pow10_near (/ 2 ^ 50) pow10f ->
  0 < b -> Rabs a <= 3 * b -> 10 <= f <= 100000 -> Rabs (zwicker2hz_of pow10f a b (hz2zwicker_of log10f a b f) - f) <= f / 2 ^ 45.
Proof. exact zwicker_numbers. Qed.
Print Assumptions C191_numbers.
Example C191_numbers_case :
  Rabs (@zwicker2hz_of binary53 (fun x => rnd53 (Rpower 10 x)) (rnd53 8.7) (rnd53 14.2) (@hz2zwicker_of binary53 (fun x => rnd53 (ln x / ln 10)) (rnd53 8.7) (rnd53 14.2) 50) - 50) <= / 2 ^ 39.
Proof.
  assert (P : 14 <= rnd53 14.2 <= 15). { pose proof (relative_bounds rnd53 (/ 2 ^ 53) 14.2 rnd53_accurate ltac:(lra) ltac:(lra)). lra. }
  assert (Q : 8 <= rnd53 8.7 <= 9). { pose proof (relative_bounds rnd53 (/ 2 ^ 53) 8.7 rnd53_accurate ltac:(lra) ltac:(lra)). lra. }
  eapply Rle_trans; [apply (C191_numbers binary53)|]; try lra; [exact rnd53_accurate|exact log10_near_53|exact pow10_near_53|rewrite Rabs_pos_eq; lra].
Qed.

(** a rounding that keeps order keeps the order of frequencies, in both directions *)
Theorem C191_order : forall (E : Env) u log10f pow10f a b f g, monotone (@rnd E) -> accurate u 0 (@rnd E) -> u < 1 -> (forall x y, 0 < x -> x <= y -> log10f x <= log10f y) ->
  (forall x y, x <= y -> pow10f x <= pow10f y) -> 0 < b -> f <= g ->
  (0 < f -> hz2zwicker_of log10f a b f <= hz2zwicker_of log10f a b g) /\ zwicker2hz_of pow10f a b f <= zwicker2hz_of pow10f a b g.
Proof.
  intros E u lf pf a b f g Hm Ha Hu HL HP Hb Hfg. split; [intros Hf; apply (zwicker_up E u); auto; lra|apply zwicker_back_up; auto].
Qed.
Print Assumptions C191_order.
Example C191_order_case : @hz2zwicker_of binary53 (fun x => rnd53 (ln x / ln 10)) 9 14 440 <= @hz2zwicker_of binary53 (fun x => rnd53 (ln x / ln 10)) 9 14 880.
Proof.
  refine (proj1 (C191_order binary53 (/ 2 ^ 53) (fun x => rnd53 (ln x / ln 10)) (fun x => x) 9 14 440 880 _ rnd53_accurate _ _ _ _ _) _); try lra.
  - exact rnd53_monotone.
  - intros x y Hx H. apply rnd53_monotone, log10_mono; lra.
  - intros x y H. exact H.
Qed.

(** with exact arithmetic and exact library functions these are the conversions of the rest of the model *)
Theorem C191_exact : (forall f, 0 < f -> hz2bark (Fin f) "Zwicker" = Fin (@hz2zwicker_of exact_env (fun x => ln x / ln 10) 8.7 14.2 f)) /\
  forall z, bark2hz (Fin z) "Zwicker" = Fin (@zwicker2hz_of exact_env (Rpower 10) 8.7 14.2 z).
Proof. exact zwicker_exact. Qed.
Print Assumptions C191_exact.
Example C191_exact_case : bark2hz (Fin 8.7) "Zwicker" = Fin 1000.
Proof.
  rewrite (proj2 C191_exact). change (Fin (Rpower 10 ((8.7 - 8.7) / 14.2 + 3)) = Fin 1000). f_equal. replace ((8.7 - 8.7) / 14.2 + 3) with (INR 3) by (simpl; lra).
  rewrite Rpower_pow by lra. simpl. ring.
Qed.
