(** * Properties: the Bark and ERB conversions in floating point *)
From Coq Require Import Reals ZArith List String Bool Lia Lra.
From Verif Require Import Base Binary64 Binary64Facts Converters Rounded SpecRounded RoundedFacts RoundedBanksFacts RoundedBanksError RoundedMel RoundedScales SpecRoundedScales RoundedScalesFacts.
Local Open Scope R_scope.

(** ** C190: hz2bark and bark2hz undo each other up to a relative error; Tjomov and ERB only up to an absolute one *)
Theorem C190_bark : forall (E : Env) u v arcsinhf sinhf approach a b f, accurate u 0 (@rnd E) -> u < 1 -> arcsinh_within v arcsinhf -> sinh_within v sinhf ->
  (1 + v) * (1 + u) ^ 2 - 1 < 1 -> arcsinh_constants approach = Some (a, b) -> 0 <= f ->
  let t := (1 + v) * (1 + u) ^ 2 - 1 in
  Rabs (bark2hz_of sinhf a b (hz2bark_of arcsinhf a b f) - f) <= ((1 + u) ^ 2 * (1 + v) * (1 + t) * exp (t * arcsinh ((1 + u) * (f / b))) - 1) * f.
Proof.
  intros E u v af sf approach a b f Ha Hu HA HS Ht Hc Hf t. destruct (constants_named _ _ _ Hc) as [H0 Hb]. apply (bark_roundtrip u v af sf Ha Hu HA HS Ht); lra.
Qed.
Print Assumptions C190_bark.
(** in numbers: 53 bits, library functions within 8 units of rounding, up to 100 kHz *)
Theorem C190_bark_numbers : forall (E : Env) arcsinhf sinhf approach a b f, accurate (/ 2 ^ 53) 0 (@rnd E) -> arcsinh_within (/ 2 ^ 50) arcsinhf -> sinh_within (/ 2 ^ 50) sinhf ->
  arcsinh_constants approach = Some (a, b) -> 0 <= f <= 100000 -> Rabs (bark2hz_of sinhf a b (hz2bark_of arcsinhf a b f) - f) <= f / 2 ^ 46.
Proof.
  intros E af sf approach a b f Ha HA HS Hc Hf. destruct (constants_named _ _ _ Hc) as [H0 Hb]. apply bark_numbers; auto.
Qed.
Print Assumptions C190_bark_numbers.
Example C190_bark_case :
  Rabs (@bark2hz_of binary53 (fun x => rnd53 (sinh x)) 6 600 (@hz2bark_of binary53 (fun x => rnd53 (arcsinh x)) 6 600 (/ 1000)) - / 1000) <= / 2 ^ 55.
Proof.
  eapply Rle_trans; [apply (C190_bark_numbers binary53 _ _ "Wang")|]; try lra; [exact rnd53_accurate|exact arcsinh_53|exact sinh_53|reflexivity].
Qed.

(** Tjomov adds 20 Hz first, so the error is relative to f + 20 *)
Theorem C190_tjomov : forall (E : Env) u v arcsinhf sinhf a f, accurate u 0 (@rnd E) -> u < 1 -> arcsinh_within v arcsinhf -> sinh_within v sinhf ->
  (1 + v) * (1 + u) ^ 2 - 1 < 1 -> 0 < a -> 0 <= f ->
  let t := (1 + v) * (1 + u) ^ 2 - 1 in
  Rabs (tjomov2hz_of sinhf a (hz2tjomov_of arcsinhf a f) - f) <= ((1 + u) ^ 4 * (1 + v) * (1 + t) * exp (t * arcsinh ((1 + u) ^ 2 * ((f + 20) / 600))) - 1) * (f + 20).
Proof. intros E u v af sf a f Ha Hu HA HS Ht H0 Hf t. apply (tjomov_roundtrip u v af sf Ha Hu HA HS Ht); lra. Qed.
Print Assumptions C190_tjomov.
Theorem C190_tjomov_numbers : forall (E : Env) arcsinhf sinhf a f, accurate (/ 2 ^ 53) 0 (@rnd E) -> arcsinh_within (/ 2 ^ 50) arcsinhf -> sinh_within (/ 2 ^ 50) sinhf ->
  0 < a -> 0 <= f <= 100000 -> Rabs (tjomov2hz_of sinhf a (hz2tjomov_of arcsinhf a f) - f) <= (f + 20) / 2 ^ 46.
Proof. intros E af sf a f Ha HA HS H0 Hf. apply tjomov_numbers; auto. Qed.
Print Assumptions C190_tjomov_numbers.
(** no relative bound: in binary64 all tiny frequencies fall together, so no way back, not just this one, keeps them apart *)
Theorem C190_tjomov_relative_refuted : forall arcsinhf a (back : R -> R), exists f, 0 < f /\ rnd64 f = f /\ f / 4 < Rabs (back (@hz2tjomov_of binary64 arcsinhf a f) - f).
Proof.
  intros af a g. destruct (no_way_back (@hz2tjomov_of binary64 af a) g) as (f & Hf & K); [apply tjomov_same; lra|apply tjomov_same; lra|].
  destruct (stored_small f Hf). exists f. auto.
Qed.
Print Assumptions C190_tjomov_relative_refuted.
Example C190_tjomov_case :
  Rabs (@tjomov2hz_of binary53 (fun x => rnd53 (sinh x)) (rnd53 6.7) (@hz2tjomov_of binary53 (fun x => rnd53 (arcsinh x)) (rnd53 6.7) 1000) - 1000) <= / 2 ^ 35.
Proof.
  assert (P : 0 < rnd53 6.7). { pose proof (relative_bounds rnd53 (/ 2 ^ 53) 6.7 rnd53_accurate ltac:(lra) ltac:(lra)). lra. }
  eapply Rle_trans; [apply (C190_tjomov_numbers binary53)|]; try lra; [exact rnd53_accurate|exact arcsinh_53|exact sinh_53].
Qed.

(** ERB: A * log10(1 + f * c) and back; the error is relative to f + 1/c, and again not to f *)
Theorem C190_erb : forall (E : Env) u v log10f pow10f a c f, grid (@rnd E) -> accurate u 0 (@rnd E) -> u < 1 -> log10_within v log10f -> pow10_within v pow10f -> v <= 1 ->
  0 < a -> 0 < c -> 0 <= f -> let t := (1 + v) * (1 + u) ^ 2 - 1 in
  Rabs (erb2hz_of pow10f a c (hz2erb_of log10f a c f) - f) <= ((1 + u) ^ 4 * (1 + v) * exp (t * ln ((1 + u) ^ 2 * (1 + f * c))) - 1) * (/ c + f).
Proof.
  intros E u v lf pf a c f Hg Ha Hu HL HP Hv H0 Hc Hf t. destruct (erb_as_mel E lf pf a c ltac:(lra)) as [E1 E2]. rewrite E1, E2.
  replace (f * c) with (f / / c) by (unfold Rdiv; rewrite Rinv_inv; reflexivity). apply (roundtrip_error u v lf pf Hg Ha Hu HL HP Hv); auto. apply Rinv_0_lt_compat, Hc.
Qed.
Print Assumptions C190_erb.
Theorem C190_erb_numbers : forall (E : Env) log10f pow10f a c f, grid (@rnd E) -> accurate (/ 2 ^ 53) 0 (@rnd E) -> log10_within (/ 2 ^ 50) log10f -> pow10_within (/ 2 ^ 50) pow10f ->
  0 < a -> 0 < c <= / 200 -> 0 <= f <= 100000 -> Rabs (erb2hz_of pow10f a c (hz2erb_of log10f a c f) - f) <= (/ c + f) / 2 ^ 46.
Proof. exact erb_numbers. Qed.
Print Assumptions C190_erb_numbers.
Theorem C190_erb_relative_refuted : forall log10f a c (back : R -> R), 0 <= c <= 1 -> exists f, 0 < f /\ rnd64 f = f /\ f / 4 < Rabs (back (@hz2erb_of binary64 log10f a c f) - f).
Proof.
  intros lf a c g Hc. destruct (no_way_back (@hz2erb_of binary64 lf a c) g) as (f & Hf & K); [apply erb_same; lra|apply erb_same; lra|].
  destruct (stored_small f Hf). exists f. auto.
Qed.
Print Assumptions C190_erb_relative_refuted.
Example C190_erb_case :
  Rabs (@erb2hz_of binary53 (fun x => rnd53 (Rpower 10 x)) 21 (rnd53 0.00437) (@hz2erb_of binary53 (fun x => rnd53 (ln x / ln 10)) 21 (rnd53 0.00437) 1000) - 1000) <= / 2 ^ 35.
Proof.
  assert (P : / 230 <= rnd53 0.00437 <= / 220). { pose proof (relative_bounds rnd53 (/ 2 ^ 53) 0.00437 rnd53_accurate ltac:(lra) ltac:(lra)). lra. }
  assert (Q : / rnd53 0.00437 <= 230) by (rewrite <- (Rinv_inv 230); apply Rinv_le_contravar; lra).
  eapply Rle_trans; [apply (C190_erb_numbers binary53)|]; try lra; [exact rnd53_grid|exact rnd53_accurate|exact log10_53|exact pow10_53].
Qed.

(** a rounding that keeps order keeps the order of frequencies, in both directions *)
Theorem C190_order : forall (E : Env) arcsinhf sinhf log10f a b c f g, grid (@rnd E) -> (forall x y, x <= y -> arcsinhf x <= arcsinhf y) ->
  (forall x y, x <= y -> sinhf x <= sinhf y) -> (forall x y, 1 <= x -> x <= y -> log10f x <= log10f y) -> 0 < a -> 0 < b -> 0 < c -> 0 <= f <= g ->
  hz2bark_of arcsinhf a b f <= hz2bark_of arcsinhf a b g /\ bark2hz_of sinhf a b f <= bark2hz_of sinhf a b g /\
  hz2tjomov_of arcsinhf a f <= hz2tjomov_of arcsinhf a g /\ hz2erb_of log10f a c f <= hz2erb_of log10f a c g.
Proof.
  intros E af sf lf a b c f g Hg HA HS HL H0 Hb Hc Hfg. assert (Hm : monotone (@rnd E)) by apply Hg. repeat split.
  - apply bark_up; auto. apply Hfg.
  - apply hz_up; auto. apply Hfg.
  - apply tjomov_up; auto. apply Hfg.
  - apply erb_up; auto; apply Hfg.
Qed.
Print Assumptions C190_order.
Example C190_order_case : @hz2bark_of binary64 (fun x => rnd64 (arcsinh x)) 7 650 440 <= @hz2bark_of binary64 (fun x => rnd64 (arcsinh x)) 7 650 880.
Proof.
  refine (proj1 (C190_order binary64 (fun x => rnd64 (arcsinh x)) (fun x => rnd64 (sinh x)) (fun x => rnd64 (ln x / ln 10)) 7 650 1 440 880 rnd64_grid _ _ _ _ _ _ _)); [| | |lra..].
  - intros x y H. apply rnd64_monotone, arcsinh_le, H.
  - intros x y H. apply rnd64_monotone, sinh_up, H.
  - intros x y Hx H. apply rnd64_monotone, log10_mono; lra.
Qed.

(** with exact arithmetic and exact library functions these are the conversions of the rest of the model *)
Theorem C190_exact : (forall approach a b, arcsinh_constants approach = Some (a, b) -> forall x,
    hz2bark (Fin x) approach = Fin (@hz2bark_of exact_env arcsinh a b x) /\ bark2hz (Fin x) approach = Fin (@bark2hz_of exact_env sinh a b x)) /\
  (forall x, hz2bark (Fin x) "Tjomov" = Fin (@hz2tjomov_of exact_env arcsinh 6.7 x) /\ bark2hz (Fin x) "Tjomov" = Fin (@tjomov2hz_of exact_env sinh 6.7 x)) /\
  (forall x, 0 <= x -> hz2erb (Fin x) "Glasberg" = Some (Fin (@hz2erb_of exact_env (fun y => ln y / ln 10) erb_A 0.00437 x))) /\
  forall x, erb2hz (Fin x) "Glasberg" = Some (Fin (@erb2hz_of exact_env (Rpower 10) erb_A 0.00437 x)).
Proof.
  split; [intros approach a b Hc x; destruct (bark_exact approach a b Hc) as [K1 K2]; split; [apply K1|apply K2]|].
  split; [intros x; destruct tjomov_exact as [K1 K2]; split; [apply K1|apply K2]|]. exact erb_exact.
Qed.
Print Assumptions C190_exact.
Example C190_exact_case : arcsinh_constants "Schroeder" = Some (7, 650) /\ arcsinh_constants "anything else" = Some (6, 600) /\ arcsinh_constants "Zwicker" = None.
Proof. repeat split. Qed.
