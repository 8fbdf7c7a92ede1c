(** * Properties of the pitch of pure tones *)
From Coq Require Import Reals ZArith List String Bool Lia Lra.
From Verif Require Import Base BaseFacts SpecBase BigSum SpecMat MatFacts SpecYin Yin PropertiesYin SpecTone YinToneFacts.
Import ListNotations.
Local Open Scope R_scope.

(** ** C171: a tone of nu periods per sample *)

(** every window of a tone is reported as voiced, with a period within one sample of the period of the
    tone, whatever its amplitude and phase; the harmonic rate is below the threshold. The window has to
    hold about 1.7/(1-4*threshold) periods, and the threshold to exceed 12*nu^2. *)
Theorem C171_tone : forall `{Env} N A nu phi fs wl wh low high th L hop lo T,
  yin_config fs wl wh low high L hop lo T -> (S T <= L)%nat -> A <> 0 -> 0 < nu -> 12 * nu ^ 2 <= th <= / 4 ->
  4 * th * (INR L + / sin (2 * PI * nu)) + 3 / (2 * nu) + / sin (2 * PI * nu) <= INR L ->
  INR lo <= / nu - / 2 -> / nu + / 2 < INR (S T) ->
  let n := yin_frames N L hop in
  exists P H a, compute_yin (fvec N (tone A nu phi)) fs wl wh low high th
    = Ok (fvec n P, fvec n H, map a (seq 0 n), fvec n (fun i => INR (i * hop) / IZR fs)) /\
  forall i, (i < n)%nat -> (exists p, P i = IZR fs / INR p /\ Rabs (INR p - / nu) < 1 /\ (1 <= p)%nat) /\ 0 <= H i < th.
Proof. exact @yin_tone. Qed.
Print Assumptions C171_tone.

(** with the default parameters at 16 kHz: every tone of 100 to 1400 Hz *)
Theorem C171_default : forall `{Env} N A f phi, yin_config 16000 0.03 0.015 50 3000 480 240 5 319 -> A <> 0 -> 100 <= f <= 1400 ->
  let n := yin_frames N 480 240 in
  exists P H a, compute_yin (fvec N (tone A (f / 16000) phi)) 16000 0.03 0.015 50 3000 0.1
    = Ok (fvec n P, fvec n H, map a (seq 0 n), fvec n (fun i => INR (i * 240) / 16000)) /\
  forall i, (i < n)%nat -> (exists p, P i = 16000 / INR p /\ Rabs (INR p - 16000 / f) < 1 /\ (1 <= p)%nat) /\ 0 <= H i < 0.1.
Proof. exact @yin_tone_default. Qed.
Print Assumptions C171_default.

(** an eighth of a second of the concert pitch a' = 440 Hz (36.36 samples per period): every pitch is 16000/36 or 16000/37 *)
Example C171_default_example : forall A phi, A <> 0 -> exists P H a,
  @compute_yin exact_env (fvec 2000 (tone A (440 / 16000) phi)) 16000 0.03 0.015 50 3000 0.1
    = Ok (fvec 7 P, fvec 7 H, map a (seq 0 7), fvec 7 (fun i => INR (i * 240) / 16000)) /\
  forall i, (i < 7)%nat -> P i = 16000 / 36 \/ P i = 16000 / 37.
Proof.
  intros A phi HA. destruct (C171_default (H := exact_env) 2000 A 440 phi default_yin HA ltac:(lra)) as (P & H & a & E1 & E2).
  change (yin_frames 2000 480 240) with 7%nat in *. exists P, H, a. split; [exact E1|]. intros i Hi. destruct (E2 i Hi) as ((p & Ep & Hp & _) & _).
  apply Rabs_def2 in Hp. rewrite Ep. rewrite INR_IZR_INZ in *. assert (Q : (35 < Z.of_nat p < 38)%Z) by (split; apply lt_IZR; lra).
  assert (C : (Z.of_nat p = 36 \/ Z.of_nat p = 37)%Z) by lia. destruct C as [C|C]; rewrite C; auto.
Qed.
(** a period of exactly 40 samples: the lag is 40 *)
Example C171_tone_example : forall A phi, A <> 0 -> exists P H a,
  @compute_yin exact_env (fvec 2000 (tone A (/ 40) phi)) 16000 0.03 0.015 50 3000 0.1
    = Ok (fvec 7 P, fvec 7 H, map a (seq 0 7), fvec 7 (fun i => INR (i * 240) / 16000)) /\
  forall i, (i < 7)%nat -> P i = 400.
Proof.
  intros A phi HA.
  assert (S2 : 5 * / 40 <= sin (2 * PI * / 40)) by (apply (sin2 (/ 40) 0.1); lra).
  assert (K : / sin (2 * PI * / 40) <= 8) by (replace 8 with (/ (5 * / 40)) by field; apply Rinv_le_contravar; lra).
  assert (E480 : INR 480 = 480) by (rewrite INR_IZR_INZ; reflexivity). assert (E320 : INR 320 = 320) by (rewrite INR_IZR_INZ; reflexivity).
  assert (G1 : 4 * 0.1 * (INR 480 + / sin (2 * PI * / 40)) + 3 / (2 * / 40) + / sin (2 * PI * / 40) <= INR 480) by (rewrite E480; lra).
  assert (G2 : INR 5 <= / / 40 - / 2) by (cbn [INR]; lra). assert (G3 : / / 40 + / 2 < INR 320) by (rewrite E320; lra).
  destruct (C171_tone (H := exact_env) 2000 A (/ 40) phi 16000 0.03 0.015 50 3000 0.1 480 240 5 319 default_yin ltac:(lia) HA ltac:(lra) ltac:(lra) G1 G2 G3) as (P & H & a & E1 & E2).
  change (yin_frames 2000 480 240) with 7%nat in *. exists P, H, a. split; [exact E1|]. intros i Hi. destruct (E2 i Hi) as ((p & Ep & Hp & _) & _).
  apply Rabs_def2 in Hp. rewrite Ep. rewrite INR_IZR_INZ in *. assert (Q : (39 < Z.of_nat p < 41)%Z) by (split; apply lt_IZR; lra).
  assert (C : (Z.of_nat p = 40)%Z) by lia. rewrite C. lra.
Qed.
