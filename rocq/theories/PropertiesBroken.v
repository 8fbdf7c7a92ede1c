(** * Property theorems: pitch of recordings with infinite or undefined samples (C178) *)
From Coq Require Import Reals ZArith List String Bool Lia Lra.
From Verif Require Import Base BaseFacts SpecBase BigSum SpecMat MatFacts Yin SpecYin SpecBroken YinFacts YinBroken PropertiesYin.
Import ListNotations.
Local Open Scope R_scope.

(** C178. Whatever samples a recording has, compute_yin returns finite numbers only; a window with an infinite
    or undefined sample is reported like a constant one: no pitch, harmonic rate 1, argmin 0. *)
Theorem C178_broken : forall `{Env} sig fs wl wh low high th L hop lo T,
  yin_config fs wl wh low high L hop lo T -> (S T <= L)%nat -> (1 <= lo)%nat ->
  let n := yin_frames (List.length sig) L hop in
  exists P H A, compute_yin sig fs wl wh low high th = Ok (fvec n P, fvec n H, fvec n A, fvec n (fun i => INR (i * hop) / IZR fs)) /\
  forall i, (i < n)%nat -> ~ Forall finite (yin_window L hop sig i) -> P i = 0 /\ H i = 1 /\ A i = 0.
Proof. exact @yin_broken. Qed.
Print Assumptions C178_broken.
(** The other windows are reported as if the recording were sound: what is reported for a window depends on
    its own samples only. *)
Theorem C178_local : forall `{Env} sig sig2 fs wl wh low high th L hop lo T P H A tm P2 H2 A2 tm2 i j,
  yin_config fs wl wh low high L hop lo T ->
  compute_yin sig fs wl wh low high th = Ok (P, H, A, tm) -> compute_yin sig2 fs wl wh low high th = Ok (P2, H2, A2, tm2) ->
  (i < yin_frames (List.length sig) L hop)%nat -> (j < yin_frames (List.length sig2) L hop)%nat -> yin_window L hop sig i = yin_window L hop sig2 j ->
  nth i P NaN = nth j P2 NaN /\ nth i H NaN = nth j H2 NaN /\ nth i A NaN = nth j A2 NaN.
Proof. exact @yin_local. Qed.
Print Assumptions C178_local.

(** a case: one infinite sample after 1000 samples of any recording, 480-sample windows every 240 samples *)
Example C178_example : forall x, exists P H A P2 H2 A2 tm tm2,
  @compute_yin exact_env (fvec 1000 x ++ PInf :: fvec 500 x) 16000 0.03 0.015 50 3000 0.1 = Ok (P, H, A, tm) /\
  @compute_yin exact_env (fvec 1000 x) 16000 0.03 0.015 50 3000 0.1 = Ok (P2, H2, A2, tm2) /\
  nth 3 P NaN = Fin 0 /\ nth 3 H NaN = Fin 1 /\ nth 1 P NaN = nth 1 P2 NaN.
Proof.
  intros x. set (sig := fvec 1000 x ++ PInf :: fvec 500 x). assert (Ls : List.length sig = 1501%nat) by (unfold sig; rewrite app_length; cbn [List.length]; rewrite !fvec_length; reflexivity).
  destruct (@C178_broken exact_env sig 16000 0.03 0.015 50 3000 0.1 480 240 5 319 default_yin ltac:(lia) ltac:(lia)) as (P & H & A & E & K). rewrite Ls in E, K. change (yin_frames 1501 480 240) with 5%nat in E, K.
  destruct (@C178_broken exact_env (fvec 1000 x) 16000 0.03 0.015 50 3000 0.1 480 240 5 319 default_yin ltac:(lia) ltac:(lia)) as (P2 & H2 & A2 & E2 & _). rewrite fvec_length in E2. change (yin_frames 1000 480 240) with 3%nat in E2.
  exists (fvec 5 P), (fvec 5 H), (fvec 5 A), (fvec 3 P2), (fvec 3 H2), (fvec 3 A2). do 2 eexists. split; [exact E|]. split; [exact E2|].
  destruct (K 3%nat ltac:(lia)) as (K1 & K2 & _).
  { intros F1. rewrite Forall_forall in F1. destruct (F1 PInf) as (r & Hr); [|discriminate]. unfold yin_window, sig.
    rewrite skipn_app, fvec_skipn, fvec_length by lia. change (3 * 240 - 1000)%nat with O. rewrite firstn_app, fvec_length. apply in_or_app. right. change (480 - (1000 - 3 * 240))%nat with 200%nat. left. reflexivity. }
  split; [cbn [fvec seq map nth]; rewrite K1; reflexivity|]. split; [cbn [fvec seq map nth]; rewrite K2; reflexivity|].
  apply (@C178_local exact_env sig (fvec 1000 x) 16000 0.03 0.015 50 3000 0.1 480 240 5 319 _ _ _ _ _ _ _ _ 1 1 default_yin E E2).
  - rewrite Ls. cbn. lia.
  - rewrite fvec_length. cbn. lia.
  - unfold yin_window, sig. rewrite skipn_app, fvec_length. change (1 * 240 - 1000)%nat with O. rewrite firstn_app, fvec_skipn, fvec_length by lia. change (480 - (1000 - 1 * 240))%nat with O. cbn [firstn]. apply app_nil_r.
Qed.
