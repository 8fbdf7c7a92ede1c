(** * Property theorems: once a window fits, the arguments decide (C197) *)
From Coq Require Import Reals ZArith List String Bool Lia Lra.
From Flocq Require Import Core.Raux.
From Verif Require Import Base SpecBase SpecMat SpecFeatures MatFacts Preprocessing Features Extractors SpecOutcome SpecWide WideFacts
  ExampleTools ExampleFeatures PropertiesFeatures.
Import ListNotations.
Local Open Scope R_scope.

(** C197. Two recordings of any lengths and samples into which a window fits: both calls return,
    with rows of the same number of entries, or both raise the same exception. *)
Theorem C197_spectrogram : forall `{Env} s x y a,
  one_window (s_fs a) (s_window a) (List.length x) -> one_window (s_fs a) (s_window a) (List.length y) ->
  same_kind2 (spectrogram s x a) (spectrogram s y a).
Proof. exact @spectrogram_kind. Qed.
Print Assumptions C197_spectrogram.
Theorem C197_features : forall `{Env} e x y a c,
  one_window (s_fs a) (s_window a) (List.length x) -> one_window (s_fs a) (s_window a) (List.length y) ->
  same_kind (run e x a c) (run e y a c).
Proof. exact @run_kind. Qed.
Print Assumptions C197_features.
Theorem C197_psrcc : forall `{Env} x y a g c,
  one_window (s_fs a) (s_window a) (List.length x) -> one_window (s_fs a) (s_window a) (List.length y) ->
  same_kind (psrcc x a g c) (psrcc y a g c).
Proof. exact @psrcc_kind. Qed.
Print Assumptions C197_psrcc.
(** mfcc with default arguments returns rows of thirteen values for every recording of at least
    400 samples *)
Example C197_example : forall x, (400 <= List.length x)%nat -> exists m,
  @mfcc exact_env x default_sargs default_cargs = Ok m /\ m <> [] /\ forall r, In r m -> List.length r = 13%nat.
Proof.
  intros x Hx. destruct (C42_example (fun _ => 0)) as [y Hy].
  assert (W : forall N, (400 <= N)%nat -> @one_window exact_env 16000 None N).
  { intros N HN. unfold one_window, default_window. cbn [win_hop win_len rnd exact_env].
    replace (0.010 * 16000) with (IZR 160) by lra. replace (0.025 * 16000) with (IZR 400) by lra. rewrite !Ztrunc_IZR. lia. }
  pose proof (@C197_features exact_env Mfcc (fvec 1000 (fun _ => 0)) x default_sargs default_cargs) as K.
  rewrite fvec_length in K. specialize (K (W 1000%nat ltac:(lia)) (W _ Hx)). cbn [run] in K. rewrite Hy in K.
  destruct (@mfcc exact_env x default_sargs default_cargs) as [m|e]; [|contradiction K].
  destruct K as (_ & Hm & K). exists m. split; [reflexivity|]. split; [exact Hm|]. intros r Hr.
  rewrite <- (K (nth 0 (fmat 4 13 y) []) r); [reflexivity|left; reflexivity|exact Hr].
Qed.
(** With a hop of at least one sample, no call returns when no window fits. *)
Theorem C197_short : forall `{Env} x a c,
  (0 < Ztrunc (rnd (win_hop (window_of a) * IZR (s_fs a))))%Z ->
  (zlen x < Ztrunc (rnd (win_len (window_of a) * IZR (s_fs a))))%Z ->
  (forall e m, run e x a c <> Ok m) /\ (forall s m, spectrogram s x a <> Ok m) /\ (forall g m, psrcc x a g c <> Ok m).
Proof. exact @short_raises. Qed.
Print Assumptions C197_short.
Example C197_short_example : forall e x c m, (List.length x < 400)%nat -> @run exact_env e x default_sargs c <> Ok m.
Proof.
  intros e x c m Hx. refine (proj1 (@C197_short exact_env x default_sargs c _ _) e m); unfold window_of, default_window; cbn [default_sargs s_window s_fs win_hop win_len rnd exact_env].
  - replace (0.010 * 16000) with (IZR 160) by lra. rewrite Ztrunc_IZR. lia.
  - replace (0.025 * 16000) with (IZR 400) by lra. rewrite Ztrunc_IZR. unfold zlen. lia.
Qed.
