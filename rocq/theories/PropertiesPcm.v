(** * Property theorems: lpc and lpcc of integer samples (C117, C118) *)
From Coq Require Import Reals ZArith List String Bool Lia Lra.
From Verif Require Import Base BaseFacts SpecBase SpecMat SpecFeatures BigSum MatFacts Preprocessing Features Extractors
  FeaturesFacts Lpc SpecLpc LpcLaws PropertiesLpc LpcPcm SpecPcm PcmFacts ExampleFeatures.
Import ListNotations.
Local Open Scope R_scope.

(** C117. For a signed integer type of b bits: if the sum of the squares of every frame is below
    2^(b-1), lpc and lpcc without pre-emphasis return for the integer array what they return for
    its conversion to floats, whatever the order, lifter and normalisation. *)
Theorem C117_quiet : forall `{Env} a N L hop x b order coeff, well_framed a N L hop -> s_pre_emph a = false -> (1 <= b)%Z ->
  (forall i, (i < frame_count N L hop)%nat ->
     (isum L (fun t => iframe hop x i t * iframe hop x i t) < 2 ^ (b - 1))%Z) ->
  lpc_pcm (Int b) (ivec N x) (s_fs a) order false coeff (s_window a)
  = lpc (map fZ (ivec N x)) (s_fs a) order false coeff (s_window a) /\
  forall lifter normalize,
  lpcc_pcm (Int b) (ivec N x) (s_fs a) order false coeff (s_window a) lifter normalize
  = lpcc (map fZ (ivec N x)) (s_fs a) order false coeff (s_window a) lifter normalize.
Proof. intros E a N L hop x b order coeff Hw Hp Hb Hq. apply pcm_quiet with (N := N) (L := L) (hop := hop); assumption. Qed.
Print Assumptions C117_quiet.
(** With pre-emphasis that holds for every integer type and however loud the samples are: the
    filter returns floats. *)
Theorem C117_pre_emphasised : forall `{Env} t sig fs order coeff w,
  lpc_pcm t sig fs order true coeff w = lpc (map fZ sig) fs order true coeff w /\
  forall lifter normalize,
  lpcc_pcm t sig fs order true coeff w lifter normalize = lpcc (map fZ sig) fs order true coeff w lifter normalize.
Proof. intros. split; reflexivity. Qed.
Print Assumptions C117_pre_emphasised.

(** the default arguments without pre-emphasis *)
Definition pcm_sargs : sargs := mkS 16000 false 0.97 None 24 512 0 None "constant" None "Oshaghnessy".
Lemma pcm_default_framed : forall N, (400 <= N)%nat -> @well_framed exact_env pcm_sargs N 400 160.
Proof. intros N HN. exact (default_framed N HN). Qed.

(** a case: one sample of 181 in int16 (181^2 = 32761) *)
Example C117_example : forall order,
  @lpc_pcm exact_env (Int 16) (ivec 400 (fun t => if Nat.eqb t 3 then 181 else 0)%Z) 16000 order false 0.97 None
  = @lpc exact_env (map fZ (ivec 400 (fun t => if Nat.eqb t 3 then 181 else 0)%Z)) 16000 order false 0.97 None.
Proof.
  intros order. apply (@C117_quiet exact_env pcm_sargs 400 400 160 _ 16 order 0.97); try reflexivity; try lia.
  - apply pcm_default_framed. lia.
  - intros i Hi. change (frame_count 400 400 160) with 1%nat in Hi. assert (i = O) as -> by lia.
    vm_compute. reflexivity.
Qed.

(** C118. For every integer type, if a call without pre-emphasis returns, the predictor of a frame
    solves the Toeplitz system of the wrapped autocorrelations w: numbers of the type that differ
    from the autocorrelations by multiples of 2^bits; the right side is the wrapped -w. *)
Theorem C118_wrapped_equations : forall `{Env} a N L hop x t p coeff A E, well_framed a N L hop -> s_pre_emph a = false ->
  (1 <= bits_of t)%Z -> (1 <= p)%nat ->
  lpc_pcm t (ivec N x) (s_fs a) (Z.of_nat (S p)) false coeff (s_window a)
  = Ok (fmat (frame_count N L hop) (S p) A, fmat (frame_count N L hop) 1 E) ->
  forall i, (i < frame_count N L hop)%nat -> exists w u, A i O = 1 /\
    (forall d, stands_for t (w d) (iacf L (iframe hop x i) d)) /\ (forall d, stands_for t (u d) (- w d)%Z) /\
    forall k, (1 <= k <= p)%nat -> bigsum p (fun j => IZR (w (dist k (S j))) * A i (S j)) = IZR (u k).
Proof. intros E0 a N L hop x t p coeff A E Hw Hpre Hb Hp. apply pcm_solves; assumption. Qed.
Print Assumptions C118_wrapped_equations.

(** If all samples are multiples of 2^h with 2h >= bits -- 8-bit audio shifted into int16 (h = 8,
    bits = 16), or the constant 128 that means silence in uint8 -- every call of order >= 2 fails. *)
Theorem C118_coarse_samples : forall `{Env} a N L hop x t h p coeff, well_framed a N L hop -> s_pre_emph a = false ->
  (1 <= bits_of t <= 2 * h)%Z -> (1 <= p)%nat ->
  (forall k, (k < N)%nat -> exists q, x k = (q * 2 ^ h)%Z) ->
  lpc_pcm t (ivec N x) (s_fs a) (Z.of_nat (S p)) false coeff (s_window a) = Raise LinAlgError /\
  forall lifter normalize,
  lpcc_pcm t (ivec N x) (s_fs a) (Z.of_nat (S p)) false coeff (s_window a) lifter normalize = Raise LinAlgError.
Proof. intros E a N L hop x t h p coeff Hw Hpre Hb Hp Hx. apply (pcm_coarse a N L hop x Hw Hpre t h); assumption. Qed.
Print Assumptions C118_coarse_samples.

(** So integers and floats do not agree: an int16 impulse of 256 fails, the same floats do not. *)
Theorem C118_same_as_floats_refuted : exists sig,
  Forall (in_type (Int 16)) sig /\
  @lpc_pcm exact_env (Int 16) sig 16000 13 false 0.97 None = Raise LinAlgError /\
  exists A E, @lpc exact_env (map fZ sig) 16000 13 false 0.97 None = Ok (fmat 1 13 A, fmat 1 1 E).
Proof.
  exists (ivec 400 (fun t => if Nat.eqb t 3 then 256 else 0)%Z). split; [|split].
  - apply Forall_forall. intros z Hz. apply in_map_iff in Hz as (t & <- & _). destruct (Nat.eqb t 3); cbn; lia.
  - apply (@C118_coarse_samples exact_env pcm_sargs 400 400 160 _ (Int 16) 8 12 0.97); try reflexivity; try (cbn; lia).
    + apply pcm_default_framed. lia.
    + intros k _. destruct (Nat.eqb k 3); [exists 1%Z|exists 0%Z]; reflexivity.
  - rewrite ivec_fvec.
    destruct (@C51_lpc exact_env pcm_sargs 400 400 160 12 (fun t => IZR (if Nat.eqb t 3 then 256 else 0))) as (A & E & HA & _).
    + apply pcm_default_framed. lia.
    + lia.
    + intros i Hi. change (frame_count 400 400 160) with 1%nat in Hi. exists 3%nat. split; [lia|].
      assert (i = O) as -> by lia. unfold plain_frame, spec_pre. cbn. lra.
    + exists A, E. exact HA.
Qed.
Print Assumptions C118_same_as_floats_refuted.

(** Nor are the predictors stable (compare C81): the int16 signal 256, 1, 0, 0, ... gets a
    predictor with the root 256. *)
Theorem C118_stable_refuted : exists sig A E,
  Forall (in_type (Int 16)) sig /\
  @lpc_pcm exact_env (Int 16) sig 16000 2 false 0.97 None = Ok (fmat 1 2 A, fmat 1 1 E) /\
  poly_root 1 (A O) 256 0.
Proof.
  destruct (pcm_unstable_frame 400 ltac:(lia)) as (a & e & Ha & Hr).
  exists (ivec 400 (fun s => nth s [256; 1]%Z 0%Z)), (fun _ => a), (fun _ _ => e). split; [|split; [|exact Hr]].
  - apply Forall_forall. intros z Hz. apply in_map_iff in Hz as (t & <- & _).
    destruct t as [|[|[|t]]]; cbn; lia.
  - unfold lpc_pcm.
    pose proof (@pcm_framed exact_env pcm_sargs 400 400 160 (fun s => nth s [256; 1]%Z 0%Z) (pcm_default_framed 400 ltac:(lia)) eq_refl) as Hf.
    cbn [pcm_sargs s_fs s_window] in Hf. rewrite Hf. cbn [rbind].
    change (frame_count 400 400 160) with 1%nat.
    change (2 - 1)%Z with 1%Z. destruct (Z.ltb_spec (1 + 1) 0); [lia|].
    unfold fmat at 1. cbn [seq map mapM]. unfold lpc_helper_of.
    assert (Ef : fvec 400 (fun s => IZR (iframe 160 (fun s0 => nth s0 [256; 1]%Z 0%Z) 0 s))
               = fvec 400 (fun s => IZR (nth s [256; 1]%Z 0%Z))) by reflexivity.
    rewrite Ef, Ha. reflexivity.
Qed.
Print Assumptions C118_stable_refuted.
(** a case: eight-bit silence *)
Example C118_example :
  @lpc_pcm exact_env (UInt 8) (ivec 800 (fun _ => 128%Z)) 16000 13 false 0.97 None = Raise LinAlgError.
Proof.
  apply (@C118_coarse_samples exact_env pcm_sargs 800 400 160 _ (UInt 8) 7 12 0.97); try reflexivity; try (cbn; lia).
  - apply pcm_default_framed. lia.
  - intros. exists 1%Z. reflexivity.
Qed.
