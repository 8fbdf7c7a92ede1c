(** * Properties of the RASTA filter in floating point *)
From Coq Require Import Reals ZArith List Bool Lia Lra.
From Flocq Require Import Core.
From Verif Require Import Base SpecBase SpecMat SpecFilters Filters Binary64 Rounded SpecRounded RoundedFacts RoundedLaws
  RoundedRasta SpecRoundedRasta RoundedRastaFacts.
Import ListNotations.
Local Open Scope R_scope.

(** ** C163: rounding errors of the recursion do not pile up *)
(** However long the row is, every entry is within 1600 units of u times the largest input of the
    recursion in exact arithmetic. *)
Theorem C163_error : forall (E : Env) u eta M, accurate u eta (@rnd E) -> odd (@rnd E) -> u <= 1 / 1000 -> eta <= u -> 0 <= M ->
  forall fu fir x c, @convolves E fir -> (forall t, (t < c)%nat -> Rabs (x t) <= M) ->
  forall t, (t < c)%nat -> Rabs (@rasta_float E fu fir x t - spec_rasta x t) <= 1600 * (u * M + eta).
Proof. exact rasta_float_error. Qed.
Print Assumptions C163_error.

(** So a row that does not vary gives almost nothing, for every constant and every length. *)
Theorem C163_constant : forall (E : Env) u, accurate u 0 (@rnd E) -> odd (@rnd E) -> u <= 1 / 1000 ->
  forall fu fir v t, @convolves E fir -> Rabs (@rasta_float E fu fir (fun _ => v) t) <= 1600 * u * Rabs v.
Proof. exact rasta_float_constant. Qed.
Print Assumptions C163_constant.

(** Without rounding these are the entries that rasta_filter returns. *)
Theorem C163_model : forall r c x fu fir, (4 <= c)%nat -> @convolves exact_env fir ->
  rasta_filter (fmat r c x) = Ok (fmat r c (fun i => @rasta_float exact_env fu fir (x i))).
Proof. exact rasta_filter_float. Qed.
Print Assumptions C163_model.

(** binary64, products fused or not, a row that is 1 at sample 4 and 0 elsewhere: 0.2 comes out at
    sample 4 and 0.2 * 0.94 + 0.1 at sample 5, up to 2 in 10^13 *)
Example C163_example : forall fu, exists fir, @convolves binary64 fir /\
  let x t := if Nat.eqb t 4 then 1 else 0 in
  Rabs (@rasta_float binary64 fu fir x 4 - 0.2) <= 2 / 10 ^ 13 /\
  Rabs (@rasta_float binary64 fu fir x 5 - 0.288) <= 2 / 10 ^ 13 /\
  forall t, Rabs (@rasta_float binary64 fu fir x t - spec_rasta x t) <= 2 / 10 ^ 13.
Proof.
  intros fu. exists (fun j => dot_left (fun i => rnd64 (fir_weight j i)) 4).
  assert (Hf : @convolves binary64 (fun j => dot_left (fun i => rnd64 (fir_weight j i)) 4)).
  { intros j _. apply dot_left_program. }
  split; [exact Hf|]. intros x.
  assert (K : forall t, Rabs (@rasta_float binary64 fu (fun j => dot_left (fun i => rnd64 (fir_weight j i)) 4) x t - spec_rasta x t) <= 2 / 10 ^ 13).
  { intros t. assert (B : bpow radix2 (-1075) <= / 2 ^ 53).
    { replace (/ 2 ^ 53) with (bpow radix2 (-53)) by (cbn; lra). apply bpow_le. lia. }
    eapply Rle_trans; [apply (rasta_float_error binary64 (/ 2 ^ 53) (bpow radix2 (-1075)) 1 rnd64_accurate rnd64_odd ltac:(lra) B ltac:(lra) fu _ x (S t) Hf)|].
    - intros s _. unfold x. destruct (Nat.eqb s 4); [rewrite Rabs_R1|rewrite Rabs_R0]; lra.
    - lia.
    - assert (B' : bpow radix2 (-1075) <= / 2 ^ 63).
      { replace (/ 2 ^ 63) with (bpow radix2 (-63)) by (cbn; lra). apply bpow_le. lia. }
      lra. }
  split; [|split; [|exact K]].
  - specialize (K 4%nat). replace (spec_rasta x 4) with 0.2 in K; [exact K|]. unfold x. cbn. lra.
  - specialize (K 5%nat). replace (spec_rasta x 5) with 0.288 in K; [exact K|]. unfold x. cbn. lra.
Qed.
