(** * Property theorems: gammatone filter bank (C20, C30, C31) *)
From Coq Require Import Reals ZArith List String Bool Lia Lra.
From Verif Require Import Base BaseFacts SpecBase SpecMat SpecFilters SpecBanks BigSum MatFacts
  Preprocessing Converters Filters FiltersFacts MelBanks MelBanksFacts MelBanksMore Gammatone GammatoneFacts.
Import ListNotations.
Local Open Scope R_scope.

(** C20 (gammatone part). *)
Theorem C20_gammatone : forall nfilts nfft fs low high h scale order approach,
  spec_high high fs h ->
  (gammatone_filter_banks nfilts nfft fs low high scale order approach
     = Raise (ParameterError "minimal frequency cannot be less than zero.") <-> low < 0) /\
  (gammatone_filter_banks nfilts nfft fs low high scale order approach
     = Raise (ParameterError "maximum frequency cannot be greater than half sampling frequency.")
   <-> 0 <= low /\ IZR fs / 2 < h).
Proof. intros. apply gammatone_validation; auto. Qed.
Print Assumptions C20_gammatone.
(** a case: a negative band edge is reported before the too high one *)
Example C20_gammatone_example :
  gammatone_filter_banks 24 512 16000 (-5) (Some 9000) "constant" 4 "Glasberg"
  = Raise (ParameterError "minimal frequency cannot be less than zero.").
Proof. apply (C20_gammatone _ _ _ _ _ 9000); [left; split; [auto|lra]|lra]. Qed.

(** C30. Centre frequencies. *)
Theorem C30_centres : forall low high n, 0 <= low -> low < high -> (1 <= n)%nat ->
  exists f : nat -> R,
    generate_center_frequencies low high n = fvec n f /\
    f 0%nat = low /\
    (forall i, (i < n)%nat -> low <= f i < high) /\
    (forall i j, (i < j)%nat -> (j < n)%nat -> f i < f j) /\
    (forall i, (i < n)%nat -> ln (f i + 9.26449 * 24.7)
       = ln (low + 9.26449 * 24.7) + INR i * ((ln (high + 9.26449 * 24.7) - ln (low + 9.26449 * 24.7)) / INR n)).
Proof.
  intros low high n Hl Hlh Hn. exists (spec_gt_centre low high n). split; [|split; [|split; [|split]]].
  - apply centres_eq; lra.
  - apply gt_centre_first; auto.
  - intros; apply gt_centre_range; auto.
  - intros; apply gt_centre_incr; auto; lia.
  - intros. fold gt_c. rewrite gt_centre_spacing. unfold Rdiv. ring.
Qed.
Print Assumptions C30_centres.
(** a case: the band 0..8 kHz, one filter, is centred on 0 Hz *)
Example C30_example : generate_center_frequencies 0 8000 1 = [Fin 0].
Proof.
  destruct (C30_centres 0 8000 1) as (f & E & H0 & _); try lra; try lia.
  rewrite E. unfold fvec. simpl. rewrite H0. auto.
Qed.

(** C31. Every filter is the fourth-order gammatone magnitude response divided by its
    largest value over the bins, times the row's scale factor. *)
Theorem C31_bank : forall n nfft fs low high h scale order approach,
  In scale scale_names -> spec_high high fs h ->
  (3 <= nfft)%Z -> (0 < fs)%Z -> (1 <= order)%nat -> 0 <= low -> low < h -> h <= IZR fs / 2 ->
  exists e : nat -> nat -> R,
    gammatone_filter_banks (Z.of_nat n) nfft fs low high scale (Z.of_nat order) approach
    = Ok (fmat n (S (half nfft)) (fun j k => spec_scale scale n j * e j k),
          map (fun f => hz2erb f approach) (fvec n (spec_gt_centre low h n))) /\
    (forall j k, (j < n)%nat -> (k < S (half nfft))%nat -> 0 <= e j k <= 1) /\
    (forall j, (j < n)%nat -> exists k, (k < S (half nfft))%nat /\ e j k = 1) /\
    (forall j, (j < n)%nat -> exists g, 0 < g /\ forall k, (k < S (half nfft))%nat ->
       e j k = g * spec_gt_response (IZR fs) order (IZR nfft) (spec_gt_centre low h n j) k).
Proof.
  intros n nfft fs low high h scale order approach Hsc Hh Hn Hfs Ho Hl Hlh Hhf.
  destruct (gammatone_bank_eq n nfft fs low high h scale order approach) as (m & Hm & E); auto.
  exists (fun j k => spec_gt_response (IZR fs) order (IZR nfft) (spec_gt_centre low h n j) k / m j).
  split; [exact E|]. split; [|split].
  - intros j k Hj Hk. destruct (Hm j Hj) as (M1 & M2 & _).
    split; [apply div_nonneg; auto; apply gt_response_nonneg | apply div_le_1; auto].
  - intros j Hj. destruct (Hm j Hj) as (M1 & M2 & k & Hk & M3). exists k. split; auto.
    rewrite M3. field. lra.
  - intros j Hj. destruct (Hm j Hj) as (M1 & _). exists (/ m j). split; [apply Rinv_0_lt_compat; auto|].
    intros. unfold Rdiv. ring.
Qed.
Print Assumptions C31_bank.

(** a case: the default call *)
Example C31_example : exists e,
  gammatone_filter_banks 24 512 16000 0 None "constant" 4 "Glasberg"
  = Ok (fmat 24 257 (fun j k => 1 * e j k),
        map (fun f => hz2erb f "Glasberg") (fvec 24 (spec_gt_centre 0 8000 24))) /\
  exists k, (k < 257)%nat /\ e 23%nat k = 1.
Proof.
  destruct (C31_bank 24 512 16000 0 None 8000 "constant" 4 "Glasberg") as (e & E & _ & H & _);
    try lra; try lia; simpl; auto.
  - right. split; auto. lra.
  - exists e. split; [exact E|]. apply (H 23%nat). lia.
Qed.
