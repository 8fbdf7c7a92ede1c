(** * Property theorems: mel, inverse mel and linear filter banks (C16-C26, C77) *)
From Coq Require Import Reals ZArith List String Bool Lia Lra.
From Verif Require Import Base BaseFacts SpecBase SpecMat SpecFilters SpecBanks BigSum MatFacts
  Preprocessing Converters ConvertersFacts Filters FiltersFacts MelBanks MelBanksFacts MelBanksMore.
Import ListNotations.
Local Open Scope R_scope.

(** C16. Shape of every bank that is returned. *)
Theorem C16_mel_shape : forall nfilts nfft fs low high scale approach B c,
  mel_filter_banks nfilts nfft fs low high scale approach = Ok (B, c) ->
  has_shape B (Z.to_nat nfilts) (Z.to_nat (nfft / 2 + 1)) /\ List.length c = Z.to_nat nfilts /\
  (0 <= nfilts)%Z /\ (0 <= nfft / 2 + 1)%Z.
Proof. intros. eapply helper_shape; eassumption. Qed.
Print Assumptions C16_mel_shape.

Theorem C16_linear_shape : forall nfilts nfft fs low high scale B c,
  linear_filter_banks nfilts nfft fs low high scale = Ok (B, c) ->
  has_shape B (Z.to_nat nfilts) (Z.to_nat (nfft / 2 + 1)) /\ List.length c = Z.to_nat nfilts /\
  (0 <= nfilts)%Z /\ (0 <= nfft / 2 + 1)%Z.
Proof.
  intros nfilts nfft fs low high scale B c H. unfold linear_filter_banks in H.
  apply rbind_Ok in H as [[B0 c0] [H E]]. apply Ok_inj in E. cbn [fst snd] in E. injection E as <- <-.
  apply helper_shape in H as (H1 & H2 & H3). split; auto. apply map_map_shape; auto.
Qed.
Print Assumptions C16_linear_shape.

Theorem C16_inverse_mel_shape : forall nfilts nfft fs low high scale approach B c,
  inverse_mel_filter_banks nfilts nfft fs low high scale approach = Ok (B, c) ->
  has_shape B (Z.to_nat nfilts) (Z.to_nat (nfft / 2 + 1)) /\ List.length c = Z.to_nat nfilts /\
  (0 <= nfilts)%Z /\ (0 <= nfft / 2 + 1)%Z.
Proof.
  intros nfilts nfft fs low high scale approach B c H.
  apply inverse_inv in H as (sc' & B0 & c0 & _ & H & -> & ->).
  apply helper_shape in H as (H1 & H2 & H3). split; auto. apply map_map_shape, map_rev_shape; auto.
Qed.
Print Assumptions C16_inverse_mel_shape.

(** C17. Mel filters are scaled triangles between consecutive mel-spaced points. *)
Theorem C17_mel_triangles : forall n nfft fs low high h scale approach s,
  spec_mel_scale approach s -> In scale scale_names -> spec_high high fs h ->
  0 <= low -> low < h -> h <= IZR fs / 2 -> (0 <= nfft)%Z ->
  (exists c, mel_filter_banks (Z.of_nat n) nfft fs low high scale approach
    = Ok (fmat n (S (half nfft)) (spec_bank s low h n (half nfft) scale), c)) /\
  (forall j k, (j < n)%nat -> 0 <= spec_bank s low h n (half nfft) scale j k <= 1) /\
  spec_point s low h n 0 = low /\ spec_point s low h n (n + 1) = h /\
  (forall i, spec_point s low h n i < spec_point s low h n (S i)).
Proof.
  intros n nfft fs low high h scale approach s Hs Hsc Hh H0 H1 H2 H3. pose proof (spec_high_or _ _ _ Hh) as <-.
  assert (Hp : forall i, spec_point s low (or_half high fs) n i < spec_point s low (or_half high fs) n (S i))
    by (intros; apply (mel_point_incr approach); auto).
  split; [|split; [|split; [|split]]]; auto.
  - eexists. apply mel_bank_eq; auto.
  - intros; apply bank_nonneg; auto.
  - eapply mel_point_first; eauto.
  - eapply mel_point_last; eauto; lra.
Qed.
Print Assumptions C17_mel_triangles.
Example C17_mel_example : exists b c, mel_filter_banks 24 512 16000 0 None "descendant" "Oshaghnessy" = Ok (fmat 24 257 b, c) /\
  forall j k, (j < 24)%nat -> 0 <= b j k <= 1.
Proof.
  destruct (C17_mel_triangles 24 512 16000 0 None 8000 "descendant" "Oshaghnessy" oshaghnessy) as ((c & E) & B & _);
    try lra; try lia; [left; auto|cbn; auto|right; split; [auto|lra]|].
  exists (spec_bank oshaghnessy 0 8000 24 (half 512) "descendant"), c. split; [exact E|exact B].
Qed.
Example C16_mel_example : exists B c, mel_filter_banks 24 512 16000 0 None "descendant" "Oshaghnessy" = Ok (B, c) /\
  has_shape B 24 257 /\ List.length c = 24%nat.
Proof.
  destruct C17_mel_example as (b & c & E & _). exists (fmat 24 257 b), c. split; [exact E|].
  destruct (C16_mel_shape _ _ _ _ _ _ _ _ _ E) as (H1 & H2 & _). split; [exact H1|exact H2].
Qed.

Theorem C17_linear_triangles : forall n nfft fs low high h scale,
  In scale scale_names -> spec_high high fs h ->
  0 <= low -> low < h -> h <= IZR fs / 2 -> (0 <= nfft)%Z ->
  (exists c, linear_filter_banks (Z.of_nat n) nfft fs low high scale
    = Ok (fmat n (S (half nfft)) (spec_bank lin_scale low h n (half nfft) scale), c)) /\
  (forall j k, (j < n)%nat -> 0 <= spec_bank lin_scale low h n (half nfft) scale j k <= 1) /\
  spec_point lin_scale low h n 0 = low /\ spec_point lin_scale low h n (n + 1) = h /\
  (forall i, spec_point lin_scale low h n i < spec_point lin_scale low h n (S i)).
Proof.
  intros n nfft fs low high h scale Hsc Hh H0 H1 H2 H3. pose proof (spec_high_or _ _ _ Hh) as <-.
  assert (Hp : forall i, spec_point lin_scale low (or_half high fs) n i < spec_point lin_scale low (or_half high fs) n (S i))
    by (intros; apply lin_point_incr; auto).
  split; [|split; [|split; [|split]]]; auto.
  - eexists. apply lin_bank_eq; auto.
  - intros; apply bank_nonneg; auto.
  - apply lin_point_first.
  - apply lin_point_last.
Qed.
Print Assumptions C17_linear_triangles.
Example C16_linear_example : exists B c, linear_filter_banks 24 512 16000 0 (Some 4000) "ascendant" = Ok (B, c) /\
  has_shape B 24 257 /\ List.length c = 24%nat.
Proof.
  destruct (C17_linear_triangles 24 512 16000 0 (Some 4000) 4000 "ascendant") as ((c & E) & _);
    try lra; try lia; [cbn; auto|left; split; [auto|lra]|].
  do 2 eexists. split; [exact E|]. destruct (C16_linear_shape _ _ _ _ _ _ _ _ E) as (H1 & H2 & _). split; [exact H1|exact H2].
Qed.

(** a case: one linear filter over 0..8 kHz, seen on three columns *)
Example C17_example : exists c, linear_filter_banks 1 4 16000 0 None "constant"
  = Ok ([[Fin 0; Fin 1; Fin 0]], c).
Proof.
  destruct (C17_linear_triangles 1 4 16000 0 None 8000 "constant") as [[c E] _]; try (simpl; lra); try (simpl; auto).
  - right. split; auto. lra.
  - lia.
  - exists c. change (Z.of_nat 1) with 1%Z in E. rewrite E.
    assert (Ei : INR (1 + 1) = 2) by reflexivity.
    change (half 4) with 2%nat. unfold fmat, fvec, spec_bank, spec_col, spec_point, spec_level, lin_scale, spec_scale.
    cbn [map seq fwd bwd String.eqb Ascii.eqb Bool.eqb Nat.add INR]. do 4 f_equal; [|f_equal; f_equal; [|f_equal]]; f_equal.
    + rewrite tri_below by lra. ring.
    + rewrite tri_left by lra. field.
    + rewrite tri_above by lra. ring.
Qed.

(** C18. Centre frequencies. *)
Theorem C18_mel_centres : forall n nfft fs low high h scale approach s,
  spec_mel_scale approach s -> In scale scale_names -> spec_high high fs h ->
  0 <= low -> low < h -> h <= IZR fs / 2 -> (0 <= nfft)%Z ->
  (exists B, mel_filter_banks (Z.of_nat n) nfft fs low high scale approach
    = Ok (B, fvec n (fun j => fwd s low + INR (j + 1) * ((fwd s h - fwd s low) / INR (n + 1))))) /\
  (forall j, (j < n)%nat ->
     fwd s low < fwd s low + INR (j + 1) * ((fwd s h - fwd s low) / INR (n + 1)) < fwd s h) /\
  0 < (fwd s h - fwd s low) / INR (n + 1).
Proof.
  intros n nfft fs low high h scale approach s Hs Hsc Hh H0 H1 H2 H3. pose proof (spec_high_or _ _ _ Hh) as <-.
  assert (Hlt : fwd s low < fwd s (or_half high fs)).
  { destruct (mel_scale_maps _ _ Hs) as (Ha & Hf & Hb). rewrite !Hf. pose proof (mel_D_pos approach).
    apply melR_incr; lra. }
  split; [|split].
  - eexists. rewrite mel_bank_eq with (s := s) by auto. reflexivity.
  - intros j Hj. apply (level_between s low (or_half high fs) n j); auto.
  - apply Rdiv_lt_0_compat; [lra|apply lt_0_INR; lia].
Qed.
Print Assumptions C18_mel_centres.
Example C18_mel_example : exists B c, mel_filter_banks 24 512 16000 300 (Some 7000) "constant" "Lindsay" = Ok (B, fvec 24 c) /\
  forall j, (j < 24)%nat -> fwd lindsay 300 < c j < fwd lindsay 7000.
Proof.
  destruct (C18_mel_centres 24 512 16000 300 (Some 7000) 7000 "constant" "Lindsay" lindsay) as ((B & E) & H & _);
    try lra; try lia; [right; auto|cbn; auto|left; split; [auto|lra]|].
  do 2 eexists. split; [exact E|]. exact H.
Qed.

Theorem C18_linear_centres : forall n nfft fs low high h scale,
  In scale scale_names -> spec_high high fs h ->
  0 <= low -> low < h -> h <= IZR fs / 2 -> (0 <= nfft)%Z ->
  (exists B, linear_filter_banks (Z.of_nat n) nfft fs low high scale
    = Ok (B, fvec n (fun j => low + INR (j + 1) * ((h - low) / INR (n + 1))))) /\
  (forall j, (j < n)%nat -> low < low + INR (j + 1) * ((h - low) / INR (n + 1)) < h) /\
  0 < (h - low) / INR (n + 1).
Proof.
  intros n nfft fs low high h scale Hsc Hh H0 H1 H2 H3. pose proof (spec_high_or _ _ _ Hh) as <-.
  split; [|split].
  - eexists. rewrite lin_bank_eq by auto. reflexivity.
  - intros j Hj. apply (level_between lin_scale low (or_half high fs) n j); auto.
  - apply Rdiv_lt_0_compat; [lra|apply lt_0_INR; lia].
Qed.
Print Assumptions C18_linear_centres.

Example C18_example : exists B, linear_filter_banks 3 512 16000 0 None "constant"
  = Ok (B, [Fin 2000; Fin 4000; Fin 6000]).
Proof.
  destruct (C18_linear_centres 3 512 16000 0 None 8000 "constant") as [[B E] _]; try (simpl; lra); try (simpl; auto).
  - right. split; auto. lra.
  - lia.
  - exists B. change (Z.of_nat 3) with 3%Z in E. rewrite E. unfold fvec. simpl map. feq; simpl; lra.
Qed.

(** C19. Constant-scale triangles form a partition of unity between the outer centres
    and never sum to more than one. *)
Theorem C19_mel_partition_of_unity : forall n nfft fs low high h approach s,
  spec_mel_scale approach s -> spec_high high fs h -> (1 <= n)%nat ->
  0 <= low -> low < h -> h <= IZR fs / 2 -> (0 <= nfft)%Z ->
  exists b c, mel_filter_banks (Z.of_nat n) nfft fs low high "constant" approach
    = Ok (fmat n (S (half nfft)) b, c) /\
  forall k, 0 <= bigsum n (fun j => b j k) <= 1 /\
    (spec_point s low h n 1 <= spec_col low h (half nfft) k <= spec_point s low h n n ->
     bigsum n (fun j => b j k) = 1).
Proof.
  intros n nfft fs low high h approach s Hs Hh Hn H0 H1 H2 H3. pose proof (spec_high_or _ _ _ Hh) as <-.
  eexists _, _. split; [apply mel_bank_eq; eauto; simpl; auto|].
  intros k. apply bank_sum; auto. intros; apply (mel_point_incr approach); auto.
Qed.
Print Assumptions C19_mel_partition_of_unity.
Example C19_mel_example : exists b c, mel_filter_banks 24 512 16000 0 None "constant" "Oshaghnessy" = Ok (fmat 24 257 b, c) /\
  forall k, 0 <= bigsum 24 (fun j => b j k) <= 1.
Proof.
  destruct (C19_mel_partition_of_unity 24 512 16000 0 None 8000 "Oshaghnessy" oshaghnessy) as (b & c & E & H);
    try lra; try lia; [left; auto|right; split; [auto|lra]|].
  exists b, c. split; [exact E|]. intros k. apply H.
Qed.

Theorem C19_linear_partition_of_unity : forall n nfft fs low high h,
  spec_high high fs h -> (1 <= n)%nat ->
  0 <= low -> low < h -> h <= IZR fs / 2 -> (0 <= nfft)%Z ->
  exists b c, linear_filter_banks (Z.of_nat n) nfft fs low high "constant"
    = Ok (fmat n (S (half nfft)) b, c) /\
  forall k, 0 <= bigsum n (fun j => b j k) <= 1 /\
    (spec_point lin_scale low h n 1 <= spec_col low h (half nfft) k <= spec_point lin_scale low h n n ->
     bigsum n (fun j => b j k) = 1).
Proof.
  intros n nfft fs low high h Hh Hn H0 H1 H2 H3. pose proof (spec_high_or _ _ _ Hh) as <-.
  eexists _, _. split; [apply lin_bank_eq; eauto; simpl; auto|].
  intros k. apply bank_sum; auto. intros; apply lin_point_incr; auto.
Qed.
Print Assumptions C19_linear_partition_of_unity.
Example C19_linear_example : exists b c, linear_filter_banks 3 512 16000 0 None "constant" = Ok (fmat 3 257 b, c) /\
  bigsum 3 (fun j => b j 128%nat) = 1.
Proof.
  destruct (C19_linear_partition_of_unity 3 512 16000 0 None 8000) as (b & c & E & H); try lra; try lia; [right; split; [auto|lra]|].
  exists b, c. split; [exact E|]. apply (H 128%nat). unfold spec_point, spec_level, spec_col. change (half 512) with 256%nat.
  rewrite !INR_IZR_INZ. cbn. lra.
Qed.

(** column 128 of 257 (4000 Hz) lies between the centres of three linear filters *)
Example C19_example :
  spec_point lin_scale 0 8000 3 1 <= spec_col 0 8000 (half 512) 128 <= spec_point lin_scale 0 8000 3 3.
Proof.
  unfold spec_point, spec_level, lin_scale, spec_col. change (half 512) with 256%nat.
  rewrite !INR_IZR. simpl. lra.
Qed.

(** C20. Validation of the band (bark and gammatone: PropertiesBark.v, PropertiesGammatone.v). *)
Theorem C20_mel_validation : forall nfilts nfft fs low high h scale approach, spec_high high fs h ->
  (mel_filter_banks nfilts nfft fs low high scale approach
     = Raise (ParameterError "minimal frequency cannot be less than zero.") <-> low < 0) /\
  (mel_filter_banks nfilts nfft fs low high scale approach
     = Raise (ParameterError "maximum frequency cannot be greater than half sampling frequency.")
   <-> 0 <= low /\ IZR fs / 2 < h).
Proof.
  intros nfilts nfft fs low high h scale approach Hh. pose proof (spec_high_or _ _ _ Hh) as <-. unfold mel_filter_banks. split.
  - apply helper_low_iff.
  - apply helper_high_iff.
Qed.
Print Assumptions C20_mel_validation.

Theorem C20_linear_validation : forall nfilts nfft fs low high h scale, spec_high high fs h ->
  (linear_filter_banks nfilts nfft fs low high scale
     = Raise (ParameterError "minimal frequency cannot be less than zero.") <-> low < 0) /\
  (linear_filter_banks nfilts nfft fs low high scale
     = Raise (ParameterError "maximum frequency cannot be greater than half sampling frequency.")
   <-> 0 <= low /\ IZR fs / 2 < h).
Proof.
  intros nfilts nfft fs low high h scale Hh. pose proof (spec_high_or _ _ _ Hh) as <-. unfold linear_filter_banks.
  pose proof (helper_low_iff nfilts nfft fs low high scale "lin" "Oshaghnessy") as H1.
  pose proof (helper_high_iff nfilts nfft fs low high scale "lin" "Oshaghnessy") as H2.
  destruct (mel_filter_banks_helper nfilts nfft fs low high scale "lin" "Oshaghnessy") as [[B c]|e]; cbn [rbind fst snd].
  - split; (split; [discriminate|]); intros H; [apply H1 in H|apply H2 in H]; discriminate.
  - split; [rewrite <- H1|rewrite <- H2]; split; intros H; injection H as ->; auto.
Qed.
Print Assumptions C20_linear_validation.

Theorem C20_inverse_mel_validation : forall nfilts nfft fs low high h scale approach,
  spec_high high fs h -> In scale scale_names ->
  (inverse_mel_filter_banks nfilts nfft fs low high scale approach
     = Raise (ParameterError "minimal frequency cannot be less than zero.") <-> low < 0) /\
  (inverse_mel_filter_banks nfilts nfft fs low high scale approach
     = Raise (ParameterError "maximum frequency cannot be greater than half sampling frequency.")
   <-> 0 <= low /\ IZR fs / 2 < h).
Proof. exact inverse_validation. Qed.
Print Assumptions C20_inverse_mel_validation.
Example C20_inverse_example :
  inverse_mel_filter_banks 24 512 16000 0 (Some 8001) "constant" "Lindsay"
    = Raise (ParameterError "maximum frequency cannot be greater than half sampling frequency.").
Proof.
  apply (C20_inverse_mel_validation 24 512 16000 0 (Some 8001) 8001 "constant" "Lindsay"); [left; split; [auto|lra]|cbn; auto|lra].
Qed.

Example C20_example :
  mel_filter_banks 24 512 16000 (-1) None "constant" "Oshaghnessy"
    = Raise (ParameterError "minimal frequency cannot be less than zero.") /\
  linear_filter_banks 24 512 16000 0 (Some 8001) "constant"
    = Raise (ParameterError "maximum frequency cannot be greater than half sampling frequency.").
Proof.
  split.
  - apply (C20_mel_validation 24 512 16000 (-1) None 8000); [right; split; auto; lra | lra].
  - apply (C20_linear_validation 24 512 16000 0 (Some 8001) 8001); [left; split; auto; lra | lra].
Qed.

(** C21. The columns are the FFT bins when low = 0 and high is the last bin's frequency... *)
Theorem C21_columns_are_bins : forall fs nfft k, (2 <= nfft)%Z ->
  spec_col 0 (INR (half nfft) * IZR fs / IZR nfft) (half nfft) k = INR k * IZR fs / IZR nfft.
Proof. exact col_bin. Qed.
Print Assumptions C21_columns_are_bins.

(** ... in particular for the default band and an even nfft, where entry (j,k) of the
    linear and mel banks is filter j's triangle at bin frequency k*fs/nfft. *)
Theorem C21_default_even : forall n fs m scale s approach, (1 <= m)%nat -> (0 < fs)%Z ->
  In scale scale_names -> spec_mel_scale approach s ->
  let nfft := Z.of_nat (2 * m) in
  let entry sc j k := spec_scale scale n j *
    spec_tri (spec_point sc 0 (IZR fs / 2) n j) (spec_point sc 0 (IZR fs / 2) n (j + 1))
             (spec_point sc 0 (IZR fs / 2) n (j + 2)) (INR k * IZR fs / IZR nfft) in
  (exists c, mel_filter_banks (Z.of_nat n) nfft fs 0 None scale approach = Ok (fmat n (S m) (entry s), c)) /\
  (exists c, linear_filter_banks (Z.of_nat n) nfft fs 0 None scale = Ok (fmat n (S m) (entry lin_scale), c)).
Proof. exact default_even. Qed.
Print Assumptions C21_default_even.
Example C21_example : spec_col 0 (INR (half 512) * IZR 16000 / IZR 512) (half 512) 100 = 3125 /\
  exists b c, linear_filter_banks 24 512 16000 0 None "constant" = Ok (fmat 24 257 b, c).
Proof.
  split.
  - rewrite C21_columns_are_bins by lia. rewrite INR_IZR_INZ. cbn. lra.
  - destruct (C21_default_even 24 16000 256 "constant" oshaghnessy "Oshaghnessy") as (_ & c & E); try lia; [cbn; auto|left; auto|].
    do 2 eexists. exact E.
Qed.

(** C21. For every odd nfft >= 3 the documented correspondence fails: the last column of
    a one-filter linear bank is 0 although the filter is positive at that bin. *)
Theorem C21_odd_nfft_refuted : forall fs m, (1 <= m)%nat -> (0 < fs)%Z ->
  let nfft := Z.of_nat (2 * m + 1) in
  exists b c, linear_filter_banks 1 nfft fs 0 None "constant" = Ok (fmat 1 (S m) b, c) /\
    b 0%nat m = 0 /\
    0 < spec_tri 0 (IZR fs / 4) (IZR fs / 2) (INR m * IZR fs / IZR nfft).
Proof. exact odd_refuted. Qed.
Print Assumptions C21_odd_nfft_refuted.

(** C21. The same for every low > 0, already with nfft = 4: column 1 holds the filter's
    peak although bin 1 (fs/4) lies below the centre. *)
Theorem C21_positive_low_refuted : forall fs low, 0 < low -> low < IZR fs / 2 ->
  exists b c, linear_filter_banks 1 4 fs low None "constant" = Ok (fmat 1 3 b, c) /\
    b 0%nat 1%nat = 1 /\
    spec_tri low ((low + IZR fs / 2) / 2) (IZR fs / 2) (INR 1 * IZR fs / 4) < 1.
Proof. exact low_refuted. Qed.
Print Assumptions C21_positive_low_refuted.

(** C22. An inverted band gives an all-zero bank, without an error. *)
Theorem C22_mel_inverted_band : forall n nfft fs low high h scale approach,
  In approach ["Oshaghnessy"; "Lindsay"]%string -> In scale scale_names -> spec_high high fs h ->
  0 < h -> h < low -> h <= IZR fs / 2 -> (0 <= nfft)%Z ->
  exists c, mel_filter_banks (Z.of_nat n) nfft fs low high scale approach
  = Ok (fmat n (S (half nfft)) (fun _ _ => 0), c).
Proof. exact mel_inverted. Qed.
Print Assumptions C22_mel_inverted_band.

Theorem C22_linear_inverted_band : forall n nfft fs low high h scale,
  In scale scale_names -> spec_high high fs h ->
  0 <= low -> h < low -> h <= IZR fs / 2 -> (0 <= nfft)%Z ->
  exists c, linear_filter_banks (Z.of_nat n) nfft fs low high scale
  = Ok (fmat n (S (half nfft)) (fun _ _ => 0), c).
Proof. exact lin_inverted. Qed.
Print Assumptions C22_linear_inverted_band.
Example C22_linear_example : exists c, linear_filter_banks 24 512 16000 4000 (Some 1000) "constant" = Ok (fmat 24 257 (fun _ _ => 0), c).
Proof.
  apply (C22_linear_inverted_band 24 512 16000 4000 (Some 1000) 1000); try lra; try lia; [cbn; auto|left; split; [auto|lra]].
Qed.

Example C22_example : exists c, mel_filter_banks 24 512 16000 4000 (Some 1000) "constant" "Oshaghnessy"
  = Ok (fmat 24 257 (fun _ _ => 0), c).
Proof.
  apply (C22_mel_inverted_band 24 512 16000 4000 (Some 1000) 1000); simpl; auto; try lra; try lia.
  left. split; auto; try lra.
Qed.

(** C23. Inverse mel filters mirror the mel filters, with ascending and descending
    scaling exchanged. *)
Theorem C23_mirror : forall nfilts nfft fs low high scale approach B c,
  (0 <= nfft)%Z ->
  inverse_mel_filter_banks nfilts nfft fs low high scale approach = Ok (B, c) ->
  exists scale' B0 c0,
    ((scale = "ascendant" /\ scale' = "descendant") \/ (scale = "descendant" /\ scale' = "ascendant") \/
     (scale = "constant" /\ scale' = "constant"))%string /\
    mel_filter_banks nfilts nfft fs low high scale' approach = Ok (B0, c0) /\
    forall j k, (j < Z.to_nat nfilts)%nat -> (k <= half nfft)%nat ->
      nth k (nth j B []) NaN = fabs (nth (half nfft - k) (nth j B0 []) NaN).
Proof.
  intros nfilts nfft fs low high scale approach B c Hn H.
  apply inverse_inv in H as (sc' & B0 & c0 & Hsc & H & -> & _).
  exists sc', B0, c0. split; [apply inverse_scale_names; auto|]. split; auto.
  intros j k Hj Hk. apply helper_shape in H as (HB & _). rewrite rows_of_nfft in HB by auto.
  apply (inverse_entry B0 (Z.to_nat nfilts)); auto.
Qed.
Print Assumptions C23_mirror.

(** C23. On a valid band the absolute value is idle: each entry is the mirrored entry itself. *)
Theorem C23_mirror_valid : forall n nfft fs low h scale scale' approach s,
  spec_mel_scale approach s ->
  ((scale = "ascendant" /\ scale' = "descendant") \/ (scale = "descendant" /\ scale' = "ascendant") \/
     (scale = "constant" /\ scale' = "constant"))%string ->
  0 <= low -> low < h -> h <= IZR fs / 2 -> (0 <= nfft)%Z ->
  exists b c c', mel_filter_banks (Z.of_nat n) nfft fs low (Some h) scale' approach = Ok (fmat n (S (half nfft)) b, c) /\
    inverse_mel_filter_banks (Z.of_nat n) nfft fs low (Some h) scale approach
    = Ok (fmat n (S (half nfft)) (fun j k => b j (half nfft - k)%nat), c').
Proof.
  intros n nfft fs low h scale scale' approach s Hs Hsc H0 H1 H2 H3.
  assert (Ho : or_half (Some h) fs = h) by (simpl; destruct (Req_EM_T h 0); lra).
  assert (Hin : In scale' scale_names) by (destruct Hsc as [[_ ->]|[[_ ->]|[_ ->]]]; simpl; auto).
  assert (Hi : inverse_scale scale = Ok scale') by (destruct Hsc as [[-> ->]|[[-> ->]|[-> ->]]]; reflexivity).
  eexists _, _, _. split.
  - rewrite mel_bank_eq with (s := s); rewrite ?Ho; auto.
  - rewrite inverse_eq with (s := s) (scale' := scale'); rewrite ?Ho; auto.
Qed.
Print Assumptions C23_mirror_valid.

Example C23_example : exists b c c',
  mel_filter_banks 24 512 16000 0 (Some 8000) "descendant" "Lindsay" = Ok (fmat 24 257 b, c) /\
  inverse_mel_filter_banks 24 512 16000 0 (Some 8000) "ascendant" "Lindsay"
  = Ok (fmat 24 257 (fun j k => b j (256 - k)%nat), c').
Proof.
  apply (C23_mirror_valid 24 512 16000 0 8000 "ascendant" "descendant" "Lindsay" lindsay); try lra; try lia; auto.
  right; auto.
Qed.

(** C24. Without an explicit high_freq the inverse mel bank never returns... *)
Theorem C24_never_returns : forall nfilts nfft fs low scale approach B c, (1 <= nfilts)%Z ->
  inverse_mel_filter_banks nfilts nfft fs low None scale approach <> Ok (B, c).
Proof. exact inverse_none_never. Qed.
Print Assumptions C24_never_returns.

(** ... and otherwise valid arguments give a TypeError. *)
Theorem C24_type_error : forall nfilts nfft fs low scale approach,
  In approach ["Oshaghnessy"; "Lindsay"]%string -> In scale scale_names ->
  0 <= low -> (1 <= nfilts)%Z -> (0 <= nfft)%Z ->
  inverse_mel_filter_banks nfilts nfft fs low None scale approach = Raise TypeError.
Proof. exact inverse_none. Qed.
Print Assumptions C24_type_error.

Example C24_example : inverse_mel_filter_banks 24 512 16000 0 None "constant" "Oshaghnessy" = Raise TypeError.
Proof. apply C24_type_error; simpl; auto; try lra; lia. Qed.

(** C25. The returned centre is mel(high - c_j); the mirrored triangle peaks at
    low + high - c_j; the two agree exactly when low = 0. *)
Theorem C25_centres : forall n nfft fs low h scale scale' approach s,
  spec_mel_scale approach s -> inverse_scale scale = Ok scale' -> (2 <= nfft)%Z ->
  0 <= low -> low < h -> h <= IZR fs / 2 ->
  let p := spec_point s low h n in
  inverse_mel_filter_banks (Z.of_nat n) nfft fs low (Some h) scale approach
  = Ok (fmat n (S (half nfft)) (fun j k => spec_scale scale' n j *
          spec_tri (low + h - p (j + 2)%nat) (low + h - p (j + 1)%nat) (low + h - p j) (spec_col low h (half nfft) k)),
        fvec n (fun j => fwd s (h - p (j + 1)%nat))) /\
  forall j, (j < n)%nat -> (fwd s (h - p (j + 1)%nat) = fwd s (low + h - p (j + 1)%nat) <-> low = 0).
Proof. exact inverse_centres. Qed.
Print Assumptions C25_centres.
Example C25_example : exists B c, inverse_mel_filter_banks 24 512 16000 300 (Some 8000) "constant" "Oshaghnessy" = Ok (B, fvec 24 c) /\
  (forall j, (j < 24)%nat -> c j <> fwd oshaghnessy (300 + 8000 - spec_point oshaghnessy 300 8000 24 (j + 1))).
Proof.
  destruct (C25_centres 24 512 16000 300 8000 "constant" "constant" "Oshaghnessy" oshaghnessy) as (E & H);
    try lra; try lia; [left; auto|reflexivity|].
  do 2 eexists. split; [exact E|]. intros j Hj K. apply (H j Hj) in K. lra.
Qed.
Example C16_inverse_example : exists B c, inverse_mel_filter_banks 24 512 16000 300 (Some 8000) "constant" "Oshaghnessy" = Ok (B, c) /\
  has_shape B 24 257 /\ List.length c = 24%nat.
Proof.
  destruct C25_example as (B & c & E & _). exists B, (fvec 24 c). split; [exact E|].
  destruct (C16_inverse_mel_shape _ _ _ _ _ _ _ _ _ E) as (H1 & H2 & _). split; [exact H1|exact H2].
Qed.

(** C26. Scaling vectors... *)
Theorem C26_scale_vectors : forall name n, In name scale_names ->
  scale_fbank name (Z.of_nat n) = Ok (fvec n (spec_scale name n)) /\
  forall j, (j < n)%nat -> 0 < spec_scale name n j <= 1.
Proof. intros. split; [apply scale_fbank_ok; auto | apply spec_scale_range]. Qed.
Print Assumptions C26_scale_vectors.

Theorem C26_descending_mirrors_ascending : forall n j, (j < n)%nat ->
  spec_scale "descendant" n j = spec_scale "ascendant" n (n - 1 - j).
Proof. exact spec_scale_mirror. Qed.
Print Assumptions C26_descending_mirrors_ascending.

Theorem C26_unknown_scale : forall name n, ~ In name scale_names -> (0 <= n)%Z ->
  scale_fbank name n = Raise KeyError.
Proof. exact scale_fbank_bad. Qed.
Print Assumptions C26_unknown_scale.

(** ... and their effect on a bank: every entry of row j is multiplied by factor j. *)
Theorem C26_mel_scaling : forall nfilts nfft fs low high scale approach B c,
  mel_filter_banks nfilts nfft fs low high scale approach = Ok (B, c) ->
  exists B0, mel_filter_banks nfilts nfft fs low high "constant" approach = Ok (B0, c) /\
    forall j k, (j < Z.to_nat nfilts)%nat -> (k < Z.to_nat (nfft / 2 + 1))%nat ->
      nth k (nth j B []) NaN = fmul (nth k (nth j B0 []) NaN) (Fin (spec_scale scale (Z.to_nat nfilts) j)).
Proof. exact mel_scaled. Qed.
Print Assumptions C26_mel_scaling.
Example C26_mel_scaling_example : exists B B0 c, mel_filter_banks 24 512 16000 0 None "descendant" "Oshaghnessy" = Ok (B, c) /\
  mel_filter_banks 24 512 16000 0 None "constant" "Oshaghnessy" = Ok (B0, c) /\
  nth 7 (nth 3 B []) NaN = fmul (nth 7 (nth 3 B0 []) NaN) (Fin (spec_scale "descendant" 24 3)).
Proof.
  destruct C17_mel_example as (b & c & E & _). destruct (C26_mel_scaling _ _ _ _ _ _ _ _ _ E) as (B0 & E0 & H).
  do 3 eexists. split; [exact E|]. split; [exact E0|]. apply H; cbn; lia.
Qed.

Theorem C26_linear_scaling : forall nfilts nfft fs low high scale B c,
  linear_filter_banks nfilts nfft fs low high scale = Ok (B, c) ->
  exists B0, linear_filter_banks nfilts nfft fs low high "constant" = Ok (B0, c) /\
    forall j k, (j < Z.to_nat nfilts)%nat -> (k < Z.to_nat (nfft / 2 + 1))%nat ->
      nth k (nth j B []) NaN = fmul (nth k (nth j B0 []) NaN) (Fin (spec_scale scale (Z.to_nat nfilts) j)).
Proof. exact lin_scaled. Qed.
Print Assumptions C26_linear_scaling.
Example C26_scaling_example : exists B B0 c, linear_filter_banks 2 4 16000 0 None "ascendant" = Ok (B, c) /\
  linear_filter_banks 2 4 16000 0 None "constant" = Ok (B0, c) /\
  nth 1 (nth 0 B []) NaN = fmul (nth 1 (nth 0 B0 []) NaN) (Fin (spec_scale "ascendant" 2 0)).
Proof.
  destruct (C17_linear_triangles 2 4 16000 0 None 8000 "ascendant") as ((c & E) & _);
    try lra; try lia; [cbn; auto|right; split; [auto|lra]|].
  destruct (C26_linear_scaling _ _ _ _ _ _ _ _ E) as (B0 & E0 & H). do 3 eexists. split; [exact E|]. split; [exact E0|]. apply H; cbn; lia.
Qed.

Example C26_example : scale_fbank "ascendant" 2 = Ok [Fin (1 / 2); Fin 1] /\ scale_fbank "up" 2 = Raise KeyError.
Proof.
  split; [|apply C26_unknown_scale; [simpl; intuition discriminate | lia]].
  change 2%Z with (Z.of_nat 2). rewrite (proj1 (C26_scale_vectors "ascendant" 2 ltac:(simpl; auto))).
  unfold fvec, spec_scale. simpl. feq; lra.
Qed.

(** C77. low = high: every entry of the linear bank is NaN, without an error. *)
Theorem C77_empty_band_is_nan : forall n nfft fs high h scale,
  In scale scale_names -> spec_high high fs h -> 0 <= h -> h <= IZR fs / 2 -> (0 <= nfft)%Z ->
  exists c, linear_filter_banks (Z.of_nat n) nfft fs h high scale
  = Ok (repeat (repeat NaN (S (half nfft))) n, c).
Proof. exact lin_empty. Qed.
Print Assumptions C77_empty_band_is_nan.

Example C77_example : exists c, linear_filter_banks 2 2 16000 8000 None "constant"
  = Ok ([[NaN; NaN]; [NaN; NaN]], c).
Proof.
  apply (C77_empty_band_is_nan 2 2 16000 None 8000 "constant"); simpl; auto; try lra; try lia.
  right. split; auto. lra.
Qed.
