(** * C139, C140: signals given as 2-D arrays *)
From Coq Require Import Reals ZArith List String Bool Lia Lra.
From Flocq Require Import Core.Raux.
From Verif Require Import Base BaseFacts SpecBase SpecMat SpecFeatures MatFacts Preprocessing PreprocessingFacts Features Extractors Lpc
  Channels SpecChannels ChannelsFacts.
Import ListNotations.

(** ** C139: an Nx1 array is framed like the 1-D array, but pre-emphasis does nothing to it *)
Theorem C139_pre_emphasis : forall x l coeff, x <> [] -> pre_emphasis_2d (column x l) coeff = Ok (column x COrder).
Proof. exact pre_column. Qed.
Print Assumptions C139_pre_emphasis.
Theorem C139_framing : forall `{Env} x l fs wl wh, framing_2d (column x l) fs wl wh = framing x fs wl wh.
Proof. exact @framing_column. Qed.
Print Assumptions C139_framing.
(** whatever pre_emph and pre_emph_coeff are, the result is that of the 1-D signal with pre_emph=False *)
Theorem C139_spectrogram : forall `{Env} sp x l a, x <> [] ->
  spectrogram_2d sp (column x l) a = spectrogram sp x (without_pre a).
Proof. exact @spectrogram_column. Qed.
Print Assumptions C139_spectrogram.
Theorem C139_features : forall `{Env} e x l a c, x <> [] ->
  run_2d e (column x l) a c = run e x (without_pre a) c.
Proof. exact @run_column. Qed.
Print Assumptions C139_features.
Theorem C139_lpc : forall `{Env} x l fs order pe coeff w, x <> [] ->
  lpc_2d (column x l) fs order pe w = lpc x fs order false coeff w.
Proof. exact @lpc_column. Qed.
Print Assumptions C139_lpc.
(** the frames agree with those of the 1-D signal with pre-emphasis for (nearly) silent signals only *)
Theorem C139_same_frames : forall `{Env} a N L hop x l coeff, well_framed a N L hop -> s_pre_emph a = true -> (hop <= L)%nat ->
  exists fr w fr' w', framed_2d (column (fvec N x) l) (s_fs a) true coeff (s_window a) = Ok (fr, w) /\
    framed (fvec N x) (s_fs a) true coeff (s_window a) = Ok (fr', w') /\
    (fr = fr' <-> forall t, (S t < (frame_count N L hop - 1) * hop + L)%nat -> (coeff * x t = 0)%R).
Proof. exact @column_differs. Qed.
Print Assumptions C139_same_frames.
Example C139_case :
  let x := map Fin [1; 1; 1]%R in
  pre_emphasis x 1 = Ok (map Fin [1; 0; 0]%R) /\
  pre_emphasis_2d (column x COrder) 1 = Ok (column x COrder) /\
  well_framed (H := exact_env) (mkS 1000 true 1 (Some (mkWindow 0.002 0.001 "hamming")) 2 4 0 None "constant" None "Oshaghnessy") 3 2 1.
Proof.
  split; [|split].
  - unfold pre_emphasis. cbn [map]. f_equal. unfold fir. cbn [List.length seq map Nat.min nth Nat.sub].
    unfold fsum, f1, f0. cbn [fold_right fmul fadd fneg]. cbn [map]. repeat f_equal; lra.
  - apply C139_pre_emphasis. discriminate.
  - unfold well_framed, window_of, flen. cbn [s_window s_fs win_len win_hop win_type rnd exact_env].
    replace (0.002 * 1000)%R with (IZR 2) by lra. replace (0.001 * 1000)%R with (IZR 1) by lra. rewrite !Ztrunc_IZR.
    split; [lra|]. do 3 (split; [auto|]). split; [lia|]. unfold window_names. simpl. tauto.
Qed.

(** ** C140: several channels *)
(** N rows of c samples: either frames come from outside of the array, or they show the first
    channel alone *)
Theorem C140_interleaved : forall `{Env} s fs wl wh, regular s -> layout_of s = COrder -> (1 <= cols2 s)%nat -> (wh <= wl)%R ->
  let N := zlen (rows2 s) in let c := Z.of_nat (cols2 s) in
  let L := Ztrunc (rnd (wl * IZR fs)) in let hop := Ztrunc (rnd (wh * IZR fs)) in
  (1 <= hop)%Z -> (1 <= L <= N * c)%Z ->
  let reach := ((N * c - L) / hop * hop + L)%Z in
  ((reach <= N)%Z -> exists frames, framing_2d s fs wl wh = Ok (frames, L) /\
     zlen frames = ((N * c - L) / hop + 1)%Z /\
     forall i j, (0 <= i < zlen frames)%Z -> (0 <= j < L)%Z ->
       nth (Z.to_nat j) (nth (Z.to_nat i) frames []) NaN = sample s (Z.to_nat (i * hop + j)) 0) /\
  ((N < reach)%Z -> framing_2d s fs wl wh = Raise OutOfBoundsRead).
Proof. exact @interleaved. Qed.
Print Assumptions C140_interleaved.
(** With two or more channels the second case is the only one: whenever the frames are not longer than
    the whole array and the hop is not longer than a frame, the last frame reaches outside, and no
    spectrogram, extractor or lpc gives a result. *)
Theorem C140_stereo_refuted : forall `{Env} s a, regular s -> (2 <= cols2 s)%nat -> (s_pre_emph a = true \/ layout_of s = COrder) ->
  (win_hop (window_of a) <= win_len (window_of a))%R ->
  (1 <= Ztrunc (rnd (win_hop (window_of a) * IZR (s_fs a))) <= Ztrunc (rnd (win_len (window_of a) * IZR (s_fs a))))%Z ->
  (Ztrunc (rnd (win_len (window_of a) * IZR (s_fs a))) <= zlen (rows2 s) * Z.of_nat (cols2 s))%Z ->
  (forall e c r, run_2d e s a c <> Ok r) /\ (forall sp r, spectrogram_2d sp s a <> Ok r) /\
  (forall order, lpc_2d s (s_fs a) order (s_pre_emph a) (s_window a) = Raise OutOfBoundsRead).
Proof. exact @stereo_nothing. Qed.
Print Assumptions C140_stereo_refuted.
(** one row per channel (1xN, 2xN, as some libraries return them): a frame longer than the number
    of channels is not in the array, and no features come out *)
Theorem C140_channels_first_refuted : forall `{Env} e s a c, regular s -> (1 <= cols2 s)%nat ->
  (s_pre_emph a = true \/ layout_of s = COrder) ->
  (win_hop (window_of a) <= win_len (window_of a))%R ->
  (1 <= Ztrunc (rnd (win_hop (window_of a) * IZR (s_fs a))))%Z ->
  (zlen (rows2 s) < Ztrunc (rnd (win_len (window_of a) * IZR (s_fs a))) <= zlen (rows2 s) * Z.of_nat (cols2 s))%Z ->
  forall r, run_2d e s a c <> Ok r.
Proof. exact @long_no_features. Qed.
Print Assumptions C140_channels_first_refuted.
(** an array stored channel after channel, without pre-emphasis: the channels are joined end to end *)
Theorem C140_joined : forall `{Env} s fs wl wh frames L, layout_of s = FOrder -> framing_2d s fs wl wh = Ok (frames, L) ->
  let N := zlen (rows2 s) in let hop := Ztrunc (rnd (wh * IZR fs)) in
  (0 < hop)%Z -> zlen frames = ((N * Z.of_nat (cols2 s) - L) / hop + 1)%Z /\
  forall i j, (0 <= i < zlen frames)%Z -> (0 <= j < L)%Z ->
    nth (Z.to_nat j) (nth (Z.to_nat i) frames []) NaN
    = sample s (Z.to_nat ((i * hop + j) mod N)) (Z.to_nat ((i * hop + j) / N)).
Proof. exact @planar. Qed.
Print Assumptions C140_joined.
(** pre-emphasis subtracts the channel before, not the sample before *)
Theorem C140_pre_emphasis : forall s coeff r, pre_emphasis_2d s coeff = Ok r -> regular s ->
  lay2 r = COrder /\ cols2 r = cols2 s /\ List.length (rows2 r) = List.length (rows2 s) /\ regular r /\
  forall t, (t < List.length (rows2 s))%nat -> sample r t 0 = sample s t 0 /\
    forall k, (S k < cols2 s)%nat -> sample r t (S k) = fsub (sample s t (S k)) (fmul (Fin coeff) (sample s t k)).
Proof. exact pre_across. Qed.
Print Assumptions C140_pre_emphasis.

(** two channels of three samples *)
Definition stereo (l : layout) : array2 := mkArray [[Fin 1; Fin 10]; [Fin 2; Fin 20]; [Fin 3; Fin 30]] 2 l.
Example C140_case : let _ := exact_env in
  regular (stereo COrder) /\ layout_of (stereo COrder) = COrder /\ layout_of (stereo FOrder) = FOrder /\
  framing_2d (stereo COrder) 1000 0.003 0.002 = Raise OutOfBoundsRead /\
  framing_2d (stereo COrder) 1000 0.003 0.003 = Raise OutOfBoundsRead /\
  framing_2d (stereo FOrder) 1000 0.004 0.002 = Ok ([map Fin [1; 2; 3; 10]; map Fin [3; 10; 20; 30]]%R, 4%Z).
Proof.
  assert (Hr : forall l, regular (stereo l)) by (intros; repeat constructor).
  assert (F : forall wl wh L hop, (wl * 1000 = IZR L)%R -> (wh * 1000 = IZR hop)%R ->
    flen (H := exact_env) 1000 wl = L /\ flen (H := exact_env) 1000 wh = hop).
  { intros wl wh L hop HL Hh. unfold flen. cbn [rnd exact_env]. rewrite HL, Hh, !Ztrunc_IZR. auto. }
  cbv zeta. split; [apply Hr|]. split; [reflexivity|]. split; [reflexivity|]. split; [|split].
  - destruct (F 0.003%R 0.002%R 3%Z 2%Z ltac:(lra) ltac:(lra)) as [F1 F2].
    destruct (interleaved (H := exact_env) (stereo COrder) 1000 0.003 0.002 (Hr _) eq_refl) as [_ HO]; rewrite ?F1, ?F2; cbn; try lia; try lra.
    apply HO. rewrite F1, F2. cbn. lia.
  - destruct (F 0.003%R 0.003%R 3%Z 3%Z ltac:(lra) ltac:(lra)) as [F1 F2].
    destruct (interleaved (H := exact_env) (stereo COrder) 1000 0.003 0.003 (Hr _) eq_refl) as [_ HO]; rewrite ?F1, ?F2; cbn; try lia; try lra.
    apply HO. rewrite F1. cbn. lia.
  - destruct (F 0.004%R 0.002%R 4%Z 2%Z ltac:(lra) ltac:(lra)) as [F1 F2].
    unfold framing_2d. cbn [first_stride]. rewrite (framing_strided_eq (H := exact_env) _ _ _ _ _ [map Fin [1; 2; 3; 10]; map Fin [3; 10; 20; 30]]%R); rewrite ?F1, ?F2; auto.
    + lra.
    + lia.
    + discriminate.
Qed.
