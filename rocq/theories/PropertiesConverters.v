(** * Property theorems: frequency scale conversions (C11-C15, C76) *)
From Coq Require Import Reals ZArith List String Bool Lia Lra.
From Verif Require Import Base BaseFacts Converters ConvertersFacts.
Import ListNotations.
Local Open Scope R_scope.
Local Open Scope string_scope.

(** the named scales with their singularities *)
Definition mel_floor (approach : string) (lo : R) : Prop :=
  (approach = "Oshaghnessy" /\ lo = -700) \/ (approach = "Lindsay" /\ lo = -625).

Lemma mel_floor_facts : forall a lo, mel_floor a lo -> In a mel_names /\ lo = - mel_D a.
Proof.
  intros a lo [[-> ->]|[-> ->]]; split; simpl; auto; unfold mel_D; simpl; lra.
Qed.

(** C11. hz to mel and back is the identity above the singularity. *)
Theorem C11_mel_of_hz_inverse : forall approach lo f, mel_floor approach lo -> lo < f ->
  (do m <- hz2mel (Fin f) approach ; mel2hz m approach) = Ok (Fin f).
Proof.
  intros a lo f H Hf. apply mel_floor_facts in H as [Ha ->].
  rewrite hz2mel_eq by auto. simpl. rewrite mel2hz_eq by auto. rewrite melinv_mel by auto. reflexivity.
Qed.
Print Assumptions C11_mel_of_hz_inverse.

(** C11. mel to hz and back is the identity everywhere. *)
Theorem C11_hz_of_mel_inverse : forall approach lo m, mel_floor approach lo ->
  (do f <- mel2hz (Fin m) approach ; hz2mel f approach) = Ok (Fin m).
Proof.
  intros a lo m H. apply mel_floor_facts in H as [Ha ->].
  rewrite mel2hz_eq by auto. simpl. rewrite hz2mel_eq by (auto; apply melinv_range).
  rewrite mel_melinv. reflexivity.
Qed.
Print Assumptions C11_hz_of_mel_inverse.

(** C11. Any other name raises KeyError, in both directions and for every value. *)
Theorem C11_unknown_mel_scale : forall approach x,
  approach <> "Oshaghnessy" -> approach <> "Lindsay" ->
  hz2mel x approach = Raise KeyError /\ mel2hz x approach = Raise KeyError.
Proof. intros a x H1 H2. apply mel_key_error. intros [E|[E|[]]]; auto. Qed.
Print Assumptions C11_unknown_mel_scale.

(** C11. Below the singularity the mel value is NaN, so the domain cannot be enlarged. *)
Theorem C11_below_singularity : forall approach lo f, mel_floor approach lo -> f < lo ->
  hz2mel (Fin f) approach = Ok NaN.
Proof. intros a lo f H Hf. apply mel_floor_facts in H as [Ha ->]. apply hz2mel_below; auto. Qed.
Print Assumptions C11_below_singularity.
Example C11_more_example : (do f <- mel2hz (Fin (-50)) "Oshaghnessy" ; hz2mel f "Oshaghnessy") = Ok (Fin (-50)) /\
  mel2hz (Fin 100) "slaney" = Raise KeyError /\ hz2mel (Fin (-1000)) "Oshaghnessy" = Ok NaN.
Proof.
  split; [apply (C11_hz_of_mel_inverse _ (-700)); left; auto|].
  split; [apply C11_unknown_mel_scale; discriminate|apply (C11_below_singularity _ (-700)); [left; auto|lra]].
Qed.

Example C11_example : (do m <- hz2mel (Fin 440) "Lindsay" ; mel2hz m "Lindsay") = Ok (Fin 440)
  /\ hz2mel (Fin 440) "slaney" = Raise KeyError.
Proof.
  split; [|reflexivity]. apply (C11_mel_of_hz_inverse "Lindsay" (-625)); [right; auto | lra].
Qed.

(** C12. The mel scale is strictly increasing above its singularity and starts at 0. *)
Theorem C12_mel_increasing : forall approach lo f g, mel_floor approach lo -> lo < f -> f < g ->
  exists x y, hz2mel (Fin f) approach = Ok (Fin x) /\ hz2mel (Fin g) approach = Ok (Fin y) /\ x < y.
Proof.
  intros a lo f g H Hf Hg. apply mel_floor_facts in H as [Ha ->].
  exists (melR a f), (melR a g). rewrite !hz2mel_eq by (auto; lra).
  repeat split. apply melR_incr; auto.
Qed.
Print Assumptions C12_mel_increasing.

Theorem C12_mel_anchored : forall approach lo, mel_floor approach lo ->
  hz2mel (Fin 0) approach = Ok (Fin 0).
Proof.
  intros a lo H. apply mel_floor_facts in H as [Ha ->].
  rewrite hz2mel_eq by (auto; pose proof (mel_D_pos a); lra). rewrite melR_0; reflexivity.
Qed.
Print Assumptions C12_mel_anchored.

(** C12. ERB. *)
Theorem C12_erb_increasing : forall f g, - (1 / 0.00437) < f -> f < g ->
  exists x y, hz2erb (Fin f) "Glasberg" = Some (Fin x) /\ hz2erb (Fin g) "Glasberg" = Some (Fin y)
              /\ x < y.
Proof.
  intros f g Hf Hg. exists (erbR f), (erbR g). rewrite !hz2erb_eq by lra.
  repeat split. apply erbR_incr; auto.
Qed.
Print Assumptions C12_erb_increasing.

Theorem C12_erb_anchored : hz2erb (Fin 0) "Glasberg" = Some (Fin 0).
Proof. rewrite hz2erb_eq by lra. rewrite erbR_0; reflexivity. Qed.
Print Assumptions C12_erb_anchored.

(** C12. Bark, for every approach string: increasing on all reals, except Zwicker
    (positive frequencies only). *)
Theorem C12_bark_increasing : forall approach f g, f < g -> (approach = "Zwicker" -> 0 < f) ->
  exists x y, hz2bark (Fin f) approach = Fin x /\ hz2bark (Fin g) approach = Fin y /\ x < y.
Proof. exact bark_incr. Qed.
Print Assumptions C12_bark_increasing.

(** C12. The bark scale starts at 0 for every name but Tjomov, Zwicker, Traunmueller. *)
Theorem C12_bark_anchored : forall approach,
  approach <> "Tjomov" -> approach <> "Zwicker" -> approach <> "Traunmueller" ->
  hz2bark (Fin 0) approach = Fin 0.
Proof.
  intros a H1 H2 H3. apply bark_zero.
  destruct (string_dec a "Schroeder"); auto. destruct (string_dec a "Terhardt"); auto.
  right; right. intros [E|[E|[E|[E|[E|[]]]]]]; auto.
Qed.
Print Assumptions C12_bark_anchored.
Example C12_more_example : (exists x y, hz2mel (Fin 100) "Lindsay" = Ok (Fin x) /\ hz2mel (Fin 200) "Lindsay" = Ok (Fin y) /\ x < y) /\
  (exists x y, hz2erb (Fin (-100)) "Glasberg" = Some (Fin x) /\ hz2erb (Fin 200) "Glasberg" = Some (Fin y) /\ x < y) /\
  hz2bark (Fin 0) "Terhardt" = Fin 0.
Proof.
  split; [apply (C12_mel_increasing _ (-625)); [right; auto|lra|lra]|].
  split; [apply C12_erb_increasing; lra|apply C12_bark_anchored; discriminate].
Qed.

Example C12_example : exists x y, hz2bark (Fin 100) "Zwicker" = Fin x /\
  hz2bark (Fin 200) "Zwicker" = Fin y /\ x < y.
Proof. apply C12_bark_increasing; intros; lra. Qed.

(** C13. ERB conversions are mutually inverse. *)
Theorem C13_erb_of_hz_inverse : forall f, - (1 / 0.00437) < f ->
  exists e, hz2erb (Fin f) "Glasberg" = Some e /\ erb2hz e "Glasberg" = Some (Fin f).
Proof.
  intros f H. exists (Fin (erbR f)). rewrite hz2erb_eq, erb2hz_eq by auto.
  rewrite erbinv_erb by auto. auto.
Qed.
Print Assumptions C13_erb_of_hz_inverse.

Theorem C13_hz_of_erb_inverse : forall e,
  exists f, erb2hz (Fin e) "Glasberg" = Some f /\ hz2erb f "Glasberg" = Some (Fin e).
Proof.
  intros e. exists (Fin (erbinvR e)). rewrite erb2hz_eq, hz2erb_eq by apply erbinv_range.
  rewrite erb_erbinv. auto.
Qed.
Print Assumptions C13_hz_of_erb_inverse.

(** C13. At and below the singularity hz2erb is not finite. *)
Theorem C13_below_singularity : forall f, f <= - (1 / 0.00437) ->
  exists x, hz2erb (Fin f) "Glasberg" = Some x /\ ~ finite x.
Proof. exact hz2erb_below. Qed.
Print Assumptions C13_below_singularity.

(** C13. An unknown name is not reported: the result is None. *)
Theorem C13_unknown_erb_scale : forall approach x, approach <> "Glasberg" ->
  hz2erb x approach = None /\ erb2hz x approach = None.
Proof.
  intros a x H. unfold hz2erb, erb2hz. destruct (String.eqb_spec a "Glasberg"); [contradiction|auto].
Qed.
Print Assumptions C13_unknown_erb_scale.
Example C13_more_example : (exists x, hz2erb (Fin (-300)) "Glasberg" = Some x /\ ~ finite x) /\ hz2erb (Fin 100) "Moore" = None.
Proof. split; [apply C13_below_singularity; lra|apply C13_unknown_erb_scale; discriminate]. Qed.

Example C13_example : exists e, hz2erb (Fin 1000) "Glasberg" = Some e /\
  erb2hz e "Glasberg" = Some (Fin 1000).
Proof. apply C13_erb_of_hz_inverse. lra. Qed.

(** C14. Every name but Terhardt, Zwicker and Traunmueller round-trips everywhere
    (unknown names behave as Wang). *)
Theorem C14_bark_inverse : forall approach f,
  approach <> "Terhardt" -> approach <> "Zwicker" -> approach <> "Traunmueller" ->
  bark2hz (hz2bark (Fin f) approach) approach = Fin f.
Proof.
  intros a f H1 H2 H3.
  destruct (string_dec a "Tjomov") as [->|H4]; [apply bark_roundtrip_Tjomov|].
  destruct (string_dec a "Schroeder") as [->|H5]; [apply bark_roundtrip_Schroeder|].
  apply bark_roundtrip_Wang. intros [E|[E|[E|[E|[E|[]]]]]]; auto.
Qed.
Print Assumptions C14_bark_inverse.

Theorem C14_Zwicker_inverse : forall f, 0 < f ->
  bark2hz (hz2bark (Fin f) "Zwicker") "Zwicker" = Fin f.
Proof. exact bark_roundtrip_Zwicker. Qed.
Print Assumptions C14_Zwicker_inverse.

(** C14. Unknown names are Wang. *)
Theorem C14_default_is_Wang : forall approach x,
  ~ In approach ["Tjomov"; "Schroeder"; "Terhardt"; "Zwicker"; "Traunmueller"] ->
  hz2bark (Fin x) approach = hz2bark (Fin x) "Wang" /\ bark2hz (Fin x) approach = bark2hz (Fin x) "Wang".
Proof.
  intros a x H. assert (~ In "Wang" bark_special) by (simpl; intuition discriminate).
  rewrite !hz2bark_Wang, !bark2hz_Wang by auto. auto.
Qed.
Print Assumptions C14_default_is_Wang.
Example C14_more_example : bark2hz (hz2bark (Fin 1000) "Zwicker") "Zwicker" = Fin 1000 /\
  hz2bark (Fin 1000) "no such scale" = hz2bark (Fin 1000) "Wang".
Proof.
  split; [apply C14_Zwicker_inverse; lra|apply C14_default_is_Wang]. cbn. intros K. repeat (destruct K as [K|K]; [discriminate|]). exact K.
Qed.

(** C14. Terhardt returns a strictly higher frequency than the one converted, for every
    positive frequency up to the pole of the tangent. *)
Theorem C14_Terhardt_refuted : forall f, 0 < f ->
  13.3 * atan ((f * 0.75) / 1000) / 13 < PI / 2 ->
  exists g, bark2hz (hz2bark (Fin f) "Terhardt") "Terhardt" = Fin g /\ f < g.
Proof. exact Terhardt_roundtrip_high. Qed.
Print Assumptions C14_Terhardt_refuted.

(** C14. Traunmueller never returns the converted frequency when its bark value is
    between the two corrections. *)
Theorem C14_Traunmueller_refuted : forall f, 2 <= 26.28 * f / 1961 - 0.53 <= 20.1 ->
  bark2hz (hz2bark (Fin f) "Traunmueller") "Traunmueller" <> Fin f.
Proof. exact Traun_roundtrip_never. Qed.
Print Assumptions C14_Traunmueller_refuted.

Example C14_example :
  bark2hz (hz2bark (Fin 1000) "Tjomov") "Tjomov" = Fin 1000 /\
  (exists g, bark2hz (hz2bark (Fin 1000) "Terhardt") "Terhardt" = Fin g /\ 1000 < g) /\
  bark2hz (hz2bark (Fin 1000) "Traunmueller") "Traunmueller" <> Fin 1000.
Proof.
  split; [|split].
  - apply C14_bark_inverse; discriminate.
  - apply C14_Terhardt_refuted; [lra|].
    assert (atan (1000 * 0.75 / 1000) <= PI / 4).
    { rewrite <- atan_1. left. apply atan_increasing. lra. }
    pose proof PI_RGT_0. lra.
  - apply C14_Traunmueller_refuted. lra.
Qed.

(** C15. The three pieces of bark2hz(., 'Traunmueller') agree at both breakpoints: each
    closed form holds on a closed interval, so they coincide at 2 and at 20.1. *)
Theorem C15_pieces_agree : forall b, b <> 27.6396 ->
  (b <= 2 -> bark2hz (Fin b) "Traunmueller"
             = Fin (1960 * (((b - 0.3) / 0.85 + 0.53) / (26.28 - (b - 0.3) / 0.85)))) /\
  (2 <= b <= 20.1 -> bark2hz (Fin b) "Traunmueller" = Fin (1960 * ((b + 0.53) / (26.28 - b)))) /\
  (20.1 <= b -> bark2hz (Fin b) "Traunmueller"
             = Fin (1960 * (((b + 4.422) / 1.22 + 0.53) / (26.28 - (b + 4.422) / 1.22)))).
Proof. exact bark2hz_Traun_pieces. Qed.
Print Assumptions C15_pieces_agree.
Example C15_pieces_example : bark2hz (Fin 2) "Traunmueller" = Fin (1960 * ((2 + 0.53) / (26.28 - 2))).
Proof. apply C15_pieces_agree; lra. Qed.

(** C15. Strictly increasing below the pole at 27.6396 bark. *)
Theorem C15_increasing_below_pole : forall a b, a < b -> b < 27.6396 ->
  exists x y, bark2hz (Fin a) "Traunmueller" = Fin x /\ bark2hz (Fin b) "Traunmueller" = Fin y /\ x < y.
Proof. exact bark2hz_Traun_incr. Qed.
Print Assumptions C15_increasing_below_pole.

(** C15. At the pole the value is infinite. *)
Theorem C15_pole : bark2hz (Fin 27.6396) "Traunmueller" = PInf.
Proof. exact bark2hz_Traun_pole. Qed.
Print Assumptions C15_pole.

Example C15_example : exists x y, bark2hz (Fin 1.9) "Traunmueller" = Fin x /\
  bark2hz (Fin 20.2) "Traunmueller" = Fin y /\ x < y.
Proof. apply C15_increasing_below_pole; lra. Qed.

(** C76. Decade laws fix the constants of the scales: multiplying 1+f/700 by ten adds
    2595 mel (2410 for Lindsay with 625), and likewise for ERB and Zwicker. *)
Theorem C76_mel_decade : forall f, -625 < f ->
  (exists m, hz2mel (Fin f) "Oshaghnessy" = Ok (Fin m) /\
             hz2mel (Fin (10 * f + 6300)) "Oshaghnessy" = Ok (Fin (m + 2595))) /\
  (exists m, hz2mel (Fin f) "Lindsay" = Ok (Fin m) /\
             hz2mel (Fin (10 * f + 5625)) "Lindsay" = Ok (Fin (m + 2410))).
Proof.
  intros f Hf. split.
  - replace 6300 with (9 * mel_D "Oshaghnessy") by (unfold mel_D; simpl; lra).
    apply (mel_decade "Oshaghnessy"); [simpl; auto | unfold mel_D; simpl; lra].
  - replace 5625 with (9 * mel_D "Lindsay") by (unfold mel_D; simpl; lra).
    apply (mel_decade "Lindsay"); [simpl; auto | unfold mel_D; simpl; lra].
Qed.
Print Assumptions C76_mel_decade.

Theorem C76_erb_decade : forall f, - (1 / 0.00437) < f ->
  exists e, hz2erb (Fin f) "Glasberg" = Some (Fin e) /\
            hz2erb (Fin (10 * f + 9 / 0.00437)) "Glasberg"
            = Some (Fin (e + (1000 * ln 10) / (24.7 * 4.37))).
Proof. exact erb_decade. Qed.
Print Assumptions C76_erb_decade.

Theorem C76_Zwicker_decade : forall f, 0 < f ->
  exists b, hz2bark (Fin f) "Zwicker" = Fin b /\ hz2bark (Fin (10 * f)) "Zwicker" = Fin (b + 14.2).
Proof. exact Zwicker_decade. Qed.
Print Assumptions C76_Zwicker_decade.
Example C76_more_example : (exists b, hz2bark (Fin 50) "Zwicker" = Fin b /\ hz2bark (Fin (10 * 50)) "Zwicker" = Fin (b + 14.2)) /\
  exists e, hz2erb (Fin 50) "Glasberg" = Some (Fin e) /\
            hz2erb (Fin (10 * 50 + 9 / 0.00437)) "Glasberg" = Some (Fin (e + (1000 * ln 10) / (24.7 * 4.37))).
Proof. split; [apply C76_Zwicker_decade; lra|apply C76_erb_decade; lra]. Qed.

Example C76_example : hz2mel (Fin 6300) "Oshaghnessy" = Ok (Fin 2595).
Proof.
  destruct (C76_mel_decade 0 ltac:(lra)) as [[m [H1 H2]] _].
  rewrite (C12_mel_anchored "Oshaghnessy" (-700)) in H1 by (left; auto).
  apply Ok_inj, Fin_inj in H1. subst m.
  replace (10 * 0 + 6300) with 6300 in H2 by lra. rewrite H2. f_equal. f_equal. lra.
Qed.
