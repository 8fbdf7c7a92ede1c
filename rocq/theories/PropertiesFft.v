(** * Properties: spectra and cepstra from fast Fourier transforms in floating point *)
From Coq Require Import Reals ZArith List String Lia Lra Permutation.
From Coquelicot Require Rcomplements.
From Verif Require Import Base SpecBase BigSum Preprocessing SpecMat SpecFilters SpecBanks SpecFeatures
  Features Extractors FeaturesFacts Binary64 Rounded SpecRounded RoundedFacts RoundedLaws RoundedCeps SpecRoundedCeps
  RoundedCepsLaws RoundedCepsEnd SpecFft FftFacts FftEnd.
Import ListNotations.
Local Open Scope R_scope.

(** ** C160: fast Fourier transforms of every size *)

(** without rounding, a Cooley-Tukey program with any radices computes the Fourier transform of
    the size given by the product of the radices.  yr and yi are the real and the imaginary parts of
    the numbers it is given. *)
Theorem C160_exact : forall rs sr si re im z k, fft rs sr si re im -> (k < fft_size rs)%nat ->
  let n := fft_size rs in let yr t := lin_exact z (sr t) in let yi t := lin_exact z (si t) in
  lin_exact z (re k) = spec_re n n yr k - spec_im n n yi k /\ lin_exact z (im k) = spec_im n n yr k + spec_re n n yi k.
Proof. exact fft_values. Qed.
Print Assumptions C160_exact.

(** with rounding, the error in the norm of the whole spectrum is at most fft_growth - 1 times the
    norm of the spectrum of the computed numbers *)
Theorem C160_rounded : forall (E : Env) u rs sr si re im x, accurate u 0 (@rnd E) -> fft rs sr si re im ->
  let val p := @lin_run E x (@lin_stored E p) in
  let n := fft_size rs in let yr t := val (sr t) in let yi t := val (si t) in
  bigsum n (fun k => (val (re k) - (spec_re n n yr k - spec_im n n yi k)) ^ 2 + (val (im k) - (spec_im n n yr k + spec_re n n yi k)) ^ 2)
  <= (fft_growth u rs - 1) ^ 2 * (INR n * bigsum n (fun t => yr t ^ 2 + yi t ^ 2)).
Proof. exact fft_rounded. Qed.
Print Assumptions C160_rounded.

(** the error grows with the number of radices, so with the logarithm of the size *)
Theorem C160_growth : forall u R rs, 0 <= u -> Forall (fun r => (r <= R)%nat) rs ->
  1 <= fft_growth u rs <= (1 + 2 * sqrt (INR R) * ((1 + u) ^ (2 * R + 4) - 1)) ^ List.length rs.
Proof. exact growth_bound. Qed.
Print Assumptions C160_growth.
(** 512 points in binary64: a relative error below 2^-45 *)
Example C160_growth_default : fft_size [4; 4; 4; 4; 2]%nat = 512%nat /\ fft_growth (/ 2 ^ 53) [4; 4; 4; 4; 2]%nat <= 1 + / 2 ^ 45.
Proof.
  split; [reflexivity|]. unfold fft_growth. cbn [fold_right].
  assert (S4 : sqrt (INR 4) = 2) by (replace (INR 4) with (2 ^ 2) by (cbn [INR]; lra); apply sqrt_pow2; lra).
  assert (S2 : 0 <= sqrt (INR 2) <= 1.5).
  { split; [apply sqrt_pos|]. rewrite <- (sqrt_pow2 1.5) by lra. apply sqrt_le_1_alt. cbn [INR]. lra. }
  assert (P9 : 0 <= (1 + / 2 ^ 53) ^ (2 * 4 + 4) - 1 <= 12.01 * / 2 ^ 53) by (cbn [Nat.mul Nat.add]; lra).
  assert (P5 : 0 <= (1 + / 2 ^ 53) ^ (2 * 2 + 4) - 1 <= 8.01 * / 2 ^ 53) by (cbn [Nat.mul Nat.add]; lra).
  set (p := (1 + / 2 ^ 53) ^ (2 * 4 + 4) - 1) in *. set (q := (1 + / 2 ^ 53) ^ (2 * 2 + 4) - 1) in *. set (s := sqrt (INR 2)) in *. rewrite S4.
  assert (K : 0 <= 2 * s * q <= 24.03 * / 2 ^ 53).
  { split; [apply Rmult_le_pos; lra|]. eapply Rle_trans; [apply Rmult_le_compat; [lra|lra|apply Rmult_le_compat_l; [lra|apply S2]|apply P5]|]. lra. }
  set (t := 2 * s * q) in *. clearbody t. clearbody p q s. rewrite Rmult_1_l.
  apply Rle_trans with ((1 + 24.03 * / 2 ^ 53) * (1 + 48.04 * / 2 ^ 53) * (1 + 48.04 * / 2 ^ 53) * (1 + 48.04 * / 2 ^ 53) * (1 + 48.04 * / 2 ^ 53)); [|lra].
  repeat apply Rmult_le_compat; repeat apply Rmult_le_pos; lra.
Qed.

(** such programs exist for every size and all inputs *)
Theorem C160_programs : forall rs, Forall (fun r => (0 < r)%nat) rs -> forall sr si, exists re im, fft rs sr si re im.
Proof. exact fft_exists. Qed.
Print Assumptions C160_programs.

(** the butterfly of two real numbers, either way *)
Definition pair_re (k : nat) : lin := match k with O => Add (Load 0) (Load 1) | _ => Sub (Load 0) (Load 1) end.
Definition pair_im (k : nat) : lin := match k with O => Add Zero Zero | _ => Sub Zero Zero end.
Definition pair_sum (o k : nat) : lin := match k with O => Add (Load o) (Load (S o)) | _ => Sub (Load o) (Load (S o)) end.
Lemma pair_butterfly : forall k, (k < 2)%nat -> butterfly (twiddle_re 2 2 k) (2 * 2) (pair_sum 0 k) /\ butterfly (twiddle_im 2 2 k) (2 * 2) (pair_sum 2 k).
Proof.
    intros k Hk.
    assert (A : forall j, twiddle_re 2 2 0 j = (if (j <? 2)%nat then 1 else 0) /\ twiddle_im 2 2 0 j = (if (j <? 2)%nat then 0 else 1)).
    { intros j. unfold twiddle_re, twiddle_im. rewrite !Nat.mul_0_r. replace (2 * PI * INR 0 / INR 2) with 0 by (cbn [INR]; lra).
      rewrite cos_0, sin_0. destruct (j <? 2)%nat; split; ring. }
    assert (A1 : twiddle_re 2 2 1 0 = 1 /\ twiddle_re 2 2 1 1 = -1 /\ twiddle_re 2 2 1 2 = 0 /\ twiddle_re 2 2 1 3 = 0 /\
      twiddle_im 2 2 1 0 = 0 /\ twiddle_im 2 2 1 1 = 0 /\ twiddle_im 2 2 1 2 = 1 /\ twiddle_im 2 2 1 3 = -1).
    { unfold twiddle_re, twiddle_im. cbn [Nat.ltb Nat.leb Nat.sub Nat.mul Nat.add].
      replace (2 * PI * INR 0 / INR 2) with 0 by (cbn [INR]; lra). replace (2 * PI * INR 1 / INR 2) with PI by (cbn [INR]; field).
      rewrite cos_0, sin_0, cos_PI, sin_PI. lra. }
    assert (P1 : Permutation [2; 3; 0; 1]%nat (seq 0 (2 * 2))) by (apply (Permutation_app_comm [2; 3]%nat [0; 1]%nat)).
    assert (P2 : Permutation [0; 1; 2; 3]%nat (seq 0 (2 * 2))) by reflexivity.
    destruct k as [|[|k]]; [| |lia]; cbn [pair_sum].
    + split.
      * exists [2; 3; 0; 1]%nat. split; [exact P1|]. split; [|cbn; lia]. apply (sdots_add _ [2; 3; 0]%nat [1%nat]); apply sdots_dots.
        -- apply dots_skip; [apply (A 2%nat)|]. apply dots_skip; [apply (A 3%nat)|]. apply dots_load. apply (A 0%nat).
        -- apply dots_load. apply (A 1%nat).
      * exists [0; 1; 2; 3]%nat. split; [exact P2|]. split; [|cbn; lia]. apply (sdots_add _ [0; 1; 2]%nat [3%nat]); apply sdots_dots.
        -- apply dots_skip; [apply (A 0%nat)|]. apply dots_skip; [apply (A 1%nat)|]. apply dots_load. apply (A 2%nat).
        -- apply dots_load. apply (A 3%nat).
    + split.
      * exists [2; 3; 0; 1]%nat. split; [exact P1|]. split; [|cbn; lia]. apply (sdots_sub _ [2; 3; 0]%nat [1%nat]); apply sdots_dots.
        -- apply dots_skip; [apply A1|]. apply dots_skip; [apply A1|]. apply dots_load. apply A1.
        -- apply dots_load. destruct A1 as (_ & -> & _). ring.
      * exists [0; 1; 2; 3]%nat. split; [exact P2|]. split; [|cbn; lia]. apply (sdots_sub _ [0; 1; 2]%nat [3%nat]); apply sdots_dots.
        -- apply dots_skip; [apply A1|]. apply dots_skip; [apply A1|]. apply dots_load. apply A1.
        -- apply dots_load. destruct A1 as (_ & _ & _ & _ & _ & _ & _ & ->). ring.
Qed.
Example C160_example : fft [2%nat] Load (fun _ => Zero) pair_re pair_im.
Proof.
  apply (fft_time 2 [] Load (fun _ => Zero) (fun t _ => Load t) (fun _ _ => Zero)); [lia| |].
  - intros t Ht. apply fft_one; [f_equal; lia|reflexivity].
  - intros k Hk inp. change (fft_size [2%nat]) with 2%nat in *. destruct (pair_butterfly k Hk) as [Hp Hq].
    exists (pair_sum 0 k), (pair_sum 2 k). split; [left; split; assumption|]. destruct k as [|[|k]]; [| |lia]; split; reflexivity.
Qed.
Example C160_example_frequency : fft [2%nat] Load (fun _ => Zero) pair_re pair_im.
Proof.
  apply (fft_frequency 2 [] Load (fun _ => Zero) (fun c _ => pair_re c) (fun c _ => pair_im c)); [lia| |].
  - intros c a Hc Hl inp angle. cbn in Hl. assert (a = 0%nat) as -> by lia. destruct (pair_butterfly c Hc) as [Hp Hq].
    assert (Ea : angle = 0) by (unfold angle; cbn [Nat.mul INR]; lra).
    exists (pair_sum 0 c), (pair_sum 2 c), (Load 0), (Load 1). split; [exact Hp|]. split; [exact Hq|].
    split; [|split; [|destruct c as [|[|c]]; [| |lia]; split; reflexivity]].
    + exists [1; 0]%nat. split; [apply perm_swap|]. split; [|cbn; lia]. apply sdots_dots, dots_skip; [|apply dots_load]; unfold rotate_re; cbn [Nat.eqb]; rewrite Ea; [apply sin_0|apply cos_0].
    + exists [0; 1]%nat. split; [reflexivity|]. split; [|cbn; lia]. apply sdots_dots, dots_skip; [|apply dots_load]; unfold rotate_im; cbn [Nat.eqb]; rewrite Ea, ?sin_0, ?cos_0; ring.
  - intros c Hc. apply fft_one; f_equal; lia.
Qed.

(** an output of three numbers, as pocketfft computes it, with a common factor *)
Example C160_example_three : butterfly (twiddle_re 3 3 1) (2 * 3)
  (Add (Add (Load 0) (Scale (-1 / 2) (Add (Load 1) (Load 2)))) (Scale (sqrt 3 / 2) (Sub (Load 4) (Load 5)))).
Proof.
  assert (A1 : 2 * PI * INR 1 / INR 3 = 2 * (PI / 3)) by (cbn [INR]; field).
  assert (A2 : 2 * PI * INR 2 / INR 3 = - (2 * (PI / 3)) + 2 * INR 1 * PI) by (cbn [INR]; field).
  assert (C1 : cos (2 * PI * INR 1 / INR 3) = -1 / 2) by (rewrite A1; apply cos_2PI3).
  assert (C2 : cos (2 * PI * INR 2 / INR 3) = -1 / 2) by (rewrite A2, cos_period, cos_neg; apply cos_2PI3).
  assert (S1 : sin (2 * PI * INR 1 / INR 3) = sqrt 3 / 2) by (rewrite A1; apply sin_2PI3).
  assert (S2 : sin (2 * PI * INR 2 / INR 3) = - (sqrt 3 / 2)) by (rewrite A2, sin_period, sin_neg; f_equal; apply sin_2PI3).
  assert (Z0 : 2 * PI * INR 0 / INR 3 = 0) by (cbn [INR]; field).
  exists [3; 0; 1; 2; 4; 5]%nat. split; [apply (Permutation_middle [0; 1; 2]%nat [4; 5]%nat 3%nat)|]. split; [|cbn; lia].
  apply (sdots_add _ [3; 0; 1; 2]%nat [4; 5]%nat); [apply (sdots_add _ [3; 0]%nat [1; 2]%nat)|].
  - apply sdots_dots, dots_skip; [|apply dots_load]; unfold twiddle_re; cbn [Nat.ltb Nat.leb Nat.sub Nat.mul Nat.add]; rewrite Z0; [apply sin_0|apply cos_0].
  - apply (sdots_scale _ (fun _ => 1)).
    + intros i [<-|[<-|[]]]; unfold twiddle_re; cbn [Nat.ltb Nat.leb Nat.mul Nat.add]; [rewrite C1|rewrite C2]; ring.
    + apply (sdots_add _ [1%nat] [2%nat]); apply sdots_dots, dots_load; reflexivity.
  - apply (sdots_scale _ (fun i => if (i =? 4)%nat then 1 else -1)).
    + intros i [<-|[<-|[]]]; unfold twiddle_re; cbn [Nat.ltb Nat.leb Nat.sub Nat.mul Nat.add Nat.eqb]; [rewrite S1|rewrite S2]; ring.
    + apply (sdots_sub _ [4%nat] [5%nat]); apply sdots_dots, dots_load; cbn [Nat.eqb]; ring.
Qed.
(** an output of four numbers with rotations first *)
Example C160_example_rotated : exists p q, combines 4 2 2 1 p q.
Proof.
  set (angle := fun j => 2 * PI * INR (j * 1) / INR 4).
  eexists. eexists. right. exists (fun j => dot_left (rotate_re (angle j)) 2), (fun j => dot_left (rotate_im (angle j)) 2).
  exists (dot_left (twiddle_re 2 2 0) 4), (dot_left (twiddle_im 2 2 0) 4).
  split; [intros j _; split; apply dot_butterfly, dot_left_program|]. split; [apply dot_butterfly, dot_left_program|]. split; [apply dot_butterfly, dot_left_program|].
  split; reflexivity.
Qed.

(** ** C161: cepstra whose spectra come from a fast Fourier transform *)

(** mfcc, imfcc, lfcc and ngcc.  [y] is the result in exact arithmetic.  The computed coefficient uses
    any Cooley-Tukey program of nfft points on the windowed, pre-emphasised frame.  The rounding noise is
    compared with the energy of the frame, without regard to the number of samples. *)
Theorem C161_log_cepstra : forall (E : Env) e a c N L hop n B b x, In e [Mfcc; Imfcc; Lfcc; Ngcc] ->
  @well_framed E a N L hop -> (1 <= s_nfft a)%Z -> (0 < n)%nat ->
  @extractor_bank E e a = Ok (fmat n (S (half (s_nfft a))) B) -> (forall j k, 0 <= B j k <= b) ->
  (0 <= c_num_ceps c <= s_nfilts a)%Z -> (1 <= c_dct_type c <= 4)%Z -> (c_dct_type c = 1%Z -> (2 <= n)%nat) ->
  c_use_energy c = false -> no_lifter c -> no_normalisation c ->
  let K := Nat.min (Z.to_nat (c_num_ceps c)) n in let nf := Z.to_nat (s_nfft a) in let bins := S (half (s_nfft a)) in
  let co := extractor_coeff e a in let wt := win_type (window_of a) in
  let band i j := spec_band (half (s_nfft a)) nf L (frame_of a co L hop x i) (B j) in
  exists y, @run E e (fvec N x) a c = Ok (fmat (frame_count N L hop) K y) /\
    forall (E' : Env) u v r wl hyp lnf rs re im bank dct i k Y,
      accurate u 0 (@rnd E') -> u < 1 -> hypot_within v hyp -> ln_within wl lnf -> 0 < r < 1 ->
      (i < frame_count N L hop)%nat -> (k < K)%nat ->
      fft rs (leaf (s_pre_emph a) co wt L hop i) (fun _ => Zero) re im -> fft_size rs = nf ->
      (forall j, (j < n)%nat -> dot_program (B j) bins (bank j)) ->
      reads n (dct k) -> (forall z, lin_exact z (dct k) = spec_dct (c_dct_type c) n z k) ->
      (forall j, (j < n)%nat -> 0 < band i j /\ b * fft_noise u rs (frame_size (s_pre_emph a) co wt L hop i nf x) <= r ^ 2 * band i j /\
         Rabs (ln (band i j)) <= Y) ->
      Rabs (@log_cepstrum E' lnf hyp (fun q => @lin_stored E' (re q)) (fun q => @lin_stored E' (im q)) nf bank
              (fun q => @lin_stored E' (dct q)) x k - y i k)
      <= gain (dct k) * ((1 + u) ^ lin_depth2 (dct k) * ((1 + wl) * (Y + band_log_bound u v r bins)) - Y).
Proof. exact fft_log_error. Qed.
Print Assumptions C161_log_cepstra.

(** gfcc (p = 1/3) and msrcc (p = gamma) *)
Theorem C161_root_cepstra : forall (E : Env) e p a c N L hop n B b x, root_exponent e p ->
  @well_framed E a N L hop -> (1 <= s_nfft a)%Z -> (0 < n)%nat ->
  @extractor_bank E e a = Ok (fmat n (S (half (s_nfft a))) B) -> (forall j k, 0 <= B j k <= b) ->
  (0 <= c_num_ceps c <= s_nfilts a)%Z -> (1 <= c_dct_type c <= 4)%Z -> (c_dct_type c = 1%Z -> (2 <= n)%nat) ->
  c_use_energy c = false -> no_lifter c -> no_normalisation c ->
  let K := Nat.min (Z.to_nat (c_num_ceps c)) n in let nf := Z.to_nat (s_nfft a) in let bins := S (half (s_nfft a)) in
  let co := extractor_coeff e a in let wt := win_type (window_of a) in
  let band i j := spec_band (half (s_nfft a)) nf L (frame_of a co L hop x i) (B j) in
  (forall i j, (i < frame_count N L hop)%nat -> (j < n)%nat -> 0 < band i j) ->
  exists y, @run E e (fvec N x) a c = Ok (fmat (frame_count N L hop) K y) /\
    forall (E' : Env) u v r wp hyp powf rs re im bank dct i k Y,
      accurate u 0 (@rnd E') -> u < 1 -> hypot_within v hyp -> pow_within wp p powf -> 0 < r < 1 ->
      (i < frame_count N L hop)%nat -> (k < K)%nat ->
      fft rs (leaf (s_pre_emph a) co wt L hop i) (fun _ => Zero) re im -> fft_size rs = nf ->
      (forall j, (j < n)%nat -> dot_program (B j) bins (bank j)) ->
      reads n (dct k) -> (forall z, lin_exact z (dct k) = spec_dct (c_dct_type c) n z k) ->
      (forall j, (j < n)%nat -> b * fft_noise u rs (frame_size (s_pre_emph a) co wt L hop i nf x) <= r ^ 2 * band i j /\ Rpower (band i j) p <= Y) ->
      Rabs (@root_cepstrum E' powf hyp (fun q => @lin_stored E' (re q)) (fun q => @lin_stored E' (im q)) nf bank
              (fun q => @lin_stored E' (dct q)) x k - y i k)
      <= gain (dct k) * ((1 + u) ^ lin_depth2 (dct k) * ((1 + wp) * exp (Rabs p * band_log_bound u v r bins)) - 1) * Y.
Proof. exact fft_root_error. Qed.
Print Assumptions C161_root_cepstra.

(** the energy of a frame of samples up to M *)
Theorem C161_frame_size : forall on c wt L hop i n z M, (0 < L)%nat -> 0 <= M -> (forall s, (s < i * hop + L)%nat -> Rabs (z s) <= M) ->
  frame_size on c wt L hop i n z <= INR (Nat.min L n) * ((1 + Rabs c) * M) ^ 2.
Proof. exact frame_size_bound. Qed.
Print Assumptions C161_frame_size.
Example C161_frame_size_example : frame_size true 0.97 "hamming" 400 160 3 512 (fun _ => 1) <= INR 400 * ((1 + Rabs 0.97) * 1) ^ 2.
Proof. apply (frame_size_bound true 0.97 "hamming" 400 160 3 512 (fun _ => 1) 1); [lia|lra|]. intros. rewrite Rabs_R1. lra. Qed.

(** frames of one filter and the samples 0, 1, 0 with a transform of 2 points *)
Lemma small_noise : let x t := match t with 1%nat => 1 | _ => 0 end in
  1 * fft_noise (/ 2 ^ 53) [2%nat] (frame_size true (1 + / 2 ^ 30) "hanning" 3 3 0 2 x) <= (/ 2 ^ 40) ^ 2 * / 2.
Proof.
  intros x. rewrite Rmult_1_l. unfold fft_noise, fft_growth. cbn [fold_right].
  assert (S2 : 0 <= sqrt (INR 2) <= 1.5).
  { split; [apply sqrt_pos|]. rewrite <- (sqrt_pow2 1.5) by lra. apply sqrt_le_1_alt. cbn [INR]. lra. }
  pose proof (frame_size_bound true (1 + / 2 ^ 30) "hanning" 3 3 0 2 x 1 ltac:(lia) ltac:(lra)) as F.
  assert (F1 : frame_size true (1 + / 2 ^ 30) "hanning" 3 3 0 2 x <= 10).
  { eapply Rle_trans; [apply F|].
    - intros [|[|s]] _; cbn [x]; rewrite ?Rabs_R1, ?Rabs_R0; lra.
    - cbn [Nat.min INR]. rewrite Rabs_pos_eq by lra. lra. }
  assert (F0 : 0 <= frame_size true (1 + / 2 ^ 30) "hanning" 3 3 0 2 x) by (apply bigsum_nonneg; intros; apply pow2_ge_0).
  set (f := frame_size _ _ _ _ _ _ _ _) in *. clearbody f.
  assert (P8 : 0 <= (1 + / 2 ^ 53) ^ (2 * 2 + 4) - 1 <= 8.01 * / 2 ^ 53) by (cbn [Nat.mul Nat.add]; lra).
  assert (P5 : 1 <= (1 + / 2 ^ 53) ^ 5 <= 1 + 5.01 * / 2 ^ 53) by lra.
  set (s := sqrt (INR 2)) in *. set (p := (1 + / 2 ^ 53) ^ (2 * 2 + 4) - 1) in *. set (q := (1 + / 2 ^ 53) ^ 5) in *. clearbody s p q.
  assert (T : 0 <= 2 * s * p <= 24.03 * / 2 ^ 53).
  { split; [apply Rmult_le_pos; lra|]. eapply Rle_trans; [apply Rmult_le_compat; [lra|lra|apply Rmult_le_compat_l; [lra|apply S2]|apply P8]|]. lra. }
  set (t := 2 * s * p) in *. clearbody t.
  assert (G : 0 <= 1 * (1 + t) * q - 1 <= / 2 ^ 48).
  { pose proof (Rmult_le_compat (1 + t) _ q _ ltac:(lra) ltac:(lra) (Rplus_le_compat_l 1 _ _ (proj2 T)) (proj2 P5)).
    pose proof (Rmult_le_compat 1 (1 + t) 1 q ltac:(lra) ltac:(lra) ltac:(lra) (proj1 P5)). lra. }
  set (g := 1 * (1 + t) * q - 1) in *. clearbody g.
  apply Rle_trans with ((/ 2 ^ 48) ^ 2 * 10); [|lra]. apply Rmult_le_compat; try lra; [apply pow2_ge_0|]. apply pow_incr. exact G.
Qed.
Lemma small_band : let x t := match t with 1%nat => 1 | _ => 0 end in
  spec_band 1 2 3 (frame_of quiet_args (1 + / 2 ^ 30) 3 3 x 0) quiet_weights = / 2.
Proof.
  intros x. rewrite <- (spec_band_programs 1 2 3 (fun z => frame_of quiet_args (1 + / 2 ^ 30) 3 3 z 0) quiet_re quiet_im x quiet_weights).
  - cbn [bigsum quiet_weights quiet_re quiet_im lin_exact x]. replace (INR 2) with 2 by (cbn [INR]; ring). lra.
  - apply (quiet_programs 0 eq_refl).
Qed.
Lemma rnd53_within : forall z, Rabs (rnd53 z - z) <= / 2 ^ 53 * Rabs z.
Proof. intros z. destruct rnd53_accurate as (_ & _ & A). specialize (A z). cbn [rnd binary53] in A. lra. Qed.
Example C161_log_cepstra_example : let x t := match t with 1%nat => 1 | _ => 0 end in
  exists y, @mfcc exact_env (fvec 3 x) quiet_args quiet_ceps = Ok (fmat 1 1 y) /\
  forall re im, fft [2%nat] (leaf true (1 + / 2 ^ 30) "hanning" 3 3 0) (fun _ => Zero) re im ->
  Rabs (@log_cepstrum binary53 (fun z => rnd53 (ln z)) (fun p q => rnd53 (sqrt (p ^ 2 + q ^ 2))) (fun q => @lin_stored binary53 (re q))
          (fun q => @lin_stored binary53 (im q)) 2 (fun _ => dot_left quiet_weights 2) (fun _ => @lin_stored binary53 (Load 0)) x 0 - y 0%nat 0%nat)
  <= gain (Load 0) * ((1 + / 2 ^ 53) ^ 0 * ((1 + / 2 ^ 53) * (ln 2 + band_log_bound (/ 2 ^ 53) (/ 2 ^ 53) (/ 2 ^ 40) 2)) - ln 2).
Proof.
  intros x.
  destruct (C161_log_cepstra exact_env Mfcc quiet_args quiet_ceps 3 3 3 1 (fun _ => quiet_weights) 1 x) as (y & Hy & H);
    [cbn; tauto|exact quiet_framed|cbn; lia|lia|reflexivity|intros _ [|q]; cbn; lra|cbn; lia|cbn; lia|cbn; lia|reflexivity|left; reflexivity|left; reflexivity|].
  exists y. split; [exact Hy|]. intros re im Hf.
  apply (H binary53 (/ 2 ^ 53) (/ 2 ^ 53) (/ 2 ^ 40) (/ 2 ^ 53) (fun p q => rnd53 (sqrt (p ^ 2 + q ^ 2))) (fun z => rnd53 (ln z))
           [2%nat] re im (fun _ => dot_left quiet_weights 2) (fun _ => Load 0) 0%nat 0%nat (ln 2) rnd53_accurate); clear H.
  - lra.
  - split; [lra|]. intros p q. eapply Rle_trans; [apply rnd53_within|]. rewrite (Rabs_pos_eq (sqrt _)) by apply sqrt_pos. lra.
  - split; [lra|]. intros z _. apply rnd53_within.
  - lra.
  - cbn. lia.
  - cbn. lia.
  - exact Hf.
  - reflexivity.
  - intros j _. exact quiet_bank.
  - cbn. lia.
  - intros z. apply (dct_programs 2 1 0 (Load 0) ltac:(lia) ltac:(lia) ltac:(lia) quiet_dct).
  - intros j _. pose proof small_band as B. cbv zeta in B. change (half (s_nfft quiet_args)) with 1%nat. change (Z.to_nat (s_nfft quiet_args)) with 2%nat.
    change (extractor_coeff Mfcc quiet_args) with (1 + / 2 ^ 30). fold x in B. rewrite B. split; [lra|]. split; [exact small_noise|].
    rewrite ln_Rinv by lra. rewrite Rabs_Ropp. rewrite Rabs_pos_eq; [lra|]. rewrite <- ln_1. apply Rcomplements.ln_le; lra.
Qed.
Example C161_root_cepstra_example : let x t := match t with 1%nat => 1 | _ => 0 end in
  exists y, @run exact_env (Msrcc (1 / 3)) (fvec 3 x) quiet_args quiet_ceps = Ok (fmat 1 1 y) /\
  forall re im, fft [2%nat] (leaf true (1 + / 2 ^ 30) "hanning" 3 3 0) (fun _ => Zero) re im ->
  Rabs (@root_cepstrum binary53 (fun z => rnd53 (Rpower z (1 / 3))) (fun p q => rnd53 (sqrt (p ^ 2 + q ^ 2))) (fun q => @lin_stored binary53 (re q))
          (fun q => @lin_stored binary53 (im q)) 2 (fun _ => dot_left quiet_weights 2) (fun _ => @lin_stored binary53 (Load 0)) x 0 - y 0%nat 0%nat)
  <= gain (Load 0) * ((1 + / 2 ^ 53) ^ 0 * ((1 + / 2 ^ 53) * exp (Rabs (1 / 3) * band_log_bound (/ 2 ^ 53) (/ 2 ^ 53) (/ 2 ^ 40) 2)) - 1) * Rpower (/ 2) (1 / 3).
Proof.
  intros x.
  assert (B : spec_band 1 2 3 (frame_of quiet_args (1 + / 2 ^ 30) 3 3 x 0) quiet_weights = / 2) by exact small_band.
  destruct (C161_root_cepstra exact_env (Msrcc (1 / 3)) (1 / 3) quiet_args quiet_ceps 3 3 3 1 (fun _ => quiet_weights) 1 x) as (y & Hy & H);
    [right; split; [reflexivity|lra]|exact quiet_framed|cbn; lia|lia|reflexivity|intros _ [|q]; cbn; lra|cbn; lia|cbn; lia|cbn; lia|reflexivity|left; reflexivity|left; reflexivity| |].
  { intros i j Hi Hj. assert (i = 0%nat) as -> by (cbn in Hi; lia). change (half (s_nfft quiet_args)) with 1%nat. change (Z.to_nat (s_nfft quiet_args)) with 2%nat.
    change (extractor_coeff (Msrcc (1 / 3)) quiet_args) with (1 + / 2 ^ 30). rewrite B. lra. }
  exists y. split; [exact Hy|]. intros re im Hf.
  apply (H binary53 (/ 2 ^ 53) (/ 2 ^ 53) (/ 2 ^ 40) (/ 2 ^ 53) (fun p q => rnd53 (sqrt (p ^ 2 + q ^ 2))) (fun z => rnd53 (Rpower z (1 / 3)))
           [2%nat] re im (fun _ => dot_left quiet_weights 2) (fun _ => Load 0) 0%nat 0%nat (Rpower (/ 2) (1 / 3)) rnd53_accurate); clear H.
  - lra.
  - split; [lra|]. intros p q. eapply Rle_trans; [apply rnd53_within|]. rewrite (Rabs_pos_eq (sqrt _)) by apply sqrt_pos. lra.
  - split; [lra|]. intros z _. eapply Rle_trans; [apply rnd53_within|]. rewrite Rabs_pos_eq; [lra|]. left. apply exp_pos.
  - lra.
  - cbn. lia.
  - cbn. lia.
  - exact Hf.
  - reflexivity.
  - intros j _. exact quiet_bank.
  - cbn. lia.
  - intros z. apply (dct_programs 2 1 0 (Load 0) ltac:(lia) ltac:(lia) ltac:(lia) quiet_dct).
  - intros j _. change (half (s_nfft quiet_args)) with 1%nat. change (Z.to_nat (s_nfft quiet_args)) with 2%nat.
    change (extractor_coeff (Msrcc (1 / 3)) quiet_args) with (1 + / 2 ^ 30). rewrite B. split; [exact small_noise|lra].
Qed.
