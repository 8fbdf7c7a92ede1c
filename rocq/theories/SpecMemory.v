(** * What a caller expects of arrays: value semantics.
    A caller holds arrays, changes single entries of them and passes them to functions of spafe.
    Here every array is a value: a call adds new values and changes none, an assignment changes the
    array it names and no other.  Nothing in this file mentions memory. *)
From Coq Require Import Reals ZArith List String Bool.
From Flocq Require Import Core.Raux.
From Verif Require Import Base Preprocessing Cepstral MelBanks Filters Features Extractors Lpc Pncc Rplp Yin Dominant Cqt SpFeats.
Import ListNotations.
Local Open Scope R_scope.

Inductive value := V1 (x : list F) | V2 (m : list (list F)).

(** the numbers of the dictionary of extract_feats, complex ones as two *)
Definition feat_numbers (f : spectral_feats) : list F :=
  [sf_centroid f; sf_skewness f; sf_kurtosis f; sf_entropy f; sf_flatness f; sf_flux f; fst (sf_mean f); snd (sf_mean f);
   fst (sf_rms f); snd (sf_rms f); sf_std f; sf_variance f] ++ sf_spread f ++ map fst (sf_rolloff f) ++ map snd (sf_rolloff f).

(** the same arguments with another value of fbanks *)
Definition with_bank (a : sargs) (b : option (list (list F))) : sargs :=
  mkS (s_fs a) (s_pre_emph a) (s_coeff a) (s_window a) (s_nfilts a) (s_nfft a) (s_low a) (s_high a)
      (s_scale a) b (s_approach a).

(** What a caller does.  Arrays are named by the order in which they came up, 0 first.
    The fields s_fbanks are not used: [fb] names the array passed as fbanks, if any. *)
Inductive action :=
| ANew1 (x : list F)                                   (* np.array of numbers *)
| ANew2 (row : list F) (m : list (list F))             (* np.array of rows as long as [row] *)
| APut1 (k i : nat) (x : F)                            (* v[i] = x *)
| APut2 (k i j : nat) (x : F)                          (* v[i, j] = x *)
| APre (k : nat) (coeff : R)                           (* pre_emphasis *)
| AFraming (k : nat) (fs : Z) (wlen whop : R)          (* framing; the length it returns is dropped *)
| AWindow (k : nat) (len : Z) (wt : string)            (* windowing *)
| ANorm (k : nat) (t : string)                         (* normalize_ceps *)
| ALifter (k : nat) (l : R)                            (* lifter_ceps *)
| ADeltas (k : nat) (w : Z)                            (* deltas *)
| ABank (e : extractor) (a : sargs)                    (* the bank the module of [e] computes *)
| ASpec (s : spectro) (k : nat) (a : sargs) (fb : option nat)
| ACeps (e : extractor) (k : nat) (a : sargs) (c : cargs) (fb : option nat)
| APsrcc (k : nat) (a : sargs) (gamma : R) (c : cargs) (fb : option nat)
| ALpc (k : nat) (fs order : Z) (pe : bool) (coeff : R) (w : option SlidingWindow)
| ALpcc (k : nat) (fs order : Z) (pe : bool) (coeff : R) (w : option SlidingWindow)
        (l : option R) (t : option string)
| AMedium (k M : nat)                                  (* medium_time_power_calculation *)
| ALowpass (k : nat) (lm_a lm_b : R)                   (* asymmetric_lowpass_filtering *)
| AMask (k : nat) (lam_t myu_t : R)                    (* temporal_masking *)
| ASmooth (r q : nat) (nfilts N : Z)                   (* weight_smoothing *)
| AMeanPower (k : nat) (lam_myu : R) (nfilts : Z) (c : R)   (* mean_power_normalization *)
| ASuppress (k : nat) (threshold : R)                  (* asymmetric_noise_suppression_with_temporal_masking *)
| APncc (k : nat) (a : sargs) (power : nat) (c : cargs) (fb : option nat)
| ARasta (k : nat)                                     (* rasta_filter *)
| APlp (k : nat) (a : sargs) (order : Z) (do_rasta : bool) (l : option R) (t : option string) (fb : option nat)
                                                       (* plp and rplp *)
| AYin (k : nat) (fs : Z) (wlen whop low high th : R)  (* compute_yin *)
| ADominant (k : nat) (fs : Z) (butter : option (list F * list F)) (nfft : Z) (wlen whop : R)
            (wtype : string) (only_positive : bool)    (* get_dominant_frequencies *)
| AZero (k : nat)                                      (* zero_handling of a vector *)
| ACqt (k : nat) (a : qargs)                           (* cqt_spectrogram, its real and its imaginary part *)
| ACqcc (k : nat) (a : qargs) (ratio : R) (c : cargs)  (* cqcc *)
| AFeats (k : nat) (fs nfft : Z).                      (* extract_feats, its numbers collected in one array *)

(** arguments of another kind are outside of the model and count as errors *)
Definition vec (st : list value) (k : nat) : result (list F) :=
  match nth_error st k with Some (V1 x) => Ok x | _ => Raise TypeError end.
Definition mat (st : list value) (k : nat) : result (list (list F)) :=
  match nth_error st k with Some (V2 m) => Ok m | _ => Raise TypeError end.
Definition optmat (st : list value) (fb : option nat) : result (option (list (list F))) :=
  match fb with None => Ok None | Some k => rmap Some (mat st k) end.
Definition put {A} (l : list A) (i : nat) (x : A) : list A := firstn i l ++ x :: skipn (S i) l.

(** one action: the arrays afterwards, or an exception *)
Definition vstep `{Env} (st : list value) (act : action) : result (list value) :=
  match act with
  | ANew1 x => Ok (st ++ [V1 x])
  | ANew2 row m => if forallb (fun r => Nat.eqb (List.length r) (List.length row)) m
                   then Ok (st ++ [V2 (row :: m)]) else Raise ValueError
  | APut1 k i x => do v <- vec st k;
                   if Nat.ltb i (List.length v) then Ok (put st k (V1 (put v i x))) else Raise IndexError
  | APut2 k i j x => do m <- mat st k;
                     if Nat.ltb i (List.length m) && Nat.ltb j (List.length (nth i m []))
                     then Ok (put st k (V2 (put m i (put (nth i m []) j x)))) else Raise IndexError
  | APre k c => do v <- vec st k; do y <- pre_emphasis v c; Ok (st ++ [V1 y])
  | AFraming k fs wlen whop => do v <- vec st k; do (fr, L) <- framing v fs wlen whop; Ok (st ++ [V2 fr])
  | AWindow k len wt => do m <- mat st k; do w <- windowing m len wt; Ok (st ++ [V2 w])
  | ANorm k t => do m <- mat st k; do w <- normalize_ceps m t; Ok (st ++ [V2 w])
  | ALifter k l => do m <- mat st k; do w <- lifter_ceps m l; Ok (st ++ [V2 w])
  | ADeltas k n => do m <- mat st k; do w <- deltas m n; Ok (st ++ [V2 w])
  | ABank e a => do w <- extractor_bank e (with_bank a None); Ok (st ++ [V2 w])
  | ASpec s k a fb => do v <- vec st k; do b <- optmat st fb;
                      do (f, m) <- spectrogram s v (with_bank a b); Ok (st ++ [V2 f; V2 m])
  | ACeps e k a c fb => do v <- vec st k; do b <- optmat st fb;
                        do w <- run e v (with_bank a b) c; Ok (st ++ [V2 w])
  | APsrcc k a g c fb => do v <- vec st k; do b <- optmat st fb;
                         do w <- psrcc v (with_bank a b) g c; Ok (st ++ [V2 w])
  | ALpc k fs order pe co w => do v <- vec st k;
                               do (a, e) <- lpc v fs order pe co w; Ok (st ++ [V2 a; V2 e])
  | ALpcc k fs order pe co w l t => do v <- vec st k;
                                    do r <- lpcc v fs order pe co w l t; Ok (st ++ [V2 r])
  | AMedium k M => do m <- mat st k; do w <- Ok (medium_time_power_calculation m M); Ok (st ++ [V2 w])
  | ALowpass k a b => do m <- mat st k; do w <- asymmetric_lowpass_filtering m a b; Ok (st ++ [V2 w])
  | AMask k a b => do m <- mat st k; do w <- temporal_masking m a b; Ok (st ++ [V2 w])
  | ASmooth r q L N => do m <- mat st r; do m' <- mat st q; do w <- weight_smoothing m m' L N; Ok (st ++ [V2 w])
  | AMeanPower k lam L c => do m <- mat st k; do w <- mean_power_normalization m lam L c; Ok (st ++ [V2 w])
  | ASuppress k th => do m <- mat st k; do w <- noise_suppression m th; Ok (st ++ [V2 w])
  | APncc k a power c fb => do v <- vec st k; do b <- optmat st fb;
                            do w <- pncc v (with_bank a b) power c; Ok (st ++ [V2 w])
  | ARasta k => do m <- mat st k; do w <- rasta_filter m; Ok (st ++ [V2 w])
  | APlp k a order do_rasta l t fb => do v <- vec st k; do b <- optmat st fb;
                                      do w <- rastaplp v (with_bank a b) order do_rasta l t; Ok (st ++ [V2 w])
  | AYin k fs wlen whop low high th => do v <- vec st k;
      do (prat, times) <- compute_yin v fs wlen whop low high th;
      let '(pitches, rates, argmins) := prat in Ok (st ++ [V1 pitches; V1 rates; V1 argmins; V1 times])
  | ADominant k fs butter nfft wlen whop wt pos => do v <- vec st k;
      do w <- get_dominant_frequencies v fs butter nfft wlen whop wt pos; Ok (st ++ [V1 w])
  | AZero k => do v <- vec st k; Ok (st ++ [V1 (zero_handling v)])
  | ACqt k a => do v <- vec st k;
                do (f, m) <- rmap (fun q => (map (map fst) q, map (map snd) q)) (cqt_spectrogram v a); Ok (st ++ [V2 f; V2 m])
  | ACqcc k a ratio c => do v <- vec st k; do w <- cqcc v a ratio c; Ok (st ++ [V2 w])
  | AFeats k fs nfft => do v <- vec st k; do w <- rmap feat_numbers (extract_feats v fs nfft); Ok (st ++ [V1 w])
  end.
(** a whole history: how each action ended, and the arrays at the end; an action that raised
    has no other effect *)
Fixpoint vrun `{Env} (st : list value) (acts : list action) : list (result unit) * list value :=
  match acts with
  | [] => ([], st)
  | a :: rest =>
      let r := vstep st a in
      let st' := match r with Ok s => s | Raise _ => st end in
      let (os, st'') := vrun st' rest in
      (match r with Ok _ => Ok tt | Raise e => Raise e end :: os, st'')
  end.

(** the calls for which value semantics is claimed, with the first [s] arrays left alone:
    framing with a hop as long as the frame, lifter_ceps outside of its identity range,
    lpc, lpcc, plp and rplp of order at least 2 *)
Definition plain `{Env} (s : nat) (act : action) : Prop :=
  match act with
  | APut1 k _ _ | APut2 k _ _ _ => (s <= k)%nat
  | AFraming _ fs wlen whop => Ztrunc (rnd (wlen * IZR fs)) = Ztrunc (rnd (whop * IZR fs))
  | ALifter _ l => l <> 0 /\ l <= 10
  | ALpc _ _ order _ _ _ | ALpcc _ _ order _ _ _ _ _ | APlp _ _ order _ _ _ _ => (2 <= order)%Z
  | _ => True
  end.
