(** * A caller and the threads of a process on a heap.
    The actions are those of SpecMemory.v; here they are programs of Memory.v. *)
From Coq Require Import Reals ZArith List String Bool.
From Verif Require Import Base Preprocessing Features Extractors Lpc SpecMemory Memory MemoryMore.
Import ListNotations.
Local Open Scope R_scope.

(** the four spectrograms by name *)
Definition spectrogram_mem `{Env} (s : spectro) : arr1 -> sargs -> option arr2 -> prog (arr2 * arr2) :=
  match s with
  | Mel => mel_spectrogram_mem | Linear => linear_spectrogram_mem
  | Bark => bark_spectrogram_mem | Erb => erb_spectrogram_mem
  end.
(** the cepstral functions by name *)
Definition run_mem `{Env} (e : extractor) : arr1 -> sargs -> cargs -> option arr2 -> prog arr2 :=
  match e with
  | Mfcc => mfcc_mem | Imfcc => imfcc_mem | Lfcc => lfcc_mem | Bfcc => bfcc_mem | Gfcc => gfcc_mem | Ngcc => ngcc_mem
  | Msrcc g => fun sig a c fb => msrcc_mem sig a g c fb
  end.

(** what a caller holds: references to arrays *)
Inductive handle := H1 (v : arr1) | H2 (v : arr2).
(** what it shows, the buffer it is in *)
Definition shows (h : heap) (hd : handle) (v : value) : Prop :=
  match hd, v with H1 a, V1 x => sees1 h a x | H2 a, V2 m => sees2 h a m | _, _ => False end.
Definition buf (hd : handle) : nat := match hd with H1 a => b1 a | H2 a => b2 a end.
Definition hvec (hs : list handle) (k : nat) : result arr1 :=
  match nth_error hs k with Some (H1 v) => Ok v | _ => Raise TypeError end.
Definition hmat (hs : list handle) (k : nat) : result arr2 :=
  match nth_error hs k with Some (H2 v) => Ok v | _ => Raise TypeError end.
Definition hopt (hs : list handle) (fb : option nat) : result (option arr2) :=
  match fb with None => Ok None | Some k => rmap Some (hmat hs k) end.

(** one action *)
Definition cstep `{Env} (hs : list handle) (act : action) : prog (list handle) :=
  match act with
  | ANew1 x => pdo v <- new1 x; ret (hs ++ [H1 v])
  | ANew2 row m => if forallb (fun r => Nat.eqb (List.length r) (List.length row)) m
                   then pdo v <- new2 (row :: m); ret (hs ++ [H2 v]) else lift (Raise ValueError)
  | APut1 k i x => pdo v <- lift (hvec hs k); pdo _ <- write1 v i x; ret hs
  | APut2 k i j x => pdo v <- lift (hmat hs k); pdo _ <- write2 v i j x; ret hs
  | APre k c => pdo v <- lift (hvec hs k); pdo y <- pre_emphasis_mem v c; ret (hs ++ [H1 y])
  | AFraming k fs wlen whop => pdo v <- lift (hvec hs k); pdo (fr, L) <- framing_mem v fs wlen whop; ret (hs ++ [H2 fr])
  | AWindow k len wt => pdo v <- lift (hmat hs k); pdo w <- windowing_mem v len wt; ret (hs ++ [H2 w])
  | ANorm k t => pdo v <- lift (hmat hs k); pdo w <- normalize_ceps_mem v t; ret (hs ++ [H2 w])
  | ALifter k l => pdo v <- lift (hmat hs k); pdo w <- lifter_ceps_mem v l; ret (hs ++ [H2 w])
  | ADeltas k n => pdo v <- lift (hmat hs k); pdo w <- deltas_mem v n; ret (hs ++ [H2 w])
  | ABank e a => pdo w <- bank_mem (extractor_bank e (with_bank a None)) None; ret (hs ++ [H2 w])
  | ASpec s k a fb => pdo v <- lift (hvec hs k); pdo b <- lift (hopt hs fb);
                      pdo (f, m) <- spectrogram_mem s v a b; ret (hs ++ [H2 f; H2 m])
  | ACeps e k a c fb => pdo v <- lift (hvec hs k); pdo b <- lift (hopt hs fb);
                        pdo w <- run_mem e v a c b; ret (hs ++ [H2 w])
  | APsrcc k a g c fb => pdo v <- lift (hvec hs k); pdo b <- lift (hopt hs fb);
                         pdo w <- psrcc_mem v a g c b; ret (hs ++ [H2 w])
  | ALpc k fs order pe co w => pdo v <- lift (hvec hs k);
                               pdo (a, e) <- lpc_mem v fs order pe co w; ret (hs ++ [H2 a; H2 e])
  | ALpcc k fs order pe co w l t => pdo v <- lift (hvec hs k);
                                    pdo r <- lpcc_mem v fs order pe co w l t; ret (hs ++ [H2 r])
  | AMedium k M => pdo v <- lift (hmat hs k); pdo w <- medium_mem v M; ret (hs ++ [H2 w])
  | ALowpass k a b => pdo v <- lift (hmat hs k); pdo w <- asymmetric_lowpass_mem v a b; ret (hs ++ [H2 w])
  | AMask k a b => pdo v <- lift (hmat hs k); pdo w <- temporal_masking_mem v a b; ret (hs ++ [H2 w])
  | ASmooth r q L N => pdo v <- lift (hmat hs r); pdo v' <- lift (hmat hs q);
                       pdo w <- weight_smoothing_mem v v' L N; ret (hs ++ [H2 w])
  | AMeanPower k lam L c => pdo v <- lift (hmat hs k); pdo w <- mean_power_mem v lam L c; ret (hs ++ [H2 w])
  | ASuppress k th => pdo v <- lift (hmat hs k); pdo w <- noise_suppression_mem v th; ret (hs ++ [H2 w])
  | APncc k a power c fb => pdo v <- lift (hvec hs k); pdo b <- lift (hopt hs fb);
                            pdo w <- pncc_mem v a power c b; ret (hs ++ [H2 w])
  | ARasta k => pdo v <- lift (hmat hs k); pdo w <- rasta_filter_mem v; ret (hs ++ [H2 w])
  | APlp k a order do_rasta l t fb => pdo v <- lift (hvec hs k); pdo b <- lift (hopt hs fb);
                                      pdo w <- rastaplp_mem v a order do_rasta l t b; ret (hs ++ [H2 w])
  | AYin k fs wlen whop low high th => pdo v <- lift (hvec hs k);
      pdo (prat, times) <- compute_yin_mem v fs wlen whop low high th;
      let '(pitches, rates, argmins) := prat in ret (hs ++ [H1 pitches; H1 rates; H1 argmins; H1 times])
  | ADominant k fs butter nfft wlen whop wt pos => pdo v <- lift (hvec hs k);
      pdo w <- dominant_mem v fs butter nfft wlen whop wt pos; ret (hs ++ [H1 w])
  | AZero k => pdo v <- lift (hvec hs k); pdo w <- zero_handling_mem v; ret (hs ++ [H1 w])
  | ACqt k a => pdo v <- lift (hvec hs k); pdo (f, m) <- cqt_spectrogram_mem v a; ret (hs ++ [H2 f; H2 m])
  | ACqcc k a ratio c => pdo v <- lift (hvec hs k); pdo w <- cqcc_mem v a ratio c; ret (hs ++ [H2 w])
  | AFeats k fs nfft => pdo v <- lift (hvec hs k); pdo w <- extract_feats_mem v fs nfft feat_numbers; ret (hs ++ [H1 w])
  end.
(** try: ... except: the exception becomes a value *)
Fixpoint attempt {A} (p : prog A) : prog (result A) :=
  match p with
  | Done r => Done (Ok r)
  | Alloc d k => Alloc d (fun b => attempt (k b))
  | Load b i k => Load b i (fun r => attempt (k r))
  | Store b i x k => Store b i x (fun r => attempt (k r))
  end.
(** a whole history of a caller who goes on after an exception *)
Fixpoint crun `{Env} (hs : list handle) (acts : list action) : prog (list (result unit) * list handle) :=
  match acts with
  | [] => ret ([], hs)
  | a :: rest =>
      pdo r <- attempt (cstep hs a);
      pdo (os, hs'') <- crun (match r with Ok s => s | Raise _ => hs end) rest;
      ret (match r with Ok _ => Ok tt | Raise e => Raise e end :: os, hs'')
  end.

(** The same run with the first [n] buffers read-only: numpy refuses the assignment *)
Fixpoint exec_readonly {A} (n : nat) (p : prog A) (h : heap) : result A * heap :=
  match p with
  | Done r => (r, h)
  | Alloc d k => exec_readonly n (k (List.length h)) (h ++ [d])
  | Load b i k => exec_readonly n (k (read_buf (buffer h b) i)) h
  | Store b i x k =>
      if Nat.ltb b n then exec_readonly n (k (Raise ValueError)) h
      else
        let d := buffer h b in
        if ((0 <=? i) && (i <? zlen d))%Z then exec_readonly n (k (Ok tt)) (set_nth h b (set_nth d (Z.to_nat i) x))
        else exec_readonly n (k (Raise OutOfBoundsRead)) h
  end.

(** ** threads *)
(** A process: memory all threads can reach, and for every thread what it still has to do and the
    buffers it allocated.  Thread [t] numbers the buffers: first the shared ones, then its own. *)
Record process (A : Type) := mkP { shared : heap; threads : list (prog A * heap) }.
Arguments mkP {A}. Arguments shared {A}. Arguments threads {A}.
(** thread t makes one step *)
Definition tick {A} (M : process A) (t : nat) : process A :=
  match nth_error (threads M) t with
  | None => M
  | Some (p, own) =>
      let (p', h') := step p (shared M ++ own) in
      mkP (firstn (List.length (shared M)) h') (set_nth (threads M) t (p', skipn (List.length (shared M)) h'))
  end.
(** a schedule says which thread makes the next step *)
Definition schedule {A} (M : process A) (ts : list nat) : process A := fold_left tick ts M.
