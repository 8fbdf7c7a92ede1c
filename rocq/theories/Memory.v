(** * Arrays in memory: which functions of spafe allocate, share or overwrite buffers.
    The other model files compute with values.  Here the same functions are programs on a heap of
    buffers, so that views, in-place assignments and returned arguments can be told apart from
    copies.  Entries are [F]; strides are counted in elements.  A numpy expression that makes a new
    array out of others (arithmetic, ufuncs, dot, dct, lfilter, np.where) reads its arguments,
    computes the value given by the other model files and allocates the result, which is what numpy
    and scipy document.  Temporaries that are neither assigned to nor returned stay values. *)
From Coq Require Import Reals ZArith List String Bool.
From Flocq Require Import Core.Raux.
From Verif Require Import Base Cplx Preprocessing Filters Cepstral MelBanks BarkBank Gammatone Fourier Features LinAlg Lpc.
Import ListNotations.
Local Open Scope R_scope.

(** ** programs *)
Definition heap := list (list F).
(** a program ends with a value or an exception, or allocates a buffer with given contents, or reads
    or writes one cell of a buffer, and goes on with what that gave *)
Inductive prog (A : Type) : Type :=
| Done (r : result A)
| Alloc (d : list F) (k : nat -> prog A)
| Load (b : nat) (i : Z) (k : result F -> prog A)
| Store (b : nat) (i : Z) (x : F) (k : result unit -> prog A).
Arguments Done {A}. Arguments Alloc {A}. Arguments Load {A}. Arguments Store {A}.
Definition ret {A} (a : A) : prog A := Done (Ok a).
Definition lift {A} (r : result A) : prog A := Done r.
Fixpoint pbind {A B} (p : prog A) (k : A -> prog B) : prog B :=
  match p with
  | Done (Ok a) => k a
  | Done (Raise e) => Done (Raise e)
  | Alloc d k' => Alloc d (fun b => pbind (k' b) k)
  | Load b i k' => Load b i (fun r => pbind (k' r) k)
  | Store b i x k' => Store b i x (fun r => pbind (k' r) k)
  end.
Notation "'pdo' x <- p ; k" := (pbind p (fun x => k)) (at level 200, x name, p at level 100, k at level 200).
Notation "'pdo' ( x , y ) <- p ; k" :=
  (pbind p (fun xy => let (x, y) := xy in k)) (at level 200, x name, y name, p at level 100, k at level 200).
Fixpoint forM {A} (l : list A) (f : A -> prog unit) : prog unit :=
  match l with [] => ret tt | x :: t => pdo _ <- f x; forM t f end.
Fixpoint mapP {A B} (f : A -> prog B) (l : list A) : prog (list B) :=
  match l with [] => ret [] | x :: t => pdo y <- f x; pdo ys <- mapP f t; ret (y :: ys) end.

(** ** their meaning on a heap of buffers *)
Definition buffer (h : heap) (b : nat) : list F := nth b h [].
Definition set_nth {A} (l : list A) (i : nat) (x : A) : list A := firstn i l ++ x :: skipn (S i) l.
(** one step; an access outside of a buffer is undefined and shows as OutOfBoundsRead *)
Definition step {A} (p : prog A) (h : heap) : prog A * heap :=
  match p with
  | Done r => (Done r, h)
  | Alloc d k => (k (List.length h), h ++ [d])
  | Load b i k => (k (read_buf (buffer h b) i), h)
  | Store b i x k =>
      let d := buffer h b in
      if ((0 <=? i) && (i <? zlen d))%Z then (k (Ok tt), set_nth h b (set_nth d (Z.to_nat i) x))
      else (k (Raise OutOfBoundsRead), h)
  end.
(** all steps *)
Fixpoint exec {A} (p : prog A) (h : heap) : result A * heap :=
  match p with
  | Done r => (r, h)
  | Alloc d k => exec (k (List.length h)) (h ++ [d])
  | Load b i k => exec (k (read_buf (buffer h b) i)) h
  | Store b i x k =>
      let d := buffer h b in
      if ((0 <=? i) && (i <? zlen d))%Z then exec (k (Ok tt)) (set_nth h b (set_nth d (Z.to_nat i) x))
      else exec (k (Raise OutOfBoundsRead)) h
  end.

(** numpy arrays: a buffer, an offset, a shape and strides *)
Record arr1 := mkA1 { b1 : nat; o1 : Z; n1 : nat; s1 : Z }.
Record arr2 := mkA2 { b2 : nat; o2 : Z; r2 : nat; c2 : nat; rs2 : Z; cs2 : Z }.
Definition cell1 (v : arr1) (i : nat) : Z := (o1 v + Z.of_nat i * s1 v)%Z.
Definition cell2 (v : arr2) (i j : nat) : Z := (o2 v + Z.of_nat i * rs2 v + Z.of_nat j * cs2 v)%Z.

(** what an array shows in a heap *)
Definition load1 (h : heap) (v : arr1) : result (list F) :=
  mapM (fun i => read_buf (buffer h (b1 v)) (cell1 v i)) (seq 0 (n1 v)).
Definition load2 (h : heap) (v : arr2) : result (list (list F)) :=
  mapM (fun i => mapM (fun j => read_buf (buffer h (b2 v)) (cell2 v i j)) (seq 0 (c2 v))) (seq 0 (r2 v)).
(** array [v] is in the heap and shows these entries *)
Definition sees1 (h : heap) (v : arr1) (x : list F) : Prop := (b1 v < List.length h)%nat /\ load1 h v = Ok x.
Definition sees2 (h : heap) (v : arr2) (m : list (list F)) : Prop := (b2 v < List.length h)%nat /\ load2 h v = Ok m.
(** reading an array, cell by cell *)
Definition peek (b : nat) (i : Z) : prog F := Load b i (fun r => Done r).
Definition read1 (v : arr1) : prog (list F) := mapP (fun i => peek (b1 v) (cell1 v i)) (seq 0 (n1 v)).
Definition read_row (v : arr2) (i : nat) : prog (list F) :=
  mapP (fun j => peek (b2 v) (cell2 v i j)) (seq 0 (c2 v)).
Definition read2 (v : arr2) : prog (list (list F)) := mapP (read_row v) (seq 0 (r2 v)).

Definition alloc (d : list F) : prog nat := Alloc d (fun b => ret b).
(** a new 1-D array, a new C-ordered 2-D array, np.zeros((r, c)) *)
Definition new1 (x : list F) : prog arr1 :=
  pdo b <- alloc x; ret (mkA1 b 0 (List.length x) 1).
Definition new2 (m : list (list F)) : prog arr2 :=
  pdo b <- alloc (List.concat m); ret (mkA2 b 0 (List.length m) (ncols m) (Z.of_nat (ncols m)) 1).
Definition zeros2 (r c : nat) : prog arr2 :=
  pdo b <- alloc (repeat f0 (r * c)); ret (mkA2 b 0 r c (Z.of_nat c) 1).

Definition poke (b : nat) (k : Z) (x : F) : prog unit := Store b k x (fun r => Done r).
(** v[i] = x, v[i, j] = x for indices that are not negative *)
Definition write1 (v : arr1) (i : nat) (x : F) : prog unit :=
  if Nat.ltb i (n1 v) then poke (b1 v) (cell1 v i) x else lift (Raise IndexError).
Definition write2 (v : arr2) (i j : nat) (x : F) : prog unit :=
  if Nat.ltb i (r2 v) && Nat.ltb j (c2 v) then poke (b2 v) (cell2 v i j) x else lift (Raise IndexError).
(** v[i, :] = xs: as many values as columns (a single value would be repeated) *)
Definition write_row (v : arr2) (i : nat) (xs : list F) : prog unit :=
  if Nat.eqb (List.length xs) (c2 v) then forM (combine (seq 0 (c2 v)) xs) (fun jx => write2 v i (fst jx) (snd jx))
  else match xs with
       | [x] => forM (seq 0 (c2 v)) (fun j => write2 v i j x)
       | _ => lift (Raise ValueError)
       end.
(** v[:, 0] = xs, mfcc.py:313 and alike *)
Definition write_col0 (v : arr2) (xs : list F) : prog unit :=
  if Nat.eqb (c2 v) 0 then lift (Raise IndexError)
  else if Nat.eqb (List.length xs) (r2 v) then forM (combine (seq 0 (r2 v)) xs) (fun ix => write2 v (fst ix) 0 (snd ix))
  else match xs with
       | [x] => forM (seq 0 (r2 v)) (fun i => write2 v i 0 x)
       | _ => lift (Raise ValueError)
       end.
(** v[mask(v)] = x, psrcc.py:178-180 *)
Definition write_where (v : arr2) (mask : F -> bool) (x : F) : prog unit :=
  pdo m <- read2 v;
  forM (list_prod (seq 0 (r2 v)) (seq 0 (c2 v)))
       (fun ij => if mask (nth (snd ij) (nth (fst ij) m []) NaN) then write2 v (fst ij) (snd ij) x else ret tt).

(** v[:, :k], a view of the same buffer *)
Definition columns_upto (v : arr2) (k : Z) : arr2 :=
  mkA2 (b2 v) (o2 v) (r2 v) (List.length (py_take k (seq 0 (c2 v)))) (rs2 v) (cs2 v).

(** ** utils/preprocessing.py *)
(** preprocessing.py:52; np.where makes a new array *)
Definition zero_handling_mem (v : arr1) : prog arr1 := pdo x <- read1 v; new1 (zero_handling x).
(** preprocessing.py:72 *)
Definition pre_emphasis_mem (sig : arr1) (coeff : R) : prog arr1 :=
  pdo x <- read1 sig; pdo y <- lift (pre_emphasis x coeff); new1 y.
(** preprocessing.py:91-96: np.array copies the argument, as_strided makes a view of the copy and
    checks nothing but the signs of the shape *)
Definition stride_trick_mem (a : arr1) (stride_length stride_step : Z) : prog arr2 :=
  pdo x <- read1 a;
  pdo a <- new1 x;
  if (stride_step =? 0)%Z then lift (Raise ZeroDivisionError)
  else
    let nrows := ((Z.of_nat (n1 a) - stride_length) / stride_step + 1)%Z in
    if ((nrows <? 0) || (stride_length <? 0))%Z then lift (Raise ValueError)
    else ret (mkA2 (b1 a) 0 (Z.to_nat nrows) (Z.to_nat stride_length) (stride_step * s1 a) (s1 a)).
(** preprocessing.py:127-143; frames[-1] of an array without rows raises IndexError *)
Definition framing_mem `{Env} (sig : arr1) (fs : Z) (wlen whop : R) : prog (arr2 * Z) :=
  if Rltb wlen whop then lift (Raise (ParameterError msg_win))
  else
    let frame_length := Ztrunc (rnd (wlen * IZR fs)) in
    let frame_step := Ztrunc (rnd (whop * IZR fs)) in
    pdo frames <- stride_trick_mem sig frame_length frame_step;
    if Nat.eqb (r2 frames) 0 then lift (Raise IndexError)
    else if (Z.of_nat (c2 frames) <? frame_length)%Z then
      pdo last <- read_row frames (r2 frames - 1);
      pdo _ <- write_row frames (r2 frames - 1)
                 (last ++ repeat f0 (Z.to_nat (frame_length - Z.of_nat (c2 frames))));
      ret (frames, frame_length)
    else ret (frames, frame_length).
(** preprocessing.py:166-172 *)
Definition windowing_mem (frames : arr2) (frame_len : Z) (wt : string) : prog arr2 :=
  pdo m <- read2 frames; pdo w <- lift (windowing m frame_len wt); new2 w.

(** ** utils/cepstral.py *)
(** cepstral.py:51-56 *)
Definition normalize_ceps_mem (v : arr2) (t : string) : prog arr2 :=
  pdo x <- read2 v; pdo y <- lift (normalize_ceps x t); new2 y.
(** cepstral.py:82-95: the first branch returns the argument itself *)
Definition lifter_ceps_mem (v : arr2) (l : R) : prog arr2 :=
  if Reqb l 0 || Rltb 10 l then ret v
  else pdo x <- read2 v; pdo y <- lift (lifter_ceps x l); new2 y.
(** cepstral.py:112-123; the result is a slice of a new array *)
Definition deltas_mem (v : arr2) (w : Z) : prog arr2 :=
  pdo x <- read2 v; pdo y <- lift (deltas x w); new2 y.

(** ** the spectrograms *)
(** the lines quoted at [framed] in Features.v *)
Definition framed_mem `{Env} (sig : arr1) (fs : Z) (pre_emph : bool) (coeff : R)
    (window : option SlidingWindow) : prog (arr2 * arr2) :=
  pdo sig <- (if pre_emph then pre_emphasis_mem sig coeff else ret sig);
  let w := match window with None => default_window | Some w => w end in
  pdo (frames, frame_length) <- framing_mem sig fs (win_len w) (win_hop w);
  pdo windows <- windowing_mem frames frame_length (win_type w);
  ret (frames, windows).
(** mfcc.py:155-156: the slice is a view of the array of all nfft magnitudes *)
Definition fft_magnitude_mem (windows : arr2) (nfft : Z) : prog arr2 :=
  pdo w <- read2 windows;
  pdo X <- lift (np_fft w nfft);
  pdo full <- new2 (map (map cabs) X);
  ret (columns_upto full (Z.quot nfft 2 + 1)).
(** bfcc.py:176, ngcc.py:169 *)
Definition rfft_magnitude_mem (windows : arr2) (nfft : Z) : prog arr2 :=
  pdo w <- read2 windows; pdo X <- lift (np_rfft w nfft); new2 (map (map cabs) X).
(** mfcc.py:159-162; fbanks.T is a view that is only read *)
Definition bands_mem (fourrier fbanks : arr2) (nfft : Z) : prog arr2 :=
  pdo f <- read2 fourrier; pdo b <- read2 fbanks;
  pdo d <- lift (np_dot_T (power_frames nfft f) b); new2 d.
(** fbanks: the caller's array, or a new one (mfcc.py:124-135 and alike) *)
Definition bank_mem (own : result (list (list F))) (fbanks : option arr2) : prog arr2 :=
  match fbanks with Some v => ret v | None => pdo m <- lift own; new2 m end.

(** The arguments are those of Features.v; the field s_fbanks is not used, the array [fbanks] is. *)
(** mfcc.py:29-163 *)
Definition mel_spectrogram_mem `{Env} (sig : arr1) (a : sargs) (fbanks : option arr2) : prog (arr2 * arr2) :=
  pdo fbanks <- bank_mem (rmap fst (mel_filter_banks (s_nfilts a) (s_nfft a) (s_fs a) (s_low a)
                                      (s_high a) (s_scale a) (s_approach a))) fbanks;
  pdo (_, windows) <- framed_mem sig (s_fs a) (s_pre_emph a) (s_coeff a) (s_window a);
  pdo fourrier <- fft_magnitude_mem windows (s_nfft a);
  pdo features <- bands_mem fourrier fbanks (s_nfft a);
  ret (features, fourrier).
(** lfcc.py:28-154 *)
Definition linear_spectrogram_mem `{Env} (sig : arr1) (a : sargs) (fbanks : option arr2) : prog (arr2 * arr2) :=
  pdo fbanks <- bank_mem (rmap fst (linear_filter_banks (s_nfilts a) (s_nfft a) (s_fs a) (s_low a)
                                      (s_high a) (s_scale a))) fbanks;
  pdo (_, windows) <- framed_mem sig (s_fs a) (s_pre_emph a) 0.97 (s_window a);
  pdo fourrier <- fft_magnitude_mem windows (s_nfft a);
  pdo features <- bands_mem fourrier fbanks (s_nfft a);
  ret (features, fourrier).
(** bfcc.py:50-183 *)
Definition bark_spectrogram_mem `{Env} (sig : arr1) (a : sargs) (fbanks : option arr2) : prog (arr2 * arr2) :=
  pdo fbanks <- bank_mem (rmap fst (bark_filter_banks (s_nfilts a) (s_nfft a) (s_fs a) (s_low a)
                                      (s_high a) (s_scale a) (s_approach a))) fbanks;
  pdo (_, windows) <- framed_mem sig (s_fs a) (s_pre_emph a) 0.97 (s_window a);
  pdo fourrier <- rfft_magnitude_mem windows (s_nfft a);
  pdo features <- bands_mem fourrier fbanks (s_nfft a);
  ret (features, fourrier).
(** gfcc.py:29-162 *)
Definition erb_spectrogram_mem `{Env} (sig : arr1) (a : sargs) (fbanks : option arr2) : prog (arr2 * arr2) :=
  pdo fbanks <- bank_mem (rmap fst (gammatone_filter_banks (s_nfilts a) (s_nfft a) (s_fs a) (s_low a)
                                      (s_high a) (s_scale a) 4 (s_approach a))) fbanks;
  pdo (_, windows) <- framed_mem sig (s_fs a) (s_pre_emph a) 0.97 (s_window a);
  pdo fourrier <- fft_magnitude_mem windows (s_nfft a);
  pdo features <- bands_mem fourrier fbanks (s_nfft a);
  ret (features, fourrier).

(** ** the cepstral functions *)
(** the lines quoted at [finish] in Features.v *)
Definition finish_mem (c : cargs) (nfft : Z) (feats mag : arr2) : prog arr2 :=
  pdo f <- read2 feats;
  pdo d <- lift (sp_dct f (c_dct_type c));
  pdo d <- new2 d;
  let ceps := columns_upto d (c_num_ceps c) in
  pdo _ <- (if c_use_energy c
            then pdo m <- read2 mag; write_col0 ceps (log_energy nfft m)
            else ret tt);
  pdo ceps <- match c_lifter c with
              | Some l => if Reqb l 0 then ret ceps else lifter_ceps_mem ceps l
              | None => ret ceps
              end;
  match c_normalize c with
  | Some t => if String.eqb t "" then ret ceps else normalize_ceps_mem ceps t
  | None => ret ceps
  end.
(** an entry-wise function of a matrix: a new array *)
Definition map_mem (f : list (list F) -> list (list F)) (v : arr2) : prog arr2 :=
  pdo x <- read2 v; new2 (f x).

(** mfcc.py:166-323 *)
Definition mfcc_mem `{Env} (sig : arr1) (a : sargs) (c : cargs) (fbanks : option arr2) : prog arr2 :=
  if (s_nfilts a <? c_num_ceps c)%Z then lift (Raise (ParameterError msg_nfilts))
  else
    pdo (features, fourrier) <- mel_spectrogram_mem sig a fbanks;
    pdo logs <- map_mem log_features features;
    finish_mem c (s_nfft a) logs fourrier.
(** mfcc.py:326-462 *)
Definition imfcc_mem `{Env} (sig : arr1) (a : sargs) (c : cargs) (fbanks : option arr2) : prog arr2 :=
  if (s_nfilts a <? c_num_ceps c)%Z then lift (Raise (ParameterError msg_nfilts))
  else
    pdo fbanks <- bank_mem (rmap fst (inverse_mel_filter_banks (s_nfilts a) (s_nfft a) (s_fs a)
                                        (s_low a) (s_high a) (s_scale a) (s_approach a))) fbanks;
    mfcc_mem sig a c (Some fbanks).
(** lfcc.py:157-304 *)
Definition lfcc_mem `{Env} (sig : arr1) (a : sargs) (c : cargs) (fbanks : option arr2) : prog arr2 :=
  if (s_nfilts a <? c_num_ceps c)%Z then lift (Raise (ParameterError msg_nfilts))
  else
    pdo (features, fourrier) <- linear_spectrogram_mem sig a fbanks;
    pdo logs <- map_mem log_features features;
    finish_mem c (s_nfft a) logs fourrier.
(** bfcc.py:186-346 *)
Definition bfcc_mem `{Env} (sig : arr1) (a : sargs) (c : cargs) (fbanks : option arr2) : prog arr2 :=
  if (s_nfilts a <? c_num_ceps c)%Z then lift (Raise (ParameterError msg_nfilts))
  else
    pdo (features, fourrier) <- bark_spectrogram_mem sig a fbanks;
    pdo ipl <- map_mem intensity_power_law features;
    pdo logs <- map_mem log_features ipl;
    finish_mem c (s_nfft a) logs fourrier.
(** gfcc.py:165-326 *)
Definition gfcc_mem `{Env} (sig : arr1) (a : sargs) (c : cargs) (fbanks : option arr2) : prog arr2 :=
  if (s_nfilts a <? c_num_ceps c)%Z then lift (Raise (ParameterError msg_nfilts))
  else
    pdo (features, fourrier) <- erb_spectrogram_mem sig a fbanks;
    pdo roots <- map_mem (map (map (fun v => fpow v (1 / 3)))) features;
    finish_mem c (s_nfft a) roots fourrier.
(** ngcc.py:29-204 *)
Definition ngcc_mem `{Env} (sig : arr1) (a : sargs) (c : cargs) (fbanks : option arr2) : prog arr2 :=
  if (s_nfilts a <? c_num_ceps c)%Z then lift (Raise (ParameterError msg_nfilts))
  else
    pdo fbanks <- bank_mem (rmap fst (gammatone_filter_banks (s_nfilts a) (s_nfft a) (s_fs a) (s_low a)
                                        (s_high a) (s_scale a) 4 (s_approach a))) fbanks;
    pdo (_, windows) <- framed_mem sig (s_fs a) (s_pre_emph a) (s_coeff a) (s_window a);
    pdo fourrier <- rfft_magnitude_mem windows (s_nfft a);
    pdo features <- bands_mem fourrier fbanks (s_nfft a);
    pdo logs <- map_mem log_features features;
    finish_mem c (s_nfft a) logs fourrier.
(** msrcc.py:23-180 *)
Definition msrcc_mem `{Env} (sig : arr1) (a : sargs) (gamma : R) (c : cargs) (fbanks : option arr2) : prog arr2 :=
  if (s_nfilts a <? c_num_ceps c)%Z then lift (Raise (ParameterError msg_nfilts))
  else
    pdo (features, fourrier) <- mel_spectrogram_mem sig a fbanks;
    pdo roots <- map_mem (map (map (fun v => fpow v gamma))) features;
    finish_mem c (s_nfft a) roots fourrier.
(** psrcc.py:29-206; the complex spectrum stays a value, its magnitudes (line 188) are computed
    when needed.  Lines 178 and 180 overwrite the new array features**gamma. *)
Definition psrcc_mem `{Env} (sig : arr1) (a : sargs) (gamma : R) (c : cargs) (fbanks : option arr2) : prog arr2 :=
  if (s_nfilts a <? c_num_ceps c)%Z then lift (Raise (ParameterError msg_nfilts))
  else
    pdo fbanks <- bank_mem (rmap fst (mel_filter_banks (s_nfilts a) (s_nfft a) (s_fs a) (s_low a)
                                        (s_high a) (s_scale a) (s_approach a))) fbanks;
    pdo (_, windows) <- framed_mem sig (s_fs a) (s_pre_emph a) (s_coeff a) (s_window a);
    pdo w <- read2 windows;
    pdo fourrier <- lift (np_rfft w (s_nfft a));
    pdo b <- read2 fbanks;
    pdo d <- lift (np_dot_T (map (map (fun z => wrap_phase (angle_deg z))) fourrier) b);
    pdo features <- new2 (map (map (fun v => fpow v gamma)) d);
    pdo _ <- write_where features is_nan f0;
    pdo m <- read2 features;
    pdo mx <- lift (fmaxl (List.concat m));
    pdo _ <- write_where features is_inf mx;
    pdo magnitude <- new2 (map (map cabs) fourrier);
    finish_mem c (s_nfft a) features magnitude.

(** ** features/lpc.py *)
(** lpc.py:177-201 *)
Definition lpc_mem `{Env} (sig : arr1) (fs order : Z) (pre_emph : bool) (pre_emph_coeff : R)
    (window : option SlidingWindow) : prog (arr2 * arr2) :=
  let order := (order - 1)%Z in
  pdo (frames, windows) <- framed_mem sig fs pre_emph 0.97 window;
  if (order + 1 <? 0)%Z then lift (Raise ValueError)
  else
    pdo a_mat <- zeros2 (r2 windows) (Z.to_nat (order + 1));
    pdo e_vec <- zeros2 (r2 windows) 1;
    pdo _ <- forM (seq 0 (r2 frames))
               (fun i => pdo frame <- read_row frames i;
                         pdo (a, e) <- lift (lpc_helper frame order);
                         pdo _ <- write_row a_mat i a;
                         write_row e_vec i [e]);
    pdo a <- read2 a_mat; pdo a <- new2 a;                  (* np.array copies, line 201 *)
    pdo e <- read2 e_vec; pdo e <- new2 e;
    ret (a, e).
(** lpc.py:306-345 *)
Definition lpcc_mem `{Env} (sig : arr1) (fs order : Z) (pre_emph : bool) (pre_emph_coeff : R)
    (window : option SlidingWindow) (lifter : option R) (normalize : option string) : prog arr2 :=
  let order := (order - 1)%Z in
  pdo (frames, windows) <- framed_mem sig fs pre_emph 0.97 window;
  if (order + 1 <? 0)%Z then lift (Raise ValueError)
  else
    pdo lpccs <- zeros2 (r2 windows) (Z.to_nat (order + 1));
    pdo _ <- forM (seq 0 (r2 frames))
               (fun i => pdo frame <- read_row frames i;
                         pdo (a, e) <- lift (lpc_helper frame order);
                         pdo l <- lift (lpc2lpcc a e (order + 1));
                         write_row lpccs i l);
    pdo lpccs <- match lifter with
                 | Some l => if Reqb l 0 then ret lpccs else lifter_ceps_mem lpccs l
                 | None => ret lpccs
                 end;
    match normalize with
    | Some t => if String.eqb t "" then ret lpccs else normalize_ceps_mem lpccs t
    | None => ret lpccs
    end.
