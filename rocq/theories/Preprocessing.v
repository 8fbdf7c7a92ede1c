(** * Model of spafe/utils/preprocessing.py and spafe/utils/exceptions.py *)
From Coq Require Import Reals ZArith List String Bool.
From Flocq Require Import Core.Raux.
From Coquelicot Require Import PSeries.
From Verif Require Import Base.
Import ListNotations.
Local Open Scope R_scope.

(** spafe/utils/exceptions.py:10-16 (ErrorMsgs) *)
Definition msg_low_freq : string := "minimal frequency cannot be less than zero.".
Definition msg_high_freq : string := "maximum frequency cannot be greater than half sampling frequency.".
Definition msg_nfilts : string := "number of filters must be bigger than number of cepstrums".
Definition msg_win : string := "window's length has to be larger than the window's hop".

(** spafe/utils/preprocessing.py:22-38 (SlidingWindow) *)
Record SlidingWindow := mkWindow { win_len : R; win_hop : R; win_type : string }.
(** the dataclass defaults, preprocessing.py:36-38 *)
Definition default_window : SlidingWindow := mkWindow 0.025 0.010 "hamming".

(** np.finfo(float).eps *)
Definition eps : R := / 2 ^ 52.

(** spafe/utils/preprocessing.py:41-52 (zero_handling), on a vector *)
Definition zero_handling1 (x : F) : F := if feqb x f0 then Fin eps else x.
Definition zero_handling (x : list F) : list F := map zero_handling1 x.

(** scipy.signal.lfilter(b, [1], x): y[n] = sum_k b[k] x[n-k] over the k that
    exist.  Library function; zero initial state. *)
Definition fir (b x : list F) : list F :=
  map (fun n => fsum (map (fun k => fmul (nth k b NaN) (nth (n - k) x NaN))
                          (seq 0 (Nat.min (S n) (List.length b)))))
      (seq 0 (List.length x)).

(** spafe/utils/preprocessing.py:55-72 (pre_emphasis).
    lfilter rejects an empty signal (ValueError from np.convolve). *)
Definition pre_emphasis (sig : list F) (coeff : R) : result (list F) :=
  match sig with
  | [] => Raise ValueError
  | _ => Ok (fir [f1; fneg (Fin coeff)] sig)
  end.

(** one element of a strided view: index [k] (in elements) of the buffer *)
Definition read_buf (buf : list F) (k : Z) : result F :=
  if ((0 <=? k) && (k <? zlen buf))%Z then Ok (nth (Z.to_nat k) buf NaN)
  else Raise OutOfBoundsRead.

(** np.lib.stride_tricks.as_strided, preprocessing.py:94-96; strides counted in
    elements.  The real view is lazy; here all elements are read at once, which
    is what the callers do next. *)
Definition as_strided (buf : list F) (nrows ncols rs cs : Z) : result (list (list F)) :=
  if ((nrows <? 0) || (ncols <? 0))%Z then Raise ValueError
  else mapM (fun i => mapM (fun j => read_buf buf (i * rs + j * cs)%Z) (zrange 0 ncols))
            (zrange 0 nrows).

(** spafe/utils/preprocessing.py:75-96 (stride_trick).  [buf] is the C-contiguous
    copy of the array made by np.array, [n] its first stride in elements: 1 for a
    1-D or Nx1 array, c for an N x c array. *)
Definition stride_trick (buf : list F) (n stride_length stride_step : Z)
  : result (list (list F)) :=
  if (stride_step =? 0)%Z then Raise ZeroDivisionError
  else
    let nrows := ((zlen buf - stride_length) / stride_step + 1)%Z in
    as_strided buf nrows stride_length (stride_step * n)%Z n.

(** spafe/utils/preprocessing.py:99-143 (framing) for an array whose first stride
    is [n] elements.  [Ztrunc] is Python's int() on a float, [rnd] the rounding of
    the float product. *)
Definition framing_strided `{Env} (n : Z) (sig : list F) (fs : Z) (wlen whop : R)
  : result (list (list F) * Z) :=
  if Rltb wlen whop then Raise (ParameterError msg_win)
  else
    let frame_length := Ztrunc (rnd (wlen * IZR fs)) in
    let frame_step := Ztrunc (rnd (whop * IZR fs)) in
    do frames <- stride_trick sig n frame_length frame_step;
    match frames with
    | [] => Raise IndexError
    | first :: _ =>
        let lst := last frames [] in
        if (zlen lst <? frame_length)%Z
        then Ok (removelast frames
                   ++ [lst ++ repeat f0 (Z.to_nat (frame_length - zlen first))],
                 frame_length)
        else Ok (frames, frame_length)
    end.

(** framing of a mono signal (1-D, or Nx1 whose first stride is also one element) *)
Definition framing `{Env} (sig : list F) (fs : Z) (wlen whop : R)
  : result (list (list F) * Z) := framing_strided 1 sig fs wlen whop.

(** framing of a signal with [c] channels given as rows of [c] samples *)
Definition framing_multi `{Env} (c : nat) (sig : list (list F)) (fs : Z) (wlen whop : R)
  : result (list (list F) * Z) := framing_strided (Z.of_nat c) (List.concat sig) fs wlen whop.

(** ** numpy windows (library functions, numpy/lib/function_base.py) *)

(** n = arange(1-M, M, 2) *)
Definition np_n (M n : nat) : R := 2 * INR n - (INR M - 1).

Definition hanning_at (M n : nat) : R := 0.5 + 0.5 * cos (PI * np_n M n / (INR M - 1)).
Definition hamming_at (M n : nat) : R := 0.54 + 0.46 * cos (PI * np_n M n / (INR M - 1)).
Definition blackman_at (M n : nat) : R :=
  0.42 + 0.5 * cos (PI * np_n M n / (INR M - 1))
       + 0.08 * cos (2.0 * PI * np_n M n / (INR M - 1)).
Definition bartlett_at (M n : nat) : R :=
  if Rle_dec (np_n M n) 0 then 1 + np_n M n / (INR M - 1) else 1 - np_n M n / (INR M - 1).

(** modified Bessel function of order 0 as its power series (np.i0 approximates it) *)
Definition i0 (x : R) : R := PSeries (fun k => / (INR (fact k) * INR (fact k))) ((x / 2) ^ 2).

Definition kaiser_at (beta : R) (M n : nat) : R :=
  let alpha := (INR M - 1) / 2 in
  i0 (beta * sqrt (1 - ((INR n - alpha) / alpha) ^ 2)) / i0 beta.

(** every numpy window returns [] for M < 1 and [1.] for M = 1 *)
Definition mk_window (at_ : nat -> nat -> R) (M : Z) : list F :=
  if (M <? 1)%Z then []
  else if (M =? 1)%Z then [f1]
  else map (fun n => Fin (at_ (Z.to_nat M) n)) (seq 0 (Z.to_nat M)).

(** product of a window with one row.  The element type is left open because the
    constant-Q kernel windows complex rows. *)
Definition window_row {B} (scale : F -> B -> B) (w : list F) (row : list B) : result (list B) :=
  bcast scale w row.

(** spafe/utils/preprocessing.py:166-172, one row.  The dict is evaluated eagerly:
    all five products are computed (and may fail) before the key is looked up. *)
Definition windowing_row {B} (scale : F -> B -> B) (row : list B) (M : Z) (wt : string)
  : result (list B) :=
  do h <- window_row scale (mk_window hanning_at M) row;
  do b <- window_row scale (mk_window bartlett_at M) row;
  do k <- window_row scale (mk_window (kaiser_at 14) M) row;
  do bl <- window_row scale (mk_window blackman_at M) row;
  do hm <- window_row scale (mk_window hamming_at M) row;
  if String.eqb wt "hanning" then Ok h
  else if String.eqb wt "bartlet" then Ok b
  else if String.eqb wt "kaiser" then Ok k
  else if String.eqb wt "blackman" then Ok bl
  else if String.eqb wt "hamming" then Ok hm
  else Raise KeyError.

(** spafe/utils/preprocessing.py:146-172 (windowing) on a matrix of frames.
    (For a matrix without rows numpy would still look up the key; framing never
    returns such a matrix.) *)
Definition windowing (frames : list (list F)) (frame_len : Z) (wt : string)
  : result (list (list F)) :=
  mapM (fun row => windowing_row fmul row frame_len wt) frames.
