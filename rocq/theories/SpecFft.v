(** * Specification vocabulary: fast Fourier transforms as programs *)
From Coq Require Import Reals ZArith String List Permutation.
From Verif Require Import Base SpecBase SpecFeatures Rounded SpecRounded SpecRoundedCeps.
Import ListNotations.
Local Open Scope R_scope.

(** the program p with the program [s i] in place of input i *)
Fixpoint subst (s : nat -> lin) (p : lin) : lin :=
  match p with
  | Load i => s i
  | Zero => Zero
  | Add p q => Add (subst s p) (subst s q)
  | Sub p q => Sub (subst s p) (subst s q)
  | Scale c p => Scale c (subst s p)
  | ScaleAdd c p q => ScaleAdd c (subst s p) (subst s q)
  end.

(** a dot product that may also subtract the products of negated weights, and multiply sums by a
    common factor of their weights *)
Inductive sdots : (nat -> R) -> list nat -> lin -> Prop :=
| sdots_dots : forall w l p, dots w l p -> sdots w l p
| sdots_add : forall w l l' p q, sdots w l p -> sdots w l' q -> sdots w (l ++ l') (Add p q)
| sdots_sub : forall w l l' p q, sdots w l p -> sdots (fun i => - w i) l' q -> sdots w (l ++ l') (Sub p q)
| sdots_scale : forall w v c l p, (forall i, In i l -> w i = c * v i) -> sdots v l p -> sdots w l (Scale c p)
| sdots_fma : forall w v c l l' p q, (forall i, In i l -> w i = c * v i) -> sdots v l p -> sdots w l' q -> sdots w (l ++ l') (ScaleAdd c p q).
(** such a program for n weights with at most n + 1 roundings on any path, those of stored weights included *)
Definition butterfly (w : nat -> R) (n : nat) (p : lin) : Prop :=
  exists l, Permutation l (seq 0 n) /\ sdots w l p /\ (lin_depth2 p <= S n)%nat.

(** the size of a transform with the radices rs *)
Definition fft_size (rs : list nat) : nat := fold_right Nat.mul 1%nat rs.
(** weights of r real parts followed by r imaginary parts in output k of a transform of size n *)
Definition twiddle_re (n r k j : nat) : R :=
  if (j <? r)%nat then cos (2 * PI * INR (j * k) / INR n) else sin (2 * PI * INR ((j - r) * k) / INR n).
Definition twiddle_im (n r k j : nat) : R :=
  if (j <? r)%nat then - sin (2 * PI * INR (j * k) / INR n) else cos (2 * PI * INR ((j - r) * k) / INR n).

(** weights of a real part and an imaginary part in a product with exp(-ia) *)
Definition rotate_re (a : R) (j : nat) : R := if (j =? 0)%nat then cos a else sin a.
Definition rotate_im (a : R) (j : nat) : R := if (j =? 0)%nat then - sin a else cos a.
(** first program for input 0, second for all others *)
Definition either (p q : lin) (j : nat) : lin := if (j =? 0)%nat then p else q.

(** real part j of r real parts followed by r imaginary parts, then imaginary part j *)
Definition both (r j i : nat) : lin := Load (if (i =? 0)%nat then j else (r + j)%nat).

(** [p] and [q] compute output k of a transform of size n from the outputs of r transforms of size m.
    Either every input has its own weight, or the inputs are first rotated by multiples of
    2 pi (k mod m) / n and then combined with the r-th roots of unity. *)
Definition combines (n r m k : nat) (p q : lin) : Prop :=
  (butterfly (twiddle_re n r k) (2 * r) p /\ butterfly (twiddle_im n r k) (2 * r) q) \/
  (exists rre rim p' q',
     (forall j, (j < r)%nat -> let angle := 2 * PI * INR (j * (k mod m)) / INR n in
        butterfly (rotate_re angle) 2 (rre j) /\ butterfly (rotate_im angle) 2 (rim j)) /\
     butterfly (twiddle_re r r (k / m)) (2 * r) p' /\ butterfly (twiddle_im r r (k / m)) (2 * r) q' /\
     let rot j := if (j <? r)%nat then subst (both r j) (rre j) else subst (both r (j - r)) (rim (j - r)%nat) in
     p = subst rot p' /\ q = subst rot q').

(** [re] and [im] are programs of a Cooley-Tukey transform with the radices rs, applied to the complex
    numbers computed by the programs [sr] and [si].  Each level is one of
    - r transforms of every r-th number, then r products per output (decimation in time);
    - r sums of r numbers for every remainder, each rotated, then r transforms of the results
      (decimation in frequency).
    Sums and differences are taken in any order and bracketing.  np.fft.fft works by decimation in
    frequency, np.fft.rfft by decimation in time. *)
Inductive fft : list nat -> (nat -> lin) -> (nat -> lin) -> (nat -> lin) -> (nat -> lin) -> Prop :=
| fft_one : forall sr si re im, re 0%nat = sr 0%nat -> im 0%nat = si 0%nat -> fft [] sr si re im
| fft_time : forall r rs sr si tre tim re im, (0 < r)%nat ->
    (forall t, (t < r)%nat -> fft rs (fun s => sr (t + r * s)%nat) (fun s => si (t + r * s)%nat) (tre t) (tim t)) ->
    (forall k, (k < fft_size (r :: rs))%nat ->
       let inp j := if (j <? r)%nat then tre j (k mod fft_size rs)%nat else tim (j - r)%nat (k mod fft_size rs)%nat in
       exists p q, combines (fft_size (r :: rs)) r (fft_size rs) k p q /\ re k = subst inp p /\ im k = subst inp q) ->
    fft (r :: rs) sr si re im
| fft_frequency : forall r rs sr si mre mim re im, (0 < r)%nat ->
    (forall c a, (c < r)%nat -> (a < fft_size rs)%nat ->
       let inp j := if (j <? r)%nat then sr (j * fft_size rs + a)%nat else si ((j - r) * fft_size rs + a)%nat in
       let angle := 2 * PI * INR (a * c) / INR (fft_size (r :: rs)) in
       exists p q p' q', butterfly (twiddle_re r r c) (2 * r) p /\ butterfly (twiddle_im r r c) (2 * r) q /\
         butterfly (rotate_re angle) 2 p' /\ butterfly (rotate_im angle) 2 q' /\
         mre c a = subst inp (subst (either p q) p') /\ mim c a = subst inp (subst (either p q) q')) ->
    (forall c, (c < r)%nat -> fft rs (mre c) (mim c) (fun m => re (c + r * m)%nat) (fun m => im (c + r * m)%nat)) ->
    fft (r :: rs) sr si re im.

(** 1 + relative error of such a transform, in the norm of the whole spectrum *)
Definition fft_growth (u : R) (rs : list nat) : R :=
  fold_right (fun r g => g * (1 + 2 * sqrt (INR r) * ((1 + u) ^ (2 * r + 4) - 1))) 1 rs.

(** sample t of frame i: pre-emphasis, window, zeros after the end of the frame *)
Definition leaf (on : bool) (c : R) (wt : string) (L hop i t : nat) : lin :=
  if (t <? L)%nat then Scale (spec_window wt L t) (sample_program on c (i * hop + t)) else Zero.
(** energy of the frame with all signs made positive *)
Definition frame_size (on : bool) (c : R) (wt : string) (L hop i n : nat) (x : nat -> R) : R :=
  bigsum n (fun t => lin_size x (leaf on c wt L hop i t) ^ 2).
(** energy that rounding can put into the whole spectrum, per bin *)
Definition fft_noise (u : R) (rs : list nat) (size : R) : R := (fft_growth u rs * (1 + u) ^ 5 - 1) ^ 2 * size.
