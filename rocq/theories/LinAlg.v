(** * scipy.linalg.toeplitz, scipy.linalg.inv and numpy.correlate as used by
    spafe/features/lpc.py (library functions) *)
From Coq Require Import Reals ZArith List String Bool.
From Verif Require Import Base SpecBase.
Import ListNotations.
Local Open Scope R_scope.

(** exchange of indices 0 and p *)
Definition swap0 (p i : nat) : nat := if Nat.eqb i 0 then p else if Nat.eqb i p then O else i.

(** Gaussian elimination with row exchange on an n x n system given by its entries; [None]
    when a column without a non-zero pivot is met.  LAPACK's getrf takes the largest entry of
    the column as the pivot, this takes the first non-zero one: in exact arithmetic that changes
    neither the solution nor whether there is one ([solve_unique], [solve_none] in LpcFacts.v). *)
Fixpoint solve (n : nat) (A : nat -> nat -> R) (b : nat -> R) : option (nat -> R) :=
  match n with
  | O => Some (fun _ => 0)
  | S m =>
      match find (fun i => negb (Reqb (A i O) 0)) (seq 0 n) with
      | None => None
      | Some p =>
          let A' i j := A (swap0 p i) j in
          let b' i := b (swap0 p i) in
          let l i := A' (S i) O / A' O O in
          match solve m (fun i j => A' (S i) (S j) - l i * A' O (S j))
                        (fun i => b' (S i) - l i * b' O) with
          | None => None
          | Some x =>
              Some (fun i => match i with
                             | O => (b' O - bigsum m (fun j => A' O (S j) * x j)) / A' O O
                             | S j => x j
                             end)
          end
      end
  end.

(** scipy.linalg.toeplitz(r) *)
Definition toeplitz (r : list F) : list (list F) :=
  map (fun i => map (fun j => nth (if Nat.leb j i then i - j else j - i) r NaN)
                    (seq 0 (List.length r)))
      (seq 0 (List.length r)).

Fixpoint sequence {A} (l : list (option A)) : option (list A) :=
  match l with
  | [] => Some []
  | None :: _ => None
  | Some x :: t => match sequence t with None => None | Some xs => Some (x :: xs) end
  end.

(** scipy.linalg.inv(m) for a square matrix: ValueError for inf or NaN (check_finite),
    LinAlgError for a singular matrix; column k of the inverse solves m x = e_k.  What scipy
    does with a 0 x 0 matrix depends on its version; nothing below relies on the ValueError
    chosen here. *)
Definition linalg_inv (m : list (list F)) : result (list (list F)) :=
  if negb (forallb (forallb finiteb) m) then Raise ValueError
  else
    let n := List.length m in
    if Nat.eqb n 0 then Raise ValueError
    else
      let A i j := toR (nth j (nth i m []) NaN) in
      match sequence (map (fun k => solve n A (fun i => if Nat.eqb i k then 1 else 0)) (seq 0 n)) with
      | None => Raise LinAlgError
      | Some cols => Ok (map (fun i => map (fun c => Fin (c i)) cols) (seq 0 n))
      end.

(** np.correlate(x, x, "full"): entry k, k = 0 .. 2N-2, is the sum of x[j+k-(N-1)] x[j] over the
    j for which both exist; an empty x is a ValueError *)
Definition correlate_full (x : list F) : result (list F) :=
  match x with
  | [] => Raise ValueError
  | _ =>
      let N := List.length x in
      Ok (map (fun k =>
                 let lo := (N - 1 - k)%nat in
                 let hi := Nat.min N (2 * N - 1 - k) in
                 fsum (map (fun j => fmul (nth (j + k - (N - 1)) x NaN) (nth j x NaN))
                           (seq lo (hi - lo))))
              (seq 0 (2 * N - 1)))
  end.
