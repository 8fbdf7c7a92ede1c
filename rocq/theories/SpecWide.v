(** * Specification for C197: calls on recordings of different lengths *)
From Coq Require Import Reals ZArith List.
From Flocq Require Import Core.Raux.
From Verif Require Import Base Preprocessing Features Extractors.
Import ListNotations.
Local Open Scope R_scope.

(** both tables have rows, and all rows have the same number of entries *)
Definition same_width {A B} (m : list (list A)) (n : list (list B)) : Prop :=
  m <> [] /\ n <> [] /\ forall r s, In r m -> In s n -> List.length r = List.length s.
(** both calls return such tables, or both raise the same exception *)
Definition same_kind {A B} (r : result (list (list A))) (s : result (list (list B))) : Prop :=
  match r, s with Ok m, Ok n => same_width m n | Raise e, Raise f => e = f | _, _ => False end.
Definition same_kind2 {A B} (r s : result (list (list A) * list (list B))) : Prop :=
  match r, s with
  | Ok m, Ok n => same_width (fst m) (fst n) /\ same_width (snd m) (snd n)
  | Raise e, Raise f => e = f
  | _, _ => False
  end.
(** the hop has at least one sample, and a window of at least one sample fits into [N] samples *)
Definition one_window `{Env} (fs : Z) (w : option SlidingWindow) (N : nat) : Prop :=
  let w := match w with None => default_window | Some w => w end in
  (0 < Ztrunc (rnd (win_hop w * IZR fs)))%Z /\ (0 < Ztrunc (rnd (win_len w * IZR fs)) <= Z.of_nat N)%Z.
