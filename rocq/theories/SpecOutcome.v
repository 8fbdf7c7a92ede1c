(** * Specification for C195: what can be told about a call without looking at the numbers *)
From Coq Require Import Reals ZArith List.
From Flocq Require Import Core.Raux.
From Verif Require Import Base Preprocessing Features Extractors.
Import ListNotations.
Local Open Scope R_scope.

(** the number of entries of every row *)
Definition sizes {A} (m : list (list A)) : list nat := map (@List.length A) m.
(** both calls return, with tables of the same shape, or both raise the same exception *)
Definition same_outcome {A B} (r : result (list (list A))) (s : result (list (list B))) : Prop :=
  match r, s with
  | Ok m, Ok n => sizes m = sizes n
  | Raise e, Raise f => e = f
  | _, _ => False
  end.
(** the same for a pair of tables *)
Definition same_outcome2 {A B} (r s : result (list (list A) * list (list B))) : Prop :=
  match r, s with
  | Ok m, Ok n => sizes (fst m) = sizes (fst n) /\ sizes (snd m) = sizes (snd n)
  | Raise e, Raise f => e = f
  | _, _ => False
  end.

(** exceptions a user has to expect from any function; the others are named where they can occur *)
Definition usual (e : exn) : Prop :=
  match e with
  | ParameterError _ | ZeroDivisionError | ValueError | IndexError | KeyError => True
  | TypeError | LinAlgError | OverflowError | UnboundLocalError | OutOfBoundsRead => False
  end.
(** [r] returns, or raises one of the usual exceptions or one of [more] *)
Definition raises_only {A} (more : list exn) (r : result A) : Prop :=
  match r with Ok _ => True | Raise e => usual e \/ In e more end.
(** what the filter bank of a call can raise in addition *)
Definition bank_raises (s : spectro) : list exn := match s with Bark => [OverflowError] | Mel | Linear | Erb => [] end.
Definition feature_raises (e : extractor) (a : sargs) : list exn :=
  match e with
  | Bfcc => [OverflowError]
  | Imfcc => match s_high a with None => [TypeError] | Some _ => [] end
  | Mfcc | Lfcc | Gfcc | Ngcc | Msrcc _ => []
  end.
(** hop of a call in samples *)
Definition hop_samples `{Env} (fs : Z) (w : option SlidingWindow) : Z :=
  Ztrunc (rnd (win_hop (match w with None => default_window | Some w => w end) * IZR fs)).

(** compute_yin: four lists, the last of which holds the times of the frames *)
Definition same_yin (r s : result (list F * list F * list F * list F)) : Prop :=
  match r, s with
  | Ok (p, h, a, t), Ok (p2, h2, a2, t2) =>
      List.length p = List.length p2 /\ List.length h = List.length h2 /\ List.length a = List.length a2 /\ t = t2
  | Raise e, Raise f => e = f
  | _, _ => False
  end.
(** both calls return, or both raise the same exception *)
Definition same_success {A B} (r : result A) (s : result B) : Prop :=
  match r, s with Ok _, Ok _ => True | Raise e, Raise f => e = f | _, _ => False end.
(** the same for lists of one length *)
Definition same_count {A B} (r : result (list A)) (s : result (list B)) : Prop :=
  match r, s with Ok l, Ok m => List.length l = List.length m | Raise e, Raise f => e = f | _, _ => False end.
