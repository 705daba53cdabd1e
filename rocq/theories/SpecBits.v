(** Specification of blades as sets of basis-vector indices (no import of the model). *)
From Coq Require Import NArith ZArith List Bool.
Import ListNotations.

(** The indices (0-based) of the basis vectors of blade [n], increasing. *)
Definition indices (n : N) : list N :=
  filter (N.testbit n) (map N.of_nat (seq 0 64)).

(** Grade of a blade: number of basis vectors in it. *)
Definition grade_of (n : N) : N := N.of_nat (length (indices n)).

(** Number of pairs (p in left, q in right) that are out of order: p > q. *)
Definition inversions (l r : N) : nat :=
  length (filter (fun pq => N.ltb (snd pq) (fst pq)) (list_prod (indices l) (indices r))).

(** Visiting a list in order and stopping as soon as the visitor returns [false]. *)
Fixpoint fold_stop {S A} (f : S -> A -> S * bool) (st : S) (l : list A) : S * bool :=
  match l with
  | [] => (st, true)
  | x :: xs => let '(st', kg) := f st x in if kg then fold_stop f st' xs else (st', false)
  end.
