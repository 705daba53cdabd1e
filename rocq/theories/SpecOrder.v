(** Specification: canonical order of the components of a multivector with compile-time blades. *)
From Coq Require Import NArith ZArith List Bool Sorting.Sorted.
From Verif Require Import Bits Expr SpecBits.
Import ListNotations.

(** Blades are ordered by grade, then by bitset. *)
Definition blade_lt (x y : N) : Prop := (grade_of x < grade_of y)%N \/ (grade_of x = grade_of y /\ (x < y)%N).

(** A multivector with compile-time blades is a list of (blade, coefficient expression) pairs;
    the empty list is the zero scalar. *)
Definition entries := list (N * expr).
Definition entry (p : N * expr) : expr := Comp (snd p) (CBlade (fst p)).
Definition mv_of (l : entries) : expr :=
  match l with
  | [] => Comp (CV 0) (CBlade 0)
  | [p] => entry p
  | _ => Fn NAdd (map entry l)
  end.
(** Strictly ordered, so no blade is repeated; no coefficient is the constant 0; blades of at most
    63 basis vectors. *)
Definition canonical (l : entries) : Prop :=
  StronglySorted blade_lt (map fst l) /\ Forall (fun p => snd p <> CV 0 /\ (fst p < 2 ^ 63)%N) l.
(** Coefficient expression listed for blade [k]. *)
Fixpoint listed (l : entries) (k : N) : option expr :=
  match l with
  | [] => None
  | p :: l' => if N.eqb (fst p) k then Some (snd p) else listed l' k
  end.
