(** Specification: metric matrices of the spaces with a general metric, and the points of the models
    of geometry. *)
From Coq Require Import NArith ZArith List Bool Reals.
From Verif Require Import Bits SpecBits Expr Sem Wf SpecMv SpecAlg SpecLazy Build Spaces.
Import ListNotations.
Local Open Scope R_scope.

(** Conformal model of [D]-dimensional space: an orthonormal basis of the space and two null vectors
    (of indices [D] and [D + 1], counted from 0) whose inner product is -1. *)
Definition conformal_metric (D : N) (i j : N) : R :=
  if (N.ltb i D || N.ltb j D)%bool then (if N.eqb i j then 1 else 0) else if N.eqb i j then 0 else -1.
(** Orthogonal bases: the squares of the basis vectors on the diagonal. *)
Definition diagonal_form (q : N -> R) (i j : N) : R := if N.eqb i j then q i else 0.
(** The entry in row [i] and column [j] of an [n] by [n] matrix given row by row (0 outside). *)
Definition matrix_of (n : N) (entries : list Z) (i j : N) : R :=
  if (N.ltb i n && N.ltb j n)%bool then IZR (nth (N.to_nat (n * i + j)) entries 0%Z) else 0.

Definition metric_of (s : gspace) : N -> N -> R := match s with Conformal D => conformal_metric D | Matrix n l => matrix_of n l end.
Definition symmetric_space (s : gspace) : Prop :=
  match s with Conformal _ => True | Matrix n l => forall i j, (i < n)%N -> (j < n)%N -> matrix_of n l i j = matrix_of n l j i end.

(** Every component of the type has a compile-time blade, of grade at most [k]. *)
Definition component_grade_upto (k : N) (c : expr) : bool := match c with Comp _ (CBlade b) => N.leb (grade_of b) k | _ => false end.
Definition grades_upto (k : N) (e : expr) : bool := forallb (component_grade_upto k) (components e).

(** *** Vectors *)
(** The inner product of the vectors with coordinates [xs] and [ys], counted from [i] and [j]: the sum of
    x_i y_j A_ij. *)
Fixpoint inner_row (A : N -> N -> R) (i j : N) (ys : list R) : R :=
  match ys with [] => 0 | y :: ys' => y * A i j + inner_row A i (j + 1) ys' end.
Fixpoint inner_from (A : N -> N -> R) (i : N) (xs ys : list R) : R :=
  match xs with [] => 0 | x :: xs' => x * inner_row A i 0 ys + inner_from A (i + 1) xs' ys end.
Definition inner (A : N -> N -> R) (xs ys : list R) : R := inner_from A 0 xs ys.
(** Euclidean inner product and squared distance of lists of coordinates. *)
Fixpoint dotp (xs ys : list R) : R := match xs, ys with x :: xs', y :: ys' => x * y + dotp xs' ys' | _, _ => 0 end.
Fixpoint dist2 (xs ys : list R) : R := match xs, ys with x :: xs', y :: ys' => (x - y) * (x - y) + dist2 xs' ys' | _, _ => 0 end.
(** Coordinatewise sum. *)
Fixpoint vsum (xs ys : list R) : list R := match xs, ys with x :: xs', y :: ys' => x + y :: vsum xs' ys' | _, _ => [] end.
(** The coordinate is a native number, of value [v]. *)
Definition native (x : coordinate) (v : R) : Prop := match x with Num int y => v = y /\ (int = true -> isint y) | Scal _ => False end.

(** Translation of [f] by [d] in the homogeneous model: f + d ^ (e << f), e the last basis vector, which
    represents the origin. *)
Definition mtranslate (D : N) (d f : mv) : mv :=
  f ++ bilinear op_blade d (bilinear (lcont_blade (signature (D + 1) 0)) [(1, (2 ^ D)%N)] f).
