(** Specification: multivectors as formal sums of blades, and what a
    multivector expression denotes.  This file does not mention the code that
    adds or multiplies multivectors. *)
From Coq Require Import NArith ZArith List Bool Reals.
From Verif Require Import Bits Expr SpecBits Sem Wf.
Import ListNotations.
Local Open Scope R_scope.

(** A multivector: a formal sum of (coefficient, blade) pairs. *)
Definition mv := list (R * N).

(** Coefficient of [m] on blade [k]. *)
Fixpoint coef (m : mv) (k : N) : R :=
  match m with
  | [] => 0
  | (c, b) :: m' => (if N.eqb b k then c else 0) + coef m' k
  end.
(** Two formal sums are the same multivector. *)
Definition meq (a b : mv) : Prop := forall k, coef a k = coef b k.

(** Multiplication by a number; sum is concatenation. *)
Definition scale (c : R) (m : mv) : mv := map (fun p => (c * fst p, snd p)) m.
(** Linear and bilinear extension of an operation on blades. *)
Definition linear (f : N -> mv) (a : mv) : mv := flat_map (fun p => scale (fst p) (f (snd p))) a.
Definition bilinear (f : N -> N -> mv) (a b : mv) : mv := linear (fun i => linear (f i) b) a.
(** Part of grade [k]. *)
Definition grade_part (k : N) (m : mv) : mv := filter (fun p => N.eqb (grade_of (snd p)) k) m.
(** All the blades of [m] are made of the first [n] basis vectors. *)
Definition in_space (n : N) (m : mv) : Prop := Forall (fun p => (snd p < 2 ^ n)%N) m.

(** *** Denotation of multivector expressions *)

(** The blade a basis-blade expression stands for. *)
Definition dblade (g : env) (b : expr) (n : N) : Prop :=
  match b with
  | CBlade k => n = k
  | DBlade _ x => sem g x = Some (VB n)
  | _ => False
  end.
(** The grade of [n] is one of the grades declared by the blade expression. *)
Definition grade_declared (b : expr) (n : N) : Prop :=
  match b with
  | CBlade _ => True
  | DBlade pg _ => N.testbit pg (grade_of n) = true
  | _ => False
  end.
(** One component: coefficient and blade; a component whose coefficient is not
    zero has one of its declared grades. *)
Definition dcomp (g : env) (e : expr) (p : R * N) : Prop :=
  match e with
  | Comp c b => num g c (fst p) /\ dblade g b (snd p) /\ (fst p <> 0 -> grade_declared b (snd p))
  | _ => False
  end.
(** A component or a sum of components. *)
Definition den (g : env) (e : expr) (m : mv) : Prop :=
  match e with
  | Fn NAdd l => Forall2 (dcomp g) l m
  | _ => exists p, dcomp g e p /\ m = [p]
  end.

(** The shape of every multivector expression the library builds: a component or a
    sum of at least two components; a blade that is only known at run time
    does not have a constant bitset. *)
Definition comp_ok (e : expr) : bool :=
  match e with
  | Comp c (CBlade b) => wf c && N.ltb b (2 ^ 64)
  | Comp c (DBlade pg x) => wf c && wf x && negb (is_constant x) && N.ltb pg (2 ^ 64)
  | _ => false
  end.
Definition mv_ok (e : expr) : bool :=
  match e with
  | Fn NAdd l => Nat.leb 2 (length l) && forallb comp_ok l
  | _ => comp_ok e
  end.

(** *** Products of blades *)

(** Product of the squares [q i] of the basis vectors (0-based) of blade [b]. *)
Definition squares (q : N -> R) (b : N) : R := fold_right Rmult 1 (map q (indices b)).
(** Squares of the basis vectors of the space of signature (P, Q, R). *)
Definition signature (P Q : N) (i : N) : R :=
  if N.ltb i P then 1 else if N.ltb i (P + Q) then -1 else 0.

(** Geometric product of two blades: reordering sign, squares of the common
    factors, symmetric difference. *)
Definition gp_blade (q : N -> R) (a b : N) : mv := [(sign_of a b * squares q (N.land a b), N.lxor a b)].
(** Exterior product: disjoint blades only. *)
Definition op_blade (a b : N) : mv := if N.eqb (N.land a b) 0 then [(sign_of a b, N.lor a b)] else [].
(** Regressive product in [n] dimensions: blades that together span the space;
    the sign is that of reordering the parts outside the common factor. *)
Definition rp_blade (n : N) (a b : N) : mv :=
  if N.eqb (N.lor a b) (2 ^ n - 1)
  then [(sign_of (N.lxor a (N.land a b)) (N.lxor b (N.land a b)), N.land a b)] else [].
(** The inner products: grade parts of the geometric product. *)
Definition lcont_blade q (a b : N) : mv :=
  if N.leb (grade_of a) (grade_of b) then grade_part (grade_of b - grade_of a) (gp_blade q a b) else [].
Definition rcont_blade q (a b : N) : mv :=
  if N.leb (grade_of b) (grade_of a) then grade_part (grade_of a - grade_of b) (gp_blade q a b) else [].
Definition sp_blade q (a b : N) : mv := grade_part 0 (gp_blade q a b).
Definition absdiff (r s : N) : N := if N.leb r s then s - r else r - s.
Definition dot_blade q (a b : N) : mv := grade_part (absdiff (grade_of a) (grade_of b)) (gp_blade q a b).
Definition hip_blade q (a b : N) : mv :=
  if (N.eqb (grade_of a) 0 || N.eqb (grade_of b) 0)%bool then [] else dot_blade q a b.

(** Sign changes by grade: reversion, grade involution, Clifford conjugation. *)
Definition rev_blade (a : N) : mv := [(if N.odd (grade_of a * (grade_of a - 1) / 2) then -1 else 1, a)].
Definition inv_blade (a : N) : mv := [(if N.odd (grade_of a) then -1 else 1, a)].
Definition conj_blade (a : N) : mv := [(if N.odd (grade_of a * (grade_of a + 1) / 2) then -1 else 1, a)].
