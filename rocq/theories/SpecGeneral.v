(** Specification: determinants, and the Clifford algebra of an arbitrary bilinear form (no mention of
    the code). *)
From Coq Require Import NArith ZArith List Bool Reals.
From Verif Require Import Bits SpecBits Sem SpecMv SpecAlg.
Import ListNotations.
Local Open Scope R_scope.

(** *** Determinant (Leibniz formula) *)
(** The ways to choose one element of a list, and the permutations of a list. *)
Fixpoint choices (l : list N) : list (N * list N) :=
  match l with [] => [] | x :: l' => (x, l') :: map (fun p => (fst p, x :: snd p)) (choices l') end.
Fixpoint perms (n : nat) (l : list N) : list (list N) :=
  match n with O => [[]] | S m => flat_map (fun p => map (cons (fst p)) (perms m (snd p))) (choices l) end.
(** Number of pairs of elements of [p] that are out of order. *)
Fixpoint disorder (p : list N) : nat :=
  match p with [] => O | x :: p' => (length (filter (fun y => N.ltb y x) p') + disorder p')%nat end.
Definition perm_sign (p : list N) : R := if Nat.odd (disorder p) then -1 else 1.
(** Product of the entries [A row column] on the rows [rows] and the columns [p]. *)
Fixpoint diagonal (A : N -> N -> R) (rows p : list N) : R :=
  match rows, p with r :: rows', c :: p' => A r c * diagonal A rows' p' | _, _ => 1 end.
(** Determinant of the submatrix of [A] on the given rows and (increasing) columns. *)
Definition leibniz (A : N -> N -> R) (rows cols : list N) : R :=
  fold_right Rplus 0 (map (fun p => perm_sign p * diagonal A rows p) (perms (length cols) cols)).

(** *** Clifford algebra of a bilinear form *)
(** Contraction of blade [b] by the basis vector [i]; [B i j] is the inner product of the basis vectors
    [i] and [j]: every factor of [b] is moved to the front and replaced by its inner product with [i]. *)
Definition contract (B : N -> N -> R) (i b : N) : mv :=
  map (fun j => (B i j * sign_of (2 ^ j) (N.lxor b (2 ^ j)), N.lxor b (2 ^ j))) (indices b).
(** [G] is the geometric product, on the blades of the [n]-dimensional space, of the bilinear form [B]:
    it is closed, has the unit 1, is associative, and a vector times a blade is the exterior product
    plus the contraction. *)
Definition geometric (n : N) (B : N -> N -> R) (G : N -> N -> mv) : Prop :=
  (forall a b, (a < 2 ^ n)%N -> (b < 2 ^ n)%N -> in_space n (G a b)) /\
  (forall b, (b < 2 ^ n)%N -> meq (G 0%N b) [(1, b)]) /\
  (forall i b, (i < n)%N -> (b < 2 ^ n)%N -> meq (G (2 ^ i)%N b) (op_blade (2 ^ i) b ++ contract B i b)) /\
  (forall a b c, (a < 2 ^ n)%N -> (b < 2 ^ n)%N -> (c < 2 ^ n)%N -> meq (bilinear G (G a b) [(1, c)]) (bilinear G [(1, a)] (G b c))).

(** The other products are parts of the geometric product. *)
Definition part_lcont (G : N -> N -> mv) (a b : N) : mv :=
  if N.leb (grade_of a) (grade_of b) then grade_part (grade_of b - grade_of a) (G a b) else [].
Definition part_rcont (G : N -> N -> mv) (a b : N) : mv :=
  if N.leb (grade_of b) (grade_of a) then grade_part (grade_of a - grade_of b) (G a b) else [].
Definition part_sp (G : N -> N -> mv) (a b : N) : mv := grade_part 0 (G a b).
Definition part_dot (G : N -> N -> mv) (a b : N) : mv := grade_part (absdiff (grade_of a) (grade_of b)) (G a b).
Definition part_hip (G : N -> N -> mv) (a b : N) : mv :=
  if (N.eqb (grade_of a) 0 || N.eqb (grade_of b) 0)%bool then [] else part_dot G a b.
