(** Specification: the mathematical functions the extra functions compute. *)
From Coq Require Import NArith ZArith List Bool Reals.
From Verif Require Import SpecMv SpecAlg.
Import ListNotations.
Local Open Scope R_scope.

(** The products in the space with squares [q i] of the basis vectors; sum and difference. *)
Definition mgp (q : N -> R) (a b : mv) : mv := bilinear (gp_blade q) a b.
Definition mlcont (q : N -> R) (a b : mv) : mv := bilinear (lcont_blade q) a b.
Definition msp (q : N -> R) (a b : mv) : mv := bilinear (sp_blade q) a b.
Definition mop (a b : mv) : mv := bilinear op_blade a b.
Definition mrev (a : mv) : mv := linear rev_blade a.
Definition minvol (a : mv) : mv := linear inv_blade a.
Definition msub (a b : mv) : mv := a ++ scale (-1) b.
(** The scalar part of a. *)
Definition re (a : mv) : R := coef a 0.
(** Squared reverse norm: the scalar part of a ~a. *)
Definition norm2 (q : N -> R) (a : mv) : R := re (msp q a (mrev a)).
(** ~a / (a ~a): the inverse of a versor. *)
Definition minv (q : N -> R) (a : mv) : mv := scale (/ norm2 q a) (mrev a).
(** Half of the commutator. *)
Definition mcp (q : N -> R) (a b : mv) : mv := scale (/ 2) (msub (mgp q a b) (mgp q b a)).
(** All the blades of the n-dimensional space; sum of a list. *)
Definition blades_of (n : N) : list N := map N.of_nat (seq 0 (N.to_nat (2 ^ n))).
Definition total (l : list R) : R := fold_right Rplus 0 l.
