(** Specification: multivectors in the space of any metric, given the geometric product [G] of its basis
    blades (SpecGeneral.v); points, spheres and flats of the models of geometry. *)
From Coq Require Import NArith ZArith List Bool Reals.
From Verif Require Import SpecMv SpecAlg SpecExtra SpecGeneral SpecLazy SpecUtil SpecSpaces Geo.
Import ListNotations.
Local Open Scope R_scope.

(** Geometric product, contractions, scalar product. *)
Definition ggp (G : N -> N -> mv) (a b : mv) : mv := bilinear G a b.
Definition glc (G : N -> N -> mv) (a b : mv) : mv := bilinear (part_lcont G) a b.
Definition grc (G : N -> N -> mv) (a b : mv) : mv := bilinear (part_rcont G) a b.
Definition gsp (G : N -> N -> mv) (a b : mv) : mv := bilinear (part_sp G) a b.
(** Squared reverse norm and inverse of a versor. *)
Definition gnorm (G : N -> N -> mv) (a : mv) : R := re (gsp G a (mrev a)).
Definition ginv (G : N -> N -> mv) (a : mv) : mv := scale (/ gnorm G a) (mrev a).
(** [a] gives the direction of the objects at the point [p]: it is a multivector of grade [k] with a
    non-null square (a blade made of orthogonal vectors has one), in the [n]-dimensional space, orthogonal
    to [p] and to the point at infinity [ni]. *)
Definition attitude (n : N) (G : N -> N -> mv) (p ni : mv) (k : N) (a : mv) : Prop :=
  in_space n a /\ homog k a /\ meq (glc G p a) [] /\ meq (glc G ni a) [] /\ exists c, c <> 0 /\ meq (ggp G a a) [(c, 0%N)].
(** The round with centre [p], squared radius [rho] and direction [a]: (p + rho / 2 ni) ^ a; the tangent
    at [p]: p ^ a; the flat through [p]: p ^ a ^ ni. *)
Definition round (p ni : mv) (rho : R) (a : mv) : mv := mop (p ++ scale (rho / 2) ni) a.
Definition tangent (p a : mv) : mv := mop p a.
Definition flat (p ni a : mv) : mv := mop p (mop a ni).

(** The two models of conformal geometry: metric, points with coordinates [xs], origin, infinity.  In the
    Minkowski model the last two basis vectors have the squares 1 and -1. *)
Definition model_dim (m : cmodel) : N := match m with ConformalModel D => D + 2 | MinkowskiModel D => D + 2 end.
Definition model_metric (m : cmodel) : N -> N -> R :=
  match m with ConformalModel D => conformal_metric D | MinkowskiModel D => diagonal_form (signature (D + 1) 1) end.
Definition model_point (m : cmodel) (xs : list R) : mv :=
  match m with
  | ConformalModel _ => coordinates 0 (xs ++ [1; dotp xs xs / 2])
  | MinkowskiModel _ => coordinates 0 (xs ++ [(dotp xs xs - 1) / 2; (dotp xs xs + 1) / 2])
  end.
Definition model_origin (m : cmodel) : mv :=
  match m with ConformalModel D => [(1, (2 ^ D)%N)] | MinkowskiModel D => [(/ 2, (2 ^ (D + 1))%N); (- / 2, (2 ^ D)%N)] end.
Definition model_infinity (m : cmodel) : mv :=
  match m with ConformalModel D => [(1, (2 ^ (D + 1))%N)] | MinkowskiModel D => [(1, (2 ^ D)%N); (1, (2 ^ (D + 1))%N)] end.
(** Number of coordinates of a point; range of dimensions (the general products are right up to 7). *)
Definition model_coords (m : cmodel) (xs : list R) : Prop :=
  match m with ConformalModel D => D = N.of_nat (length xs) | MinkowskiModel D => D = N.of_nat (length xs) end.
Definition model_ok (m : cmodel) : Prop := match m with ConformalModel D => (D <= 5)%N | MinkowskiModel D => (D <= 61)%N end.
(** no + x + |x|^2 ni, where the point is p = no + x + |x|^2 / 2 ni. *)
Definition support_vector (m : cmodel) (xs : list R) : mv := model_point m xs ++ scale (dotp xs xs / 2) (model_infinity m).
