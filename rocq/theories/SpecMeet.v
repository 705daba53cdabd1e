(** Specification: blades and the subspaces they stand for. *)
From Coq Require Import NArith ZArith List Bool Reals.
From Verif Require Import Bits Expr SpecMv SpecAlg SpecExtra EvalC SpecEval Lazy SpecLazy Api Extra SpecApi Norm SpecNorm Meet.
Import ListNotations.
Local Open Scope R_scope.

(** A vector of the [n]-dimensional space. *)
Definition is_vector (n : N) (x : mv) : Prop := in_space n x /\ homog 1 x.
(** The outer product of a list of vectors. *)
Fixpoint wedge (vs : list mv) : mv := match vs with [] => one | v :: vs' => mop v (wedge vs') end.
(** Linear combinations. *)
Fixpoint combination (cs : list R) (vs : list mv) : mv :=
  match cs, vs with c :: cs', v :: vs' => scale c v ++ combination cs' vs' | _, _ => [] end.
Definition in_span (vs : list mv) (x : mv) : Prop := exists cs, meq x (combination cs vs).
(** [m] is a blade: a multiple of the outer product of the vectors [vs], not zero (so they are linearly
    independent); the subspace it stands for is their span. *)
Definition blade_of (n : N) (vs : list mv) (m : mv) : Prop :=
  Forall (is_vector n) vs /\ (exists w, meq m (scale w (wedge vs))) /\ ~ meq m [].

(** The unit multivector of an object of this type is computed at run time, without a quotient of two
    integers (see C44 for the two conditions). *)
Definition unit_exact (F n : nat) (a : cliff) : Prop :=
  match cexpr a with
  | Comp _ (CBlade 0) => computed (body1 (unit_scalar F n)) [a]
  | _ => on_type (body1 (rnorm_sqr F n Real)) [a] settled /\ computed (body1 (unit F n Real)) [a]
  end.
(** So are all the unit multivectors that the join of objects of the types of [a] and [b] computes: that of
    [a], those of the projections of basis vectors to [b], and those of the products of the join with them. *)
Definition units_exact (F n fuel : nat) (dim : N) (a b : cliff) : Prop :=
  unit_exact F n a /\
  forall i j f l v p, basis_f F n fuel dim i = Some (Ret f) -> largest_blade F n b j = Some (Ret l) -> reverse F n l = Some (Done v) ->
    project_vector F n f b v = Some (Done p) -> unit_exact F n p /\
    forall t vs u y, join_type F n fuel dim (cexpr a) (cexpr b) = Some t -> length vs = count_vals t -> unit_em F n p = Some (Done u) ->
      op_em F n {| cexpr := t; cint := false; cvals := vs; cbits := [] |} u = Some (Done y) -> unit_exact F n y.
(** The vector [x] is orthogonal to the vectors [vs], in the Euclidean metric. *)
Definition orthogonal (vs : list mv) (x : mv) : Prop := Forall (fun v => re (mlcont (fun _ => 1) x v) = 0) vs.
