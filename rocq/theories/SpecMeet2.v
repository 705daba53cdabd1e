(** Specification: the meet and join of two blades from their delta product. *)
From Coq Require Import NArith ZArith List Bool Reals.
From Verif Require Import Bits SpecBits Expr SpecMv SpecAlg SpecExtra EvalC Lazy SpecLazy Ops Api Extra SpecApi Build Grade Norm SpecNorm SpecMeet Meet.
Import ListNotations.
Local Open Scope R_scope.

(** A coefficient of the highest grade of the geometric product of [A] and [B] is above [t]. *)
Definition top_above (t : R) (A B : mv) : Prop :=
  exists k, t < Rabs (coef (mgp (fun _ => 1) A B) k) /\ forall k', coef (mgp (fun _ => 1) A B) k' <> 0 -> (grade_of k' <= grade_of k)%N.
(** The inverses and duals that the meet and join of objects of the types of [a] and [b] computes are
    computed at run time without a quotient of two integers (see C44), and the type of the geometric product
    has no constant coefficient but integers (see C36). *)
Definition inverses_exact (F n fuel : nat) (dim : N) (a b : cliff) (dint : bool) (dtol : R) : Prop :=
  (forall x y t p, arguments 0 [a; b; scalar_obj dint dtol] = Some [x; y; t] -> gp_in F n Real (lazy_obj x) (lazy_obj y) = Some (Done p) ->
     Forall (fun c => is_constant c = false \/ is_integer c = true) (coefficients (cexpr p))) /\
  computed (body1 (inv F n Real)) [a] /\
  (forall d, dp F n Real a b (scalar_obj dint dtol) = Some (Done d) ->
     computed (body2 (dual F n Real)) [d; pseudoscalar dim] /\
     forall e, dual F n Real d (pseudoscalar dim) = Some (Done e) -> computed (body1 (inv F n Real)) [e]) /\
  (forall t vs, meet_type F n fuel dim (cexpr a) (cexpr b) = Some t \/ full_join_type F n fuel dim (cexpr a) (cexpr b) = Some t -> length vs = count_vals t ->
     computed (body1 (inv F n Real)) [{| cexpr := t; cint := false; cvals := vs; cbits := [] |}]).
