(** Specification: copies of objects with run-time blades. *)
From Coq Require Import NArith ZArith List Bool Reals.
From Verif Require Import Bits Expr SpecBits Sem Wf SpecMv EvalC SpecEval Lazy SpecLazy Api SpecApi SpecUtil.
Import ListNotations.
Local Open Scope R_scope.

(** A component with a stored coefficient or an integer one, and a blade that is stored or known at compile
    time. *)
Definition plain_comp (e : expr) : bool :=
  match e with
  | Comp c (CBlade _) | Comp c (DBlade _ SBits) => match c with SV | CV _ => true | _ => false end
  | _ => false
  end.
(** An object whose components are all of this kind; with an integral coefficient type it stores integers. *)
Definition plain_object (a : cliff) : Prop :=
  forallb plain_comp (components (cexpr a)) = true /\ (cint a = true -> Forall isint (cvals a)).
(** [m1] has the components of [m], in order, with their coefficients converted to the coefficient type of
    the destination; only if [checked], components whose coefficient is not above [tol] may be left out. *)
Inductive carried (checked int : bool) (tol : R) : mv -> mv -> Prop :=
| c_nil : carried checked int tol [] []
| c_keep v v' k m m1 : stored_as int v v' -> carried checked int tol m m1 -> carried checked int tol ((v, k) :: m) ((v', k) :: m1)
| c_drop v k m m1 : checked = true -> Rabs v <= tol -> carried checked int tol m m1 -> carried checked int tol ((v, k) :: m) m1.
