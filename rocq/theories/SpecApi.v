(** Specification: the multivector objects the statements about public functions range over. *)
From Coq Require Import NArith ZArith List Bool Reals.
From Verif Require Import Bits Expr Sem Wf SpecMv SpecOrder EvalC SpecEval Lazy SpecLazy Api.
Import ListNotations.

(** The object has the value [m], whatever the contexts it is used in. *)
Definition value (a : cliff) (m : mv) : Prop := forall g, value_in g a m.

(** Objects of the [n]-dimensional space whose type is canonical, with compile-time blades; every
    coefficient is stored or is a constant of the class [K]. *)
Definition object (K : expr -> bool) (n : N) (a : cliff) : Prop :=
  exists M, cexpr a = mv_of M /\ canonical M /\ well_stored a /\
  Forall (fun p => (fst p < 2 ^ n)%N /\ (snd p = SV \/ K (snd p) = true /\ wf (snd p) = true)) M.

(** Constants: integers; or sums, products and integer powers of integers. *)
Fixpoint rational (e : expr) : bool :=
  match e with
  | CV _ => true
  | Fn NAdd l | Fn NMul l => forallb rational l
  | Fn NPow [b; CV _] => rational b
  | _ => false
  end.
Definition int_object := object is_integer.
Definition rat_object := object rational.

(** No quotient of two integers is computed when the function [f] is called on [inputs]: none occurs
    in the type [f] computes for the lazy arguments, whose run-time values have the static types of
    the inputs.  (Such quotients truncate: see C11.) *)
Definition coefficients (e : expr) : list expr := map (fun c => match c with Comp x _ => x | _ => CV 0 end) (components e).
Definition exact (f : list cliff -> result) (inputs : list cliff) : Prop :=
  forall args r, arguments 0 inputs = Some args -> f (map lazy_obj args) = Some (Done r) ->
  Forall (fun c => exact_coef (ctx_int 0 (stored_inputs inputs)) c = true) (coefficients (cexpr r)).
