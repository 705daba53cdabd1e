(** Specification: which results are computed at run time; the exponential of a blade. *)
From Coq Require Import NArith ZArith List Bool Reals.
From Verif Require Import Bits Expr SpecMv SpecAlg EvalC SpecEval Lazy SpecLazy Api SpecApi SpecExtra.
Import ListNotations.
Local Open Scope R_scope.

(** The coefficient is an integer constant, or it is computed from the inputs without a quotient of
    two integers (which truncates: C11). *)
Definition computed_coef (i : ityping) (c : expr) : bool := is_integer c || has_getter c && no_int_div i c.
(** Every coefficient of the type that the function [f] computes on [inputs] is of this kind. *)
Definition computed (f : list cliff -> result) (inputs : list cliff) : Prop :=
  forall args r, arguments 0 inputs = Some args -> f (map lazy_obj args) = Some (Done r) ->
  Forall (fun c => computed_coef (ctx_int 0 (stored_inputs inputs)) c = true) (coefficients (cexpr r)).

(** A condition on the coefficients of the type that [f] computes on [inputs]. *)
Definition on_type (f : list cliff -> result) (inputs : list cliff) (P : expr -> Prop) : Prop :=
  forall args r, arguments 0 inputs = Some args -> f (map lazy_obj args) = Some (Done r) -> Forall P (coefficients (cexpr r)).
(** The coefficient is an integer constant or depends on the inputs. *)
Definition settled (c : expr) : Prop := has_getter c = true \/ is_integer c = true.

(** The exponential of a blade [m] of square [s]: the closed form of the power series, and 1 + m when
    the square is zero up to the tolerance. *)
Definition mexp (tol s : R) (m : mv) : mv :=
  let r := sqrt (Rabs s) in
  if Rle_dec (Rabs s) tol then (1, 0%N) :: m
  else if Rle_dec s 0 then (cos r, 0%N) :: scale (sin r / r) m
  else (cosh r, 0%N) :: scale (sinh r / r) m.

(** The powers of a multivector, and the power series of its exponential, coefficient by coefficient. *)
Fixpoint mpow (q : N -> R) (m : mv) (k : nat) : mv := match k with O => [(1, 0%N)] | S k' => mgp q (mpow q m k') m end.
Definition is_exp (q : N -> R) (m e : mv) : Prop :=
  forall b, infinite_sum (fun k => coef (mpow q m k) b / INR (fact k)) (coef e b).

(** The functions of one real variable, where they are defined. *)
Definition real_function (f : fname) (v : R) : option R :=
  match f with
  | NAbs => Some (Rabs v)
  | NExp => Some (exp v)
  | NLog => if Rlt_dec 0 v then Some (ln v) else None
  | NCos => Some (cos v)
  | NSin => Some (sin v)
  | NTan => if Req_EM_T (cos v) 0 then None else Some (tan v)
  | NCosh => Some (cosh v)
  | NSinh => Some (sinh v)
  | NTanh => Some (tanh v)
  | _ => None
  end.
