(** Specification-side predicates used in the statements about evaluation. *)
From Coq Require Import NArith ZArith List Bool Reals.
From Verif Require Import Bits Expr Simp Sem Wf EvalC.
Import ListNotations.
Local Open Scope R_scope.

(** No evaluated quotient L / R has two operands of integral type. *)
Definition no_div_last (ty : expr -> bool) : list expr -> bool :=
  fix go l :=
    match l with
    | [] => true
    | x :: rest =>
      match rest with
      | [Fn NPow [r; CV (-1)]] => is_m1 x || negb (ty x && ty r)
      | _ => go rest
      end
    end.
(** The same for every subexpression. *)
Fixpoint no_int_div (i : ityping) (e : expr) : bool :=
  match e with
  | Fn NMul l => forallb (no_int_div i) l && no_div_last (integral i) l
  | Fn _ l => forallb (no_int_div i) l
  | _ => true
  end.

(** The coefficients read through integral getters are integers, and the bitsets
    fit in 64 bits. *)
Definition typed (i : ityping) (g : env) : Prop :=
  (forall t k r, i t k = true -> ev g t k = Some r -> isint r) /\
  (forall t k b, eb g t k = Some b -> (b < 2 ^ 64)%N).

