(** Specification-side predicates used in the statements about the simplifier. *)
From Coq Require Import NArith ZArith List Bool Reals.
From Verif Require Import Bits Expr Sem.
Import ListNotations.
Local Open Scope R_scope.

(** Neither a product nor a power. *)
Definition atomic (e : expr) : bool := match e with Fn NMul _ | Fn NPow _ => false | _ => true end.

(** The shape of every expression the library builds: products and sums have
    at least two arguments, no power has a product or a power as base, and
    constant bitsets fit in 64 bits. *)
Fixpoint wf (e : expr) : bool :=
  match e with
  | Fn NMul l => Nat.leb 2 (length l) && forallb wf l
  | Fn NAdd l => Nat.leb 2 (length l) && forallb wf l
  | Fn NPow [b; p] => atomic b && wf b && wf p
  | Fn NPow _ => false
  | Fn _ l => forallb wf l
  | CBits b | CBlade b => N.ltb b (2 ^ 64)
  | DBlade _ b => wf b
  | Comp c b => wf c && wf b
  | _ => true
  end.

(** The factors of [e] that a power would be distributed to are non-negative. *)
Fixpoint nonneg_factors (g : env) (e : expr) : Prop :=
  match e with
  | Fn NMul l => fold_right (fun x P => nonneg_factors g x /\ P) True l
  | Fn NPow [b; _] => exists r, num g b r /\ 0 <= r
  | _ => exists r, num g e r /\ 0 <= r
  end.

(** [r] is an integer. *)
Definition isint (r : R) : Prop := exists k, r = IZR k.
