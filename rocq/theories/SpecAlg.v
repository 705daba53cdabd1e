(** Specification: vocabulary for the algebraic laws of multivectors. *)
From Coq Require Import NArith ZArith List Bool Reals.
From Verif Require Import Bits Expr SpecBits Sem SpecMv.
Import ListNotations.
Local Open Scope R_scope.

(** The scalar 1, the basis vector with index [i] (0-based), the unit pseudoscalar. *)
Definition one : mv := [(1, 0%N)].
Definition basis (i : N) : mv := [(1, (2 ^ i)%N)].
Definition ps (n : N) : mv := [(1, (2 ^ n - 1)%N)].
(** All the blades of [m] have grade [k]. *)
Definition homog (k : N) (m : mv) : Prop := Forall (fun p => grade_of (snd p) = k) m.

(** Expression [e] has, at the inputs [g], a value in the [n]-dimensional space. *)
Definition in_dim (n : N) (g : env) (e : expr) : Prop := exists m, den g e m /\ in_space n m.
(** Expression [e] has the value [m] at the inputs [g]. *)
Definition has_value (g : env) (e : expr) (m : mv) : Prop := exists m', den g e m' /\ meq m' m.
(** Two expressions have the same value at the inputs [g]. *)
Definition same (g : env) (a b : expr) : Prop := exists m, has_value g a m /\ has_value g b m.
