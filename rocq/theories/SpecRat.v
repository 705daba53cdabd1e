(** Specification: compile-time rational constants in lowest terms. *)
From Coq Require Import ZArith List.
From Verif Require Import Expr.
Import ListNotations.
Local Open Scope Z_scope.

(** [1 / d] and [n / d] as the library writes them. *)
Definition inv_c (d : Z) : expr := Fn NPow [CV d; CV (-1)].
Definition frac_c (n d : Z) : expr := Fn NMul [CV n; inv_c d].

(** [e] is an integer, or [1 / d] with [d >= 2], or [n / d] in lowest terms with
    [d >= 2]. *)
Definition lowest (e : expr) : Prop :=
  (exists n, e = CV n) \/
  (exists d, 2 <= d /\ e = inv_c d) \/
  (exists n d, 2 <= d /\ n <> 0 /\ n <> 1 /\ Z.gcd n d = 1 /\ e = frac_c n d).

(** Integer plus proper fraction with numerator other than 1 (either order). *)
Definition int_plus_frac (a b : expr) : Prop :=
  exists z n d, (a = CV z /\ b = frac_c n d) \/ (a = frac_c n d /\ b = CV z).
