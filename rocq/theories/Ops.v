(** Model of the operators built on gp: core/arithmetic_operators.hpp. *)
From Coq Require Import NArith ZArith List Bool.
From Verif Require Import Bits Expr Simp Comp Mapping.
Import ListNotations.

(** c<z> as a multivector expression: core/constant.hpp:29-33. *)
Definition c_expr (z : Z) : expr := Comp (CV z) (CBlade 0).
(** operator- (unary): arithmetic_operators.hpp:50-53; gp with a scalar uses the
    real metric (geometric_product.hpp:104-107). *)
Definition neg_t (F k : nat) (b : expr) : option expr := cmul F k (gp_real_map F) (c_expr (-1)) b.
(** operator- (binary): arithmetic_operators.hpp:55-59. *)
Definition sub_t (F k : nat) (a b : expr) : option expr := m <- neg_t F k b ;; cadd F k a m.
