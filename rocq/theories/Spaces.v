(** Model of the public products in spaces with a general metric. *)
From Coq Require Import NArith ZArith List Bool Reals.
From Verif Require Import Bits Expr Simp Comp Mapping Ops Lazy Api General.
Import ListNotations.

Section Space.
(** [F], [k], [d]: template recursion depths; [n]: vector_space_dimensions; [entry]: the entries of the
    metric matrix. *)
Variables (F k d : nat) (n : N) (entry : expr -> expr -> option expr).
(** gp(a, b, mtr): geometric_product.hpp:97-100. *)
Definition gp_g (a b : cliff) : result := call F k (op2 (cmul F k (gp_general F k d n entry))) [a; b].
(** lcont(a, b, mtr): left_contraction.hpp:66-70. *)
Definition lcont_g (a b : cliff) : result := call F k (op2 (cmul F k (lcont_general F k d n entry))) [a; b].
(** rcont(a, b, mtr): right_contraction.hpp:66-70. *)
Definition rcont_g (a b : cliff) : result := call F k (op2 (cmul F k (rcont_general F k d n entry))) [a; b].
(** sp(a, b, mtr): scalar_product.hpp:47-51. *)
Definition sp_g (a b : cliff) : result := call F k (op2 (cmul F k (sp_general F k d n entry))) [a; b].
(** dot(a, b, mtr): dot_product.hpp:70-74. *)
Definition dot_g (a b : cliff) : result := call F k (op2 (cmul F k (dot_general F k d n entry))) [a; b].
(** hip(a, b, mtr): hestenes_inner_product.hpp:80-84. *)
Definition hip_g (a b : cliff) : result := call F k (op2 (cmul F k (hip_general F k d n entry))) [a; b].
End Space.

(** The spaces: conformal_metric_space<D> (model/conformal/metric_space.hpp:31-47) and
    general_metric_space<entries...> (model/general/metric_space.hpp:53-69) with integer entries, given row
    by row. *)
Inductive gspace := Conformal (D : N) | Matrix (n : N) (entries : list Z).
(** vector_space_dimensions: model/conformal/metric_space.hpp:37, model/general/metric_space.hpp:62. *)
Definition gdim (s : gspace) : N := match s with Conformal D => D + 2 | Matrix n _ => n end.
(** entry<I, J>: model/conformal/metric_space.hpp:39-46, model/general/metric_space.hpp:65-68. *)
Definition gentry (F : nat) (s : gspace) : expr -> expr -> option expr :=
  match s with Conformal D => conformal_entry D | Matrix n l => matrix_space_entry F n (map CV l) end.
