(** Model of the public functions of the core that act on multivector objects: every function
    opens a lazy context on its arguments and evaluates the expression it builds. *)
From Coq Require Import NArith ZArith List Bool Reals.
From Verif Require Import Bits Expr Simp Comp Mapping Ops Lazy.
Import ListNotations.

(** Result of a call: [None] = does not compile (or the template recursion is too deep). *)
Definition result := option (done cliff).
(** Sequencing of two calls. *)
Definition andthen (x : result) (f : cliff -> result) : result :=
  match x with Some (Done a) => f a | o => o end.

(** An object without storage, such as the arguments handed out by a lazy context
    (lazy_context::argument, lazy_context.hpp:642-645). *)
Definition lazy_obj (e : expr) : cliff := {| cexpr := e; cint := true; cvals := []; cbits := [] |}.
(** make_lazy_context_tuple followed by lazy.eval: lazy_context.hpp:654-657, 675-684.  Only the
    type of the object handed to lazy.eval is used (472, 489). *)
Definition in_context (F n : nat) (inputs : list cliff) (body : list cliff -> result) : result :=
  args <- arguments (base_id inputs) inputs ;;
  andthen (body (map lazy_obj args)) (fun r => lazy_eval F n inputs (cexpr r)).

(** A function that evaluates one type-level operation on its arguments
    (e.g. geometric_product.hpp:97-100). *)
Definition call (F n : nat) (op : list expr -> option expr) (inputs : list cliff) : result :=
  args <- arguments (base_id inputs) inputs ;; e <- op args ;; lazy_eval F n inputs e.
Definition op1 (f : expr -> option expr) (l : list expr) : option expr := match l with [x] => f x | _ => None end.
Definition op2 (f : expr -> expr -> option expr) (l : list expr) : option expr := match l with [x; y] => f x y | _ => None end.

(** c<z>: constant.hpp:29-33. *)
Definition c_obj (z : Z) : cliff := lazy_obj (c_expr z).
(** scalar(x) of a floating-point or integral value: scalar.hpp:37-40. *)
Definition scalar_obj (int : bool) (x : R) : cliff := {| cexpr := Comp SV (CBlade 0); cint := int; cvals := [x]; cbits := [] |}.
(** e(c<i>): basis_vector.hpp:51-55. *)
Definition basis_obj (i : N) : cliff := lazy_obj (Comp (CV 1) (CBlade (bit (i - 1)))).
(** e(i) with a run-time index: basis_vector.hpp:45-48. *)
Definition dyn_basis_obj (i : N) : cliff :=
  {| cexpr := Comp (CV 1) (DBlade 2 SBits); cint := true; cvals := []; cbits := [bit (i - 1)] |}.

(** gp(a, b, mtr) in the signed space (P, Q, R): geometric_product.hpp:97-100. *)
Definition gp (F n : nat) (P Q R : N) (a b : cliff) : result := call F n (op2 (cmul F n (gp_map F P Q R))) [a; b].
(** gp(a, b) with a scalar argument, and a * b: geometric_product.hpp:102-115,
    arithmetic_operators.hpp:71-99. *)
Definition gp_scalar (F n : nat) (a b : cliff) : result := call F n (op2 (cmul F n (gp_real_map F))) [a; b].
(** lcont: left_contraction.hpp:66-70; rcont, sp, dot, hip: the corresponding files. *)
Definition lcont (F n : nat) (P Q R : N) (a b : cliff) : result := call F n (op2 (cmul F n (lcont_map F P Q R))) [a; b].
(** rcont: right_contraction.hpp:66-70. *)
Definition rcont (F n : nat) (P Q R : N) (a b : cliff) : result := call F n (op2 (cmul F n (rcont_map F P Q R))) [a; b].
(** sp: scalar_product.hpp:47-51. *)
Definition sp (F n : nat) (P Q R : N) (a b : cliff) : result := call F n (op2 (cmul F n (sp_map F P Q R))) [a; b].
(** dot: dot_product.hpp:70-74. *)
Definition dot (F n : nat) (P Q R : N) (a b : cliff) : result := call F n (op2 (cmul F n (dot_map F P Q R))) [a; b].
(** hip: hestenes_inner_product.hpp:80-84. *)
Definition hip (F n : nat) (P Q R : N) (a b : cliff) : result := call F n (op2 (cmul F n (hip_map F P Q R))) [a; b].
(** op(a, b, mtr): outer_product.hpp:30-34; the scalar overloads use the 63-dimensional real space. *)
Definition outer (F n : nat) (dim : N) (a b : cliff) : result := call F n (op2 (cmul F n (op_map F dim))) [a; b].
(** rp(a, b, mtr): regressive_product.hpp:30-34. *)
Definition regressive (F n : nat) (dim : N) (a b : cliff) : result := call F n (op2 (cmul F n (rp_map F dim))) [a; b].
(** operator+: arithmetic_operators.hpp:34-38. *)
Definition plus (F n : nat) (a b : cliff) : result := call F n (op2 (cadd F n)) [a; b].
(** Unary operator-: arithmetic_operators.hpp:50-53. *)
Definition neg (F n : nat) (a : cliff) : result := gp_scalar F n (c_obj (-1)) a.
(** Binary operator-: arithmetic_operators.hpp:55-59. *)
Definition minus (F n : nat) (a b : cliff) : result :=
  in_context F n [a; b] (fun l => match l with
    | [x; y] => andthen (gp_scalar F n (c_obj (-1)) y) (fun m => plus F n x m)
    | _ => None end).
(** reverse: reversion.hpp:29-33; involute: involution.hpp:29-33; conjugate: conjugation.hpp:29-33. *)
Definition reverse (F n : nat) (a : cliff) : result := call F n (op1 (gum F n reverse_pattern)) [a].
(** involution.hpp:29-33. *)
Definition involute (F n : nat) (a : cliff) : result := call F n (op1 (gum F n involute_pattern)) [a].
(** conjugation.hpp:29-33. *)
Definition conjugate (F n : nat) (a : cliff) : result := call F n (op1 (gum F n conjugate_pattern)) [a].
(** pow of scalars: math.hpp:31-35 (detail::coefficient_t takes the coefficient of the component). *)
Definition pow_t (F : nat) (x y : expr) : option expr :=
  match x, y with
  | Comp c (CBlade 0), Comp d (CBlade 0) => e <- eng F OPow c d ;; Some (component_t e (CBlade 0))
  | _, _ => None
  end.
(** math.hpp:31-35. *)
Definition pow (F n : nat) (a b : cliff) : result := call F n (op2 (pow_t F)) [a; b].
