(** Model of the functions of scalars (core/math.hpp), the reverse norm (extra/reverse_norm.hpp), unit
    multivectors (extra/unit.hpp) and the exponential of a blade (extra/blade_exponential.hpp). *)
From Coq Require Import NArith ZArith List Bool Reals.
From Verif Require Import Bits Expr Simp Comp Mapping Ops EvalC Lazy Api Extra ForEach.
Import ListNotations.

(** abs, exp, log, cos, sin, tan, cosh, sinh and tanh of a scalar: math.hpp:62-140 (coefficient_t
    takes the coefficient of the component). *)
Definition scalar_fn_t (F : nat) (f : fname) (x : expr) : option expr :=
  match x with
  | Comp c (CBlade 0) => e <- fn1_t F f c ;; Some (Comp e (CBlade 0))
  | _ => None
  end.
(** The same functions on objects: math.hpp:62-140. *)
Definition scalar_fn (F n : nat) (f : fname) (a : cliff) : result := call F n (op1 (scalar_fn_t F f)) [a].
(** The exponent 1/k of sqrt and cbrt: math.hpp:51, 58. *)
Definition root_exponent (F : nat) (k : Z) : option expr := eng F OPow (CV k) (CV (-1)).
(** sqrt (k = 2) and cbrt (k = 3): math.hpp:49-59. *)
Definition root (F n : nat) (k : Z) (a : cliff) : result :=
  h <- root_exponent F k ;; pow F n a (lazy_obj (Comp h (CBlade 0))).

(** rnorm(a, mtr): reverse_norm.hpp:50-54. *)
Definition rnorm (F n : nat) (S : space) (a : cliff) : result :=
  in_context F n [a] (body1 (fun x => andthen (reverse F n x) (fun y => andthen (sp_in F n S x y) (root F n 2)))).
(** unit(a, mtr) of an argument that is not a scalar: unit.hpp:30-34.  The inverse is the one of
    multivectors (versor_inverse.hpp:29-33), the only overload with two arguments that applies. *)
Definition unit (F n : nat) (S : space) (a : cliff) : result :=
  in_context F n [a] (body1 (fun x => andthen (reverse F n x) (fun y => andthen (sp_in F n S x y) (fun s =>
    andthen (scalar_fn F n NAbs s) (fun s' => andthen (root F n 2 s') (fun u => andthen (inv F n S u) (fun i =>
    gp_in F n S x i))))))).
(** unit(a, mtr) and unit(a) of a scalar: unit.hpp:36-46. *)
Definition unit_scalar (F n : nat) (a : cliff) : result :=
  in_context F n [a] (body1 (fun x => andthen (scalar_fn F n NAbs x) (fun y => andthen (pow F n y (c_obj (-1))) (fun i =>
    gp_scalar F n x i)))).

(** The mapping of sp in a space: scalar_product.hpp:28-51. *)
Definition sp_mapping (F : nat) (S : space) := match S with Signed P Q R => sp_map F P Q R | Real => sp_real_map F end.
(** The type evaluated by exp(b, tol, mtr): blade_exponential.hpp:33-66; signed_squared_alpha_value is
    [s], squared_alpha_value [a], alpha_value [r], blade_weight_value [w]. *)
Definition exp_t (F n : nat) (S : space) (dim : N) (b t : expr) : option expr :=
  match t with
  | Comp tol (CBlade 0) =>
    p <- cmul F n (sp_mapping F S) b b ;;
    match p with
    | Comp s _ =>
      a <- mk_abs F s ;;
      h <- root_exponent F 2 ;;
      r <- eng F OPow a h ;;
      i <- eng F OPow r (CV (-1)) ;;
      ws <- eng F OMul (Fn NSin [r]) i ;;
      wh <- eng F OMul (Fn NSinh [r]) i ;;
      let c := mk_if (mk_le a tol) (CV 1) (mk_if (mk_le s (CV 0)) (Fn NCos [r]) (Fn NCosh [r])) in
      let w := mk_if (mk_le a tol) (CV 1) (mk_if (mk_le s (CV 0)) ws wh) in
      q <- cmul F n (op_map F dim) (component_t w (CBlade 0)) b ;;
      cadd F n (component_t c (CBlade 0)) q
    | _ => None
    end
  | _ => None
  end.
(** exp(b, tol, mtr) of an argument that is not a scalar: blade_exponential.hpp:29-70; the tolerance is
    an object, scalar(tol) (core/scalar.hpp:36-52). *)
Definition blade_exp (F n : nat) (S : space) (dim : N) (b tol : cliff) : result :=
  call F n (op2 (exp_t F n S dim)) [b; tol].

(** A test of the result of a function. *)
Definition then_test (r : result) (f : cliff -> option (done bool)) : option (done bool) :=
  match r with Some (Done x) => f x | Some Ovf => Some Ovf | Some Bad => Some Bad | None => None end.
(** is_null(a, tol, mtr): tests.hpp:42-45. *)
Definition is_null (F n : nat) (S : space) (a : cliff) (tol : R) : option (done bool) :=
  then_test (rnorm_sqr F n S a) (fun s => is_zero s tol).
(** is_unit(a, tol, mtr): tests.hpp:48-51. *)
Definition is_unit (F n : nat) (S : space) (a : cliff) (tol : R) : option (done bool) :=
  then_test (andthen (rnorm_sqr F n S a) (fun s => andthen (scalar_fn F n NAbs s) (fun x => minus F n x (c_obj 1)))) (fun d => is_zero d tol).
