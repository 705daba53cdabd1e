(** Model of the functions of ga/extra that are compositions of the core functions: reverse norm,
    inverse, division, dualisation, versor application and commutator product.

    Every function opens a lazy context on its arguments, calls other functions on the lazy
    arguments and evaluates the type of the result; the nested calls open contexts of their own. *)
From Coq Require Import NArith ZArith List Bool Reals.
From Verif Require Import Bits Expr Simp Comp Mapping Ops Lazy Api.
Import ListNotations.

(** The metric space handed to a function: a signed space (P, Q, R), or real_metric_space
    (core/real_metric_space.hpp:31-46), which the overloads for scalars use. *)
Inductive space := Signed (P Q R : N) | Real.
(** gp(a, b, mtr): geometric_product.hpp:97-100. *)
Definition gp_in (F n : nat) (S : space) (a b : cliff) : result :=
  match S with Signed P Q R => gp F n P Q R a b | Real => gp_scalar F n a b end.
(** lcont(a, b, mtr): left_contraction.hpp:66-70. *)
Definition lcont_in (F n : nat) (S : space) (a b : cliff) : result :=
  match S with Signed P Q R => lcont F n P Q R a b | Real => call F n (op2 (cmul F n (lcont_real_map F))) [a; b] end.
(** sp(a, b, mtr): scalar_product.hpp:47-51. *)
Definition sp_in (F n : nat) (S : space) (a b : cliff) : result :=
  match S with Signed P Q R => sp F n P Q R a b | Real => call F n (op2 (cmul F n (sp_real_map F))) [a; b] end.

(** Functions of one or two lazy arguments. *)
Definition body1 (f : cliff -> result) (l : list cliff) : result := match l with [x] => f x | _ => None end.
Definition body2 (f : cliff -> cliff -> result) (l : list cliff) : result := match l with [x; y] => f x y | _ => None end.

(** rnorm_sqr(a, mtr): reverse_norm.hpp:29-33. *)
Definition rnorm_sqr (F n : nat) (S : space) (a : cliff) : result :=
  in_context F n [a] (body1 (fun x => andthen (reverse F n x) (fun y => sp_in F n S x y))).
(** inv(a) of a scalar expression: versor_inverse.hpp:35-38. *)
Definition inv_scalar (F n : nat) (a : cliff) : result := pow F n a (c_obj (-1)).
(** inv(a, mtr): versor_inverse.hpp:29-33. *)
Definition inv (F n : nat) (S : space) (a : cliff) : result :=
  in_context F n [a] (body1 (fun x =>
    andthen (reverse F n x) (fun r => andthen (rnorm_sqr F n S x) (fun s => andthen (inv_scalar F n s) (fun i =>
    gp_scalar F n r i))))).
(** igp(a, b, mtr): inverse_geometric_product.hpp:29-33. *)
Definition igp (F n : nat) (S : space) (a b : cliff) : result :=
  in_context F n [a; b] (body2 (fun x y => andthen (inv F n S y) (fun i => gp_in F n S x i))).
(** a / b for a scalar b: extra/arithmetic_operators.hpp:29-32. *)
Definition divide_by (F n : nat) (a b : cliff) : result := igp F n Real a b.
(** dual(a, I, mtr): dualization.hpp:29-33. *)
Definition dual (F n : nat) (S : space) (a I : cliff) : result :=
  in_context F n [a; I] (body2 (fun x y => andthen (inv F n S y) (fun i => lcont_in F n S x i))).
(** undual(a, I, mtr): dualization.hpp:40-44. *)
Definition undual (F n : nat) (S : space) (a I : cliff) : result :=
  in_context F n [a; I] (body2 (fun x y => lcont_in F n S x y)).
(** apply_even_versor(v, a, mtr): apply_versor.hpp:30-34. *)
Definition apply_even_versor (F n : nat) (S : space) (v a : cliff) : result :=
  in_context F n [v; a] (body2 (fun x y =>
    andthen (gp_in F n S x y) (fun p => andthen (inv F n S x) (fun i => gp_in F n S p i)))).
(** apply_odd_versor(v, a, mtr): apply_versor.hpp:52-56. *)
Definition apply_odd_versor (F n : nat) (S : space) (v a : cliff) : result :=
  in_context F n [v; a] (body2 (fun x y =>
    andthen (involute F n y) (fun z => andthen (gp_in F n S x z) (fun p => andthen (inv F n S x) (fun i => gp_in F n S p i))))).
(** apply_rotor(r, a, mtr): apply_versor.hpp:74-78. *)
Definition apply_rotor (F n : nat) (S : space) (r a : cliff) : result :=
  in_context F n [r; a] (body2 (fun x y =>
    andthen (gp_in F n S x y) (fun p => andthen (reverse F n x) (fun z => gp_in F n S p z)))).
(** cp(a, b, mtr): commutator_product.hpp:29-33. *)
Definition cp (F n : nat) (S : space) (a b : cliff) : result :=
  in_context F n [a; b] (body2 (fun x y =>
    andthen (gp_in F n S x y) (fun p => andthen (gp_in F n S y x) (fun q => andthen (minus F n p q) (fun d =>
    divide_by F n d (c_obj 2)))))).
