(** Model of the points and translations of the models of geometry: ga/model/conformal,
    ga/model/signed/minkowski and ga/model/signed/homogeneous. *)
From Coq Require Import NArith ZArith List Bool Reals.
From Verif Require Import Bits Expr Sem Simp Comp Mapping EvalC Lazy Api Extra Build.
Import ListNotations.

Section Models.
(** [F], [k]: template recursion depths; [D]: dimensions of the base space. *)
Variables (F k : nat) (D : N).

(** x * x, as the left operand of an addition with a scalar expression: the built-in product of a native
    number, made a scalar by operator+ (arithmetic_operators.hpp:45-48), or the product of a scalar
    expression with itself (71-74).  Built-in integers are modelled as 64-bit integers. *)
Definition square (x : coordinate) : result :=
  match x with
  | Num int v =>
    match arith int (v * v)%R with
    | Val (VN w) => Some (Done (scalar_obj int w))
    | Overflow => Some Ovf
    | _ => Some Bad
    end
  | Scal a => gp_scalar F k a a
  end.
(** (coords * coords) + ... + c<0>: model/conformal/point.hpp:32, model/signed/minkowski/point.hpp:32. *)
Fixpoint sum_of_squares (l : list coordinate) : result :=
  match l with
  | [] => Some (Done (c_obj 0))
  | x :: l' => andthen (square x) (fun q => andthen (sum_of_squares l') (fun s => plus F k q s))
  end.
(** vector(mtr, coords..., extra...) as a call. *)
Definition make_vector (dim : N) (l : list coordinate) : result :=
  match vector F k dim l with Some a => Some (Done a) | None => None end.

(** point(conformal_metric_space<D>, coords...): model/conformal/point.hpp:31-33. *)
Definition conformal_point (l : list coordinate) : result :=
  andthen (sum_of_squares l) (fun s => andthen (divide_by F k s (c_obj 2)) (fun h =>
  make_vector (D + 2) (l ++ [Scal (c_obj 1); Scal h]))).
(** euclidean_vector(conformal_metric_space<D>, coords...): model/conformal/euclidean_vector.hpp:30-33; the
    same for minkowski_metric_space<D>: model/signed/minkowski/euclidean_vector.hpp:30-33. *)
Definition conformal_vector (l : list coordinate) : result :=
  make_vector (D + 2) (l ++ [Scal (c_obj 0); Scal (c_obj 0)]).
(** point(minkowski_metric_space<D>, coords...): model/signed/minkowski/point.hpp:31-34. *)
Definition minkowski_point (l : list coordinate) : result :=
  andthen (sum_of_squares l) (fun s =>
  andthen (minus F k s (c_obj 1)) (fun m => andthen (divide_by F k m (c_obj 2)) (fun a =>
  andthen (plus F k s (c_obj 1)) (fun p => andthen (divide_by F k p (c_obj 2)) (fun b =>
  make_vector (D + 2) (l ++ [Scal a; Scal b])))))).
(** point(homogeneous_metric_space<D>, coords...): model/signed/homogeneous/point.hpp:31-33. *)
Definition homogeneous_point (l : list coordinate) : result := make_vector (D + 1) (l ++ [Scal (c_obj 1)]).
(** euclidean_vector(homogeneous_metric_space<D>, coords...):
    model/signed/homogeneous/euclidean_vector.hpp:31-33; the same for plane_based_metric_space<D>:
    model/signed/plane_based/euclidean_vector.hpp:30-33. *)
Definition homogeneous_vector (l : list coordinate) : result := make_vector (D + 1) (l ++ [Scal (c_obj 0)]).
(** translate(direction, flat, mtr): model/signed/homogeneous/translation.hpp:31-35; the space is
    signed_metric_space<D + 1, 0, 0> (metric_space.hpp:31). *)
Definition translate (d f : cliff) : result :=
  in_context F k [d; f] (body2 (fun x y =>
    andthen (lcont F k (D + 1) 0 0 (basis_obj (D + 1)) y) (fun c => andthen (outer F k (D + 1) x c) (fun t => plus F k y t)))).
(** euclidean_vector(euclidean_metric_space<D>, coords...): model/signed/euclidean/euclidean_vector.hpp:30-33. *)
Definition euclidean_vector (l : list coordinate) : result := make_vector D l.
(** *(begin + Indices)..., for the indices from [i] on: util/vector.hpp:168-170, model/conformal/point.hpp:37-40.
    [range]: the elements from begin on.  [None]: a read past the end. *)
Fixpoint elements (range : list coordinate) (i count : nat) : option (list coordinate) :=
  match count with
  | O => Some []
  | S c => match nth_error range i, elements range (S i) c with Some x, Some l => Some (x :: l) | _, _ => None end
  end.
(** The overloads with two iterators: model/conformal/point.hpp:44-48, model/signed/minkowski/point.hpp:45-49,
    model/signed/homogeneous/point.hpp:36-40 and 36-40 of the files euclidean_vector.hpp; util/vector.hpp:174-179.
    [None] also stands for a failed assertion. *)
Definition using_iterator (call : list coordinate -> result) (range : list coordinate) : result :=
  if N.eqb D (N.of_nat (length range)) then match elements range 0 (N.to_nat D) with Some l => call l | None => None end else None.
End Models.
