(** Model of the construction of vectors and of the multivector types with stored coefficients:
    util/vector.hpp, util/multivector.hpp, util/basis_blade.hpp and util/pseudoscalar.hpp. *)
From Coq Require Import NArith ZArith List Bool Reals.
From Verif Require Import Bits Expr Simp Comp Mapping Lazy Api.
Import ListNotations.

(** A coordinate handed to vector(): a native number, or a scalar expression. *)
Inductive coordinate := Num (int : bool) (x : R) | Scal (a : cliff).
(** The coefficient of a coordinate in the type of the vector: stored_value for a native number
    (vector.hpp:38-52), the coefficient of a scalar expression (54-68); anything else does not
    compile (70-78). *)
Definition coord_coef (x : coordinate) : option expr :=
  match x with
  | Num _ _ => Some SV
  | Scal a => match cexpr a with Comp c (CBlade 0) => Some c | _ => None end
  end.
(** Its coefficient type is integral. *)
Definition coord_int (x : coordinate) : bool := match x with Num i _ => i | Scal a => cint a end.
(** The stored values it contributes: vector.hpp:80-136. *)
Definition coord_vals (x : coordinate) : list R := match x with Num _ v => [v] | Scal a => cvals a end.

(** deduce_vector<N, Types...>: vector.hpp:31-78.  A coordinate followed by k others goes to the
    blade 1 << (N - (k + 1)). *)
Fixpoint vector_t (F n : nat) (dim : N) (l : list coordinate) : option expr :=
  match l with
  | [] => None
  | x :: l' =>
    c <- coord_coef x ;;
    let h := component_t c (CBlade (bit (dim - (N.of_nat (length l') + 1)))) in
    match l' with
    | [] => Some h
    | _ => t <- vector_t F n dim l' ;; cadd F n h t
    end
  end.
(** vector(mtr, coords...): vector.hpp:138-162.  The number of coordinates must be the dimension.
    (The common type of the coordinates holds every one of them exactly.) *)
Definition vector (F n : nat) (dim : N) (l : list coordinate) : option cliff :=
  if N.eqb dim (N.of_nat (length l)) then
    e <- vector_t F n dim l ;;
    Some {| cexpr := e; cint := forallb coord_int l;
            cvals := if Nat.eqb (count_vals e) 0 then [] else flat_map coord_vals l; cbits := [] |}
  else None.

(** make_kvector_expression<BasisVectors, Bitset>: multivector.hpp:31-46. *)
Fixpoint kvector_t (F n fuel : nat) (mask b : N) : option expr :=
  match fuel with
  | O => None
  | S k =>
    if N.eqb b 0 then Some (Comp (CV 0) (CBlade 0))
    else match next_combination b mask with
         | None => None
         | Some b' => t <- kvector_t F n k mask b' ;; cadd F n (component_t SV (CBlade b)) t
         end
  end.
(** make_multivector_expression<BasisVectors, FirstGrade, LastGrade>: multivector.hpp:48-72.  [d] is
    LastGrade - FirstGrade. *)
Fixpoint multivector_t (F n fuel : nat) (mask first : N) (d : nat) : option expr :=
  match d with
  | O => if N.eqb first 0 then Some (Comp SV (CBlade 0)) else kvector_t F n fuel mask (first_combination first)
  | S d' =>
    t <- multivector_t F n fuel mask (first + 1) d' ;;
    if N.eqb first 0 then cadd F n (component_t SV (CBlade 0)) t
    else k <- kvector_t F n fuel mask (first_combination first) ;; cadd F n k t
  end.
(** full_multivector_t<CoefficientType, VectorSpaceDimensions, FirstGrade, LastGrade>:
    multivector.hpp:102-104 (full_kvector_t and full_vector_t, 106-112, are instances). *)
Definition full_multivector (F n fuel : nat) (dim first last : N) : option expr :=
  multivector_t F n fuel (first_combination dim) first (N.to_nat (last - first)).
(** make_derived_multivector_expression: multivector.hpp:74-98. *)
Fixpoint derived_t (F n : nat) (l : list expr) : option expr :=
  match l with
  | [] => None
  | Comp _ b :: l' =>
    match l' with
    | [] => Some (component_t SV b)
    | _ => t <- derived_t F n l' ;; cadd F n (component_t SV b) t
    end
  | _ => None
  end.
(** full_derived_multivector_t: multivector.hpp:114-116. *)
Definition derived (F n : nat) (e : expr) : option expr := derived_t F n (comps_of e).

(** The grades declared by scaled_basis_blade_t / unit_basis_blade_t<First, Last>: basis_blade.hpp:31, 39. *)
Definition grade_range (first last : N) : N := wrap (N.lor (bit last) (dec64 (bit last)) + (2 ^ 64 - dec64 (bit first))).
(** pseudoscalar(mtr): pseudoscalar.hpp:34-41. *)
Definition pseudoscalar (dim : N) : cliff := lazy_obj (component_t (CV 1) (CBlade (first_combination dim))).
(** scaled_constant_basis_blade_t / unit_constant_basis_blade_t<Indices...>: the bits of the indices are
    added up, basis_blade.hpp:35, 43. *)
Definition blade_bits (l : list N) : N := fold_right (fun i s => wrap (bit (i - 1) + s)) 0%N l.
