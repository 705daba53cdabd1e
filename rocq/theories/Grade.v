(** Model of the grade functions of ga/extra: take_grade, take_largest_grade, grade, largest_grade,
    and of the delta product. *)
From Coq Require Import NArith ZArith List Bool Reals.
From Verif Require Import Bits Expr Simp Comp Mapping Ops Lazy Api Extra.
Import ListNotations.

(** keep_grade of a component: take_grade.hpp:46-83.  The three partial specialisations: compile-time
    blade and grade (46-53), run-time blade and compile-time grade (55-69; both alternatives of
    std::conditional_t are instantiated, and a shift by an amount outside 0..63 is not a constant
    expression), and the general one (71-81). *)
Definition keep_comp (x g : expr) : option expr :=
  match x, g with
  | Comp c (CBlade b), Comp (CV z) (CBlade 0) =>
    Some (if Z.eqb (Z.of_N (ones b)) z then x else Comp (CV 0) (CBlade 0))
  | Comp c (DBlade pg bs), Comp (CV z) (CBlade 0) =>
    if (Z.leb 0 z && Z.leb z 63)%bool then
      y <- dyn_blade_t (bit (Z.to_N z)) bs ;;
      Some (if N.eqb (N.land pg (bit (Z.to_N z))) 0 then Comp (CV 0) (CBlade 0)
            else component_t (mk_if (mk_equal (mk_count bs) (CV z)) c (CV 0)) y)
    else None
  | Comp c b, Comp z (CBlade 0) =>
    bs <- basis_vectors b ;;
    Some (component_t (mk_if (mk_equal (mk_count bs) z) c (CV 0)) b)
  | _, _ => None
  end.
(** keep_grade of add<Argument, NextArguments...>: take_grade.hpp:38-44. *)
Fixpoint keep_list (F n : nat) (g : expr) (l : list expr) : option expr :=
  match l with
  | [] => None
  | [x] => keep_comp x g
  | x :: xs => a <- keep_comp x g ;; b <- keep_list F n g xs ;; cadd F n a b
  end.
(** keep_grade_t: take_grade.hpp:32-36. *)
Definition keep_grade (F n : nat) (e g : expr) : option expr := keep_list F n g (comps_of e).
(** take_grade(a, k): take_grade.hpp:86-90; with a native grade k, take_grade(a, scalar(k)): 97-100. *)
Definition take_grade (F n : nat) (a k : cliff) : result := call F n (op2 (keep_grade F n)) [a; k].

(** deduce_grade_result of a component: grade.hpp:164-171; deduce_largest_grade_result of a
    component (196-203) is the same.  UNDETERMINED_GRADE = -2. *)
Definition grade_comp (F : nat) (tol x : expr) : option expr :=
  match x with
  | Comp c b => bs <- basis_vectors b ;; a <- mk_abs F c ;; Some (mk_if (mk_le a tol) (CV (-2)) (mk_count bs))
  | _ => None
  end.
(** deduce_grade_result of add<Argument, NextArguments...>: grade.hpp:132-162.  MIXED_GRADE = -1. *)
Definition grade_join (a b : expr) : expr :=
  mk_if (mk_equal a (CV (-1))) (CV (-1))
    (mk_if (mk_equal b (CV (-1))) (CV (-1))
      (mk_if (mk_equal a (CV (-2))) b
        (mk_if (mk_equal b (CV (-2))) a
          (mk_if (mk_equal a b) a (CV (-1)))))).
(** deduce_largest_grade_result of add<Argument, NextArguments...>: grade.hpp:180-194. *)
Definition largest_join (a b : expr) : expr := mk_if (mk_le a b) b a.
(** The recursion over the arguments of add: grade.hpp:132-162, 180-194. *)
Fixpoint deduce (F : nat) (join : expr -> expr -> expr) (tol : expr) (l : list expr) : option expr :=
  match l with
  | [] => None
  | [x] => grade_comp F tol x
  | x :: xs => a <- grade_comp F tol x ;; b <- deduce F join tol xs ;; Some (join a b)
  end.
(** The scalar expression that grade and largest_grade evaluate: grade.hpp:243-246, 265-268. *)
Definition deduce_t (F : nat) (join : expr -> expr -> expr) (e t : expr) : option expr :=
  match t with
  | Comp tol (CBlade 0) => d <- deduce F join tol (comps_of e) ;; Some (Comp d (CBlade 0))
  | _ => None
  end.
(** grade(a, tol) (the value of the grade_result): grade.hpp:242-246; the tolerance is an object,
    scalar(tol) (core/scalar.hpp:36-52). *)
Definition grade (F n : nat) (a tol : cliff) : result := call F n (op2 (deduce_t F grade_join)) [a; tol].
(** largest_grade(a, tol): grade.hpp:264-268. *)
Definition largest_grade (F n : nat) (a tol : cliff) : result := call F n (op2 (deduce_t F largest_join)) [a; tol].
(** take_largest_grade(a, tol): take_grade.hpp:108-112. *)
Definition take_largest_grade (F n : nat) (a tol : cliff) : result :=
  in_context F n [a; tol] (body2 (fun x t => andthen (largest_grade F n x t) (fun g => take_grade F n x g))).
(** dp(a, b, tol, mtr): delta_product.hpp:29-33. *)
Definition dp (F n : nat) (S : space) (a b tol : cliff) : result :=
  in_context F n [a; b; tol] (fun l => match l with
    | [x; y; t] => andthen (gp_in F n S x y) (fun p => take_largest_grade F n p t)
    | _ => None end).
