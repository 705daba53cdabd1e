(** Model of the products of basis blades (Mapping::multiply):
    core/orthogonal_metric_mapping.hpp, core/exterior_product_mapping.hpp,
    core/regressive_product_mapping.hpp, core/geometric_product.hpp,
    core/left_contraction.hpp, core/right_contraction.hpp,
    core/scalar_product.hpp, core/dot_product.hpp,
    core/hestenes_inner_product.hpp, model/signed/metric_space.hpp,
    core/real_metric_space.hpp. *)
From Coq Require Import NArith ZArith List Bool.
From Verif Require Import Bits Expr Simp.
Import ListNotations.
Local Open Scope N_scope.

(** bitset_t(~0) (e.g. geometric_product.hpp:41). *)
Definition all_ones : N := 2 ^ 64 - 1.
(** bitset_t(1) << k for k < 64 (e.g. orthogonal_metric_mapping.hpp:52). *)
Definition bit (k : N) : N := wrap (N.shiftl 1 k).

(** deduce_basis_blade_t: expression_traits.hpp:579-590. *)
Definition deduce_blade (pg : N) (bits : expr) : option expr :=
  match bits with CBits b => Some (CBlade b) | _ => dyn_blade_t pg bits end.

(** ** Possible grades of the result *)
(** In the recursions below the argument is a set of grades; the recursion removes
    its lowest element, so 64 steps always suffice. *)

(** gp_mapping::resulting_bitset: geometric_product.hpp:35-48. *)
Definition gp_bits (l r : N) : N :=
  let mn := if N.leb l r then r - l else l - r in
  let mx := if N.ltb (l + r) digits then l + r else digits - 1 in
  wrap (N.shiftl (N.land (safe_rshift (safe_rshift all_ones (digits - mx - 1)) mn) 0x5555555555555555) mn).
(** gp_mapping::iterate_right: geometric_product.hpp:50-64. *)
Fixpoint gp_right (fuel : nat) (l R : N) : N :=
  match fuel with
  | O => 0
  | S f => if R =? 0 then 0
           else let rb := rightmost_set_bit R in
                N.lor (gp_right f l (N.lxor R rb)) (gp_bits l (set_bit_index rb))
  end.
(** gp_mapping::iterate_left: geometric_product.hpp:66-80. *)
Fixpoint gp_left (fuel : nat) (L R : N) : N :=
  match fuel with
  | O => 0
  | S f => if L =? 0 then 0
           else let lb := rightmost_set_bit L in
                N.lor (gp_left f (N.lxor L lb) R) (gp_right 64 (set_bit_index lb) R)
  end.
(** gp_mapping::possible_grades_result: geometric_product.hpp:89-92. *)
Definition gp_grades (L R n : N) : N :=
  N.land (gp_left 64 L R) (safe_rshift all_ones (digits - (n + 1))).

(** lcont_mapping::_possible_grades_result: left_contraction.hpp:33-48. *)
Fixpoint lcont_grades_rec (fuel : nat) (L R : N) : N :=
  match fuel with
  | O => 0
  | S f => if L =? 0 then 0
           else let lb := rightmost_set_bit L in
                let pg := N.div R lb in
                N.lor (lcont_grades_rec f (if negb (pg =? 0) then N.lxor L lb else 0) R) pg
  end.
(** lcont_mapping::possible_grades_result: left_contraction.hpp:57-59. *)
Definition lcont_grades (L R n : N) : N := lcont_grades_rec 64 L R.
(** rcont_mapping::_possible_grades_result: right_contraction.hpp:33-48 (the
    recursion of lcont with the arguments exchanged). *)
Fixpoint rcont_grades_rec (fuel : nat) (L R : N) : N :=
  match fuel with
  | O => 0
  | S f => if R =? 0 then 0
           else let rb := rightmost_set_bit R in
                let pg := N.div L rb in
                N.lor (rcont_grades_rec f L (if negb (pg =? 0) then N.lxor R rb else 0)) pg
  end.
(** rcont_mapping::possible_grades_result: right_contraction.hpp:57-59. *)
Definition rcont_grades (L R n : N) : N := rcont_grades_rec 64 L R.
(** sp_mapping::possible_grades_result: scalar_product.hpp:38-41. *)
Definition sp_grades (L R n : N) : N := if negb (N.land L R =? 0) then 1 else 0.
(** dot_mapping::possible_grades_result: dot_product.hpp:30-64 (its private
    recursion is the one of lcont, written again). *)
Definition dot_grades (L R n : N) : N := N.lor (lcont_grades_rec 64 L R) (lcont_grades_rec 64 R L).
(** hip_mapping::possible_grades_result: hestenes_inner_product.hpp:63-73. *)
Definition hip_grades (L R n : N) : N :=
  let l := N.lxor (N.lor L 1) 1 in
  let r := N.lxor (N.lor R 1) 1 in
  N.lor (lcont_grades_rec 64 l r) (lcont_grades_rec 64 r l).

(** exterior_product_mapping::possible_grades_result: exterior_product_mapping.hpp:36-54. *)
Fixpoint op_grades_rec (fuel : nat) (all L R : N) : N :=
  match fuel with
  | O => 0
  | S f => if L =? 0 then 0
           else let lb := rightmost_set_bit L in
                let pg := N.land (wrap (lb * R)) all in
                N.lor (op_grades_rec f all (if negb (pg =? 0) then N.lxor L lb else 0) R) pg
  end.
(** all_possible_grades: exterior_product_mapping.hpp:36. *)
Definition op_all (n : N) : N := safe_rshift all_ones (digits - (n + 1)).
(** exterior_product_mapping.hpp:39-54. *)
Definition op_grades (n L R : N) : N := op_grades_rec 64 (op_all n) L R.

(** regressive_product_mapping::resulting_bitset: regressive_product_mapping.hpp:37-46
    (grade_t is signed). *)
Definition rp_bits (n l r : N) : N :=
  let g := (Z.of_N l + Z.of_N r - Z.of_N n)%Z in
  if (Z.leb 0 g && Z.leb g (Z.of_N n))%bool then bit (Z.to_N g) else 0.
(** iterate_right: regressive_product_mapping.hpp:48-62. *)
Fixpoint rp_right (fuel : nat) (n l R : N) : N :=
  match fuel with
  | O => 0
  | S f => if R =? 0 then 0
           else let rb := rightmost_set_bit R in
                N.lor (rp_right f n l (N.lxor R rb)) (rp_bits n l (set_bit_index rb))
  end.
(** possible_grades_result: regressive_product_mapping.hpp:64-80.  [n - left_grade] is
    non-negative because of the static_assert at line 91. *)
Fixpoint rp_grades_rec (fuel : nat) (n L R : N) : N :=
  match fuel with
  | O => 0
  | S f => if L =? 0 then 0
           else let lb := rightmost_set_bit L in
                let l := set_bit_index lb in
                let R' := wrap (N.shiftl (safe_rshift R (n - l)) (n - l)) in
                N.lor (rp_grades_rec f n (N.lxor L lb) R) (rp_right 64 n l R')
  end.
(** regressive_product_mapping.hpp:64-80. *)
Definition rp_grades (n L R : N) : N := rp_grades_rec 64 n L R.

(** ** Validity tests on grades *)
(** are_valid_grades<LeftGrade, RightGrade, ResultGrade>::type. *)
Definition valid_t := expr -> expr -> expr -> option expr.
(** RightGrade - LeftGrade, written addition_t<R, product_t<-1, L>> (left_contraction.hpp:54). *)
Definition minus_t (F : nat) (r l : expr) : option expr :=
  m <- eng F OMul (CV (-1)) l ;; eng F OAdd r m.
(** gp: geometric_product.hpp:84-87. *)
Definition gp_valid (F : nat) : valid_t := fun _ _ _ => Some (CBool true).
(** lcont: left_contraction.hpp:52-55. *)
Definition lcont_valid (F : nat) : valid_t := fun l r k => d <- minus_t F r l ;; Some (mk_equal d k).
(** rcont: right_contraction.hpp:52-55. *)
Definition rcont_valid (F : nat) : valid_t := fun l r k => d <- minus_t F l r ;; Some (mk_equal d k).
(** sp: scalar_product.hpp:33-36. *)
Definition sp_valid (F : nat) : valid_t := fun _ _ k => Some (mk_equal k (CV 0)).
(** dot: dot_product.hpp:52-59. *)
Definition dot_valid (F : nat) : valid_t := fun l r k =>
  d <- minus_t F r l ;; e <- minus_t F l r ;;
  Some (mk_if (mk_le l r) (mk_equal k d) (mk_equal k e)).
(** hip: hestenes_inner_product.hpp:52-61. *)
Definition hip_valid (F : nat) : valid_t := fun l r k =>
  d <- minus_t F r l ;; e <- minus_t F l r ;;
  Some (mk_if (mk_lor (mk_equal l (CV 0)) (mk_equal r (CV 0))) (CBool false)
              (mk_if (mk_le l r) (mk_equal k d) (mk_equal k e))).

(** ** Metric factors *)
(** signed_metric_space: model/signed/metric_space.hpp:40-43. *)
Definition neg_mask (P Q : N) : N := if Q =? 0 then 0 else wrap (N.shiftl (safe_rshift all_ones (digits - Q)) P).
(** model/signed/metric_space.hpp:43. *)
Definition zero_mask (P Q R : N) : N := if R =? 0 then 0 else wrap (N.shiftl (safe_rshift all_ones (digits - R)) (P + Q)).
(** metric_factor: model/signed/metric_space.hpp:47-67. *)
Definition signed_factor (P Q R : N) (common : expr) : expr :=
  mk_if (mk_equal (mk_and common (CBits (zero_mask P Q R))) (CBits 0))
        (mk_if (mk_equal (mk_and (mk_count (mk_and common (CBits (neg_mask P Q)))) (CV 1)) (CV 0))
               (CV 1) (CV (-1)))
        (CV 0).
(** real_metric_space::metric_factor: core/real_metric_space.hpp:42-45. *)
Definition real_factor (common : expr) : expr := CV 1.

(** ** multiply *)
(** The static_assert on the possible grades (orthogonal_metric_mapping.hpp:39,
    exterior_product_mapping.hpp:62, regressive_product_mapping.hpp:91). *)
Definition grades_fit (n : N) (bl br : expr) : bool :=
  N.eqb (safe_rshift (N.lor (possible_grades bl) (possible_grades br)) (n + 1)) 0.
(** basis_vectors of the space: model/signed/metric_space.hpp:36, real_metric_space.hpp:37. *)
Definition pseudoscalar (n : N) : N := safe_rshift all_ones (digits - n).

(** orthogonal_metric_mapping::multiply: orthogonal_metric_mapping.hpp:36-72.  [n] is
    the number of dimensions, [grades] and [valid] the GradedProduct, [factor]
    the metric_factor of the space. *)
Definition orth (F : nat) (n : N) (grades : N -> N -> N -> N) (valid : valid_t) (factor : expr -> expr)
    (bl br : expr) : option expr :=
  if grades_fit n bl br then
    let pg := grades (possible_grades bl) (possible_grades br) n in
    l <- basis_vectors bl ;; r <- basis_vectors br ;;
    let common := mk_and l r in
    let result := mk_xor l r in
    cand <- deduce_blade pg result ;;
    v <- valid (mk_count l) (mk_count r) (mk_count result) ;;
    p <- eng F OMul (mk_sign l r) (factor common) ;;
    Some (component_t (mk_if (if N.eqb pg 0 then CBool false else v) p (CV 0))
                      (if N.eqb pg (bit n) then CBlade (pseudoscalar n) else cand))
  else None.

(** The graded products of a signed metric space (P, Q, R):
    metric_space_mapping_t (mapping.hpp:46-60) with signed_metric_space. *)
Definition gp_map F P Q R := orth F (P + Q + R) gp_grades (gp_valid F) (signed_factor P Q R).
(** lcont: left_contraction.hpp:63-67. *)
Definition lcont_map F P Q R := orth F (P + Q + R) lcont_grades (lcont_valid F) (signed_factor P Q R).
(** rcont: right_contraction.hpp:63-67. *)
Definition rcont_map F P Q R := orth F (P + Q + R) rcont_grades (rcont_valid F) (signed_factor P Q R).
(** sp: scalar_product.hpp:46-50. *)
Definition sp_map F P Q R := orth F (P + Q + R) sp_grades (sp_valid F) (signed_factor P Q R).
(** dot: dot_product.hpp:69-73. *)
Definition dot_map F P Q R := orth F (P + Q + R) dot_grades (dot_valid F) (signed_factor P Q R).
(** hip: hestenes_inner_product.hpp:79-83. *)
Definition hip_map F P Q R := orth F (P + Q + R) hip_grades (hip_valid F) (signed_factor P Q R).
(** The graded products with real_metric_space (63 dimensions), used when an
    argument is a scalar: geometric_product.hpp:104-117, real_metric_space.hpp:31-46. *)
Definition gp_real_map F := orth F 63 gp_grades (gp_valid F) real_factor.
(** left_contraction.hpp:71-84. *)
Definition lcont_real_map F := orth F 63 lcont_grades (lcont_valid F) real_factor.
(** right_contraction.hpp:71-84. *)
Definition rcont_real_map F := orth F 63 rcont_grades (rcont_valid F) real_factor.
(** scalar_product.hpp:53-66. *)
Definition sp_real_map F := orth F 63 sp_grades (sp_valid F) real_factor.
(** dot_product.hpp:76-89. *)
Definition dot_real_map F := orth F 63 dot_grades (dot_valid F) real_factor.
(** hestenes_inner_product.hpp:87-100. *)
Definition hip_real_map F := orth F 63 hip_grades (hip_valid F) real_factor.

(** exterior_product_mapping::multiply: exterior_product_mapping.hpp:59-93. *)
Definition op_map (F : nat) (n : N) (bl br : expr) : option expr :=
  if grades_fit n bl br then
    let pg := op_grades n (possible_grades bl) (possible_grades br) in
    l <- basis_vectors bl ;; r <- basis_vectors br ;;
    let result := mk_or l r in
    cand <- deduce_blade pg result ;;
    s <- eng F OAdd (mk_count l) (mk_count r) ;;
    Some (component_t (mk_if (if N.eqb pg 0 then CBool false else mk_equal s (mk_count result)) (mk_sign l r) (CV 0))
                      (if N.eqb pg (bit n) then CBlade (N.shiftr (op_all n) 1) else cand))
  else None.

(** regressive_product_mapping::multiply: regressive_product_mapping.hpp:88-122. *)
Definition rp_map (F : nat) (n : N) (bl br : expr) : option expr :=
  if grades_fit n bl br then
    let pg := rp_grades n (possible_grades bl) (possible_grades br) in
    l <- basis_vectors bl ;; r <- basis_vectors br ;;
    let result := mk_and l r in
    cand <- deduce_blade pg result ;;
    s <- eng F OAdd (mk_count l) (mk_count r) ;;
    m <- eng F OMul (CV (-1)) (mk_count result) ;;
    t <- eng F OAdd s m ;;
    Some (component_t (mk_if (if N.eqb pg 0 then CBool false else mk_equal t (CV (Z.of_N n)))
                             (mk_sign (mk_xor l result) (mk_xor r result)) (CV 0))
                      (if N.eqb pg (bit n) then CBlade (pseudoscalar n) else cand))
  else None.
