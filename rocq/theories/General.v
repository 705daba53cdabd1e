(** Model of the products of basis blades in spaces whose metric is not orthogonal
    (core/general_metric_mapping.hpp), with model/general/metric_space.hpp,
    model/conformal/metric_space.hpp and the helpers indirect_element_bitset and
    indirect_subset of core/expression_traits.hpp. *)
From Coq Require Import NArith ZArith List Bool.
From Verif Require Import Bits Expr Simp Comp Mapping.
Import ListNotations.
Local Open Scope N_scope.

(** rightmost_one_t: expression_traits.hpp:636-637. *)
Definition rightmost_one (b : expr) : expr := mk_and b (mk_uminus b).
(** indirect_element_bitset: expression_traits.hpp:639-655. *)
Fixpoint indirect_element (b : expr) (i : nat) : expr :=
  match i with O => rightmost_one b | S j => indirect_element (mk_xor b (rightmost_one b)) j end.
(** indirect_subset: expression_traits.hpp:657-677.  The recursion removes the lowest element of
    [sel], so 64 steps always suffice. *)
Fixpoint indirect_subset (fuel : nat) (b : expr) (sel : N) : expr :=
  match fuel with
  | O => CBits 0
  | S f => if sel =? 0 then CBits 0
           else let cur := rightmost_set_bit sel in
                mk_or (indirect_element b (N.to_nat (set_bit_index cur))) (indirect_subset f b (N.lxor sel cur))
  end.

Section General.
(** [F]: depth of the value simplifier; [k]: of the component engine; [d]: of the recursions over
    combinations; [n]: vector_space_dimensions; [entry]: GeneralMetricSpace::entry. *)
Variables (F k d : nat) (n : N) (entry : expr -> expr -> option expr).

(** row1, coli, row, col, ...: general_metric_mapping.hpp:44, 51, 73, 98-102, 119-120: the (1-based)
    index of a basis vector given as a bitset. *)
Definition index_of (b : expr) : option expr := eng F OAdd (CV 1) (mk_count (mk_dec b)).
(** GeneralMetricSpace::entry on two basis vectors (general_metric_mapping.hpp:61, 78, 104-107, 124). *)
Definition entry_at (r c : expr) : option expr := i <- index_of r ;; j <- index_of c ;; entry i j.

(** determinant<Space, Rows, Cols, N>: general_metric_mapping.hpp:31-132. *)
Fixpoint determinant (N : nat) (rows cols : expr) : option expr :=
  match N with
  | O => Some (CV 1)                                                             (* 129-132 *)
  | S M =>
    match M with
    | O => entry_at rows cols                                                    (* 114-127 *)
    | S O =>                                                                     (* 86-112 *)
      let r1 := rightmost_one rows in let r2 := mk_xor rows r1 in
      let c1 := rightmost_one cols in let c2 := mk_xor cols c1 in
      a11 <- entry_at r1 c1 ;; a12 <- entry_at r1 c2 ;; a21 <- entry_at r2 c1 ;; a22 <- entry_at r2 c2 ;;
      p <- eng F OMul a11 a22 ;; q <- eng F OMul a21 a12 ;; m <- eng F OMul (CV (-1)) q ;; eng F OAdd p m
    | _ =>                                                                       (* 38-84 *)
      let row1 := rightmost_one rows in
      let others := mk_xor rows row1 in
      let fix sum (ci : nat) : option expr :=
        match ci with
        | O => None
        | S O =>
          let col1 := rightmost_one cols in
          e <- entry_at row1 col1 ;; m <- determinant M others (mk_xor cols col1) ;; eng F OMul e m
        | S cj =>
          let coli := indirect_element cols cj in
          s <- sum cj ;;
          e <- entry_at row1 coli ;; p <- eng F OMul (CV (if Nat.even ci then -1 else 1)) e ;;
          m <- determinant M others (mk_xor cols coli) ;; q <- eng F OMul p m ;;
          eng F OAdd s q
        end in
      sum N
    end
  end.

(** GradedProduct. *)
Variables (grades : N -> N -> N -> N) (valid : valid_t).
Variables (bl br : expr).

(** result_component: general_metric_mapping.hpp:150-179.  The candidate always is one component. *)
Definition result_component (cand : expr) : option expr :=
  match cand with
  | Comp c b =>
    let pg := N.land (grades (possible_grades bl) (possible_grades br) n) (possible_grades b) in
    l <- basis_vectors bl ;; r <- basis_vectors br ;; bv <- basis_vectors b ;;
    bb0 <- deduce_blade pg bv ;;
    let bb := if pg =? bit n then CBlade (pseudoscalar n) else bb0 in
    rb <- basis_vectors bb ;;
    v <- valid (mk_count l) (mk_count r) (mk_count rb) ;;
    Some (component_t (mk_if (if pg =? 0 then CBool false else v) c (CV 0)) bb)
  | _ => None
  end.

(** The component<0, scalar> ending the summations (general_metric_mapping.hpp:223-226, 246-249). *)
Definition zero_comp : expr := component_t (CV 0) (CBlade 0).

(** indirect_rows_summation: general_metric_mapping.hpp:185-226. *)
Fixpoint rows_summation (fuel : nat) (col sel : N) : option expr :=
  match fuel with
  | O => None
  | S f =>
    if sel =? 0 then Some zero_comp
    else
      let order := ones col in
      l <- basis_vectors bl ;; r <- basis_vectors br ;;
      let rows := indirect_subset 64 r sel in
      let rest := mk_xor r rows in
      det <- determinant (N.to_nat order) rows (CBits col) ;;
      a <- cmul F k (rp_map F n)
             (component_t (mk_if (mk_land (mk_le (CV (Z.of_N order)) (mk_count l)) (mk_le (CV (Z.of_N order)) (mk_count r)))
                                 (CV 1) (CV 0)) bl)
             (component_t det (CBlade (N.lxor col (pseudoscalar n)))) ;;
      rb <- deduce_blade (safe_rshift (possible_grades br) order) rest ;;
      cand <- cmul F k (op_map F n) a (component_t (mk_sign rows rest) rb) ;;
      h <- result_component cand ;;
      lm <- leftmost_set_bit (possible_grades br) ;;
      nx <- next_combination sel (dec64 lm) ;;
      t <- rows_summation f col nx ;;
      cadd F k h t
  end.

(** columns_summation: general_metric_mapping.hpp:228-249. *)
Fixpoint columns_summation (fuel : nat) (col : N) : option expr :=
  match fuel with
  | O => None
  | S f =>
    if col =? 0 then Some zero_comp
    else
      inner <- rows_summation d col (first_combination (ones col)) ;;
      p <- cmul F k (op_map F n)
             (component_t (CV (if N.even (ones (N.land col 0x5555555555555555)) then 1 else -1)) (CBlade 0)) inner ;;
      nx <- next_combination col (pseudoscalar n) ;;
      t <- columns_summation f nx ;;
      cadd F k p t
  end.

(** order_summation: general_metric_mapping.hpp:251-291. *)
Fixpoint order_summation (o : nat) : option expr :=
  match o with
  | O =>
    a <- cmul F k (rp_map F n) (component_t (CV 1) bl) (component_t (CV 1) (CBlade (pseudoscalar n))) ;;
    c <- cmul F k (op_map F n) a (component_t (CV 1) br) ;;
    result_component c
  | S o' =>
    prev <- order_summation o' ;;
    l <- basis_vectors bl ;;
    x <- eng F OMul (CV (Z.of_nat o)) (mk_count l) ;;
    y <- eng F OAdd (CV (-2 * Z.of_nat o)) x ;;
    let s := mk_if (mk_equal (mk_and y (CV 1)) (CV 0)) (CV 1) (CV (-1)) in
    cols <- columns_summation d (first_combination (N.of_nat o)) ;;
    p <- cmul F k (op_map F n) (component_t s (CBlade 0)) cols ;;
    cadd F k prev p
  end.

(** general_metric_mapping::multiply: general_metric_mapping.hpp:138-145, 293-295. *)
Definition general_multiply : option expr :=
  if grades_fit n bl br then
    ml <- leftmost_set_bit (possible_grades bl) ;; mr <- leftmost_set_bit (possible_grades br) ;;
    order_summation (N.to_nat (N.min (set_bit_index ml) (set_bit_index mr)))
  else None.
End General.

(** conformal_metric_space<D>::entry: model/conformal/metric_space.hpp:39-46. *)
Definition conformal_entry (D : N) (i j : expr) : option expr :=
  let d := CV (Z.of_N D) in
  Some (mk_if (mk_equal i j)
              (mk_if (mk_le i d) (CV 1) (CV 0))
              (mk_if (mk_lor (mk_le i d) (mk_le j d)) (CV 0) (CV (-1)))).

(** metric_matrix_entry: model/general/metric_space.hpp:32-51.  An index that is not a constant is
    not supported (34). *)
Definition matrix_entry (ix : expr) (entries : list expr) : option expr :=
  match ix with CV z => if Z.leb 0 z then nth_error entries (Z.to_nat z) else None | _ => None end.
(** general_metric_space<...>::entry: model/general/metric_space.hpp:65-68; [n] is
    vector_space_dimensions (62). *)
Definition matrix_space_entry (F : nat) (n : N) (entries : list expr) (i j : expr) : option expr :=
  i' <- eng F OAdd i (CV (-1)) ;; p <- eng F OMul (CV (Z.of_N n)) i' ;; j' <- eng F OAdd j (CV (-1)) ;;
  ix <- eng F OAdd p j' ;; matrix_entry ix entries.

(** The graded products in a space with a general metric: metric_space_mapping_t (mapping.hpp:46-60). *)
Definition gp_general F k d n entry := general_multiply F k d n entry gp_grades (gp_valid F).
(** left_contraction.hpp:63-67. *)
Definition lcont_general F k d n entry := general_multiply F k d n entry lcont_grades (lcont_valid F).
(** right_contraction.hpp:63-67. *)
Definition rcont_general F k d n entry := general_multiply F k d n entry rcont_grades (rcont_valid F).
(** scalar_product.hpp:46-50. *)
Definition sp_general F k d n entry := general_multiply F k d n entry sp_grades (sp_valid F).
(** dot_product.hpp:69-73. *)
Definition dot_general F k d n entry := general_multiply F k d n entry dot_grades (dot_valid F).
(** hestenes_inner_product.hpp:79-83. *)
Definition hip_general F k d n entry := general_multiply F k d n entry hip_grades (hip_valid F).
