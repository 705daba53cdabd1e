(** Model of the expression types of GATL and of the compile-time predicates on
    them: core/expression.hpp, core/expression_traits.hpp and
    core/expression_relational_operators.hpp.

    An expression is a C++ type; two expressions are "the same"
    (std::is_same) iff the model terms are equal.  The map-like entries
    ([get_map_values], [stored_map_values], [get_map_bitsets],
    [stored_map_bitsets]) are not modelled. *)
From Coq Require Import NArith ZArith List Bool.
From Verif Require Import Bits.
Import ListNotations.

(** name_t: expression.hpp:36-71. *)
Inductive fname :=
| NSign | NCount | NShl | NUminus | NDec | NAnd | NOr | NXor | NEqual | NLe
| NLand | NLor | NIf | NAbs | NExp | NLog | NCos | NSin | NTan | NCosh | NSinh | NTanh
| NPow | NMul | NAdd.

(** Numeric value of the enumerators, used by the ordering: expression.hpp:36-71. *)
Definition fcode (f : fname) : N :=
  match f with
  | NSign => 0 | NCount => 1 | NShl => 2 | NUminus => 3 | NDec => 4 | NAnd => 5 | NOr => 6
  | NXor => 7 | NEqual => 8 | NLe => 9 | NLand => 10 | NLor => 11 | NIf => 12 | NAbs => 13
  | NExp => 14 | NLog => 15 | NCos => 16 | NSin => 17 | NTan => 18 | NCosh => 19 | NSinh => 20
  | NTanh => 21 | NPow => 22 | NMul => 23 | NAdd => 24
  end%N.

(** The expression types: [CV] constant_value expression.hpp:131-139,
    [GV] get_value 142-151, [SV] stored_value 166-168, [CBits] constant_bitset
    177-185, [GBits] get_bitset 188-197, [SBits] stored_bitset 212-214, [CBool]
    std::true_type / std::false_type, [CBlade] constant_basis_blade 223-226,
    [DBlade] dynamic_basis_blade 229-251, [Comp] component 255-278, [Fn]
    function<Name, Arguments...> 280-460. *)
Inductive expr :=
| CV (z : Z)
| GV (tag idx : N)
| SV
| CBits (b : N)
| GBits (tag idx : N)
| SBits
| CBool (b : bool)
| CBlade (b : N)
| DBlade (pg : N) (bits : expr)
| Comp (coef blade : expr)
| Fn (f : fname) (args : list expr).

(** Number of nodes of an expression (measure for [lt]; no C++ counterpart,
    it bounds the instantiation depth of expression_relational_operators.hpp). *)
Fixpoint esize (e : expr) : nat :=
  match e with
  | DBlade _ b => S (esize b)
  | Comp c b => S (esize c + esize b)
  | Fn _ l => S (fold_right (fun x n => S (esize x + n)) 0 l)
  | _ => 1
  end.

(** Equality of enumerators (==, expression_relational_operators.hpp:510). *)
Definition fname_eqb (f g : fname) : bool := N.eqb (fcode f) (fcode g).

(** std::is_same_v on two expression types (used throughout
    expression.hpp and the expression_simplification_* headers). *)
Fixpoint expr_eqb (a b : expr) {struct a} : bool :=
  match a, b with
  | CV x, CV y => Z.eqb x y
  | GV t i, GV t' i' => N.eqb t t' && N.eqb i i'
  | SV, SV => true
  | CBits x, CBits y => N.eqb x y
  | GBits t i, GBits t' i' => N.eqb t t' && N.eqb i i'
  | SBits, SBits => true
  | CBool x, CBool y => Bool.eqb x y
  | CBlade x, CBlade y => N.eqb x y
  | DBlade p x, DBlade q y => N.eqb p q && expr_eqb x y
  | Comp c x, Comp d y => expr_eqb c d && expr_eqb x y
  | Fn f l, Fn g m =>
    fname_eqb f g &&
    (fix leqb (l m : list expr) : bool :=
       match l, m with
       | [], [] => true
       | x :: xs, y :: ys => expr_eqb x y && leqb xs ys
       | _, _ => false
       end) l m
  | _, _ => false
  end.
(** std::is_same_v on two argument packs (same headers). *)
Fixpoint exprs_eqb (l m : list expr) : bool :=
  match l, m with
  | [], [] => true
  | x :: xs, y :: ys => expr_eqb x y && exprs_eqb xs ys
  | _, _ => false
  end.

(** is_function_v<Name, E>: expression_traits.hpp:309-317. *)
Definition is_fn (f : fname) (e : expr) : bool :=
  match e with Fn g _ => fname_eqb f g | _ => false end.

(** can_be_stored_v: expression_traits.hpp:32-88. *)
Fixpoint can_be_stored (e : expr) : bool :=
  match e with
  | CV _ | SV | CBits _ | SBits | CBlade _ => true
  | DBlade _ b => can_be_stored b
  | Comp c b => can_be_stored c && can_be_stored b
  | Fn _ l => forallb can_be_stored l
  | GV _ _ | GBits _ _ | CBool _ => false
  end.

(** is_constant_expression_v: expression_traits.hpp:91-119. *)
Fixpoint is_constant (e : expr) : bool :=
  match e with
  | CV _ | CBits _ | CBlade _ => true
  | Comp c b => is_constant c && is_constant b
  | Fn _ l => forallb is_constant l
  | _ => false
  end.

(** is_scalar_component_v: expression_traits.hpp:122-133. *)
Definition is_scalar_component (e : expr) : bool :=
  match e with Comp _ (CBlade 0) => true | _ => false end.

(** has_stored_entries_v: expression_traits.hpp:136-174. *)
Fixpoint has_stored (e : expr) : bool :=
  match e with
  | SV | SBits => true
  | DBlade _ b => has_stored b
  | Comp c b => has_stored c || has_stored b
  | Fn _ l => existsb has_stored l
  | _ => false
  end.

(** is_even_v: expression_traits.hpp:177-306.  Types without a
    specialisation (bitsets, comparisons, blades) do not compile; the model
    answers [false]. *)
Fixpoint is_even (e : expr) : bool :=
  match e with
  | CV z => Z.even z
  | Fn NUminus [x] => is_even x
  | Fn NDec [x] => negb (is_even x)
  | Fn NAnd [x; y] => is_even x && is_even y
  | Fn NOr [x; y] => is_even x || is_even y
  | Fn NIf [_; x; y] => is_even x && is_even y
  | Fn NAbs [x] => is_even x
  | Fn NPow [_; y] => is_even y
  | _ => false
  end.

(** is_non_negative_v: expression_traits.hpp:320-443 (same remark). *)
Fixpoint is_non_negative (e : expr) : bool :=
  match e with
  | CV z => Z.leb 0 z
  | Fn NSign _ | Fn NCount _ | Fn NUminus _ | Fn NDec _ | Fn NAnd _ | Fn NOr _ | Fn NXor _ => true
  | Fn NIf [_; x; y] => is_non_negative x && is_non_negative y
  | Fn NAbs _ => true
  | Fn NPow [x; y] => is_non_negative x || is_even y
  | Fn NMul l => forallb is_non_negative l
  | _ => false
  end.

(** may_be_positive_v: expression_traits.hpp:446-565 (same remark). *)
Fixpoint may_be_positive (e : expr) : bool :=
  match e with
  | CV z => Z.ltb 0 z
  | GV _ _ | SV => true
  | Fn NSign _ | Fn NCount _ | Fn NUminus _ | Fn NDec _ | Fn NAnd _ | Fn NOr _ | Fn NXor _ => true
  | Fn NIf [_; x; y] => may_be_positive x && may_be_positive y
  | Fn NAbs _ | Fn NCos _ | Fn NSin _ | Fn NTan _ | Fn NCosh _ | Fn NSinh _ | Fn NTanh _ => true
  | Fn NPow [x; y] => may_be_positive x || is_even y
  | Fn NMul l => forallb may_be_positive l
  | Fn NAdd _ => true
  | _ => false
  end.

(** possible_grades_v: expression_traits.hpp:568-576. *)
Definition possible_grades (e : expr) : N :=
  match e with
  | CBlade b => wrap (N.shiftl 1 (ones b))
  | DBlade pg _ => pg
  | _ => 0
  end.

(** coefficient_t, basis_blade_t, basis_vectors_t: expression_traits.hpp:593-631. *)
Definition coefficient (e : expr) : option expr := match e with Comp c _ => Some c | _ => None end.
(** basis_blade_t: expression_traits.hpp:605-612. *)
Definition basis_blade (e : expr) : option expr := match e with Comp _ b => Some b | _ => None end.
(** basis_vectors_t: expression_traits.hpp:617-631. *)
Definition basis_vectors (e : expr) : option expr :=
  match e with CBlade b => Some (CBits b) | DBlade _ x => Some x | _ => None end.

(** dynamic_basis_blade_t: expression.hpp:229-251.  [None] = does not compile:
    the static_assert on the grade of a constant bitset fails, or (possible
    grades 1 with a non-zero constant bitset) the two partial specialisations
    at 229-232 and 239-244 are ambiguous. *)
Definition dyn_blade_t (pg : N) (bits : expr) : option expr :=
  if N.eqb pg 1 then match bits with
                     | CBits b => if N.eqb b 0 then Some (CBlade 0) else None
                     | _ => Some (CBlade 0)
                     end
  else match bits with
       | CBits b => if N.eqb pg (wrap (N.shiftl 1 (ones b))) then Some (CBlade b) else None
       | _ => Some (DBlade pg bits)
       end.

(** component_t: expression.hpp:255-278. *)
Definition component_t (c b : expr) : expr :=
  match c, b with
  | _, DBlade 0 _ => Comp (CV 0) (CBlade 0)
  | CV 0, _ => Comp (CV 0) (CBlade 0)
  | _, _ => Comp c b
  end.

(** lt_v, le_v, eq_v: expression_relational_operators.hpp:33-61 and 74-511.
    [lte] compares two expressions, [lta] two argument lists
    (_arguments_list, 452-506).  The fuel bounds the template
    instantiation depth; it is exhausted only on a comparison deeper than the
    two operands together. *)
(** le_v: expression_relational_operators.hpp:43-47. *)
Definition le_of (lte : expr -> expr -> bool) (a b : expr) : bool := lte a b || negb (lte b a).
(** eq_v: expression_relational_operators.hpp:49-53. *)
Definition eq_of (lte : expr -> expr -> bool) (a b : expr) : bool := negb (lte a b) && negb (lte b a).
(** lt on _arguments_list: expression_relational_operators.hpp:452-506. *)
Fixpoint lta (lte : expr -> expr -> bool) (fuel : nat) (l r : list expr) : bool :=
  match fuel with
  | O => false
  | S f =>
    match l, r with
    | [x], [y] => lte x y
    | [x], y :: ys =>
      if is_constant x then true
      else if is_constant y then lta lte f [x] ys
      else le_of lte x y
    | x :: xs, [y] =>
      if is_constant x then (if is_constant y then lte x y else lta lte f xs [y])
      else (if is_constant y then false else lte x y)
    | x :: xs, y :: ys =>
      if is_constant x then (if is_constant y then lta lte f xs ys else lta lte f xs (y :: ys))
      else if is_constant y then lta lte f (x :: xs) ys
      else lte x y || (eq_of lte x y && lta lte f xs ys)
    | _, _ => false
    end
  end.

(** lt on expressions: expression_relational_operators.hpp:33, 74-450, 508-511. *)
Fixpoint lt_fuel (fuel : nat) (a b : expr) : bool :=
  match fuel with
  | O => false
  | S f =>
    let lte := lt_fuel f in
    match a, b with
    | CV x, CV y => Z.ltb x y
    | CV _, (GV _ _ | SV | Fn _ _) => true
    | (GV _ _ | SV | Fn _ _), CV _ => false
    | GV t i, GV t' i' => N.ltb t t' || (N.eqb t t' && N.ltb i i')
    | GV _ _, SV => true
    | SV, GV _ _ => false
    | GV _ _, Fn _ (x :: _) => le_of lte a x
    | Fn _ (x :: _), GV _ _ => lte x b
    | SV, Fn _ (x :: _) => le_of lte a x
    | Fn _ (x :: _), SV => lte x b
    | CBits x, CBits y => N.ltb x y
    | CBits _, (GBits _ _ | SBits | Fn _ _) => true
    | (GBits _ _ | SBits | Fn _ _), CBits _ => false
    | GBits t i, GBits t' i' => N.ltb t t' || (N.eqb t t' && N.ltb i i')
    | GBits _ _, SBits => true
    | SBits, GBits _ _ => false
    | GBits _ _, Fn _ (x :: _) => le_of lte a x
    | Fn _ (x :: _), GBits _ _ => lte x b
    | SBits, Fn _ (x :: _) => le_of lte a x
    | Fn _ (x :: _), SBits => lte x b
    | CBlade x, CBlade y =>
      N.ltb (possible_grades a) (possible_grades b) ||
      (N.eqb (possible_grades a) (possible_grades b) && N.ltb x y)
    | CBlade _, DBlade pg _ => N.leb (possible_grades a) pg
    | DBlade pg _, CBlade _ => N.ltb pg (possible_grades b)
    | DBlade p x, DBlade q y => N.ltb p q || (N.eqb p q && lte x y)
    | Comp c x, Comp d y => lte x y || (eq_of lte x y && lte c d)
    | Fn g l, Fn h m => N.ltb (fcode g) (fcode h) || (fname_eqb g h && lta lte (length l + length m) l m)
    | _, _ => false
    end
  end.
(** lt_v: expression_relational_operators.hpp:39-41. *)
Definition lt (a b : expr) : bool := lt_fuel (esize a + esize b) a b.
