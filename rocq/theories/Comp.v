(** Model of the addition and product of multivector expressions:
    core/expression_simplification_addition_components.hpp,
    core/expression_simplification_product_components.hpp and
    core/expression_graded_unary_minus.hpp.

    [F] is the recursion depth available to the coefficient simplifier (Simp.v),
    [n] the one available here; [None] = the C++ does not compile or the depth is
    exhausted. *)
From Coq Require Import NArith ZArith List Bool.
From Verif Require Import Bits Expr Simp.
Import ListNotations.

(** The two shapes the rules are specialised for: component<C, B> and
    add<component<C, B>, ...> (addition_components.hpp:243-281). *)
Definition csplit (e : expr) : option (expr * expr * option (list expr)) :=
  match e with
  | Comp c b => Some (c, b, None)
  | Fn NAdd (Comp c b :: l) => Some (c, b, Some l)
  | _ => None
  end.
(** component<constant_value<0>, _> (addition_components.hpp:44, 55, 66). *)
Definition is_zero_comp (e : expr) : bool := match e with Comp (CV 0) _ => true | _ => false end.

(** rule_zero: addition_components.hpp:32-75. *)
Definition cadd_zero (a b : expr) : option expr :=
  if is_zero_comp a && is_zero_comp b then Some a
  else if is_zero_comp a then Some b
  else if is_zero_comp b then Some a
  else None.

(** One step of addition_t on components; [rec] is addition_t itself.
    zero 32-75, collect 78-134, merge_less_than 135-187,
    merge_greater_than 190-242, order of the rules 241-246
    (addition_components.hpp).  There is no rule for two blades that are neither
    the same type nor ordered: [None]. *)
Definition cadd_step (F : nat) (rec : expr -> expr -> option expr) (a b : expr) : option expr :=
  match csplit a, csplit b with
  | Some (c, x, xs), Some (d, y, ys) =>
    match cadd_zero a b with
    | Some r => Some r
    | None =>
      if expr_eqb x y then
        s <- eng F OAdd c d ;;
        let h := component_t s x in
        match xs, ys with
        | None, None => Some h
        | None, Some ys => t <- mk_add ys ;; rec h t
        | Some xs, None => t <- mk_add xs ;; rec h t
        | Some xs, Some ys => t <- mk_add xs ;; u <- mk_add ys ;; v <- rec t u ;; rec h v
        end
      else if lt x y then
        match xs, ys with
        | None, None => mk_add [a; b]
        | None, Some ys => mk_add (a :: Comp d y :: ys)
        | Some xs, _ => t <- mk_add xs ;; u <- rec t b ;; rec (Comp c x) u
        end
      else if lt y x then
        match xs, ys with
        | None, None => mk_add [b; a]
        | _, Some ys => t <- mk_add ys ;; u <- rec a t ;; rec (Comp d y) u
        | Some xs, None => mk_add (b :: Comp c x :: xs)
        end
      else None
    end
  | _, _ => None
  end.

(** addition_t on components: addition_components.hpp:249-287. *)
Fixpoint cadd (F n : nat) (a b : expr) : option expr :=
  match n with O => None | S k => cadd_step F (cadd F k) a b end.

(** The arguments of add<...>, or the single component (as the recursion of
    product_components.hpp:82-93 and graded_unary_minus.hpp:39-45 walks them). *)
Definition comps_of (e : expr) : list expr := match e with Fn NAdd l => l | _ => [e] end.

(** _distribute_while_multiplying_components: product_components.hpp:79-93. *)
Fixpoint distribute (F n : nat) (s : expr) (l : list expr) : option expr :=
  match l with
  | [] => None
  | Comp c b :: l' =>
    p <- eng F OMul s c ;;
    match l' with
    | [] => Some (component_t p b)
    | _ => t <- distribute F n s l' ;; cadd F n (component_t p b) t
    end
  | _ => None
  end.

(** One step of product_t on components with mapping [mult] = Mapping::multiply
    (product_components.hpp: zero 32-75, multiply_or_distribute 78-128). *)
Definition cmul_step (F n : nat) (mult : expr -> expr -> option expr)
    (rec : expr -> expr -> option expr) (a b : expr) : option expr :=
  match csplit a, csplit b with
  | Some (c, x, xs), Some (d, y, ys) =>
    if is_zero_comp a then Some a
    else if is_zero_comp b then Some b
    else
      match xs, ys with
      | None, None =>
        s <- eng F OMul c d ;; m <- mult x y ;; distribute F n s (comps_of m)
      | None, Some ys =>
        p <- rec a (Comp d y) ;; t <- mk_add ys ;; q <- rec a t ;; cadd F n p q
      | Some xs, None =>
        p <- rec (Comp c x) b ;; t <- mk_add xs ;; q <- rec t b ;; cadd F n p q
      | Some xs, Some ys =>
        t <- mk_add xs ;; u <- mk_add ys ;;
        p <- rec (Comp c x) (Comp d y) ;; q <- rec t (Comp d y) ;; pq <- cadd F n p q ;;
        r <- rec (Comp c x) u ;; s <- rec t u ;; rs <- cadd F n r s ;;
        cadd F n pq rs
      end
  | _, _ => None
  end.

(** product_t on components: product_components.hpp:137-175. *)
Fixpoint cmul (F n : nat) (mult : expr -> expr -> option expr) (a b : expr) : option expr :=
  match n with O => None | S k => cmul_step F k mult (cmul F k mult) a b end.

(** graded_unary_minus of one component: graded_unary_minus.hpp:47-75. *)
Definition gum1 (F : nat) (pattern : N) (e : expr) : option expr :=
  match e with
  | Comp c (CBlade b) =>
    m <- eng F OMul (CV (-1)) c ;;
    Some (if N.eqb (N.land pattern (wrap (N.shiftl 1 (ones b)))) 0 then e
          else component_t m (CBlade b))
  | Comp c (DBlade pg x) =>
    m <- eng F OMul (CV (-1)) c ;;
    s <- mk_shl (CBits 1) (mk_count x) ;;
    Some (if N.eqb (N.land pg pattern) 0 then e
          else component_t (mk_if (mk_equal (mk_and (CBits pattern) s) (CBits 0)) c m) (DBlade pg x))
  | _ => None
  end.
(** graded_unary_minus of a sum: graded_unary_minus.hpp:39-45. *)
Fixpoint gum_list (F n : nat) (pattern : N) (l : list expr) : option expr :=
  match l with
  | [] => None
  | [x] => gum1 F pattern x
  | x :: l' => h <- gum1 F pattern x ;; t <- gum_list F n pattern l' ;; cadd F n h t
  end.
(** graded_unary_minus_t: graded_unary_minus.hpp:31-75. *)
Definition gum (F n : nat) (pattern : N) (e : expr) : option expr := gum_list F n pattern (comps_of e).

(** The sign-change patterns of involution (core/involution.hpp:32), reversion
    (core/reversion.hpp:32) and conjugation (core/conjugation.hpp:32). *)
Definition involute_pattern : N := 0xAAAAAAAAAAAAAAAA.
(** core/reversion.hpp:32. *)
Definition reverse_pattern : N := 0xCCCCCCCCCCCCCCCC.
(** core/conjugation.hpp:32. *)
Definition conjugate_pattern : N := 0x6666666666666666.
