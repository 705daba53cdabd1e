(** Model of run-time multivectors and of lazy evaluation:
    core/clifford_expression.hpp and core/lazy_context.hpp.

    A multivector object is a type (the expression) plus storage.  Lazy evaluation
    works on the type: every getter bound to the context is replaced by a stored
    entry, and the list of the expressions evaluated into the storage is collected
    in the order in which [run] visits them.  Map storage is not modelled (it is
    "not supported yet" in the code). *)
From Coq Require Import NArith ZArith List Bool Reals.
From Verif Require Import Bits Expr Sem Simp Comp EvalC.
Import ListNotations.

(** clifford_expression<CoefficientType, Expression>: clifford_expression.hpp:186-210, 400-470.
    [cint]: CoefficientType is an integral type. *)
Record cliff := { cexpr : expr; cint : bool; cvals : list R; cbits : list N }.

(** count_stored_values_v: clifford_expression.hpp:51-88. *)
Fixpoint count_vals (e : expr) : nat :=
  match e with
  | SV => 1
  | DBlade _ b => count_vals b
  | Comp c b => count_vals c + count_vals b
  | Fn _ l => fold_right (fun x n => count_vals x + n) 0 l
  | _ => 0
  end.
(** count_stored_bitsets_v: clifford_expression.hpp:91-128. *)
Fixpoint count_bits (e : expr) : nat :=
  match e with
  | SBits => 1
  | DBlade _ b => count_bits b
  | Comp c b => count_bits c + count_bits b
  | Fn _ l => fold_right (fun x n => count_bits x + n) 0 l
  | _ => 0
  end.

(** greater_id_v: lazy_context.hpp:31-86. *)
Fixpoint greater_id (e : expr) : N :=
  match e with
  | GV t _ | GBits t _ => t
  | DBlade _ b => greater_id b
  | Comp c b => N.max (greater_id c) (greater_id b)
  | Fn _ l => fold_right (fun x n => N.max (greater_id x) n) 0%N l
  | _ => 0%N
  end.

(** tag_variables_t: lazy_context.hpp:88-141.  [v], [b]: index of the first value and bitset. *)
Fixpoint tag_vars (tag : N) (e : expr) (v b : nat) : option expr :=
  match e with
  | SV => Some (GV tag (N.of_nat v))
  | SBits => Some (GBits tag (N.of_nat b))
  | DBlade pg x => y <- tag_vars tag x v b ;; dyn_blade_t pg y
  | Comp c x =>
    d <- tag_vars tag c v b ;;
    y <- tag_vars tag x (v + count_vals c) (b + count_bits c) ;;
    Some (component_t d y)
  | Fn f l =>
    l' <- (fix go (l : list expr) (v b : nat) : option (list expr) :=
             match l with
             | [] => Some []
             | x :: xs =>
               y <- tag_vars tag x v b ;;
               ys <- go xs (v + count_vals x)%nat (b + count_bits x)%nat ;;
               Some (y :: ys)
             end) l v b ;;
    Some (Fn f l')
  | _ => Some e
  end.

(** What [run] stores, in order: the value or the bitset of an expression
    (_eval_clifford_expression_store_value 214-233, _store_bitset 250-266). *)
Inductive store := StV (e : expr) | StB (e : expr).
(** Type of the result and list of the stored entries. *)
Definition outcome := option (expr * list store).

(** _eval_clifford_expression_do_nothing: lazy_context.hpp:183-197. *)
Definition do_nothing (e : expr) : outcome := Some (e, []).
(** _eval_clifford_expression_store_value: lazy_context.hpp:214-233. *)
Definition store_value (e : expr) : outcome := Some (SV, [StV e]).
(** _eval_clifford_expression_store_bitset: lazy_context.hpp:250-266. *)
Definition store_bitset (e : expr) : outcome := Some (SBits, [StB e]).
(** _eval_clifford_expression_move: lazy_context.hpp:199-212. *)
Definition move (t : option expr) (c : list store) : outcome := e <- t ;; Some (e, c).

(** std::is_same_v<E, stored_value> (lazy_context.hpp:340-469). *)
Definition is_sv (e : expr) : bool := match e with SV => true | _ => false end.
(** std::is_same_v<E, stored_bitset> (same lines). *)
Definition is_sb (e : expr) : bool := match e with SBits => true | _ => false end.
(** (L = stored_value and R storable) or (L storable and R = stored_value)
    (e.g. lazy_context.hpp:354). *)
Definition store_v2 (x y : expr) : bool := (is_sv x && can_be_stored y) || (can_be_stored x && is_sv y).
(** The same with stored_bitset (lazy_context.hpp:357). *)
Definition store_b2 (x y : expr) : bool := (is_sb x && can_be_stored y) || (can_be_stored x && is_sb y).

(** addition_t on two values or two multivectors (the partial specialisations of
    _addition: addition_values.hpp:597-622, addition_components.hpp:249-287). *)
Definition add_any (F n : nat) (x y : expr) : option expr :=
  match csplit x, csplit y with
  | Some _, Some _ => cadd F n x y
  | _, _ => eng F OAdd x y
  end.

(** function<Name, x>::type of the functions without a specialisation of
    eval_clifford_expression: expression.hpp:826-950. *)
Definition fn1_t (F : nat) (f : fname) (x : expr) : option expr :=
  match f with
  | NAbs => mk_abs F x
  | NExp => Some (mk_exp x)
  | NLog => Some (mk_log x)
  | NCos | NSin | NTan | NCosh | NSinh | NTanh => Some (Fn f [x])
  | _ => None
  end.
(** function<Name, x, y>::type of the functions without a specialisation of
    eval_clifford_expression: expression.hpp:564-798. *)
Definition fn2_t (f : fname) (x y : expr) : option expr :=
  match f with
  | NAnd => Some (mk_and x y)
  | NOr => Some (mk_or x y)
  | NXor => Some (mk_xor x y)
  | NEqual => Some (mk_equal x y)
  | NLe => Some (mk_le x y)
  | NLand => Some (mk_land x y)
  | NLor => Some (mk_lor x y)
  | _ => None
  end.

(** eval_clifford_expression of add<l...> / mul<l...> (lazy_context.hpp:366-404): [ev] is
    eval_clifford_expression of an argument, [mk] is add_t / mul_t, [op] addition_t / product_t.
    The recursion on the tail goes through [mk tail]; a tail of two or more arguments is again
    add<...> / mul<...>. *)
Definition eval_nary (f : fname) (mk : list expr -> option expr) (op : expr -> expr -> option expr)
    (ev : expr -> outcome) : list expr -> outcome :=
  fix go l :=
    match l with
    | [] => None
    | [x] => ev x
    | x :: xs =>
      match mk xs, ev x, go xs with
      | Some _, Some (x', cx), Some (y', cy) =>
        if store_v2 x' y' then store_value (Fn f l) else move (op x' y') (cx ++ cy)
      | _, _, _ => None
      end
    end.

(** eval_clifford_expression<lo, hi, E>: lazy_context.hpp:282-469. *)
Fixpoint eval_t (F n : nat) (lo hi : N) (e : expr) : outcome :=
  let ev := eval_t F n lo hi in
  match e with
  | GV t _ => if (N.leb lo t && N.leb t hi)%bool then store_value e else do_nothing e
  | GBits t _ => if (N.leb lo t && N.leb t hi)%bool then store_bitset e else do_nothing e
  | DBlade pg x =>
    match ev x with Some (x', c) => move (dyn_blade_t pg x') c | None => None end
  | Comp c x =>
    match ev c, ev x with
    | Some (c', k), Some (x', k') => move (Some (component_t c' x')) (k ++ k')
    | _, _ => None
    end
  | Fn NAdd [x] | Fn NMul [x] => None (* never built *)
  | Fn NAdd l => eval_nary NAdd mk_add (add_any F n) ev l
  | Fn NMul l => eval_nary NMul mk_mul (eng F OMul) ev l
  | Fn NPow [x; y] =>
    match ev x, ev y with
    | Some (x', k), Some (y', k') =>
      if store_v2 x' y' then store_value e else move (eng F OPow x' y') (k ++ k')
    | _, _ => None
    end
  | Fn NSign [x; y] =>
    match ev x, ev y with
    | Some (x', k), Some (y', k') =>
      if store_b2 x' y' then store_value e else move (Some (mk_sign x' y')) (k ++ k')
    | _, _ => None
    end
  | Fn NShl [x; y] =>
    match ev x, ev y with
    | Some (x', k), Some (y', k') =>
      if ((is_sb x' && can_be_stored y') || (can_be_stored x' && is_sv y'))%bool then store_bitset e
      else move (mk_shl x' y') (k ++ k')
    | _, _ => None
    end
  | Fn NCount [x] =>
    match ev x with
    | Some (x', k) => if is_sb x' then store_value e else move (Some (mk_count x')) k
    | None => None
    end
  | Fn NUminus [x] =>
    match ev x with
    | Some (x', k) => if is_sb x' then store_value e else move (Some (mk_uminus x')) k
    | None => None
    end
  | Fn NDec [x] =>
    match ev x with
    | Some (x', k) => if is_sb x' then store_value e else move (Some (mk_dec x')) k
    | None => None
    end
  | Fn NIf [t; x; y] =>
    (* 462-469: both tests and both alternatives of the rebuilt type use the second argument *)
    match ev t, ev x, ev y with
    | Some (t', k), Some (x', k'), Some (y', k'') =>
      if can_be_stored t' && can_be_stored x' && can_be_stored x' then store_value e
      else move (Some (mk_if t' x' x')) (k ++ k' ++ k'')
    | _, _, _ => None
    end
  | Fn f [x] =>
    match ev x with
    | Some (x', k) =>
      if is_sv x' then store_value e else if is_sb x' then store_bitset e else move (fn1_t F f x') k
    | None => None
    end
  | Fn f [x; y] =>
    match ev x, ev y with
    | Some (x', k), Some (y', k') =>
      if store_v2 x' y' then store_value e
      else if store_b2 x' y' then store_bitset e
      else move (fn2_t f x' y') (k ++ k')
    | _, _ => None
    end
  | _ => do_nothing e
  end.

(** ** Running the collected evaluations *)

(** Outcome of a lazy evaluation at run time: a result, a signed integer overflow, or anything
    else that is not a result (an undefined mathematical operation, a write past the storage, a
    getter outside the context). *)
Inductive done (A : Type) := Done (a : A) | Ovf | Bad.
Arguments Done {A} a.
Arguments Ovf {A}.
Arguments Bad {A}.

(** Conversion of an evaluated result to a stored coefficient (lazy_context.hpp:228). *)
Definition to_value (r : res) : done R :=
  match r with
  | Val (VN v) => Done v
  | Val (VT b) => Done (if b then 1%R else 0%R)
  | Val (VB k) => Done (IZR (Z.of_N k))
  | Undef => Bad
  | Overflow => Ovf
  end.
(** Conversion to a stored bitset (lazy_context.hpp:262). *)
Definition to_bits (r : res) : done N :=
  match r with
  | Val (VB k) => Done k
  | Val (VT b) => Done (if b then 1 else 0)%N
  | Val (VN _) | Undef => Bad
  | Overflow => Ovf
  end.
(** Runs the stores in order (eval_clifford_expressions::run 160-178). *)
Fixpoint run_stores (i : ityping) (g : env) (l : list store) : done (list R * list N) :=
  match l with
  | [] => Done ([], [])
  | StV e :: l' =>
    match to_value (run i g e), run_stores i g l' with
    | Ovf, _ | _, Ovf => Ovf
    | Done v, Done (vs, bs) => Done (v :: vs, bs)
    | _, _ => Bad
    end
  | StB e :: l' =>
    match to_bits (run i g e), run_stores i g l' with
    | Ovf, _ | _, Ovf => Ovf
    | Done b, Done (vs, bs) => Done (vs, b :: bs)
    | _, _ => Bad
    end
  end.
(** The storage is an array whose size is fixed by the type, initially filled with zeros;
    writing past its end is undefined behaviour (sequential_storage,
    clifford_expression.hpp:175-183, 222; lazy_context.hpp:476-485). *)
Definition fit {A} (z : A) (n : nat) (l : list A) : option (list A) :=
  if Nat.leb (length l) n then Some (l ++ repeat z (n - length l)) else None.

(** The inputs that have stored entries, in order (lazy_context.hpp:496-553). *)
Definition stored_inputs (l : list cliff) : list cliff := filter (fun a => has_stored (cexpr a)) l.
(** base_id: lazy_context.hpp:621-624. *)
Definition base_id (l : list cliff) : N := fold_right (fun a n => N.max (greater_id (cexpr a)) n) 0%N l.
(** The expressions of the lazy arguments: _super_lazy_context::argument, lazy_context.hpp:556-590. *)
Fixpoint arguments (base : N) (l : list cliff) : option (list expr) :=
  match l with
  | [] => Some []
  | a :: l' =>
    if has_stored (cexpr a)
    then e <- tag_vars (base + 1) (cexpr a) 0 0 ;; r <- arguments (base + 1) l' ;; Some (e :: r)
    else r <- arguments base l' ;; Some (cexpr a :: r)
  end.
(** Getter access during the evaluation: std::get<Tag - LowerTag>(args), get_value::eval and
    get_bitset::eval (expression.hpp:142-151, 188-197); a tag outside the context does not
    compile (static_assert), the model has no value for it. *)
Definition ctx_env (base : N) (l : list cliff) : env :=
  {| ev := fun t k =>
       if N.ltb base t then a <- nth_error l (N.to_nat (t - base - 1)) ;; nth_error (cvals a) (N.to_nat k) else None;
     eb := fun t k =>
       if N.ltb base t then a <- nth_error l (N.to_nat (t - base - 1)) ;; nth_error (cbits a) (N.to_nat k) else None |}.
(** Static type of the getters (CoefficientType of the input). *)
Definition ctx_int (base : N) (l : list cliff) : ityping := fun t _ =>
  if N.ltb base t then match nth_error l (N.to_nat (t - base - 1)) with Some a => cint a | None => true end else true.
(** Static type of a stored entry: store_value::coefficient_type, lazy_context.hpp:216-219;
    store_bitset::coefficient_type 252-255; the type of the result is the common type. *)
Definition store_int (i : ityping) (s : store) : bool := match s with StV e => integral i e | StB _ => true end.

(** lazy_context::eval on an expression of coefficient type default_integral_t:
    lazy_context.hpp:471-491, 654-657.  [None] = does not compile. *)
Definition lazy_eval (F n : nat) (inputs : list cliff) (e : expr) : option (done cliff) :=
  let st := stored_inputs inputs in
  let base := base_id inputs in
  match st with
  | [] => Some (Done {| cexpr := e; cint := true; cvals := repeat 0%R (count_vals e); cbits := repeat 0%N (count_bits e) |})
  | _ =>
    match eval_t F n (base + 1) (base + N.of_nat (length st)) e with
    | None => None
    | Some (t, code) =>
      let i := ctx_int base st in
      Some match run_stores i (ctx_env base st) code with
           | Ovf => Ovf
           | Bad => Bad
           | Done (vs, bs) =>
             match fit 0%R (count_vals t) vs, fit 0%N (count_bits t) bs with
             | Some vs', Some bs' => Done {| cexpr := t; cint := forallb (store_int i) code; cvals := vs'; cbits := bs' |}
             | _, _ => Bad
             end
           end
    end
  end.
