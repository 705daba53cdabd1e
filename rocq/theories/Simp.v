(** Model of the compile-time simplification of coefficient expressions:
    core/rules.hpp, core/expression_simplification_addition_values.hpp,
    core/expression_simplification_product_values.hpp,
    core/expression_simplification_power.hpp, and of the self-simplifying
    function types of core/expression.hpp.

    A meta-function returns [None] when the C++ does not compile (a failed
    static_assert, an overflowing constant, a missing specialisation) or when
    the recursion depth given as fuel is exhausted. *)
From Coq Require Import NArith ZArith List Bool.
From Verif Require Import Bits Expr.
Import ListNotations.

Notation "x <- e ;; k" := (match e with Some x => k | None => None end)
  (at level 60, e at next level, right associativity).

(** The three meta-functions that call each other: addition_t, product_t<_, _,
    value_mapping> and power_t (expression.hpp:280-460). *)
Inductive op := OAdd | OMul | OPow.

(** constant_value<z> where z is the result of constant arithmetic on
    default_integral_t = std::int64_t (core.hpp:67-100); overflow in a constant
    expression is ill-formed. *)
Definition cv (z : Z) : option expr :=
  if (Z.leb (- 2 ^ 63) z && Z.ltb z (2 ^ 63))%bool then Some (CV z) else None.

(** Is this constant_value<z>? (std::is_same_v, used by the static_asserts of
    expression.hpp:1051-1118). *)
Definition is_cv (z : Z) (e : expr) : bool := match e with CV x => Z.eqb x z | _ => false end.

(** mul_t<...>: expression.hpp:1042-1099, with its static_asserts. *)
Definition mk_mul (l : list expr) : option expr :=
  match l with
  | [] => Some (CV 0)
  | [x] => Some x
  | _ => if existsb (fun x => is_cv 0 x || is_cv 1 x) l then None else Some (Fn NMul l)
  end.

(** Is this mul<constant_value<-1>, ...>? (partial specialisations
    expression.hpp:1115-1140). *)
Definition is_neg_mul (e : expr) : bool := match e with Fn NMul (CV (-1) :: _) => true | _ => false end.

(** add_t<...>: expression.hpp:1102-1154, with its static_asserts. *)
Definition mk_add (l : list expr) : option expr :=
  match l with
  | [] => Some (CV 0)
  | [x] => Some x
  | x :: _ => if negb (is_neg_mul x) && existsb (is_cv 0) l then None else Some (Fn NAdd l)
  end.

(** A rule tests its condition and, if it holds, gives its result:
    [Some None] = condition false, [Some (Some r)] = result r (rules.hpp:30-70). *)
Definition rule := expr -> expr -> option (option expr).

(** get_rule_for / apply_rule_for_t: rules.hpp:44-70; the first rule whose
    condition holds is applied. *)
Fixpoint apply_rules (rs : list rule) (a b : expr) : option expr :=
  match rs with
  | [] => None
  | r :: rs' => match r a b with
                | None => None
                | Some None => apply_rules rs' a b
                | Some (Some x) => Some x
                end
  end.

(** Wraps a computed result. *)
Definition yes (r : option expr) : option (option expr) := match r with Some x => Some (Some x) | None => None end.
(** "Condition false". *)
Definition no : option (option expr) := Some None.

(** Pattern matching on add<A, ...> versus any other expression
    (expression_simplification_addition_values.hpp:34-77). *)
Definition split_add (e : expr) : expr * option (list expr) :=
  match e with Fn NAdd (x :: xs) => (x, Some xs) | _ => (e, None) end.
(** Pattern matching on mul<A, ...> (expression_simplification_product_values.hpp:48-91). *)
Definition split_mul (e : expr) : expr * option (list expr) :=
  match e with Fn NMul (x :: xs) => (x, Some xs) | _ => (e, None) end.

(** _addition_values_rule_helper: addition_values.hpp:32-78. *)
Definition add_helper (rec : op -> expr -> expr -> option expr) (r : rule) : rule := fun a b =>
  let '(x, xs) := split_add a in
  let '(y, ys) := split_add b in
  match r x y with
  | None => None
  | Some None => no
  | Some (Some z) =>
    match xs, ys with
    | None, None => yes (Some z)
    | None, Some ys => yes (t <- mk_add ys ;; rec OAdd z t)
    | Some xs, None => yes (t <- mk_add xs ;; rec OAdd z t)
    | Some xs, Some ys => yes (t <- mk_add xs ;; u <- mk_add ys ;; v <- rec OAdd t u ;; rec OAdd z v)
    end
  end.

(** _product_values_rule_helper: product_values.hpp:46-92. *)
Definition mul_helper (rec : op -> expr -> expr -> option expr) (r : rule) : rule := fun a b =>
  let '(x, xs) := split_mul a in
  let '(y, ys) := split_mul b in
  match r x y with
  | None => None
  | Some None => no
  | Some (Some z) =>
    match xs, ys with
    | None, None => yes (Some z)
    | None, Some ys => yes (t <- mk_mul ys ;; rec OMul z t)
    | Some xs, None => yes (t <- mk_mul xs ;; rec OMul z t)
    | Some xs, Some ys => yes (t <- mk_mul xs ;; u <- mk_mul ys ;; v <- rec OMul t u ;; rec OMul z v)
    end
  end.

(** ** Addition *)

(** _addition_values_rule_zero: addition_values.hpp:81-124. *)
Definition add_zero : rule := fun a b =>
  match a, b with
  | CV 0, _ => yes (Some b)
  | _, CV 0 => yes (Some a)
  | _, _ => no
  end.

(** collect, case 1 (A + A => 2 * A): addition_values.hpp:127-148. *)
Definition add_collect1 (rec : op -> expr -> expr -> option expr) : rule := fun a b =>
  if expr_eqb a b then yes (rec OMul (CV 2) a) else no.

(** The guard shared by the collect rules: the sum p + q is used only if the
    library simplified it, i.e. it is neither add<p, q> nor add<q, p>
    (addition_values.hpp:164, 175, 198, 209, 232, 243, 266, 290, 314). *)
Definition simplified (rec : op -> expr -> expr -> option expr) (p q : expr) : option (option expr) :=
  match rec OAdd p q, mk_add [p; q], mk_add [q; p] with
  | Some s, Some u, Some v => if expr_eqb s u || expr_eqb s v then Some None else Some (Some s)
  | _, _, _ => None
  end.
(** Common shape of the collect rules: guard, then [k sum] (same lines). *)
Definition collect_with (rec : op -> expr -> expr -> option expr) (p q : expr)
    (k : expr -> option expr) : option (option expr) :=
  match simplified rec p q with
  | None => None
  | Some None => no
  | Some (Some s) => yes (k s)
  end.

(** collect, case 2 (mul<P, A...> + A... => (P + 1) * A...): addition_values.hpp:151-182. *)
Definition add_collect2 (rec : op -> expr -> expr -> option expr) : rule := fun a b =>
  match a with
  | Fn NMul (p :: cs) =>
    if (match cs with [c] => expr_eqb c b | _ => false end) || expr_eqb (Fn NMul cs) b
    then collect_with rec p (CV 1) (fun s => rec OMul s b)
    else no
  | _ => no
  end.

(** collect, case 3 (A... + mul<P, A...> => (1 + P) * A...): addition_values.hpp:185-216. *)
Definition add_collect3 (rec : op -> expr -> expr -> option expr) : rule := fun a b =>
  match b with
  | Fn NMul (p :: cs) =>
    if (match cs with [c] => expr_eqb c a | _ => false end) || expr_eqb (Fn NMul cs) a
    then collect_with rec (CV 1) p (fun s => rec OMul s a)
    else no
  | _ => no
  end.

(** collect, case 4 (mul<P, A...> + mul<Q, A...> => (P + Q) * A...): addition_values.hpp:219-250. *)
Definition add_collect4 (rec : op -> expr -> expr -> option expr) : rule := fun a b =>
  match a, b with
  | Fn NMul (p :: cs), Fn NMul (q :: ds) =>
    if exprs_eqb cs ds
    then collect_with rec p q (fun s => c <- mk_mul cs ;; rec OMul s c)
    else no
  | _, _ => no
  end.

(** collect, case 5 (mul<A, ...> + A => A * (mul<...> + 1)): addition_values.hpp:253-274. *)
Definition add_collect5 (rec : op -> expr -> expr -> option expr) : rule := fun a b =>
  match a with
  | Fn NMul (c :: ls) =>
    if expr_eqb c b
    then match mk_mul ls with
         | None => None
         | Some t => collect_with rec t (CV 1) (fun s => rec OMul b s)
         end
    else no
  | _ => no
  end.

(** collect, case 6 (A + mul<A, ...> => A * (1 + mul<...>)): addition_values.hpp:277-298. *)
Definition add_collect6 (rec : op -> expr -> expr -> option expr) : rule := fun a b =>
  match b with
  | Fn NMul (c :: rs) =>
    if expr_eqb c a
    then match mk_mul rs with
         | None => None
         | Some t => collect_with rec (CV 1) t (fun s => rec OMul a s)
         end
    else no
  | _ => no
  end.

(** collect, case 7 (mul<A, P...> + mul<A, Q...> => A * (mul<P...> + mul<Q...>)): addition_values.hpp:301-322. *)
Definition add_collect7 (rec : op -> expr -> expr -> option expr) : rule := fun a b =>
  match a, b with
  | Fn NMul (c :: ps), Fn NMul (d :: qs) =>
    if expr_eqb c d
    then match mk_mul ps, mk_mul qs with
         | Some t, Some u => collect_with rec t u (fun s => rec OMul c s)
         | _, _ => None
         end
    else no
  | _, _ => no
  end.

(** constants, case 1 (a + b): addition_values.hpp:325-346. *)
Definition add_const1 : rule := fun a b =>
  match a, b with CV x, CV y => yes (cv (x + y)) | _, _ => no end.

(** n / d built as product_t<constant_value<n>, power_t<constant_value<d>, -1>>
    (addition_values.hpp:364, 376, 399, 411, 435, 459). *)
Definition over (rec : op -> expr -> expr -> option expr) (n d : Z) : option expr :=
  cn <- cv n ;; cd <- cv d ;; i <- rec OPow cd (CV (-1)) ;; rec OMul cn i.

(** constants, case 2 (a + 1/b and 1/a + b): addition_values.hpp:349-381. *)
Definition add_const2 (rec : op -> expr -> expr -> option expr) : rule := fun a b =>
  match a, b with
  | CV x, Fn NPow [CV y; CV (-1)] => yes (over rec (x * y + 1) y)
  | Fn NPow [CV x; CV (-1)], CV y => yes (over rec (1 + y * x) x)
  | _, _ => no
  end.

(** constants, case 3 (a/b + 1/c and 1/c + a/b): addition_values.hpp:384-416. *)
Definition add_const3 (rec : op -> expr -> expr -> option expr) : rule := fun a b =>
  match a, b with
  | Fn NMul [CV x; Fn NPow [CV y; CV (-1)]], Fn NPow [CV z; CV (-1)] => yes (over rec (x * z + y) (y * z))
  | Fn NPow [CV z; CV (-1)], Fn NMul [CV x; Fn NPow [CV y; CV (-1)]] => yes (over rec (y + z * x) (z * y))
  | _, _ => no
  end.

(** constants, case 4 (1/b + 1/c): addition_values.hpp:419-440. *)
Definition add_const4 (rec : op -> expr -> expr -> option expr) : rule := fun a b =>
  match a, b with
  | Fn NPow [CV x; CV (-1)], Fn NPow [CV y; CV (-1)] => yes (over rec (y + x) (x * y))
  | _, _ => no
  end.

(** constants, case 5 (a/b + c/d): addition_values.hpp:443-464. *)
Definition add_const5 (rec : op -> expr -> expr -> option expr) : rule := fun a b =>
  match a, b with
  | Fn NMul [CV x; Fn NPow [CV y; CV (-1)]], Fn NMul [CV z; Fn NPow [CV w; CV (-1)]] =>
    yes (over rec (x * w + y * z) (y * w))
  | _, _ => no
  end.

(** merge_less_than: addition_values.hpp:467-512. *)
Definition add_merge_lt (rec : op -> expr -> expr -> option expr) : rule := fun a b =>
  let '(x, xs) := split_add a in
  let '(y, ys) := split_add b in
  if lt x y then
    match xs, ys with
    | None, None => yes (mk_add [a; b])
    | None, Some ys => yes (mk_add (a :: y :: ys))
    | Some xs, _ => yes (t <- mk_add xs ;; u <- rec OAdd t b ;; rec OAdd x u)
    end
  else no.

(** merge_greater_than: addition_values.hpp:515-560. *)
Definition add_merge_gt (rec : op -> expr -> expr -> option expr) : rule := fun a b =>
  let '(x, xs) := split_add a in
  let '(y, ys) := split_add b in
  if lt y x then
    match xs, ys with
    | None, None => yes (mk_add [b; a])
    | _, Some ys => yes (t <- mk_add ys ;; u <- rec OAdd a t ;; rec OAdd y u)
    | Some xs, None => yes (mk_add (b :: x :: xs))
    end
  else no.

(** merge_equal_to: addition_values.hpp:563-594. *)
Definition add_merge_eq (rec : op -> expr -> expr -> option expr) : rule := fun a b =>
  let '(x, xs) := split_add a in
  let '(y, ys) := split_add b in
  match xs, ys with
  | None, None => yes (mk_add [a; b])
  | None, Some ys => yes (mk_add (a :: y :: ys))
  | Some xs, None => yes (mk_add (x :: b :: xs))
  | Some xs, Some ys =>
    yes (h <- mk_add [x; y] ;; t <- mk_add xs ;; u <- mk_add ys ;; v <- rec OAdd t u ;; rec OAdd h v)
  end.

(** _addition: addition_values.hpp:597-622. *)
Definition addition_step (rec : op -> expr -> expr -> option expr) : expr -> expr -> option expr :=
  apply_rules
    [ add_zero;
      add_helper rec (add_collect1 rec);
      add_helper rec (add_collect2 rec);
      add_helper rec (add_collect3 rec);
      add_helper rec (add_collect4 rec);
      add_helper rec (add_collect5 rec);
      add_helper rec (add_collect6 rec);
      add_helper rec (add_collect7 rec);
      add_helper rec add_const1;
      add_helper rec (add_const2 rec);
      add_helper rec (add_const3 rec);
      add_helper rec (add_const4 rec);
      add_helper rec (add_const5 rec);
      add_merge_lt rec;
      add_merge_gt rec;
      add_merge_eq rec ].

(** ** Product *)

(** simpler_rational_constant: product_values.hpp:31-43.  [iabs] of the
    smallest integer overflows, hence the [cv] checks. *)
Definition simpler_rational (rec : op -> expr -> expr -> option expr) (n d : Z) : option expr :=
  an <- cv (iabs n) ;; ad <- cv (iabs d) ;;
  g <- gcd (iabs n) (iabs d) ;;
  if Z.eqb g 1 then
    p <- rec OPow ad (CV (-1)) ;; mk_mul [CV (sign n * sign d * iabs n); p]
  else if Z.eqb g 0 then None
  else
    p <- rec OPow (CV (Z.quot (iabs d) g)) (CV (-1)) ;;
    rec OMul (CV (sign n * sign d * Z.quot (iabs n) g)) p.

(** _product_values_rule_zero: product_values.hpp:95-138. *)
Definition mul_zero : rule := fun a b =>
  match a, b with
  | CV 0, _ => yes (Some (CV 0))
  | _, CV 0 => yes (Some (CV 0))
  | _, _ => no
  end.

(** _product_values_rule_one: product_values.hpp:141-184. *)
Definition mul_one : rule := fun a b =>
  match a, b with
  | CV 1, _ => yes (Some b)
  | _, CV 1 => yes (Some a)
  | _, _ => no
  end.

(** distributivity over addition: product_values.hpp:187-230. *)
Definition mul_distr (rec : op -> expr -> expr -> option expr) : rule := fun a b =>
  match split_add a, split_add b with
  | (_, None), (y, Some ys) =>
    yes (p <- rec OMul a y ;; t <- mk_add ys ;; q <- rec OMul a t ;; rec OAdd p q)
  | (x, Some xs), (_, None) =>
    yes (p <- rec OMul x b ;; t <- mk_add xs ;; q <- rec OMul t b ;; rec OAdd p q)
  | (x, Some xs), (y, Some ys) =>
    yes (t <- mk_add xs ;; u <- mk_add ys ;;
         p <- rec OMul x y ;; q <- rec OMul t y ;; pq <- rec OAdd p q ;;
         r <- rec OMul x u ;; s <- rec OMul t u ;; rs <- rec OAdd r s ;;
         rec OAdd pq rs)
  | (_, None), (_, None) => no
  end.

(** collect, case 1 (A * A => A^2): product_values.hpp:233-254. *)
Definition mul_collect1 (rec : op -> expr -> expr -> option expr) : rule := fun a b =>
  if expr_eqb a b then yes (rec OPow a (CV 2)) else no.

(** collect, case 2 (A^P * A => A^(P+1), A * A^P => A^(1+P)): product_values.hpp:257-289. *)
Definition mul_collect2 (rec : op -> expr -> expr -> option expr) : rule := fun a b =>
  match (match a with
         | Fn NPow [c; p] => if expr_eqb c b then yes (e <- rec OAdd p (CV 1) ;; rec OPow b e) else no
         | _ => no
         end) with
  | Some None =>
    match b with
    | Fn NPow [c; p] => if expr_eqb c a then yes (e <- rec OAdd (CV 1) p ;; rec OPow a e) else no
    | _ => no
    end
  | r => r
  end.

(** collect, case 3 (A^P * A^Q => A^(P+Q)): product_values.hpp:292-313. *)
Definition mul_collect3 (rec : op -> expr -> expr -> option expr) : rule := fun a b =>
  match a, b with
  | Fn NPow [c; p], Fn NPow [d; q] =>
    if expr_eqb c d then yes (e <- rec OAdd p q ;; rec OPow c e) else no
  | _, _ => no
  end.

(** constants, case 1 (a * b, 1/a * 1/b): product_values.hpp:316-348. *)
Definition mul_const1 (rec : op -> expr -> expr -> option expr) : rule := fun a b =>
  match a, b with
  | CV x, CV y => yes (cv (x * y))
  | Fn NPow [CV x; CV (-1)], Fn NPow [CV y; CV (-1)] => yes (c <- cv (x * y) ;; rec OPow c (CV (-1)))
  | _, _ => no
  end.

(** constants, case 2 (a * 1/b, 1/a * b): product_values.hpp:351-383. *)
Definition mul_const2 (rec : op -> expr -> expr -> option expr) : rule := fun a b =>
  match a, b with
  | CV x, Fn NPow [CV y; CV (-1)] => yes (simpler_rational rec x y)
  | Fn NPow [CV x; CV (-1)], CV y => yes (simpler_rational rec y x)
  | _, _ => no
  end.

(** merge_less_than: product_values.hpp:386-431. *)
Definition mul_merge_lt (rec : op -> expr -> expr -> option expr) : rule := fun a b =>
  let '(x, xs) := split_mul a in
  let '(y, ys) := split_mul b in
  if lt x y then
    match xs, ys with
    | None, None => yes (mk_mul [a; b])
    | None, Some ys => yes (mk_mul (a :: y :: ys))
    | Some xs, _ => yes (t <- mk_mul xs ;; u <- rec OMul t b ;; rec OMul x u)
    end
  else no.

(** merge_greater_than: product_values.hpp:434-479. *)
Definition mul_merge_gt (rec : op -> expr -> expr -> option expr) : rule := fun a b =>
  let '(x, xs) := split_mul a in
  let '(y, ys) := split_mul b in
  if lt y x then
    match xs, ys with
    | None, None => yes (mk_mul [b; a])
    | _, Some ys => yes (t <- mk_mul ys ;; u <- rec OMul a t ;; rec OMul y u)
    | Some xs, None => yes (mk_mul (b :: x :: xs))
    end
  else no.

(** merge_equal_to: product_values.hpp:482-513. *)
Definition mul_merge_eq (rec : op -> expr -> expr -> option expr) : rule := fun a b =>
  let '(x, xs) := split_mul a in
  let '(y, ys) := split_mul b in
  match xs, ys with
  | None, None => yes (mk_mul [a; b])
  | None, Some ys => yes (mk_mul (a :: y :: ys))
  | Some xs, None => yes (mk_mul (x :: b :: xs))
  | Some xs, Some ys =>
    yes (h <- mk_mul [x; y] ;; t <- mk_mul xs ;; u <- mk_mul ys ;; v <- rec OMul t u ;; rec OMul h v)
  end.

(** _product<_, _, value_mapping>: product_values.hpp:516-536. *)
Definition product_step (rec : op -> expr -> expr -> option expr) : expr -> expr -> option expr :=
  apply_rules
    [ mul_zero;
      mul_one;
      mul_distr rec;
      mul_helper rec (mul_collect1 rec);
      mul_helper rec (mul_collect2 rec);
      mul_helper rec (mul_collect3 rec);
      mul_helper rec (mul_const1 rec);
      mul_const2 rec;
      mul_merge_lt rec;
      mul_merge_gt rec;
      mul_merge_eq rec ].

(** ** Power *)

(** The exponent 1/2, power<constant_value<2>, constant_value<-1>> (power.hpp:55, 192, 268). *)
Definition half : expr := Fn NPow [CV 2; CV (-1)].

(** simpler_isqrt: power.hpp:40-60 (no specialisation for a value <= 0). *)
Definition simpler_isqrt (v : Z) : option expr :=
  if Z.ltb 0 v then
    r <- isqrt v ;;
    if Z.eqb (r * r) v then Some (CV r) else Some (Fn NPow [CV v; half])
  else None.

(** miscellaneous_1: power.hpp:167-221. *)
Definition pow_misc1 : rule := fun a b =>
  match a with
  | CV 0 =>
    if (match b with
        | CV k => Z.ltb 0 k
        | _ => expr_eqb b half || (is_constant b && may_be_positive b)
        end) then yes (Some (CV 0)) else no
  | CV 1 => yes (Some (CV 1))
  | _ => no
  end.

(** miscellaneous_2: power.hpp:224-256. *)
Definition pow_misc2 : rule := fun a b =>
  match b with
  | CV 0 => if is_cv 0 a then no else yes (Some (CV 1))
  | CV 1 => yes (Some a)
  | _ => no
  end.

(** miscellaneous_3: power.hpp:259-303.  Both branches of std::conditional_t
    are instantiated, so an overflowing ipow is ill-formed even when unused. *)
Definition pow_misc3 : rule := fun a b =>
  match a with
  | CV v =>
    if expr_eqb b half then yes (simpler_isqrt v)
    else match b with
         | CV k =>
           yes (p <- ipow v (iabs k) ;; c <- cv p ;;
                if Z.eqb v (-1) then Some (if Z.even k then CV 1 else CV (-1))
                else if Z.ltb 0 k then Some c
                else Some (Fn NPow [c; CV (-1)]))
         | _ => no
         end
  | _ => no
  end.

(** distributivity and default: power.hpp:306-341.  The static_asserts of the
    power type itself (expression.hpp:961-1037: base not constant 0, exponent
    not constant 0 or 1) are only instantiated on evaluation and are not
    modelled here; they reject more. *)
Definition pow_distr (rec : op -> expr -> expr -> option expr) : rule := fun a b =>
  match a with
  | Fn NMul (x :: xs) =>
    yes (p <- rec OPow x b ;; t <- mk_mul xs ;; q <- rec OPow t b ;; rec OMul p q)
  | Fn NPow [x; p] => yes (e <- rec OMul p b ;; rec OPow x e)
  | _ => yes (Some (Fn NPow [a; b]))
  end.

(** _power: power.hpp:343-356. *)
Definition power_step (rec : op -> expr -> expr -> option expr) : expr -> expr -> option expr :=
  apply_rules [ pow_misc1; pow_misc2; pow_misc3; pow_distr rec ].

(** addition_t / product_t / power_t on values, with the recursion depth as fuel
    (expression.hpp:280-460). *)
Fixpoint eng (fuel : nat) (o : op) (a b : expr) : option expr :=
  match fuel with
  | O => None
  | S f =>
    match o with
    | OAdd => addition_step (eng f) a b
    | OMul => product_step (eng f) a b
    | OPow => power_step (eng f) a b
    end
  end.

(** ** The other function types *)

(** reordering_sign_t: expression.hpp:463-488. *)
Definition mk_sign (l r : expr) : expr :=
  match l, r with
  | CBits a, CBits b => CV (if N.odd (swaps_count (N.shiftr a 1) b) then -1 else 1)
  | CBits 0, _ => CV 1
  | _, CBits 0 => CV 1
  | _, _ => Fn NSign [l; r]
  end.

(** count_one_bits_t: expression.hpp:491-504. *)
Definition mk_count (b : expr) : expr :=
  match b with CBits x => CV (Z.of_N (ones x)) | _ => Fn NCount [b] end.

(** bitwise_left_shift_t: expression.hpp:507-524.  A shift by 64 or more, or by a
    negative amount, is not a constant expression. *)
Definition mk_shl (l r : expr) : option expr :=
  match l, r with
  | CBits x, CV k => if (Z.leb 0 k && Z.ltb k 64)%bool then Some (CBits (wrap (N.shiftl x (Z.to_N k)))) else None
  | CBits 0, _ => Some l
  | _, CV 0 => Some l
  | _, _ => Some (Fn NShl [l; r])
  end.

(** bitwise_uminus_t: expression.hpp:527-545. *)
Definition mk_uminus (b : expr) : expr :=
  match b with
  | Fn NUminus [x] => x
  | CBits x => CBits (neg64 x)
  | _ => Fn NUminus [b]
  end.

(** bitwise_dec_t: expression.hpp:548-561. *)
Definition mk_dec (b : expr) : expr :=
  match b with CBits x => CBits (dec64 x) | _ => Fn NDec [b] end.

(** bitwise_and_t: expression.hpp:564-590. *)
Definition mk_and (l r : expr) : expr :=
  match l, r with
  | CV x, CV y => CV (Z.land x y)
  | CBits x, CBits y => CBits (N.land x y)
  | CV 0, _ | _, CV 0 => CV 0
  | CBits 0, _ | _, CBits 0 => CBits 0
  | _, _ => Fn NAnd [l; r]
  end.

(** bitwise_or_t: expression.hpp:593-619. *)
Definition mk_or (l r : expr) : expr :=
  match l, r with
  | CV x, CV y => CV (Z.lor x y)
  | CBits x, CBits y => CBits (N.lor x y)
  | CV 0, _ | CBits 0, _ => r
  | _, CV 0 | _, CBits 0 => l
  | _, _ => Fn NOr [l; r]
  end.

(** bitwise_xor_t: expression.hpp:622-648. *)
Definition mk_xor (l r : expr) : expr :=
  match l, r with
  | CV x, CV y => CV (Z.lxor x y)
  | CBits x, CBits y => CBits (N.lxor x y)
  | CV 0, _ | CBits 0, _ => r
  | _, CV 0 | _, CBits 0 => l
  | _, _ => Fn NXor [l; r]
  end.

(** equal_t: expression.hpp:651-667. *)
Definition mk_equal (l r : expr) : expr :=
  if expr_eqb l r && negb (has_stored l) then CBool true
  else if negb (expr_eqb l r) && is_constant l && is_constant r then CBool false
  else Fn NEqual [l; r].

(** less_or_equal_t: expression.hpp:670-692. *)
Definition mk_le (l r : expr) : expr :=
  match l, r with
  | CV x, CV y => CBool (Z.leb x y)
  | CBits x, CBits y => CBool (N.leb x y)
  | _, _ => if expr_eqb l r && negb (has_stored l) then CBool true else Fn NLe [l; r]
  end.

(** logical_and_t: expression.hpp:695-747. *)
Definition mk_land (l r : expr) : expr :=
  match l, r with
  | CBool false, _ | _, CBool false => CBool false
  | CBool true, _ => r
  | _, CBool true => l
  | _, _ => if expr_eqb l r && negb (has_stored l) then l else Fn NLand [l; r]
  end.

(** logical_or_t: expression.hpp:750-798. *)
Definition mk_lor (l r : expr) : expr :=
  match l, r with
  | CBool true, _ | _, CBool true => CBool true
  | CBool false, _ => r
  | _, CBool false => l
  | _, _ => Fn NLor [l; r]
  end.

(** if_else_t: expression.hpp:801-823. *)
Definition mk_if (t x y : expr) : expr :=
  match t with
  | CBool true => x
  | CBool false => y
  | _ => if expr_eqb x y && negb (has_stored x) then x else Fn NIf [t; x; y]
  end.

(** absolute_t: expression.hpp:826-843.  Both branches of std::conditional_t
    name types; product_t<-1, V> is instantiated in any case. *)
Definition mk_abs (fuel : nat) (v : expr) : option expr :=
  m <- eng fuel OMul (CV (-1)) v ;;
  Some (if is_non_negative v then v
        else if is_constant v && negb (is_fn NAdd v || is_fn NIf v) then m
        else Fn NAbs [v]).

(** exponential_t: expression.hpp:846-860. *)
Definition mk_exp (v : expr) : expr := match v with Fn NLog [x] => x | _ => Fn NExp [v] end.
(** logarithm_t: expression.hpp:863-877. *)
Definition mk_log (v : expr) : expr := match v with Fn NExp [x] => x | _ => Fn NLog [v] end.
