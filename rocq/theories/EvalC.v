(** Model of the run-time evaluation of coefficient expressions: the [eval]
    members of core/expression.hpp:131-1154.

    Floating-point numbers are modelled by real numbers (rounding, infinities
    and NaN are not modelled: an operation whose exact result does not exist is
    [Undef]).  Whether a subexpression has an integral C++ type is a static
    property, computed by [integral]; integral arithmetic is exact in the
    64-bit range, [Overflow] outside it, and division of two integral operands
    truncates. *)
From Coq Require Import NArith ZArith List Bool Reals.
From Verif Require Import Bits Expr Simp Sem.
Import ListNotations.
Local Open Scope R_scope.

(** Outcome of an evaluation. *)
Inductive res := Val (v : val) | Undef | Overflow.

(** Which getters read an integral coefficient type (CoefficientType of the
    clifford_expression bound to the argument, clifford_expression.hpp:186). *)
Definition ityping := N -> N -> bool.

(** Is the expression constant_value<-1>? (specialisations expression.hpp:1055-1140). *)
Definition is_m1 (e : expr) : bool := is_cv (-1) e.

(** The operand R of power<R, constant_value<-1>> (expression.hpp:1068-1086). *)
Definition inv_arg (e : expr) : option expr :=
  match e with Fn NPow [r; CV (-1)] => Some r | _ => None end.

(** The arguments of mul<constant_value<-1>, A...> (expression.hpp:1115-1140). *)
Definition neg_args (e : expr) : option (list expr) :=
  match e with Fn NMul (CV (-1) :: l) => Some l | _ => None end.

(** The partial specialisations of power<L, R> selected by R:
    expression.hpp:952-1039. *)
Inductive pow_kind := PInv | PSquare | PCube | PFourth | PSqrt | PCbrt | PGeneric.
(** Selection of the specialisation: expression.hpp:952-1039. *)
Definition kind_of (e : expr) : pow_kind :=
  match e with
  | CV z => if Z.eqb z (-1) then PInv else if Z.eqb z 2 then PSquare else if Z.eqb z 3 then PCube
            else if Z.eqb z 4 then PFourth else PGeneric
  | _ => if expr_eqb e (Fn NPow [CV 2; CV (-1)]) then PSqrt
         else if expr_eqb e (Fn NPow [CV 3; CV (-1)]) then PCbrt else PGeneric
  end.

(** Static type of mul_t<l...>::eval (expression.hpp:1042-1099). *)
Definition int_mul (ty : expr -> bool) : list expr -> bool :=
  fix go l :=
    match l with
    | [] => true
    | x :: rest =>
      match rest with
      | [] => ty x
      | [Fn NPow [r; CV (-1)]] => if is_m1 x then false else ty x && ty r
      | _ => ty x && go rest
      end
    end.

(** Static type of the evaluation of an expression: true = integral
    (return types of the eval members, expression.hpp:131-1154). *)
Fixpoint integral (g : ityping) (e : expr) : bool :=
  match e with
  | CV _ => true
  | GV t i => g t i
  | Fn NIf [_; x; y] => integral g x && integral g y
  | Fn NAbs [x] => integral g x
  | Fn NPow [x; y] => match kind_of y with PSquare | PCube | PFourth => integral g x | _ => false end
  | Fn (NSign | NCount | NAnd | NOr | NXor) _ => true
  | Fn NMul l => int_mul (integral g) l
  | Fn NAdd l => forallb (integral g) l
  | _ => false
  end.

(** Result of an arithmetic operation of the given static type. *)
Definition arith (int : bool) (r : R) : res :=
  if int then
    match Zof r with
    | Some z => if (Z.leb (- 2 ^ 63) z && Z.ltb z (2 ^ 63))%bool then Val (VN r) else Overflow
    | None => Undef
    end
  else Val (VN r).

(** Binary arithmetic (built-in operators of expression.hpp:1050-1140). *)
Definition lift2 (f : R -> R -> res) (a b : res) : res :=
  match a, b with
  | Overflow, _ | _, Overflow => Overflow
  | Val (VN x), Val (VN y) => f x y
  | _, _ => Undef
  end.
(** Unary arithmetic (same lines). *)
Definition lift1 (f : R -> res) (a : res) : res :=
  match a with Overflow => Overflow | Val (VN x) => f x | _ => Undef end.

(** a / b: expression.hpp:1073; integral division truncates. *)
Definition divide (ia ib : bool) (a b : R) : res :=
  if Req_EM_T b 0 then Undef
  else if ia && ib then
    match Zof a, Zof b with Some x, Some y => arith true (IZR (Z.quot x y)) | _, _ => Undef end
  else Val (VN (a / b)).

(** Operator & | ^ on two integers or two bitsets (expression.hpp:564-648). *)
Definition bit2 (fN : N -> N -> N) (fZ : Z -> Z -> Z) (a b : res) : res :=
  match a, b with
  | Overflow, _ | _, Overflow => Overflow
  | Val x, Val y => match bitop fN fZ (Some x) (Some y) with Some v => Val v | None => Undef end
  | _, _ => Undef
  end.

(** The loop of reordering_sign::eval (expression.hpp:471-482) runs until [lhs]
    is zero; a 64-bit [lhs] takes at most 64 iterations (65 tests). *)
Fixpoint changes (fuel : nat) (lhs rhs : N) : N :=
  match fuel with
  | O => 0
  | S f => if N.eqb lhs 0 then 0 else N.add (ones (N.land lhs rhs)) (changes f (N.shiftr lhs 1) rhs)
  end.
(** reordering_sign::eval: expression.hpp:471-482. *)
Definition run_sign (lhs rhs : N) : R :=
  if N.odd (changes 65 (N.shiftr lhs 1) rhs) then -1 else 1.

(** One step of mul_t<x, rest...>::eval: expression.hpp:1042-1099.  [ev]
    evaluates an argument, [ty] is its static type, [go] is
    mul_t<rest...>::eval. *)
Definition run_mul_step (ty : expr -> bool) (ev : expr -> res) (x : expr) (rest : list expr) (go : res) : res :=
  match rest with
  | [] => ev x
  | [Fn NPow [r; CV (-1)] as p] =>
    if is_m1 x then lift1 (fun v => arith (ty p) (- v)) (ev p)
    else lift2 (divide (ty x) (ty r)) (ev x) (ev r)
  | _ =>
    if is_m1 x then lift1 (fun v => arith (int_mul ty rest) (- v)) go
    else lift2 (fun a b => arith (int_mul ty (x :: rest)) (a * b)) (ev x) go
  end.
(** mul_t<l...>::eval: expression.hpp:1042-1099. *)
Definition run_mul (ty : expr -> bool) (ev : expr -> res) : list expr -> res :=
  fix go l :=
    match l with
    | [] => Val (VN 0)
    | x :: rest => run_mul_step ty ev x rest (go rest)
    end.

(** One step of add_t<x, rest...>::eval: expression.hpp:1102-1154. *)
Definition run_add_step (ty : expr -> bool) (ev : expr -> res) (x : expr) (rest : list expr) (go : res) : res :=
  match rest with
  | [] => ev x
  | _ =>
    match x, rest with
    | Fn NMul (CV (-1) :: ls), [Fn NMul (CV (-1) :: rs)] =>
      lift1 (fun v => arith (forallb ty (x :: rest)) (- v))
        (lift2 (fun a b => arith (forallb ty (x :: rest)) (a + b)) (run_mul ty ev ls) (run_mul ty ev rs))
    | Fn NMul (CV (-1) :: ls), _ =>
      lift2 (fun a b => arith (forallb ty (x :: rest)) (a - b)) go (run_mul ty ev ls)
    | _, [Fn NMul (CV (-1) :: rs)] =>
      lift2 (fun a b => arith (forallb ty (x :: rest)) (a - b)) (ev x) (run_mul ty ev rs)
    | _, _ => lift2 (fun a b => arith (forallb ty (x :: rest)) (a + b)) (ev x) go
    end
  end.
(** add_t<l...>::eval: expression.hpp:1102-1154. *)
Definition run_add (ty : expr -> bool) (ev : expr -> res) : list expr -> res :=
  fix go l :=
    match l with
    | [] => Val (VN 0)
    | x :: rest => run_add_step ty ev x rest (go rest)
    end.

(** Floating-point function of one number (expression.hpp:835-950). *)
Definition fp1 (f : R -> R) (a : res) : res := lift1 (fun x => Val (VN (f x))) a.

(** Real cube root (std::cbrt, expression.hpp:1032). *)
Definition cbrt (x : R) : R :=
  if Rlt_dec 0 x then Rpower x (/ 3) else if Req_EM_T x 0 then 0 else - Rpower (- x) (/ 3).

(** eval: expression.hpp:131-1154. *)
Fixpoint run (i : ityping) (g : env) (e : expr) : res :=
  match e with
  | CV z => Val (VN (IZR z))
  | GV t k => match ev g t k with Some r => Val (VN r) | None => Undef end
  | CBits b => Val (VB b)
  | GBits t k => match eb g t k with Some b => Val (VB b) | None => Undef end
  | CBool b => Val (VT b)
  | Fn NAdd l => run_add (integral i) (run i g) l
  | Fn NMul l => run_mul (integral i) (run i g) l
  | Fn NPow [x; y] =>
    match kind_of y with
    | PInv => lift1 (fun a => if Req_EM_T a 0 then Undef else Val (VN (1 / a))) (run i g x)
    | PSquare => lift1 (fun a => arith (integral i x) (a * a)) (run i g x)
    | PCube => lift1 (fun a => arith (integral i x) (a * a * a)) (run i g x)
    | PFourth =>
      lift1 (fun a => arith (integral i x) (a * a)) (lift1 (fun a => arith (integral i x) (a * a)) (run i g x))
    | PSqrt => lift1 (fun a => if Rle_dec 0 a then Val (VN (sqrt a)) else Undef) (run i g x)
    | PCbrt => fp1 cbrt (run i g x)
    | PGeneric =>
      lift2 (fun a b => match rpow a b with Some r => Val (VN r) | None => Undef end) (run i g x) (run i g y)
    end
  | Fn NSign [x; y] =>
    match run i g x, run i g y with
    | Overflow, _ | _, Overflow => Overflow
    | Val (VB a), Val (VB b) => Val (VN (run_sign a b)) | _, _ => Undef
    end
  | Fn NCount [x] =>
    match run i g x with Overflow => Overflow | Val (VB a) => Val (VN (IZR (Z.of_N (ones a)))) | _ => Undef end
  | Fn NShl [x; y] =>
    match run i g x, run i g y with
    | Overflow, _ | _, Overflow => Overflow
    | Val (VB a), Val (VN k) =>
      match Zof k with
      | Some z => if (Z.leb 0 z && Z.ltb z 64)%bool then Val (VB (wrap (N.shiftl a (Z.to_N z)))) else Undef
      | None => Undef
      end
    | _, _ => Undef
    end
  | Fn NUminus [x] => match run i g x with Overflow => Overflow | Val (VB a) => Val (VB (neg64 a)) | _ => Undef end
  | Fn NDec [x] => match run i g x with Overflow => Overflow | Val (VB a) => Val (VB (dec64 a)) | _ => Undef end
  | Fn NAnd [x; y] => bit2 N.land Z.land (run i g x) (run i g y)
  | Fn NOr [x; y] => bit2 N.lor Z.lor (run i g x) (run i g y)
  | Fn NXor [x; y] => bit2 N.lxor Z.lxor (run i g x) (run i g y)
  | Fn NEqual [x; y] =>
    match run i g x, run i g y with
    | Overflow, _ | _, Overflow => Overflow
    | Val (VN a), Val (VN b) => Val (VT (if Req_EM_T a b then true else false))
    | Val (VB a), Val (VB b) => Val (VT (N.eqb a b))
    | _, _ => Undef
    end
  | Fn NLe [x; y] =>
    match run i g x, run i g y with
    | Overflow, _ | _, Overflow => Overflow
    | Val (VN a), Val (VN b) => Val (VT (if Rle_dec a b then true else false))
    | Val (VB a), Val (VB b) => Val (VT (N.leb a b))
    | _, _ => Undef
    end
  | Fn NLand [x; y] =>
    match run i g x with
    | Overflow => Overflow
    | Val (VT false) => Val (VT false)
    | Val (VT true) => match run i g y with Overflow => Overflow | Val (VT b) => Val (VT b) | _ => Undef end
    | _ => Undef
    end
  | Fn NLor [x; y] =>
    match run i g x with
    | Overflow => Overflow
    | Val (VT true) => Val (VT true)
    | Val (VT false) => match run i g y with Overflow => Overflow | Val (VT b) => Val (VT b) | _ => Undef end
    | _ => Undef
    end
  | Fn NIf [t; x; y] =>
    match run i g t with
    | Overflow => Overflow
    | Val (VT true) => run i g x
    | Val (VT false) => run i g y
    | _ => Undef
    end
  | Fn NAbs [x] => lift1 (fun a => arith (integral i x) (Rabs a)) (run i g x)
  | Fn NExp [x] => fp1 exp (run i g x)
  | Fn NLog [x] => lift1 (fun a => if Rlt_dec 0 a then Val (VN (ln a)) else Undef) (run i g x)
  | Fn NCos [x] => fp1 cos (run i g x)
  | Fn NSin [x] => fp1 sin (run i g x)
  | Fn NTan [x] => lift1 (fun a => if Req_EM_T (cos a) 0 then Undef else Val (VN (tan a))) (run i g x)
  | Fn NCosh [x] => fp1 cosh (run i g x)
  | Fn NSinh [x] => fp1 sinh (run i g x)
  | Fn NTanh [x] => fp1 tanh (run i g x)
  | _ => Undef
  end.
