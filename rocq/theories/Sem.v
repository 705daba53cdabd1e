(** Specification: the real number (or bitset, or truth value) an expression
    denotes.  This file does not mention the simplifier; the C++ evaluator is
    modelled separately (EvalC.v). *)
From Coq Require Import NArith ZArith List Bool Reals.
From Verif Require Import Bits Expr SpecBits.
Import ListNotations.
Local Open Scope R_scope.

(** Values: numbers, bitsets, truth values. *)
Inductive val := VN (r : R) | VB (n : N) | VT (b : bool).

(** What the getters read: coefficient [ev t i] and bitset [eb t i] of the
    [i]-th entry of input [t]. *)
Record env := { ev : N -> N -> option R; eb : N -> N -> option N }.

(** The integer equal to a real, if any. *)
Definition Zof (r : R) : option Z :=
  if Req_EM_T r (IZR (Int_part r)) then Some (Int_part r) else None.

(** Real power [a ^ b]: usual power for [a > 0], [0 ^ b = 0] for [b > 0],
    integer power for [a < 0]; undefined otherwise (in particular 0^0). *)
Definition rpow (a b : R) : option R :=
  if Rlt_dec 0 a then Some (Rpower a b)
  else if Req_EM_T a 0 then (if Rlt_dec 0 b then Some 0 else None)
  else match Zof b with Some k => Some (powerRZ a k) | None => None end.

(** Sum and product of a list of numbers. *)
Definition vadd (x y : option val) : option val :=
  match x, y with Some (VN a), Some (VN b) => Some (VN (a + b)) | _, _ => None end.
Definition vmul (x y : option val) : option val :=
  match x, y with Some (VN a), Some (VN b) => Some (VN (a * b)) | _, _ => None end.
Definition vsum (l : list (option val)) : option val := fold_right vadd (Some (VN 0)) l.
Definition vprod (l : list (option val)) : option val := fold_right vmul (Some (VN 1)) l.

(** Sign of the permutation that merges two blades: (-1)^(inversions). *)
Definition sign_of (a b : N) : R := if Nat.odd (inversions a b) then -1 else 1.

(** Bitwise operation on two bitsets or two integers. *)
Definition bitop (fN : N -> N -> N) (fZ : Z -> Z -> Z) (x y : option val) : option val :=
  match x, y with
  | Some (VB a), Some (VB b) => Some (VB (fN a b))
  | Some (VN a), Some (VN b) =>
    match Zof a, Zof b with Some p, Some q => Some (VN (IZR (fZ p q))) | _, _ => None end
  | _, _ => None
  end.

(** Meaning of each function symbol on the meanings of its arguments;
    [None] = undefined. *)
Definition fn_sem (f : fname) (l : list (option val)) : option val :=
  match f, l with
  | NAdd, _ => vsum l
  | NMul, _ => vprod l
  | NPow, [Some (VN a); Some (VN b)] => option_map VN (rpow a b)
  | NSign, [Some (VB a); Some (VB b)] => Some (VN (sign_of a b))
  | NCount, [Some (VB a)] => Some (VN (IZR (Z.of_N (grade_of a))))
  | NShl, [Some (VB a); Some (VN k)] =>
    match Zof k with
    | Some z => if (Z.leb 0 z && Z.ltb z 64)%bool then Some (VB (wrap (N.shiftl a (Z.to_N z)))) else None
    | None => None
    end
  | NUminus, [Some (VB a)] => Some (VB (neg64 a))
  | NDec, [Some (VB a)] => Some (VB (dec64 a))
  | NAnd, [x; y] => bitop N.land Z.land x y
  | NOr, [x; y] => bitop N.lor Z.lor x y
  | NXor, [x; y] => bitop N.lxor Z.lxor x y
  | NEqual, [Some (VN a); Some (VN b)] => Some (VT (if Req_EM_T a b then true else false))
  | NEqual, [Some (VB a); Some (VB b)] => Some (VT (N.eqb a b))
  | NLe, [Some (VN a); Some (VN b)] => Some (VT (if Rle_dec a b then true else false))
  | NLe, [Some (VB a); Some (VB b)] => Some (VT (N.leb a b))
  | NLand, [Some (VT a); Some (VT b)] => Some (VT (a && b))
  | NLor, [Some (VT a); Some (VT b)] => Some (VT (a || b))
  | NIf, [Some (VT true); x; _] => x
  | NIf, [Some (VT false); _; y] => y
  | NAbs, [Some (VN a)] => Some (VN (Rabs a))
  | NExp, [Some (VN a)] => Some (VN (exp a))
  | NLog, [Some (VN a)] => if Rlt_dec 0 a then Some (VN (ln a)) else None
  | NCos, [Some (VN a)] => Some (VN (cos a))
  | NSin, [Some (VN a)] => Some (VN (sin a))
  | NTan, [Some (VN a)] => if Req_EM_T (cos a) 0 then None else Some (VN (tan a))
  | NCosh, [Some (VN a)] => Some (VN (cosh a))
  | NSinh, [Some (VN a)] => Some (VN (sinh a))
  | NTanh, [Some (VN a)] => Some (VN (tanh a))
  | _, _ => None
  end.

(** Meaning of an expression.  Stored entries have no meaning of their own (it
    depends on their position), see Stored.v. *)
Fixpoint sem (g : env) (e : expr) : option val :=
  match e with
  | CV z => Some (VN (IZR z))
  | GV t i => option_map VN (ev g t i)
  | CBits b => Some (VB b)
  | GBits t i => option_map VB (eb g t i)
  | CBool b => Some (VT b)
  | Fn f l => fn_sem f (map (sem g) l)
  | SV | SBits | CBlade _ | DBlade _ _ | Comp _ _ => None
  end.

(** [e] denotes the number [r]. *)
Definition num (g : env) (e : expr) (r : R) : Prop := sem g e = Some (VN r).
