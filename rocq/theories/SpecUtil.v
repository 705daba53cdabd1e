(** Specification for the component visitor, the zero test, copies and the construction of
    multivectors. *)
From Coq Require Import NArith ZArith List Bool Reals.
From Verif Require Import Bits Expr SpecBits Sem Wf SpecMv SpecOrder EvalC SpecEval Lazy SpecLazy Api SpecApi ForEach Build.
Import ListNotations.
Local Open Scope R_scope.

(** A coefficient whose value the library reads exactly: it is stored, or an integer constant, or,
    in an object whose coefficient type is not integral, a constant that is evaluated without a
    quotient of two integers (C11). *)
Definition exact_const (int : bool) (c : expr) : bool :=
  match c with
  | SV | CV _ => true
  | _ => negb int && wf c && numeric 1 0 c && no_int_div (fun _ _ => true) c
  end.
(** The same for a component; its blade is known at compile time or stored. *)
Definition exact_comp (int : bool) (e : expr) : bool :=
  match e with
  | Comp c (CBlade _) => exact_const int c
  | Comp c (DBlade _ SBits) => exact_const int c
  | _ => false
  end.
(** The coefficient is a constant other than an integer: evaluating it can leave the 64-bit range. *)
Definition const_comp (e : expr) : bool := match e with Comp c _ => negb (is_sv c || is_integer c) | _ => false end.
(** Where the blade and the coefficient of a component come from. *)
Definition sources (e : expr) : source * source :=
  match e with
  | Comp c b => (match b with DBlade _ _ => StoredRuntime | _ => CompileTime end,
                 match c with SV => StoredRuntime | _ => CompileTime end)
  | _ => (CompileTime, CompileTime)
  end.
(** The visitor as a function on (coefficient, blade) pairs with their sources. *)
Definition visit {S} (f : visitor S) (st : S) (p : R * N * (source * source)) : S * bool :=
  f st (snd (fst p)) (fst (fst p)) (fst (snd p)) (snd (snd p)).

(** The components of an object with their run-time values, in order. *)
Definition component_values (a : cliff) (m : mv) : Prop :=
  forall g, scomps g (components (cexpr a)) (cvals a, cbits a) m ([], []).

(** [y] is [x] stored in a variable: the integer part of [x] if the variable is integral. *)
Definition stored_as (int : bool) (x y : R) : Prop :=
  if int then isint y /\ Rabs y <= Rabs x < Rabs y + 1 /\ 0 <= x * y else y = x.

(** Exact numbers of a coordinate list: [x_i] on basis vector [i] (counting from [i]). *)
Fixpoint coordinates (i : N) (l : list R) : mv :=
  match l with [] => [] | x :: l' => (x, (2 ^ i)%N) :: coordinates (i + 1) l' end.
(** The type [e] has a component on blade [k]. *)
Definition names_blade (e : expr) (k : N) : Prop := exists c, In (Comp c (CBlade k)) (components e).
(** All the coefficients of the type are stored. *)
Definition all_stored (e : expr) : Prop := forall c, In c (components e) -> exists b, c = Comp SV b.
(** [v] is the value of a coordinate handed to vector(): a native number of its type, or a scalar
    object whose coefficient is stored or is an integer constant. *)
Definition coordinate_value (x : coordinate) (v : R) : Prop :=
  match x with
  | Num int y => v = y /\ (int = true -> isint y)
  | Scal a => int_object 0 a /\ value a [(v, 0%N)]
  end.
(** The multivector type with one stored coefficient for each blade of the list. *)
Definition stored_type (l : list N) : expr := mv_of (map (fun b => (b, SV)) l).
