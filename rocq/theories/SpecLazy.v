(** Specification: the value of a multivector object (a type plus the entries it stores), and the
    classes of expressions used in the statements about lazy evaluation.  This file does not
    mention lazy contexts; it only uses the record of multivector objects. *)
From Coq Require Import NArith ZArith List Bool Reals.
From Verif Require Import Bits Expr Sem Wf SpecMv SpecOrder EvalC SpecEval Lazy.
Import ListNotations.
Local Open Scope R_scope.

(** The components of a multivector type. *)
Definition components (e : expr) : list expr := match e with Fn NAdd l => l | _ => [e] end.

(** Stored coefficients and stored bitsets still to be read. *)
Definition mem := (list R * list N)%type.

(** Meaning of an expression with stored entries: they are read from left to right. *)
Fixpoint sread (g : env) (e : expr) (s : mem) : option val * mem :=
  match e with
  | SV => match fst s with v :: vs => (Some (VN v), (vs, snd s)) | [] => (None, s) end
  | SBits => match snd s with b :: bs => (Some (VB b), (fst s, bs)) | [] => (None, s) end
  | DBlade _ x => (None, snd (sread g x s))
  | Comp c x => (None, snd (sread g x (snd (sread g c s))))
  | Fn f l =>
    let r := (fix go (l : list expr) (s : mem) : list (option val) * mem :=
                match l with
                | [] => ([], s)
                | x :: xs => let r := sread g x s in let q := go xs (snd r) in (fst r :: fst q, snd q)
                end) l s in
    (fn_sem f (fst r), snd r)
  | _ => (sem g e, s)
  end.

(** One component: its coefficient is read first, then its blade (bitsets have 64 bits). *)
Definition sblade (g : env) (b : expr) (s : mem) (n : N) (s' : mem) : Prop :=
  match b with
  | CBlade k => n = k /\ s' = s
  | DBlade _ x => sread g x s = (Some (VB n), s') /\ (n < 2 ^ 64)%N
  | _ => False
  end.
Definition scomp (g : env) (e : expr) (s : mem) (p : R * N) (s' : mem) : Prop :=
  match e with
  | Comp c b => exists s1, sread g c s = (Some (VN (fst p)), s1) /\ sblade g b s1 (snd p) s' /\
                (fst p <> 0 -> grade_declared b (snd p))
  | _ => False
  end.
Fixpoint scomps (g : env) (l : list expr) (s : mem) (m : mv) (s' : mem) : Prop :=
  match l, m with
  | [], [] => s' = s
  | e :: l', p :: m' => exists s1, scomp g e s p s1 /\ scomps g l' s1 m' s'
  | _, _ => False
  end.
(** The multivector object [a] has the value [m]; [g] gives the values of the getters of enclosing
    lazy contexts.  Everything stored is read. *)
Definition value_in (g : env) (a : cliff) (m : mv) : Prop :=
  exists m', scomps g (components (cexpr a)) (cvals a, cbits a) m' ([], []) /\ meq m' m.

(** Multivector types built by the library: a well-formed component or sum of components, whose
    coefficients and run-time bitsets do not contain blades themselves. *)
Fixpoint no_blade (e : expr) : bool :=
  match e with
  | CBlade _ | DBlade _ _ | Comp _ _ => false
  | Fn _ l => forallb no_blade l
  | _ => true
  end.
Definition comp_flat (e : expr) : bool :=
  match e with Comp c (CBlade _) => no_blade c | Comp c (DBlade _ x) => no_blade c && no_blade x | _ => false end.
Definition object_ok (e : expr) : bool :=
  mv_ok e && forallb comp_flat (components e).

(** The getters of an enclosing context keep their value [g] in a nested one, whose own getters
    have larger tags. *)
Definition nested (base : N) (l : list cliff) (g : env) : env :=
  {| ev := fun t k => if N.ltb base t then ev (ctx_env base l) t k else ev g t k;
     eb := fun t k => if N.ltb base t then eb (ctx_env base l) t k else eb g t k |}.

(** Numeric expressions made of constants, getters with tags from [lo] to [hi], sums, products,
    powers and the functions of one variable. *)
Definition fun1 (f : fname) : bool :=
  match f with NAbs | NExp | NLog | NCos | NSin | NTan | NCosh | NSinh | NTanh => true | _ => false end.
Fixpoint numeric (lo hi : N) (e : expr) : bool :=
  match e with
  | CV _ => true
  | GV t _ => N.leb lo t && N.leb t hi
  | Fn NAdd l | Fn NMul l => forallb (numeric lo hi) l
  | Fn NPow [b; p] => numeric lo hi b && numeric lo hi p
  | Fn f [x] => fun1 f && numeric lo hi x
  | _ => false
  end.
(** It contains a getter. *)
Fixpoint has_getter (e : expr) : bool :=
  match e with
  | GV _ _ | GBits _ _ => true
  | DBlade _ b => has_getter b
  | Comp c b => has_getter c || has_getter b
  | Fn _ l => existsb has_getter l
  | _ => false
  end.
(** Constants made of integers, sums, products, powers with an integer exponent, and powers of
    integers. *)
Definition is_integer (e : expr) : bool := match e with CV _ => true | _ => false end.
Fixpoint arith_const (e : expr) : bool :=
  match e with
  | CV _ => true
  | Fn NAdd l | Fn NMul l => forallb arith_const l
  | Fn NPow [b; p] => arith_const b && arith_const p && (is_integer b || is_integer p)
  | _ => false
  end.
(** The same with conditionals whose test compares two such expressions and depends on a getter. *)
Fixpoint query (lo hi : N) (e : expr) : bool :=
  match e with
  | CV _ => true
  | GV t _ => N.leb lo t && N.leb t hi
  | Fn NAdd l | Fn NMul l => forallb (query lo hi) l
  | Fn NPow [b; p] => query lo hi b && query lo hi p
  | Fn NIf [Fn (NEqual | NLe) [a; b]; x; y] =>
    (has_getter a || has_getter b) && (query lo hi a && query lo hi b && query lo hi x && query lo hi y)
  | Fn f [x] => fun1 f && query lo hi x
  | _ => false
  end.
(** Coefficient that lazy evaluation over the tags [lo]..[hi] accepts. *)
Definition coefficient_ok (lo hi : N) (c : expr) : Prop :=
  wf c = true /\ ((query lo hi c = true /\ has_getter c = true) \/ arith_const c = true).
(** A result type: canonical, every coefficient is stored or a constant. *)
Definition evaluated (l : entries) : Prop :=
  canonical l /\ Forall (fun p => snd p = SV \/ wf (snd p) = true /\ numeric 1 0 (snd p) = true) l.
(** The stored entries of an object are of their type: integers if the coefficient type is
    integral, 64-bit bitsets. *)
Definition well_stored (a : cliff) : Prop :=
  (cint a = true -> Forall isint (cvals a)) /\ Forall (fun b => (b < 2 ^ 64)%N) (cbits a).
(** A coefficient that mentions a getter is computed when the context evaluates it, and must then not
    compute a quotient of two integers (which truncates: C11).  The others are compile-time constants. *)
Definition exact_coef (i : ityping) (c : expr) : bool := negb (has_getter c) || no_int_div i c.
