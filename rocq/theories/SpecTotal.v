(** Specification: multivector objects all of whose coefficients are stored. *)
From Coq Require Import NArith ZArith List Bool Reals Sorting.Sorted.
From Verif Require Import Bits Expr Sem Wf SpecBits SpecMv SpecOrder EvalC SpecEval Lazy SpecLazy Api SpecApi.
Import ListNotations.

(** [a] stores one number for every blade of the list [L], in canonical order, and nothing else;
    all the blades belong to the [n]-dimensional space.  The numbers are integers if the coefficient
    type of [a] is an integral type. *)
Definition stored (n : N) (a : cliff) : Prop :=
  exists L : list N, cexpr a = mv_of (map (fun k => (k, SV)) L) /\ StronglySorted blade_lt L /\ Forall (fun k => (k < 2 ^ n)%N) L /\
  length (cvals a) = length L /\ cbits a = [] /\ (cint a = true -> Forall isint (cvals a)).
(** Its coefficient type is a floating-point type, or it stores no number (the zero multivector). *)
Definition floating (a : cliff) : Prop := cint a = false \/ cvals a = [].
(** A constant basis blade: the basis vector [i] for [k = 2^(i-1)], the pseudoscalar for [k = 2^n - 1]. *)
Definition unit_blade (k : N) : cliff := lazy_obj (Comp (CV 1) (CBlade k)).
(** A depth of template recursion that suffices in the [n]-dimensional space, whatever the objects. *)
Definition depth (n : N) : nat := let s := N.to_nat (2 ^ n) in s * s + s + s + 4.
(** The call [f] compiles, and gives an object that stores its coefficients and has the value [m], or a
    signed integer overflow, which needs an integral coefficient type. *)
Definition compiles (n : N) (a b : cliff) (f : nat -> nat -> result) (m : mv) : Prop :=
  forall F k, (depth n <= F)%nat -> (depth n <= k)%nat ->
  (exists r, f F k = Some (Done r) /\ stored n r /\ value r m /\ (floating a -> floating b -> floating r)) \/
  (f F k = Some Ovf /\ ~ (floating a /\ floating b)).

(** Formulas made of objects (each with the multivector it stands for), sums, differences, opposites, products, products
    with a constant basis blade on the right or on the left, reversion, grade involution and Clifford conjugation; the calls that compute them, and the multivectors they denote. *)
Inductive product := Geometric | LeftContraction | RightContraction | ScalarProduct | Dot | HestenesInner | Outer | Regressive.
Inductive unary := Reversion | Involution | Conjugation.
Inductive formula := Object (a : cliff) (m : mv) | Sum (x y : formula) | Difference (x y : formula) | Opposite (x : formula) | Product (p : product) (x y : formula)
| ByBlade (p : product) (x : formula) (b : N) | BladeBy (p : product) (b : N) (x : formula) | Unary (u : unary) (x : formula).

Definition product_call (F k : nat) (P Q R : N) (p : product) : cliff -> cliff -> result :=
  match p with
  | Geometric => gp F k P Q R | LeftContraction => lcont F k P Q R | RightContraction => rcont F k P Q R
  | ScalarProduct => sp F k P Q R | Dot => dot F k P Q R | HestenesInner => hip F k P Q R
  | Outer => outer F k (P + Q + R) | Regressive => regressive F k (P + Q + R)
  end.
Definition unary_call (F k : nat) (u : unary) : cliff -> result :=
  match u with Reversion => reverse F k | Involution => involute F k | Conjugation => conjugate F k end.
Fixpoint compute (F k : nat) (P Q R : N) (f : formula) : result :=
  match f with
  | Object a _ => Some (Done a)
  | Sum x y => andthen (compute F k P Q R x) (fun a => andthen (compute F k P Q R y) (fun b => plus F k a b))
  | Difference x y => andthen (compute F k P Q R x) (fun a => andthen (compute F k P Q R y) (fun b => minus F k a b))
  | Opposite x => andthen (compute F k P Q R x) (neg F k)
  | Product p x y => andthen (compute F k P Q R x) (fun a => andthen (compute F k P Q R y) (fun b => product_call F k P Q R p a b))
  | ByBlade p x b => andthen (compute F k P Q R x) (fun a => product_call F k P Q R p a (unit_blade b))
  | BladeBy p b x => andthen (compute F k P Q R x) (fun a => product_call F k P Q R p (unit_blade b) a)
  | Unary u x => andthen (compute F k P Q R x) (unary_call F k u)
  end.

Definition product_blade (P Q R : N) (p : product) : N -> N -> mv :=
  match p with
  | Geometric => gp_blade (signature P Q) | LeftContraction => lcont_blade (signature P Q) | RightContraction => rcont_blade (signature P Q)
  | ScalarProduct => sp_blade (signature P Q) | Dot => dot_blade (signature P Q) | HestenesInner => hip_blade (signature P Q)
  | Outer => op_blade | Regressive => rp_blade (P + Q + R)
  end.
Definition unary_blade (u : unary) : N -> mv := match u with Reversion => rev_blade | Involution => inv_blade | Conjugation => conj_blade end.
Fixpoint denoted (P Q R : N) (f : formula) : mv :=
  match f with
  | Object _ m => m
  | Sum x y => denoted P Q R x ++ denoted P Q R y
  | Difference x y => denoted P Q R x ++ scale (-1) (denoted P Q R y)
  | Opposite x => scale (-1) (denoted P Q R x)
  | Product p x y => bilinear (product_blade P Q R p) (denoted P Q R x) (denoted P Q R y)
  | ByBlade p x b => bilinear (product_blade P Q R p) (denoted P Q R x) [(1%R, b)]
  | BladeBy p b x => bilinear (product_blade P Q R p) [(1%R, b)] (denoted P Q R x)
  | Unary u x => linear (unary_blade u) (denoted P Q R x)
  end.
(** Every object of the formula stores its coefficients, which are floating-point numbers, and has the value given;
    the basis blades belong to the space. *)
Fixpoint objects_ok (n : N) (f : formula) : Prop :=
  match f with
  | Object a m => stored n a /\ floating a /\ value a m
  | Sum x y | Difference x y | Product _ x y => objects_ok n x /\ objects_ok n y
  | ByBlade _ x b | BladeBy _ b x => objects_ok n x /\ (b < 2 ^ n)%N
  | Opposite x | Unary _ x => objects_ok n x
  end.
