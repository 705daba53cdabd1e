(** Model of util/for_each_component.hpp and of the zero test of extra/tests.hpp.
    Map storage is not modelled. *)
From Coq Require Import NArith ZArith List Bool Reals.
From Verif Require Import Bits Expr Sem Simp Comp EvalC Lazy.
Import ListNotations.
Local Open Scope R_scope.

(** Conversion of a number to the coefficient type of an object: to an integral type it drops the
    fractional part (the standard conversions at for_each_component.hpp:62, 85, tests.hpp:33,
    trivial_copy.hpp:248, 257, 282, 297, 380).  Values outside the range of the type are not modelled. *)
Definition truncate (x : R) : R := if Rle_dec 0 x then IZR (Int_part x) else - IZR (Int_part (- x)).
(** static_cast<ValueType>(x), same lines. *)
Definition cast (int : bool) (x : R) : R := if int then truncate x else x.

(** Coefficient::eval<0, 0>(std::make_tuple()): for_each_component.hpp:62, trivial_copy.hpp:248.
    A getter has no value there. *)
Definition no_env : env := {| ev := fun _ _ => None; eb := fun _ _ => None |}.
(** Same lines. *)
Definition eval_const (c : expr) : done R := to_value (run (fun _ _ => true) no_env c).

(** entry_source_t: for_each_component.hpp:30 (without the entries of maps). *)
Inductive source := CompileTime | StoredRuntime.

(** The visitor: from what it can reach by reference, a blade, a value and the two sources to its
    new state and the value it leaves in [keep_going].  (The functor itself is handed over by value
    at 44-46, so the state it holds by value is not kept from one component to the next.) *)
Definition visitor (S : Type) := S -> N -> R -> source -> source -> S * bool.

(** What remains of the storage: the iterators of for_each_component.hpp:125-127. *)
Definition cursor := (list R * list N)%type.

(** *value_citr and ++value_citr: for_each_component.hpp:72-73, 96-97. *)
Definition next_value (s : cursor) : done (R * cursor) :=
  match fst s with v :: vs => Done (v, (vs, snd s)) | [] => Bad end.
(** *bitset_citr and ++bitset_citr: for_each_component.hpp:85-86, 96, 98. *)
Definition next_bits (s : cursor) : done (N * cursor) :=
  match snd s with b :: bs => Done (b, (fst s, bs)) | [] => Bad end.
(** Sequencing. *)
Definition dbind {A B} (x : done A) (f : A -> done B) : done B :=
  match x with Done a => f a | Ovf => Ovf | Bad => Bad end.

(** The components with a specialisation of _for_each_component_impl_inner_iteration whose
    static_assert holds: for_each_component.hpp:55-96. *)
Definition visitable (e : expr) : bool :=
  match e with
  | Comp c (CBlade _) => can_be_stored c
  | Comp c (DBlade _ SBits) => can_be_stored c
  | _ => false
  end.
(** _for_each_component_impl_inner_iteration::run: for_each_component.hpp:60-64, 70-75, 83-88,
    94-101.  [int]: CoefficientType is integral. *)
Definition inner_iteration {S} (int : bool) (f : visitor S) (st : S) (e : expr) (s : cursor) : done (S * bool * cursor) :=
  match e with
  | Comp SV (CBlade b) => dbind (next_value s) (fun p => Done (f st b (fst p) CompileTime StoredRuntime, snd p))
  | Comp SV (DBlade _ SBits) =>
    dbind (next_bits s) (fun q => dbind (next_value (snd q)) (fun p =>
    Done (f st (fst q) (fst p) StoredRuntime StoredRuntime, snd p)))
  | Comp c (CBlade b) => dbind (eval_const c) (fun v => Done (f st b (cast int v) CompileTime CompileTime, s))
  | Comp c (DBlade _ SBits) =>
    dbind (eval_const c) (fun v => dbind (next_bits s) (fun q =>
    Done (f st (fst q) (cast int v) StoredRuntime CompileTime, snd q)))
  | _ => Bad
  end.

(** _for_each_component_impl::run: for_each_component.hpp:41-53; the rest is only visited if the
    first component kept going. *)
Fixpoint for_each_list {S} (int : bool) (f : visitor S) (st : S) (l : list expr) (s : cursor) : done (S * bool) :=
  match l with
  | [] => Bad
  | [e] => dbind (inner_iteration int f st e s) (fun p => Done (fst p))
  | e :: l' =>
    match inner_iteration int f st e s with
    | Done (st', true, s') => for_each_list int f st' l' s'
    | Done (st', false, _) => Done (st', false)
    | Ovf => Ovf
    | Bad => Bad
    end
  end.
(** for_each_component: for_each_component.hpp:122-129.  [None]: does not compile. *)
Definition for_each_component {S} (f : visitor S) (st : S) (a : cliff) : option (done (S * bool)) :=
  if can_be_stored (cexpr a) && forallb visitable (comps_of (cexpr a))
  then Some (for_each_list (cint a) f st (comps_of (cexpr a)) (cvals a, cbits a)) else None.

(** is_zero: extra/tests.hpp:30-34; [tol] is converted to the coefficient type.  (The absolute value
    of the smallest integer is not modelled.) *)
Definition is_zero (a : cliff) (tol : R) : option (done bool) :=
  r <- for_each_component (fun (st : unit) _ v _ _ => (st, if Rle_dec (Rabs v) (cast (cint a) tol) then true else false)) tt a ;;
  Some (dbind r (fun p => Done (snd p))).
