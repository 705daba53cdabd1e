(** Model of core/trivial_copy.hpp.  The specialisations are resolved on the types ([plan]), which
    yields the sequence of assignments that is then executed ([execute]).  Map storage is not
    modelled. *)
From Coq Require Import NArith ZArith List Bool Reals.
From Verif Require Import Bits Expr Sem Simp Comp EvalC Lazy ForEach.
Import ListNotations.
Local Open Scope R_scope.

(** One statement of the run functions of _trivial_assign, _trivial_set_zero and
    _trivial_check_zero: copy a stored value (257-259, 297-299), store a constant (248-249,
    282-283), copy a bitset (270-272, 285-287, 301-303), store a zero value or bitset (349-350,
    358-362), check a stored value (380-383, 392-395), skip a bitset (396). *)
Inductive step := MoveV | ConstV (c : expr) | MoveB | ZeroV | ZeroB | CheckV | SkipB.

(** component<constant_value<0>, constant_basis_blade<0>>: what replaces an exhausted side (177,
    186, 212, 230). *)
Definition no_component : expr := Comp (CV 0) (CBlade 0).
(** add_t<Next...> or, for an exhausted side, [no_component] (168, 177, 186, 203, 212, 221, 230). *)
Definition next_components (l : list expr) : list expr := match l with [] => [no_component] | _ => l end.

(** eq_v on basis blades: expression_relational_operators.hpp:49-53. *)
Definition eq_blade (x y : expr) : bool := negb (lt x y) && negb (lt y x).

(** _trivial_assign: trivial_copy.hpp:234-305. *)
Definition assign_steps (x y : expr) : option (list step) :=
  match x, y with
  | Comp SV (CBlade b), Comp SV (CBlade b') => if N.eqb b b' then Some [MoveV] else None
  | Comp c (CBlade b), Comp SV (CBlade b') => if N.eqb b b' && is_constant c then Some [ConstV c] else None
  | Comp c (CBlade b), Comp d (CBlade b') => if N.eqb b b' && expr_eqb c d && is_constant c then Some [] else None
  | Comp SV (DBlade p SBits), Comp SV (DBlade q SBits) => if N.eqb (N.land p q) p then Some [MoveV; MoveB] else None
  | Comp c (DBlade p SBits), Comp SV (DBlade q SBits) =>
    if N.eqb (N.land p q) p && is_constant c then Some [ConstV c; MoveB] else None
  | Comp c (DBlade p SBits), Comp d (DBlade q SBits) =>
    if N.eqb (N.land p q) p && expr_eqb c d && is_constant c then Some [MoveB] else None
  | _, _ => None
  end.
(** _trivial_set_zero: trivial_copy.hpp:345-364. *)
Definition zero_steps (y : expr) : option (list step) :=
  match y with
  | Comp SV (CBlade _) => Some [ZeroV]
  | Comp SV (DBlade _ SBits) => Some [ZeroV; ZeroB]
  | _ => None
  end.
(** _trivial_check_zero: trivial_copy.hpp:375-398. *)
Definition check_steps (x : expr) : option (list step) :=
  match x with
  | Comp SV (CBlade _) => Some [CheckV]
  | Comp SV (DBlade _ SBits) => Some [CheckV; SkipB]
  | _ => None
  end.
(** Is the coefficient constant_value<0>? (e.g. trivial_copy.hpp:99). *)
Definition is_zero_coef (e : expr) : bool := match e with Comp (CV 0) _ => true | _ => false end.
(** Is it the last component? *)
Definition last_one (l : list expr) : bool := match l with [] => true | _ => false end.

(** _trivial_copy and the three advancing structures: trivial_copy.hpp:67-232.  [xs], [ys]: the
    components of the two types.  [None]: does not compile ([fuel]: recursion depth). *)
Fixpoint plan (fuel : nat) (check : bool) (xs ys : list expr) : option (list step) :=
  match fuel, xs, ys with
  | S k, (Comp _ bx as x) :: xs', (Comp _ by_ as y) :: ys' =>
    if eq_blade bx by_ then                                                    (* 67-89, 163-196 *)
      h <- assign_steps x y ;;
      if last_one xs' && last_one ys' then Some h
      else t <- plan k check (next_components xs') (next_components ys') ;; Some (h ++ t)
    else if lt by_ bx then                                                     (* 91-125 *)
      if last_one ys' && is_zero_coef y then
        if check then h <- check_steps x ;; t <- plan k check (next_components xs') ys ;; Some (h ++ t) else None
      else h <- zero_steps y ;; t <- plan k check xs (next_components ys') ;; Some (h ++ t)
    else if lt bx by_ then                                                     (* 127-161 *)
      if last_one xs' && is_zero_coef x then
        h <- zero_steps y ;; t <- plan k check xs (next_components ys') ;; Some (h ++ t)
      else if check then h <- check_steps x ;; t <- plan k check (next_components xs') ys ;; Some (h ++ t) else None
    else None
  | _, _, _ => None
  end.

(** Outcome of a copy: the entries stored in the destination; bad_checked_copy_exception (381, 393);
    or no result (a constant that cannot be evaluated). *)
Inductive copied := Copied (vs : list R) (bs : list N) | Throws | NoCopy.
(** One more stored value. *)
Definition put_v (v : R) (r : copied) : copied := match r with Copied vs bs => Copied (v :: vs) bs | o => o end.
(** One more stored bitset. *)
Definition put_b (b : N) (r : copied) : copied := match r with Copied vs bs => Copied vs (b :: bs) | o => o end.
(** The run functions, in order.  [rint]: the destination's coefficient type is integral; [tol]: the
    tolerance converted to the source's coefficient type (380, 392). *)
Fixpoint execute (rint : bool) (tol : R) (l : list step) (vs : list R) (bs : list N) : copied :=
  match l with
  | [] => Copied [] []
  | MoveV :: l' => match vs with v :: vs' => put_v (cast rint v) (execute rint tol l' vs' bs) | [] => NoCopy end
  | ConstV c :: l' => match eval_const c with Done v => put_v (cast rint v) (execute rint tol l' vs bs) | _ => NoCopy end
  | MoveB :: l' => match bs with b :: bs' => put_b b (execute rint tol l' vs bs') | [] => NoCopy end
  | ZeroV :: l' => put_v 0 (execute rint tol l' vs bs)
  | ZeroB :: l' => put_b 0%N (execute rint tol l' vs bs)
  | CheckV :: l' =>
    match vs with
    | v :: vs' => if Rlt_dec tol (Rabs v) then Throws else execute rint tol l' vs' bs
    | [] => NoCopy
    end
  | SkipB :: l' => match bs with _ :: bs' => execute rint tol l' vs bs' | [] => NoCopy end
  end.

(** Outcome of a copy into an object.  What a destination holds after an exception is not modelled. *)
Inductive copy_result := CopyDone (r : cliff) | CopyThrows | CopyBad.
(** Body of checked_trivial_copy (418-428) and trivial_copy (457-467); the overloads for equal types
    assign the object (436-443, 470-472).  Coefficient types are only told apart by being integral
    or not; a copy between float and double of the same type goes through the general overload and
    stores the same numbers.  [None]: does not compile. *)
Definition copy_into (check : bool) (tol : R) (a r : cliff) : option copy_result :=
  if expr_eqb (cexpr a) (cexpr r) && Bool.eqb (cint a) (cint r) then Some (CopyDone a)
  else
    let xs := comps_of (cexpr a) in
    let ys := comps_of (cexpr r) in
    steps <- plan (2 * (length xs + length ys)) check xs ys ;;
    Some match execute (cint r) (cast (cint a) tol) steps (cvals a) (cbits a) with
         | Copied vs bs => CopyDone {| cexpr := cexpr r; cint := cint r; cvals := vs; cbits := bs |}
         | Throws => CopyThrows
         | NoCopy => CopyBad
         end.
(** checked_trivial_copy(input, result, tol): trivial_copy.hpp:418-428, 436-438. *)
Definition checked_trivial_copy (a r : cliff) (tol : R) : option copy_result := copy_into true tol a r.
(** trivial_copy(input, result): trivial_copy.hpp:457-472. *)
Definition trivial_copy (a r : cliff) : option copy_result := copy_into false 0 a r.
