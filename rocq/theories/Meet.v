(** Model of the functions of ga/extra on pairs of blades: fast_join, fast_meet_and_join, fast_plunge,
    meet_and_join and plunge.

    The library functions they call are those of the other files of the model.  In C++ every branch is
    compiled; the model only looks at the calls that are executed ([None]: one of them does not compile). *)
From Coq Require Import NArith ZArith List Bool Reals.
From Verif Require Import Bits Visit Expr Sem Simp Comp Mapping Ops EvalC Lazy Api Extra ForEach Copy Grade Norm Build.
Import ListNotations.
Local Open Scope R_scope.

(** Outcome of a run: a value, the exception bad_checked_copy_exception (trivial_copy.hpp:381, 393), an
    integer overflow in a constant expression, or no value. *)
Inductive out (A : Type) := Ret (a : A) | Thrown | Overflow | NoValue.
Arguments Ret {A} a. Arguments Thrown {A}. Arguments Overflow {A}. Arguments NoValue {A}.
(** Sequencing of statements. *)
Definition obind {A B} (x : option (out A)) (f : A -> option (out B)) : option (out B) :=
  match x with
  | Some (Ret a) => f a
  | Some Thrown => Some Thrown
  | Some Overflow => Some Overflow
  | Some NoValue => Some NoValue
  | None => None
  end.
Notation "x <~ a ;; b" := (obind a (fun x => b)) (at level 61, a at next level, right associativity).
(** The outcome of a library call. *)
Definition ran {A} (r : option (done A)) : option (out A) :=
  match r with Some (Done a) => Some (Ret a) | Some Ovf => Some Overflow | Some Bad => Some NoValue | None => None end.
(** The object a copy leaves in its destination. *)
Definition copied_to (r : option copy_result) : option (out cliff) :=
  match r with Some (CopyDone a) => Some (Ret a) | Some CopyThrows => Some Thrown | Some CopyBad => Some NoValue | None => None end.
(** A type that must exist. *)
Definition typed (e : option expr) : option (out expr) := match e with Some t => Some (Ret t) | None => None end.

(** smallest_possible_grade: grade.hpp:227-240. *)
Definition smallest_grade (e : expr) : N :=
  match map (fun x => match x with Comp _ b => set_bit_index (rightmost_set_bit (possible_grades b)) | _ => 0%N end) (comps_of e) with
  | [] => 0%N
  | g :: l => fold_right N.min g l
  end.
(** largest_possible_grade: grade.hpp:210-224. *)
Definition largest_grade_of (e : expr) : N :=
  fold_right N.max 0%N (map (fun x => match x with Comp _ b => match leftmost_set_bit (possible_grades b) with Some s => set_bit_index s | None => 0%N end | _ => 0%N end) (comps_of e)).
(** A multivector of the given type "initialized with zeros": fast_meet_and_join.hpp:46,
    meet_and_join.hpp:47-48. *)
Definition zeros (e : expr) (int : bool) : cliff :=
  {| cexpr := e; cint := int; cvals := repeat 0 (count_vals e); cbits := repeat 0%N (count_bits e) |}.
(** *(x.values().begin() + i) = 1: fast_meet_and_join.hpp:81, 87, meet_and_join.hpp:84. *)
Definition put_one (i : nat) (a : cliff) : option (out cliff) :=
  if Nat.ltb i (length (cvals a))
  then Some (Ret {| cexpr := cexpr a; cint := cint a; cvals := firstn i (cvals a) ++ 1 :: skipn (S i) (cvals a); cbits := cbits a |})
  else Some NoValue.
(** Conversion of a grade_result to grade_t: grade.hpp:72-74, 107-109 (deleted for other types, 52). *)
Definition grade_number (r : cliff) : option (out Z) :=
  match cexpr r, cvals r with
  | Comp SV (CBlade 0), v :: _ => Some (Ret (Int_part v))
  | Comp (CV z) (CBlade 0), _ => Some (Ret z)
  | _, _ => None
  end.
(** grade_t const g = grade(a, tol): fast_meet_and_join.hpp:112-113, meet_and_join.hpp:56, 130-131. *)
Definition grade_in (F n : nat) (a tol : cliff) : option (out Z) := r <~ ran (grade F n a tol) ;; grade_number r.
(** unit(a, em): unit.hpp:30-40; scalars have an overload of their own. *)
Definition unit_em (F n : nat) (a : cliff) : result :=
  match cexpr a with Comp _ (CBlade 0) => unit_scalar F n a | _ => unit F n Real a end.
(** op(a, b, em), rcont(a, b, em): outer_product.hpp:30-34, right_contraction.hpp:66-70 in
    real_metric_space (real_metric_space.hpp:31-46), which has 63 dimensions. *)
Definition op_em (F n : nat) (a b : cliff) : result := outer F n 63 a b.
Definition rcont_em (F n : nat) (a b : cliff) : result := call F n (op2 (cmul F n (rcont_real_map F))) [a; b].
(** project_vector: fast_meet_and_join.hpp:41-44, meet_and_join.hpp:42-45. *)
Definition project_vector (F n : nat) (v b i : cliff) : result :=
  in_context F n [v; b; i] (fun l => match l with
    | [x; y; z] => andthen (lcont_in F n Real x z) (fun p => andthen (lcont_in F n Real p y) (fun q => take_grade F n q (c_obj 1)))
    | _ => None end).
(** The component with the largest absolute value: fast_meet_and_join.hpp:59-78, meet_and_join.hpp:71-80;
    largest_basis_vectors, largest_abs_value, largest_index, current_stored_index. *)
Definition largest_component (b : cliff) : option (out (N * nat)) :=
  r <~ ran (for_each_component (fun (st : N * R * nat * nat) bv v _ _ =>
       let '(lb, lv, li, ci) := st in
       (if Rlt_dec lv (Rabs v) then (bv, Rabs v, ci, S ci) else (lb, lv, li, S ci), true)) (0%N, -1, 0%nat, 0%nat) b) ;;
  let '(lb, _, li, _) := fst r in Some (Ret (lb, li)).
(** The loop over the basis vectors of the largest component: fast_meet_and_join.hpp:85-96,
    meet_and_join.hpp:82-109; the visitor's state is what it reaches by reference. *)
Definition loop {A} (f : A -> N -> option (out (A * bool))) (st : A) (bv : N) : option (out A) :=
  match for_each_basis_vector (fun (s : option (out A)) i =>
          match obind s (fun a => f a i) with
          | Some (Ret (a, keep)) => (Some (Ret a), keep)
          | Some Thrown => (Some Thrown, false)
          | Some Overflow => (Some Overflow, false)
          | Some NoValue => (Some NoValue, false)
          | None => (None, false)
          end) (Some (Ret st)) bv with
  | Some (s, _) => s
  | None => None
  end.

(** The object largest: a derived type of the type of rhs, full_derived_multivector_t<default_integral_t,
    RightExpression>, with a one at the given entry: fast_meet_and_join.hpp:80-81. *)
Definition largest_blade (F n : nat) (rhs : cliff) (i : nat) : option (out cliff) :=
  lt <~ typed (derived F n (cexpr rhs)) ;; put_one i {| cexpr := lt; cint := true; cvals := repeat 0 (count_vals lt); cbits := cbits rhs |}.

Section Blades.
Variables (F n fuel : nat) (dim : N).
(** full_vector_t<default_integral_t, N> f; *(f.values().begin() + (index - 1)) = 1:
    fast_meet_and_join.hpp:86-87, meet_and_join.hpp:83-84. *)
Definition basis_f (i : N) : option (out cliff) :=
  t <~ typed (full_multivector F n fuel dim 1 1) ;; put_one (N.to_nat (i - 1)) (zeros t true).

(** One iteration: fast_meet_and_join.hpp:85-96; state: join, current_grade_join.  [tol]: the number in the
    scalar tol. *)
Definition fast_join_step (rhs inv_largest : cliff) (tol : R) (st : cliff * Z) (i : N) : option (out (cliff * Z * bool)) :=
  let '(join, g) := st in
  f <~ basis_f i ;;
  p <~ ran (project_vector F n f rhs inv_largest) ;;
  u <~ ran (unit_em F n p) ;;
  next <~ ran (op_em F n join u) ;;
  z <~ ran (is_zero next tol) ;;
  if z then Some (Ret (join, g, true))
  else w <~ ran (unit_em F n next) ;; j <~ copied_to (checked_trivial_copy w join tol) ;;
       Some (Ret (j, (g + 1)%Z, Z.leb (g + 1) (Z.of_N dim))).
(** join_type: fast_meet_and_join.hpp:37. *)
Definition join_type (lhs rhs : expr) : option expr :=
  full_multivector F n fuel dim (N.max (smallest_grade lhs) (smallest_grade rhs)) (N.min (largest_grade_of lhs + largest_grade_of rhs) dim).
(** _fast_join_impl: fast_meet_and_join.hpp:33-104. *)
Definition fast_join_impl (flip : bool) (lhs : cliff) (gl : Z) (rhs : cliff) (gr : Z) (tol : R) : option (out cliff) :=
  t <~ typed (join_type (cexpr lhs) (cexpr rhs)) ;;
  let join := zeros t (cint lhs && cint rhs) in
  if (Z.eqb gl (-2) || Z.eqb gr (-2))%bool then Some (Ret join)
  else
    u <~ ran (unit_em F n lhs) ;;
    join <~ copied_to (checked_trivial_copy u join tol) ;;
    if (Z.eqb gl 0 || Z.eqb gl (Z.of_N dim))%bool then Some (Ret join)
    else
      l <~ largest_component rhs ;;
      largest <~ largest_blade F n rhs (snd l) ;;
      inv_largest <~ ran (reverse F n largest) ;;
      r <~ loop (fast_join_step rhs inv_largest tol) (join, gl) (fst l) ;;
      if (flip && Z.odd (gl * gr))%bool then ran (neg F n (fst r)) else Some (Ret (fst r)).
(** fast_join(lhs, rhs, tol, mtr): fast_meet_and_join.hpp:109-115; [tint]: the tolerance has an integral
    type. *)
Definition fast_join (lhs rhs : cliff) (tint : bool) (tol : R) : option (out cliff) :=
  gl <~ grade_in F n lhs (scalar_obj tint tol) ;;
  gr <~ grade_in F n rhs (scalar_obj tint tol) ;;
  if Z.leb gr gl then fast_join_impl false lhs gl rhs gr tol else fast_join_impl true rhs gr lhs gl tol.
(** fast_meet_and_join(lhs, rhs, tol, mtr): fast_meet_and_join.hpp:123-128. *)
Definition fast_meet_and_join (lhs rhs : cliff) (tint : bool) (tol : R) : option (out (cliff * cliff)) :=
  join <~ fast_join lhs rhs tint tol ;;
  i <~ ran (inv F n Real join) ;;
  d <~ ran (lcont_in F n Real rhs i) ;;
  meet <~ ran (lcont_in F n Real d lhs) ;;
  Some (Ret (meet, join)).
(** fast_plunge(lhs, rhs, tol, mtr): fast_plunge.hpp:31-34. *)
Definition fast_plunge (S : space) (lhs rhs : cliff) (tint : bool) (tol : R) : option (out cliff) :=
  join <~ fast_join lhs rhs tint tol ;;
  a <~ ran (dual F n S rhs join) ;;
  b <~ ran (dual F n S lhs join) ;;
  ran (outer F n dim a b).

(** What the loop of _meet_and_join_impl reads: meet_and_join.hpp:67-69. *)
Record meet_args := { m_lhs : cliff; m_inv_lhs : cliff; m_rhs : cliff; m_dual : cliff; m_inv_dual : cliff }.
(** One iteration: meet_and_join.hpp:82-109; state: meet, its grade, join, its grade. *)
Definition meet_step (x : meet_args) (gmeet gjoin : Z) (tol : R) (st : cliff * Z * cliff * Z) (i : N) : option (out (cliff * Z * cliff * Z * bool)) :=
  let '(meet, gm, join, gj) := st in
  f <~ basis_f i ;;
  d <~ ran (project_vector F n f (m_dual x) (m_inv_dual x)) ;;
  p <~ ran (project_vector F n d (m_lhs x) (m_inv_lhs x)) ;;
  z <~ ran (is_zero p tol) ;;
  s <~ (if z then Some (Ret (meet, gm, join, true))
        else w <~ ran (op_em F n meet p) ;; m <~ copied_to (checked_trivial_copy w meet tol) ;;
             if Z.eqb (gm + 1) gmeet
             then i <~ ran (inv F n Real m) ;; c <~ ran (rcont_em F n (m_lhs x) i) ;; o <~ ran (op_em F n c (m_rhs x)) ;;
                  j <~ copied_to (trivial_copy o join) ;; Some (Ret (m, (gm + 1)%Z, j, false))
             else Some (Ret (m, (gm + 1)%Z, join, true))) ;;
  let '(meet, gm, join, keep) := s in
  if negb keep then Some (Ret (meet, gm, join, gj, false))
  else
    r <~ ran (minus F n d p) ;;
    z <~ ran (is_zero r tol) ;;
    if z then Some (Ret (meet, gm, join, gj, true))
    else w <~ ran (lcont_in F n Real r join) ;; j <~ copied_to (checked_trivial_copy w join tol) ;;
         if Z.eqb (gj - 1) gjoin
         then i <~ ran (inv F n Real j) ;; c <~ ran (lcont_in F n Real (m_rhs x) i) ;; o <~ ran (lcont_in F n Real c (m_lhs x)) ;;
              m <~ copied_to (trivial_copy o meet) ;; Some (Ret (m, gm, j, (gj - 1)%Z, false))
         else Some (Ret (meet, gm, j, (gj - 1)%Z, true)).
(** meet_type and join_type: meet_and_join.hpp:37-38. *)
Definition meet_type (lhs rhs : expr) : option expr := full_multivector F n fuel dim 0 (N.min (largest_grade_of lhs) (largest_grade_of rhs)).
Definition full_join_type (lhs rhs : expr) : option expr := full_multivector F n fuel dim (N.max (smallest_grade lhs) (smallest_grade rhs)) dim.
(** _meet_and_join_impl: meet_and_join.hpp:33-122; [dtol]: default_tolerance<...>(), which dp uses
    (default_tolerance.hpp:42-58), [tol]: the number in the scalar tol. *)
Definition meet_and_join_impl (flip : bool) (lhs : cliff) (gl : Z) (rhs : cliff) (gr : Z) (tint : bool) (tol : R) (dtol : cliff) : option (out (cliff * cliff)) :=
  mt <~ typed (meet_type (cexpr lhs) (cexpr rhs)) ;;
  jt <~ typed (full_join_type (cexpr lhs) (cexpr rhs)) ;;
  let int := (cint lhs && cint rhs)%bool in
  let meet := zeros mt int in
  let join := zeros jt int in
  if (Z.eqb gl (-2) || Z.eqb gr (-2))%bool then Some (Ret (meet, join))
  else
    delta <~ ran (dp F n Real lhs rhs dtol) ;;
    gd <~ grade_in F n delta (scalar_obj tint tol) ;;
    let gmeet := Z.div2 (gl + gr - gd) in
    let gjoin := Z.div2 (gl + gr + gd) in
    r <~ (if negb (Z.eqb gd (gl + gr)) then
            meet <~ copied_to (trivial_copy (c_obj 1) meet) ;;
            join <~ copied_to (trivial_copy (pseudoscalar dim) join) ;;
            dd <~ ran (dual F n Real delta (pseudoscalar dim)) ;;
            idd <~ ran (inv F n Real dd) ;;
            il <~ ran (inv F n Real lhs) ;;
            l <~ largest_component dd ;;
            st <~ loop (meet_step {| m_lhs := lhs; m_inv_lhs := il; m_rhs := rhs; m_dual := dd; m_inv_dual := idd |} gmeet gjoin tol)
                       (meet, 0%Z, join, Z.of_N dim) (fst l) ;;
            let '(meet, _, join, _) := st in Some (Ret (meet, join))
          else
            meet <~ copied_to (trivial_copy (c_obj 1) meet) ;;
            join <~ copied_to (checked_trivial_copy delta join tol) ;;
            Some (Ret (meet, join))) ;;
    if (flip && Z.odd ((gjoin - gl) * (gjoin - gr)))%bool
    then m <~ ran (neg F n (fst r)) ;; j <~ ran (neg F n (snd r)) ;; Some (Ret (m, j))
    else Some (Ret r).
(** meet_and_join(lhs, rhs, tol, mtr): meet_and_join.hpp:127-133. *)
Definition meet_and_join (lhs rhs : cliff) (tint : bool) (tol : R) (dtol : cliff) : option (out (cliff * cliff)) :=
  gl <~ grade_in F n lhs (scalar_obj tint tol) ;;
  gr <~ grade_in F n rhs (scalar_obj tint tol) ;;
  if Z.leb gl gr then meet_and_join_impl false lhs gl rhs gr tint tol dtol else meet_and_join_impl true rhs gr lhs gl tint tol dtol.
(** plunge(lhs, rhs, tol, mtr): plunge.hpp:31-34. *)
Definition plunge (S : space) (lhs rhs : cliff) (tint : bool) (tol : R) (dtol : cliff) : option (out cliff) :=
  r <~ meet_and_join lhs rhs tint tol dtol ;;
  a <~ ran (dual F n S rhs (snd r)) ;;
  b <~ ran (dual F n S lhs (snd r)) ;;
  ran (outer F n dim a b).
End Blades.
