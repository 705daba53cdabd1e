(** Model of the loops built on the bit tricks: util/for_each_basis_vector.hpp
    and the blade enumeration of util/multivector.hpp. *)
From Coq Require Import NArith List Bool.
From Verif Require Import Bits.
Import ListNotations.
Local Open Scope N_scope.

(** The visitor is a function from its own state and the visited (1-based) index
    to its new state and the value it leaves in [keep_going]
    (for_each_basis_vector.hpp:31).  The loop: for_each_basis_vector.hpp:32-40.
    [None] = fuel exhausted. *)
Fixpoint for_each_basis_vector_loop {S : Type} (fuel : nat) (f : S -> N -> S * bool)
    (st : S) (arg : N) (keep_going : bool) : option (S * bool) :=
  match fuel with
  | O => None
  | Datatypes.S fuel' =>
    if negb (arg =? 0) && keep_going then
      let current := rightmost_set_bit arg in
      let '(st', kg) := f st (set_bit_index current + 1) in
      for_each_basis_vector_loop fuel' f st' (N.lxor arg current) kg
    else Some (st, keep_going)
  end.
(** for_each_basis_vector(bitset_t, Function): for_each_basis_vector.hpp:32-40. *)
Definition for_each_basis_vector {S : Type} (f : S -> N -> S * bool) (st : S) (arg : N) :=
  for_each_basis_vector_loop 65 f st arg true.

(** make_kvector_expression: util/multivector.hpp:38-46, as the list of the
    bitsets of the components it adds, in the order in which they are added;
    the trailing zero component is the empty list.  [None] = fuel exhausted or
    division by zero inside next_combination. *)
Fixpoint kvector_bitsets (fuel : nat) (mask b : N) : option (list N) :=
  match fuel with
  | O => None
  | S fuel' =>
    if b =? 0 then Some []
    else match next_combination b mask with
         | None => None
         | Some b' => match kvector_bitsets fuel' mask b' with
                      | None => None
                      | Some l => Some (b :: l)
                      end
         end
  end.
