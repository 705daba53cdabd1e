(** Model of cpp/include/gatl/ga/core/constexpr.hpp.

    [bitset_t] is modelled for GA_MAX_BASIS_VECTOR_INDEX >= 32, i.e. as
    std::uint64_t (core.hpp:87): a natural number below 2^64, every operation
    that can wrap is reduced modulo 2^64.  [default_integral_t] (std::int64_t) is modelled as [Z]
    without wrap-around: overflow of a constant expression is ill-formed in C++. *)
From Coq Require Import NArith ZArith List Bool.
Import ListNotations.
Local Open Scope N_scope.

(** std::numeric_limits<bitset_t>::digits (core.hpp:87). *)
Definition digits : N := 64.
(** Wrap-around of unsigned 64-bit arithmetic (the C++ standard, used by constexpr.hpp throughout). *)
Definition wrap (x : N) : N := x mod 2 ^ 64.

(** iabs: constexpr.hpp:32-34. *)
Definition iabs (a : Z) : Z := if (0 <=? a)%Z then a else (- a)%Z.

(** gcd: constexpr.hpp:37-39.  [lhs % rhs] is the truncated remainder
    ([Z.rem]).  The recursion is given fuel; [None] = fuel exhausted. *)
Fixpoint gcd_fuel (fuel : nat) (l r : Z) : option Z :=
  match fuel with
  | O => None
  | S f => if (r =? 0)%Z then Some l else gcd_fuel f r (Z.rem l r)
  end.
(** gcd with enough fuel for any second argument: constexpr.hpp:37-39. *)
Definition gcd (l r : Z) : option Z := gcd_fuel (2 * Z.to_nat (Z.log2 (Z.abs r)) + 3) l r.

(** sign: constexpr.hpp:42-44. *)
Definition sign (a : Z) : Z := if (0 <? a)%Z then 1%Z else if (a <? 0)%Z then (-1)%Z else 0%Z.

(** ipow: constexpr.hpp:47-49, with fuel; [None] = fuel exhausted. *)
Fixpoint ipow_fuel (fuel : nat) (b e : Z) : option Z :=
  match fuel with
  | O => None
  | S f =>
    if (e =? 1)%Z then Some b
    else if (e =? 0)%Z then Some 1%Z
    else match ipow_fuel f b (Z.shiftr e 1), ipow_fuel f b (Z.shiftr e 1), ipow_fuel f b (Z.rem e 2) with
         | Some x, Some y, Some z => Some (x * y * z)%Z
         | _, _, _ => None
         end
  end.
(** ipow with enough fuel for every non-negative exponent: constexpr.hpp:47-49. *)
Definition ipow (b e : Z) : option Z := ipow_fuel (S (S (Z.to_nat (Z.log2 e)))) b e.

(** _isqrt_impl: constexpr.hpp:52-54, with fuel; [None] = fuel exhausted. *)
Fixpoint isqrt_impl (fuel : nat) (sq dlt a : Z) : option Z :=
  match fuel with
  | O => None
  | S f => if (sq <=? a)%Z then isqrt_impl f (sq + dlt)%Z (dlt + 2)%Z a
           else Some (Z.shiftr dlt 1 - 1)%Z
  end.
(** isqrt: constexpr.hpp:56-58. *)
Definition isqrt (a : Z) : option Z := isqrt_impl (S (S (Z.to_nat (Z.sqrt a)))) 1 3 a.

(** _ones_impl_a: constexpr.hpp:61-63. *)
Definition ones_impl_a (x : N) : N :=
  wrap (N.land x 0x5555555555555555 + N.land (N.shiftr x 1) 0x5555555555555555).
(** _ones_impl_b: constexpr.hpp:65-67. *)
Definition ones_impl_b (a : N) : N :=
  wrap (N.land a 0x3333333333333333 + N.land (N.shiftr a 2) 0x3333333333333333).
(** _ones_impl_c: constexpr.hpp:69-71. *)
Definition ones_impl_c (b : N) : N :=
  wrap (N.land b 0x0F0F0F0F0F0F0F0F + N.land (N.shiftr b 4) 0x0F0F0F0F0F0F0F0F).
(** ones: constexpr.hpp:73-75. *)
Definition ones (x : N) : N :=
  N.shiftr (wrap (ones_impl_c (ones_impl_b (ones_impl_a x)) * 0x0101010101010101)) 56.

(** swaps_count: constexpr.hpp:78-80 (recursion on [lhs >> 1]; 65 steps
    exhaust a 64-bit word). *)
Fixpoint swaps_count_fuel (fuel : nat) (l r : N) : N :=
  match fuel with
  | O => 0
  | S f => if l =? 0 then 0 else ones (N.land l r) + swaps_count_fuel f (N.shiftr l 1) r
  end.
(** swaps_count: constexpr.hpp:78-80. *)
Definition swaps_count (l r : N) : N := swaps_count_fuel 65 l r.

(** _leftmost_set_bit_impl: constexpr.hpp:83-85; [n] doubles until it equals
    [digits], so 7 steps suffice for digits = 64. *)
Fixpoint leftmost_set_bit_impl (fuel : nat) (x n : N) : option N :=
  match fuel with
  | O => None
  | S f => if negb (n =? digits) then leftmost_set_bit_impl f (N.lor x (N.shiftr x 1)) (N.shiftl n 1)
           else Some (wrap (N.shiftr x 1 + 1))
  end.
(** leftmost_set_bit: constexpr.hpp:87-89. *)
Definition leftmost_set_bit (x : N) : option N :=
  if negb (x =? 0) then leftmost_set_bit_impl 8 x 1 else Some 0.

(** Two's complement negation of a 64-bit word ([-std::make_signed_t<bitset_t>(arg)]
    converted back to bitset_t, constexpr.hpp:93). *)
Definition neg64 (x : N) : N := wrap (2 ^ 64 - wrap x).
(** rightmost_set_bit: constexpr.hpp:92-94. *)
Definition rightmost_set_bit (x : N) : N := N.land x (neg64 x).

(** Unsigned decrement [arg - bitset_t(1)] (constexpr.hpp:98). *)
Definition dec64 (x : N) : N := wrap (x + (2 ^ 64 - 1)).
(** set_bit_index: constexpr.hpp:97-99. *)
Definition set_bit_index (x : N) : N := ones (dec64 x).

(** first_combination: constexpr.hpp:102-104. *)
Definition first_combination (k : N) : N := dec64 (wrap (N.shiftl 1 k)).

(** _next_combination_impl_b: constexpr.hpp:107-109.  Division by zero
    ([rightmost_one = 0]) is undefined behaviour: [None]. *)
Definition next_combination_impl_b (curr r temp : N) : option N :=
  if negb (temp =? 0)
  then if r =? 0 then None
       else Some (wrap (temp + N.shiftr (N.div (N.lxor temp curr) r) 2))
  else Some 0.
(** _next_combination_impl_a: constexpr.hpp:111-113. *)
Definition next_combination_impl_a (curr mask r : N) : option N :=
  next_combination_impl_b curr r (N.land (wrap (r + curr)) mask).
(** next_combination: constexpr.hpp:115-117. *)
Definition next_combination (curr mask : N) : option N :=
  next_combination_impl_a curr mask (rightmost_set_bit curr).

(** safe_rshift: constexpr.hpp:144-146 (for a 64-bit left operand). *)
Definition safe_rshift (x k : N) : N := if k <? 64 then N.shiftr x k else 0.
