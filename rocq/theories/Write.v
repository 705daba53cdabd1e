(** Model of extra/write.hpp: printing a multivector.  The text written to the stream is the result; the
    iterators of the stored values and bitsets are the state.  [None]: there is no such specialisation, a read
    past the end of the storage, or a basis vector without a name.  Maps are not modelled (write.hpp:74-78,
    110-114, 147-170). *)
From Coq Require Import NArith ZArith List Bool Reals String.
From Verif Require Import Bits Expr Sem Simp Comp EvalC Lazy.
Import ListNotations.
Local Open Scope string_scope.

(** How the stream prints a number: [of_int] an integer of the library (operator << of default_integral_t,
    tag_t and std::size_t), [of_num] a coefficient (operator << of the coefficient type). *)
Record format := { of_int : Z -> string; of_num : R -> string }.

Section Write.
Variable (f : format) (names : list string).

(** The loop of write_basis_blade: write.hpp:37-50. *)
Fixpoint write_vectors (fuel : nat) (arg bitset : N) : option string :=
  match fuel with
  | O => None
  | S fuel' =>
    if (bitset =? 0)%N then Some ""
    else
      let first := rightmost_set_bit bitset in
      match nth_error names (N.to_nat (ones (dec64 first))), write_vectors fuel' arg (N.lxor bitset first) with
      | Some v, Some t => Some ((if (bitset =? arg)%N then "" else "^") ++ v ++ t)
      | _, _ => None
      end
  end.
(** write_basis_blade: write.hpp:31-52. *)
Definition write_basis_blade (arg : N) : option string := if (arg =? 0)%N then Some "1" else write_vectors 65 arg arg.

(** Text and state. *)
Definition written := option (string * (list R * list N)).
(** os << t, after what was written. *)
Definition then_text (x : written) (t : string) : written := match x with Some (s, m) => Some (s ++ t, m) | None => None end.
(** os << t, before what is written. *)
Definition text_then (t : string) (x : written) : written := match x with Some (s, m) => Some (t ++ s, m) | None => None end.
(** One run after the other, with a text in between. *)
Definition with_text (t : string) (x : written) (k : list R * list N -> written) : written :=
  match x with Some (s, m) => text_then (s ++ t) (k m) | None => None end.
(** The names of the functions with one argument and of the infix operators: write.hpp:225-312, 327-335 and
    337-451. *)
Definition call_name (g : fname) : option string :=
  match g with
  | NAbs => Some "abs(" | NExp => Some "exp(" | NLog => Some "log(" | NCos => Some "cos(" | NSin => Some "sin(" | NTan => Some "tan("
  | NCosh => Some "cosh(" | NSinh => Some "sinh(" | NTanh => Some "tanh(" | NCount => Some "count_one_bits(" | _ => None
  end.
Definition infix_name (g : fname) : option string :=
  match g with
  | NShl => Some " LSHIFTb " | NAnd => Some " ANDb " | NOr => Some " ORb " | NXor => Some " XORb " | NEqual => Some " == "
  | NLe => Some " <= " | NLand => Some " AND " | NLor => Some " OR " | _ => None
  end.

(** write_expression: write.hpp:54-464. *)
Fixpoint write_expression (e : expr) (m : list R * list N) {struct e} : written :=
  match e with
  | CV z => Some ("<" ++ of_int f z ++ ">", m)
  | GV t i => Some ("{Tag: " ++ of_int f (Z.of_N t) ++ ", ValueIndex: " ++ of_int f (Z.of_N i) ++ "}", m)
  | SV => match fst m with
          | v :: vs => Some (if Rle_dec 0 v then of_num f v else "(" ++ of_num f v ++ ")", (vs, snd m))
          | [] => None
          end
  | CBits b | CBlade b => match write_basis_blade b with Some t => Some ("<" ++ t ++ ">", m) | None => None end
  | GBits t i => Some ("{Tag: " ++ of_int f (Z.of_N t) ++ ", BitsetIndex: " ++ of_int f (Z.of_N i) ++ "}", m)
  | SBits => match snd m with
             | b :: bs => match write_basis_blade b with Some t => Some (t, (fst m, bs)) | None => None end
             | [] => None
             end
  | CBool _ => None
  | DBlade _ b => write_expression b m
  | Comp c b =>
    with_text " * " (if is_fn NAdd c then then_text (text_then "(" (write_expression c m)) ")" else write_expression c m) (write_expression b)
  | Fn NAdd l =>
    (fix sum (l : list expr) (m : list R * list N) : written :=
       match l with
       | [] => None
       | x :: l' => match l' with
                    | [] => None
                    | [y] => with_text " + " (write_expression x m) (write_expression y)
                    | _ => with_text " + " (write_expression x m) (sum l')
                    end
       end) l m
  | Fn NMul l =>
    (fix product (l : list expr) (m : list R * list N) : written :=
       match l with
       | [] => None
       | x :: l' => match l' with
                    | [] => None
                    | [y] => with_text " * " (write_expression x m) (write_expression y)
                    | _ => with_text " * " (write_expression x m) (product l')
                    end
       end) l m
  | Fn NPow [x; y] => then_text (text_then "pow(" (with_text ", " (write_expression x m) (write_expression y))) ")"
  | Fn NSign [x; y] => then_text (text_then "reordering_sign(" (with_text ", " (write_expression x m) (write_expression y))) ")"
  | Fn NUminus [x] => then_text (text_then "(-" (write_expression x m)) ")"
  | Fn NDec [x] => then_text (text_then "(" (write_expression x m)) " - <1>)"
  | Fn NIf [t; x; y] => then_text (text_then "(" (with_text " ? " (write_expression t m) (fun m => with_text " : " (write_expression x m) (write_expression y)))) ")"
  | Fn g [x] => match call_name g with Some n => then_text (text_then n (write_expression x m)) ")" | None => None end
  | Fn g [x; y] => match infix_name g with Some n => then_text (text_then "(" (with_text n (write_expression x m) (write_expression y))) ")" | None => None end
  | Fn _ _ => None
  end.
(** write(os, expression, basis_vectors): write.hpp:468-475; operator <<: extra/macro_for_algebra_overload.hpp:178-181. *)
Definition write (a : cliff) : option string := match write_expression (cexpr a) (cvals a, cbits a) with Some (t, _) => Some t | None => None end.
End Write.
