(** Specification: the text of a multivector. *)
From Coq Require Import NArith ZArith List Bool Reals String Ascii.
From Verif Require Import Bits Expr SpecBits Sem SpecMv EvalC Lazy SpecLazy Write.
Import ListNotations.
Local Open Scope string_scope.

(** A blade: the names of its basis vectors, in increasing order; the scalar blade is 1. *)
Definition blade_text (names : list string) (k : N) : string :=
  match indices k with [] => "1" | l => String.concat "^" (map (fun i => nth (N.to_nat i) names "") l) end.
(** A stored coefficient: negative numbers are in parentheses. *)
Definition number_text (f : format) (v : R) : string := if Rle_dec 0 v then of_num f v else "(" ++ of_num f v ++ ")".
(** A component with coefficient [v] and blade [k]: what is known at compile time is in angle brackets. *)
Definition component_text (f : format) (names : list string) (e : expr) (p : R * N) : string :=
  match e with
  | Comp c b =>
    (match c with CV z => "<" ++ of_int f z ++ ">" | _ => number_text f (fst p) end) ++ " * " ++
    (match b with CBlade _ => "<" ++ blade_text names (snd p) ++ ">" | _ => blade_text names (snd p) end)
  | _ => ""
  end.
(** A multivector: its components, in order. *)
Definition multivector_text (f : format) (names : list string) (a : cliff) (m : mv) : string :=
  String.concat " + " (map (fun q => component_text f names (fst q) (snd q)) (List.combine (components (cexpr a)) m)).

(** A text that can be told apart from the punctuation: not empty, without spaces, brackets and carets. *)
Definition mark (c : ascii) : bool := existsb (Ascii.eqb c) [" "; "("; ")"; "<"; ">"; "^"]%char.
Definition word (s : string) : bool := match s with "" => false | _ => forallb (fun c => negb (mark c)) (list_ascii_of_string s) end.
(** Such texts for all numbers, and different ones, none of them "1", for the basis vectors. *)
Definition readable (f : format) (names : list string) : Prop :=
  (forall z, word (of_int f z) = true) /\ (forall v, word (of_num f v) = true) /\
  Forall (fun s => word s = true /\ s <> "1") names /\ NoDup names.
(** The components of [a] and [b] with values [p] and [q] look the same: the blades are equal, and the
    coefficients are both stored or both integer constants, and are printed alike. *)
Definition alike (f : format) (c d : expr) (p q : R * N) : Prop :=
  snd p = snd q /\
  match c, d with
  | Comp (CV z) _, Comp (CV z') _ => of_int f z = of_int f z'
  | Comp (CV _) _, _ | _, Comp (CV _) _ => False
  | _, _ => of_num f (fst p) = of_num f (fst q) /\ (0 <= fst p <-> 0 <= fst q)%R
  end.
