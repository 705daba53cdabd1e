(** Specification: expressions whose sign is settled by their shape. *)
From Coq Require Import NArith ZArith List Bool.
From Verif Require Import Expr SpecRat.
Import ListNotations.

(** Non-negative whatever the values read: non-negative constants, counts,
    absolute values, even constant powers, and powers, products and selections
    of such. *)
Fixpoint sure_nonneg (e : expr) : bool :=
  match e with
  | CV z => Z.leb 0 z
  | Fn NCount _ | Fn NAbs _ => true
  | Fn NPow [x; y] => sure_nonneg x || match y with CV k => Z.even k | _ => false end
  | Fn NMul l => forallb sure_nonneg l
  | Fn NIf [_; x; y] => sure_nonneg x && sure_nonneg y
  | _ => false
  end.

(** The arguments of abs covered by the theorem: surely non-negative,
    rational constants, and non-constant expressions that the library does not
    itself consider non-negative. *)
Definition abs_covered (v : expr) : Prop :=
  sure_nonneg v = true \/ lowest v \/ (is_constant v = false /\ is_non_negative v = false).
