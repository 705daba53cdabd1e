(** Specification: what it means that an expression is the product of two others. *)
From Coq Require Import NArith ZArith List Bool Reals.
From Verif Require Import Expr Sem SpecMv.

(** [r] is, at every inputs where [a] and [b] have values in the [n]-dimensional space, the bilinear
    product of these values that multiplies blades by [f]; its value is in the space too. *)
Definition is_product (f : N -> N -> mv) (n : N) (a b r : expr) : Prop :=
  mv_ok r = true /\
  forall g ma mb, den g a ma -> den g b mb -> in_space n ma -> in_space n mb ->
    exists mr, den g r mr /\ (forall K, coef mr K = coef (bilinear f ma mb) K) /\ in_space n mr.
(** [r] is the image of [a] by the linear map that sends blade [b] to [l b], in spaces of at most
    63 dimensions. *)
Definition is_image (l : N -> mv) (a r : expr) : Prop :=
  mv_ok r = true /\
  forall g m n, den g a m -> (n <= 63)%N -> in_space n m ->
    exists mr, den g r mr /\ (forall K, coef mr K = coef (linear l m) K) /\ in_space n mr.
(** Every blade replaced by the blade of the other basis vectors of the [n]-dimensional space. *)
Definition complements (n : N) (m : mv) : mv := map (fun p => (fst p, N.lxor (2 ^ n - 1) (snd p))) m.
