(** Specification: the grade of a multivector up to a tolerance. *)
From Coq Require Import NArith ZArith List Bool Reals.
From Verif Require Import Bits SpecBits SpecMv.
Import ListNotations.
Local Open Scope R_scope.

(** Blade [b] has a coefficient larger than the tolerance. *)
Definition significant (tol : R) (m : mv) (b : N) : Prop := tol < Rabs (coef m b).
(** What the grade query reports: the grade of the significant blades if they all have the same one,
    -1 (mixed) if they do not, -2 (undetermined) if there is none. *)
Definition has_grade (tol : R) (m : mv) (z : Z) : Prop :=
  (z = (-2)%Z /\ forall b, ~ significant tol m b) \/
  (exists b, significant tol m b /\ z = Z.of_N (grade_of b) /\ forall b', significant tol m b' -> grade_of b' = grade_of b) \/
  (z = (-1)%Z /\ exists b b', significant tol m b /\ significant tol m b' /\ grade_of b <> grade_of b').
(** The largest grade of a significant blade; -2 if there is none. *)
Definition has_largest (tol : R) (m : mv) (z : Z) : Prop :=
  (z = (-2)%Z /\ forall b, ~ significant tol m b) \/
  (exists b, significant tol m b /\ z = Z.of_N (grade_of b) /\ forall b', significant tol m b' -> (grade_of b' <= grade_of b)%N).
(** The part of the largest significant grade of [m]; zero if no blade is significant. *)
Definition largest_part (tol : R) (m r : mv) : Prop :=
  ((forall b, ~ significant tol m b) /\ meq r []) \/
  (exists b, significant tol m b /\ (forall b', significant tol m b' -> (grade_of b' <= grade_of b)%N) /\ meq r (grade_part (grade_of b) m)).
