(** C51: the plunge of two blades, from the join of C52. *)
From Coq Require Import NArith ZArith List Bool Reals Lra Lia.
From Verif Require Import Bits SpecBits Expr Sem Wf SpecMv SpecAlg SpecOrder Simp Comp Mapping Ops EvalC SpecEval Lazy SpecLazy Api Extra Grade SpecApi SpecExtra ForEach SpecUtil Norm SpecNorm Copy Build SpecMeet SpecMeet2 Meet.
From Verif Require Import Visit MvBase CanonProofs BuildProofs PropNorm JoinMath MeetProofs MeetProofs2 MeetProofs3 MeetProofs5 MeetProofs6 MeetProofs7 PropApi PropMeet PropMeet2 PropMeet4.
Import ListNotations.
Local Open Scope R_scope.

(** ** C51: plunge *)
(** plunge(A, B, tol, mtr) in the Euclidean metric, of two blades as in C52, when the two duals are computed
    at run time without a quotient of two integers: a call that returns, and whose meet and join are not
    zero, returns (B J^-1) ^ (A J^-1), with left contractions, where the blade J is the join of C52.  With the
    tolerance 0 the result is a blade, not zero, that stands for the sums of a vector orthogonal to B and a
    vector orthogonal to A, both in the sum of the subspaces of A and B. *)
Theorem C51_plunge_partial : forall F n fuel dim a b av bv A B tint tol dint dtol m j p, (dim <= 63)%N -> int_object dim a -> int_object dim b -> value a A -> value b B ->
  blade_of dim av A -> blade_of dim bv B -> (length av <= 7)%nat -> (length bv <= 7)%nat -> (cint a && cint b)%bool = false ->
  (tint = true -> isint tol) -> 0 <= tol -> (dint = true -> isint dtol) -> 0 <= dtol ->
  (exists k, tol < Rabs (coef A k)) -> (exists k, tol < Rabs (coef B k)) -> top_above tol A B -> top_above dtol A B ->
  (if (length av <=? length bv)%nat then inverses_exact F n fuel dim a b dint dtol else inverses_exact F n fuel dim b a dint dtol) ->
  meet_and_join F n fuel dim a b tint tol (scalar_obj dint dtol) = Some (Ret (m, j)) ->
  computed (body2 (dual F n (Signed dim 0 0))) [a; j] -> computed (body2 (dual F n (Signed dim 0 0))) [b; j] ->
  plunge F n fuel dim (Signed dim 0 0) a b tint tol (scalar_obj dint dtol) = Some (Ret p) ->
  value m [] \/ value j [] \/
  exists P J js, value p P /\ value j J /\ blade_of dim js J /\ (forall x, in_span (av ++ bv) x -> in_span js x) /\
    meq P (mop (mlcont (fun _ => 1) B (minv (fun _ => 1) J)) (mlcont (fun _ => 1) A (minv (fun _ => 1) J))) /\
    (tol = 0 -> exists ps, blade_of dim ps P /\
       forall x, in_span ps x <-> exists y z, meq x (y ++ z) /\ in_span (av ++ bv) y /\ orthogonal bv y /\ in_span (av ++ bv) z /\ orthogonal av z).
Proof. exact plunge_ok. Qed.
Print Assumptions C51_plunge_partial.

(** The hypotheses of the theorem hold for the lines of C52, with the tolerances 0: the call returns, and the
    meet and the join are not zero. *)
Example C51_line : forall x y, 0 < x -> 0 < y ->
  meet_and_join 40 40 40 2 (line x) (line y) false 0 (scalar_obj false 0) = Some (Ret (store [0; 1; 2]%N [0; 1; 0], store [1; 2; 3]%N [x * y; 0; 0])) /\
  computed (body2 (dual 40 40 (Signed 2 0 0))) [line x; store [1; 2; 3]%N [x * y; 0; 0]] /\ computed (body2 (dual 40 40 (Signed 2 0 0))) [line y; store [1; 2; 3]%N [x * y; 0; 0]] /\
  exists p, plunge 40 40 40 2 (Signed 2 0 0) (line x) (line y) false 0 (scalar_obj false 0) = Some (Ret p).
Proof.
  intros x y X Y. pose proof (C52_line x y X Y) as E. split; [exact E|]. do 2 (split; [apply computed_check; run; reflexivity|]).
  unfold plunge. rewrite E. cbn [obind snd]. assert (D : forall z, 0 < z -> exists r, ran (dual 40 40 (Signed 2 0 0) (line z) (store [1; 2; 3]%N [x * y; 0; 0])) = Some (Ret r) /\ exists u v, r = store [0; 2]%N [u; v]).
  { intros z Z. pose proof (Rmult_lt_0_compat x y X Y) as XY. pose proof (Rmult_lt_0_compat (x * y) (x * y) XY XY) as XY2. run. decides. do 1 eexists. split; [reflexivity|]. do 2 eexists. reflexivity. }
  destruct (D y Y) as (r & -> & u & v & ->). destruct (D x X) as (r & -> & u' & v' & ->). cbn [obind]. run. eexists. reflexivity.
Qed.
