(** C51: the plunge of two blades. *)
From Coq Require Import NArith ZArith List Bool Reals Lra Lia.
From Verif Require Import Bits SpecBits Expr Sem Wf SpecMv SpecAlg SpecOrder Simp Comp Mapping Ops EvalC SpecEval Lazy SpecLazy Api Extra Grade SpecApi SpecExtra ForEach SpecUtil Norm SpecNorm Copy Build SpecMeet Meet.
From Verif Require Import Visit MvBase CanonProofs BuildProofs PropNorm JoinMath MeetProofs MeetProofs2 MeetProofs3 MeetProofs4 PropApi PropMeet PropMeet2.
Import ListNotations.
Local Open Scope R_scope.

(** ** C51: fast_plunge *)
(** fast_plunge(A, B, tol, mtr) in the Euclidean metric, of two blades as in C49, when the two duals are
    computed at run time without a quotient of two integers: (B J^-1) ^ (A J^-1), with left contractions,
    where J is a unit blade in the sum of the two subspaces.  With the tolerance 0, J stands for that sum and
    the result is a blade, not zero, that stands for the sums of a vector orthogonal to B and a vector
    orthogonal to A, both in the sum of the subspaces of A and B. *)
Theorem C51_fast_plunge_partial : forall F n fuel dim a b av bv A B tint tol o, (dim <= 63)%N -> int_object dim a -> int_object dim b -> value a A -> value b B ->
  blade_of dim av A -> blade_of dim bv B -> (length av <= 7)%nat -> (length bv <= 7)%nat -> (cint a && cint b)%bool = false ->
  (tint = true -> isint tol) -> 0 <= tol -> (exists k, tol < Rabs (coef A k)) -> (exists k, tol < Rabs (coef B k)) ->
  (if (length bv <=? length av)%nat then units_exact F n fuel dim a b else units_exact F n fuel dim b a) ->
  (forall r, fast_join F n fuel dim a b tint tol = Some (Ret r) -> computed (body2 (dual F n (Signed dim 0 0))) [a; r] /\ computed (body2 (dual F n (Signed dim 0 0))) [b; r]) ->
  fast_plunge F n fuel dim (Signed dim 0 0) a b tint tol = Some o ->
  o = Overflow \/ exists p M J cs, o = Ret p /\ value p M /\ blade_of dim cs J /\ norm2 (fun _ => 1) J = 1 /\ Forall (in_span (av ++ bv)) cs /\
    meq M (mop (mlcont (fun _ => 1) B (minv (fun _ => 1) J)) (mlcont (fun _ => 1) A (minv (fun _ => 1) J))) /\
    (tol = 0 -> (forall x, in_span cs x <-> in_span (av ++ bv) x) /\ exists ps, blade_of dim ps M /\
       forall x, in_span ps x <-> exists y z, meq x (y ++ z) /\ in_span (av ++ bv) y /\ orthogonal bv y /\ in_span (av ++ bv) z /\ orthogonal av z).
Proof.
  intros F n fuel dim a b av bv A B tint tol o Hd Oa Ob Va Vb Ba Bb Sa Sb HI Ti T Ka Kb U HC E.
  destruct (fast_plunge_ok F n fuel dim a b av bv A B tint tol Hd Oa Ob Va Vb Ba Bb Sa Sb HI Ti T Ka Kb U HC o E) as [->|(p & -> & M & J & cs & H)]; [left; reflexivity|right]. exists p, M, J, cs. split; [reflexivity|exact H].
Qed.
Print Assumptions C51_fast_plunge_partial.

Notation jt := (stored_type [3; 5; 6; 7]%N).
Lemma plane_plunge x y z u v w tol : safe any (fast_plunge 40 40 40 3 (Signed 3 0 0) (plane x y z) (plane u v w) false tol).
Proof.
  unfold fast_plunge. eapply safe_bind; [apply plane_join|]. intros r. known r.
  eapply safe_bind; [unfold dual; apply safe_context; run; reflexivity|]. intros i. known i.
  eapply safe_bind; [unfold dual; apply safe_context; run; reflexivity|]. intros d. known d.
  unfold outer. eapply safe_weak; [|apply safe_call; run; reflexivity]. intros m _. exact I.
Qed.
(** The hypotheses of the theorem hold for the planes of C50 with the tolerance 0: *)
Example C51_case : forall x y z u v w, x <> 0 -> u <> 0 -> exists av bv, let A := [(x, 3%N); (y, 5%N); (z, 6%N)] in let B := [(u, 3%N); (v, 5%N); (w, 6%N)] in
  int_object 3 (plane x y z) /\ int_object 3 (plane u v w) /\ value (plane x y z) A /\ value (plane u v w) B /\ blade_of 3 av A /\ blade_of 3 bv B /\ length av = 2%nat /\ length bv = 2%nat /\
  (exists k, 0 < Rabs (coef A k)) /\ (exists k, 0 < Rabs (coef B k)) /\ units_exact 40 40 40 3 (plane x y z) (plane u v w) /\
  (forall r, fast_join 40 40 40 3 (plane x y z) (plane u v w) false 0 = Some (Ret r) -> computed (body2 (dual 40 40 (Signed 3 0 0))) [plane x y z; r] /\ computed (body2 (dual 40 40 (Signed 3 0 0))) [plane u v w; r]) /\
  exists o, fast_plunge 40 40 40 3 (Signed 3 0 0) (plane x y z) (plane u v w) false 0 = Some o.
Proof.
  intros x y z u v w Hx Hu. destruct (C50_case x y z u v w Hx Hu) as (av & bv & Oa & Ob & Va & Vb & Ba & Bb & La & Lb & Ka & Kb & U & _). exists av, bv.
  do 11 (split; [assumption|]). split.
  - intros r E. pose proof (plane_join x y z u v w 0) as S. rewrite E in S. cbn [safe] in S. revert S. known r. split; apply computed_check; run; reflexivity.
  - pose proof (plane_plunge x y z u v w 0) as C. destruct (fast_plunge _ _ _ _ _ _ _ _ _) as [o|]; [exists o; reflexivity|contradiction].
Qed.
