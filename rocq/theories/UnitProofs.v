(** unit of a scalar. *)
From Coq Require Import NArith ZArith List Bool Lia Reals Lra.
From Verif Require Import Bits SpecBits BitsBase BitsOnes BitsProofs Expr ExprBase Sem Wf SpecMv SpecAlg MvBase RPowProofs Simp SimpProofs SimpProofs2 SmartProofs PresProofs Comp Mapping Ops CompProofs CompProofs2 SpecOrder OrderProofs GradeProofs MappingProofs OuterProofs GumProofs AlgProofs AlgProofs2 Clifford2 Clifford5 EvalC EvalCProofs SpecEval Lazy SpecLazy TagProofs LazyProofs LazyProofs2 CanonProofs PolyProofs Api Extra SpecApi SpecExtra ApiProofs ApiProofs2 ApiProofs3 ExtraProofs KeepProofs2 KeepProofs3 KeepProofs4 SpecAbs AbsProofs Norm SpecNorm NormProofs NormProofs2 NormProofs3 NormProofs4 NormProofs7.
Import ListNotations.
Local Open Scope R_scope.

Theorem unit_scalar_ok F n dim a v o : (dim <= 63)%N -> int_object dim a -> value a [(v, 0%N)] -> v <> 0 -> computed (body1 (unit_scalar F n)) [a] -> unit_scalar F n a = Some o ->
  o = Ovf \/ exists r, o = Done r /\ int_object dim r /\ value r [(v / Rabs v, 0%N)].
Proof.
  intros Hdim Oa Va Nz HC E.
  set (body := body1 (fun x => andthen (scalar_fn F n NAbs x) (fun y => andthen (pow F n y (c_obj (-1))) (fun i => gp_scalar F n x i)))) in *.
  apply (computed_1 _ (fun l => in_context F n l body) a ltac:(reflexivity)) in HC. unfold unit_scalar in E. fold body in E.
  destruct (by_type F n dim body a _ o (fun res => res = [(v / Rabs v, 0%N)]) Oa Va) as [->|(r & res & -> & R1 & R2 & ->)]; [|exact HC|exact E|left; reflexivity|right; exists r; auto].
  set (hi := N.of_nat (length (stored_inputs [a]))). set (g := ctx_env 0 (stored_inputs [a])). intros x r Ea Tx Eb. unfold body in Eb. cbn [body1] in Eb.
  assert (HA : forall c, x = Comp c (CBlade 0) -> settled c).
  { intros c ->. destruct (argument_settled dim a _ Oa Ea c eq_refl) as [(t & j & ->)|[z ->]]; [left|right]; reflexivity. }
  destruct (scalar_fn F n NAbs (lazy_obj x)) as [o1|] eqn:E1; [|discriminate Eb]. destruct (abs_type F n dim hi g x _ o1 Tx HA E1) as (c & b & -> & Ec & -> & Tb & Db & Vb). cbn [andthen] in Eb.
  destruct (pow F n (lazy_obj (Comp b (CBlade 0))) (c_obj (-1))) as [o2|] eqn:E2; [|discriminate Eb].
  assert (C0 : coef [(v, 0%N)] 0 = v) by (cbn; ring). rewrite C0 in *.
  assert (Q : rpow (coef [(Rabs v, 0%N)] 0) (IZR (-1)) = Some (/ Rabs v)).
  { replace (coef [(Rabs v, 0%N)] 0) with (Rabs v) by (cbn; ring). rewrite (rpow_int (Rabs v) (-1)) by (apply Rabs_no_R0, Nz). f_equal. change (/ (Rabs v * 1) = / Rabs v). rewrite Rmult_1_r. reflexivity. }
  destruct (y_pow is_int _ F n dim g (q_class F hi) (-1)%Z _ _ _ eq_refl Q Tb o2 E2) as (i & -> & Ti). cbn [andthen] in Eb.
  destruct (y_gp_scalar is_int _ F n dim g (q_class F hi) Hdim _ i _ _ (q_weaken _ _ _ _ _ Tx) Ti r Eb) as (w & -> & Tw). exists w, [(v / Rabs v, 0%N)]. split; [reflexivity|]. split; [|reflexivity].
  apply (T_meq _ _ _ _ _ _ Tw). intros j. transitivity (coef (scale (/ Rabs v) [(v, 0%N)]) j); [exact (gp_scalar_r (fun _ => 1) (/ Rabs v) [(v, 0%N)] j)|]. cbn [coef scale map fst snd]. destruct (N.eqb 0 j); [|ring]. unfold Rdiv. ring.
Qed.
