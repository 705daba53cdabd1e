(** C29: selection of grades and the grade queries; C36: the delta product. *)
From Coq Require Import NArith ZArith List Bool Reals Lra Lia.
From Verif Require Import Bits SpecBits Expr Sem Wf SpecMv SpecAlg SpecOrder Simp Comp Mapping Ops EvalC SpecEval Lazy SpecLazy Api Extra SpecApi SpecExtra Grade SpecGrade.
From Verif Require Import MvBase MappingProofs SmartProofs CompProofs CanonProofs RPowProofs SimpProofs PolyProofs LazyProofs2 ApiProofs ApiProofs2 ApiProofs3 GumProofs ExtraProofs KeepProofs KeepProofs2 KeepProofs3 KeepProofs4 KeepProofs5 PropApi.
Import ListNotations.
Local Open Scope R_scope.

(** take_grade(A, c<k>) is the part of grade k of A: objects with stored or rational coefficients, no
    condition on exactness. *)
Theorem C29_take_grade : forall F n dim a m k o, (dim <= 63)%N -> rat_object dim a -> value a m -> take_grade F n a (c_obj (Z.of_N k)) = Some o ->
  o = Ovf \/ exists r, o = Done r /\ rat_object dim r /\ value r (grade_part k m).
Proof. intros F n dim a m k o H Oa Va E. rewrite <- keepR_grade. exact (take_grade_ok F n dim a m (Z.of_N k) o H Oa Va E). Qed.
Print Assumptions C29_take_grade.
(** A negative grade selects nothing. *)
Theorem C29_take_negative : forall F n dim a m z o, (dim <= 63)%N -> (z < 0)%Z -> rat_object dim a -> value a m -> take_grade F n a (c_obj z) = Some o ->
  o = Ovf \/ exists r, o = Done r /\ rat_object dim r /\ value r [].
Proof.
  intros F n dim a m z o H Hz Oa Va E. destruct (take_grade_ok F n dim a m z o H Oa Va E) as [->|(r & -> & Or & Vr)]; [left; reflexivity|right]. exists r. split; [reflexivity|]. split; [exact Or|].
  refine (value_meq _ _ _ Vr _). intros j. unfold keepR. rewrite (coef_filter (fun i => eqR (IZR (Z.of_N (grade_of i))) (IZR z))), eqR_Z. replace (Z.eqb _ _) with false by (symmetry; apply Z.eqb_neq; lia). reflexivity.
Qed.
Print Assumptions C29_take_negative.
(** The same with a grade known only at run time (a stored integer or floating-point number). *)
Theorem C29_take_grade_runtime : forall F n dim a m k int o, (dim <= 63)%N -> int_object dim a -> value a m ->
  take_grade F n a (scalar_obj int (IZR (Z.of_N k))) = Some o -> o = Ovf \/ exists r, o = Done r /\ int_object dim r /\ value r (grade_part k m).
Proof. intros F n dim a m k int o H Oa Va E. rewrite <- keepR_grade. exact (take_runtime F n dim H a m int _ o Oa Va ltac:(intros _; exists (Z.of_N k); reflexivity) E). Qed.
Print Assumptions C29_take_grade_runtime.
(** At the level of types: every multivector expression, with compile-time and run-time blades, and
    every grade expression of value k. *)
Theorem C29_take_grade_type : forall F n e t r k, mv_ok e = true -> is_constant t = false \/ (exists z, t = CV z) -> wf t = true -> keep_grade F n e (Comp t (CBlade 0)) = Some r ->
  forall g m, num g t (IZR (Z.of_N k)) -> in_dim 64 g e -> has_value g e m -> has_value g r (grade_part k m).
Proof. intros F n e t r k W C Wt E g m Ht D V. rewrite <- keepR_grade. exact (proj1 (proj2 (keep_value F n e t r (IZR (Z.of_N k)) W C Wt E)) g m Ht D V). Qed.
Print Assumptions C29_take_grade_type.
(** The parts of the grades 0, 1, ..., dim add up to A. *)
Theorem C29_sum : forall F n dim a m rs, (dim <= 63)%N -> rat_object dim a -> value a m ->
  Forall2 (fun k r => take_grade F n a (c_obj (Z.of_N k)) = Some (Done r)) (map N.of_nat (seq 0 (N.to_nat dim + 1))) rs ->
  exists ms, Forall2 value rs ms /\ meq (concat ms) m.
Proof.
  intros F n dim a m rs H Oa Va HR. exists (map (fun k => grade_part k m) (grades dim)). split; [|exact (parts_sum _ dim a m H Oa Va)].
  fold (grades dim) in HR. induction HR as [|k r ks rs Hk HR IH]; [constructor|]. cbn [map]. constructor; [|exact IH].
  destruct (C29_take_grade F n dim a m k _ H Oa Va Hk) as [Q|(r' & Q & _ & V)]; [discriminate Q|]. injection Q as <-. exact V.
Qed.
Print Assumptions C29_sum.
(** grade(A, tol): the common grade of all components larger than the tolerance, -1 if they have
    several grades, -2 if there is none; largest_grade: the largest of their grades. *)
Theorem C29_grade : forall F n dim a m int tol o, (dim <= 63)%N -> int_object dim a -> value a m -> (int = true -> isint tol) -> 0 <= tol ->
  grade F n a (scalar_obj int tol) = Some o -> o = Ovf \/ exists r z, o = Done r /\ value r [(IZR z, 0%N)] /\ has_grade tol m z.
Proof.
  intros F n dim a m int tol o H Oa Va Hi Ht E.
  destruct (query_ok F n dim H grade_join gjoin has_grade (fun hi i g => grade_joins hi i g) (fun t m0 m' Q ND M => mspec_grade t m0 m' _ Q ND M (fold_mixed t m0)) a m int tol o Oa Va Hi Ht E) as [->|(r & z & -> & _ & V & S)]; [left; reflexivity|right]. exists r, z. auto.
Qed.
Print Assumptions C29_grade.
(** A homogeneous multivector: its grade is reported if one of its coefficients exceeds the tolerance. *)
Theorem C29_grade_homogeneous : forall F n dim a m k int tol o, (dim <= 63)%N -> int_object dim a -> value a m -> (int = true -> isint tol) -> 0 <= tol ->
  meq m (grade_part k m) -> (exists b, tol < Rabs (coef m b)) ->
  grade F n a (scalar_obj int tol) = Some o -> o = Ovf \/ exists r, o = Done r /\ value r [(IZR (Z.of_N k), 0%N)].
Proof.
  intros F n dim a m k int tol o H Oa Va Hi Ht Hk [b Hb] E.
  assert (G : forall b', tol < Rabs (coef m b') -> grade_of b' = k).
  { intros b' Hb'. rewrite (Hk b'), Clifford5.coef_grade_part in Hb'. destruct (N.eqb_spec (grade_of b') k) as [Q|Q]; [exact Q|]. rewrite Rabs_R0 in Hb'. lra. }
  destruct (C29_grade F n dim a m int tol o H Oa Va Hi Ht E) as [->|(r & z & -> & V & S)]; [left; reflexivity|right]. exists r. split; [reflexivity|].
  assert (Q : z = Z.of_N k); [|rewrite <- Q; exact V]. destruct S as [[_ S]|[(c & S & -> & _)|(_ & c & d & S1 & S2 & N)]].
  - exfalso. exact (S b Hb).
  - rewrite (G c S). reflexivity.
  - exfalso. apply N. rewrite (G c S1), (G d S2). reflexivity.
Qed.
Print Assumptions C29_grade_homogeneous.
Theorem C29_largest_grade : forall F n dim a m int tol o, (dim <= 63)%N -> int_object dim a -> value a m -> (int = true -> isint tol) -> 0 <= tol ->
  largest_grade F n a (scalar_obj int tol) = Some o -> o = Ovf \/ exists r z, o = Done r /\ value r [(IZR z, 0%N)] /\ has_largest tol m z.
Proof.
  intros F n dim a m int tol o H Oa Va Hi Ht E.
  destruct (query_ok F n dim H largest_join ljoin has_largest (fun hi i g => largest_joins hi i g) (fun t m0 m' Q ND M => lspec_largest t m0 m' _ Q ND M (fold_largest t m0)) a m int tol o Oa Va Hi Ht E) as [->|(r & z & -> & _ & V & S)]; [left; reflexivity|right]. exists r, z. auto.
Qed.
Print Assumptions C29_largest_grade.
Theorem C29_take_largest_grade : forall F n dim a m int tol o, (dim <= 63)%N -> int_object dim a -> value a m -> (int = true -> isint tol) -> 0 <= tol ->
  take_largest_grade F n a (scalar_obj int tol) = Some o -> o = Ovf \/ exists r mr, o = Done r /\ int_object dim r /\ value r mr /\ largest_part tol m mr.
Proof. intros F n dim a m int tol o H Oa Va Hi Ht E. exact (take_largest_ok F n dim H a m int tol o Oa Va Hi Ht E). Qed.
Print Assumptions C29_take_largest_grade.
(** The delta product: the part of largest grade of gp(A, B), up to the tolerance.  The hypothesis
    excludes products whose type has a constant coefficient that is not an integer (the library does not
    simplify the absolute value of every such constant). *)
Theorem C36_dp : forall F n dim S a b ma mb int tol o, (dim <= 63)%N -> match S with Signed P Q R => dim = (P + Q + R)%N | Real => True end ->
  int_object dim a -> int_object dim b -> value a ma -> value b mb ->
  (int = true -> isint tol) -> 0 <= tol ->
  (forall x y t p, arguments 0 [a; b; scalar_obj int tol] = Some [x; y; t] -> gp_in F n S (lazy_obj x) (lazy_obj y) = Some (Done p) ->
     Forall (fun c => is_constant c = false \/ is_integer c = true) (coefficients (cexpr p))) ->
  dp F n S a b (scalar_obj int tol) = Some o ->
  o = Ovf \/ exists r mr, o = Done r /\ int_object dim r /\ value r mr /\ largest_part tol (mgp (match S with Signed P Q R => signature P Q | Real => fun _ => 1 end) ma mb) mr.
Proof. intros F n dim S a b ma mb int tol o H HS Oa Ob Va Vb Hi Ht HD E. exact (dp_ok F n dim H S a b ma mb int tol o HS Oa Ob Va Vb Hi Ht HD E). Qed.
Print Assumptions C36_dp.

(** The calls compile: w e1 + 3 e1^e2. *)
Ltac run := lazy -[Rmult Rplus Ropp IZR Rinv Rdiv Req_EM_T Rle_dec Rlt_dec Rabs].
Ltac cases := repeat match goal with |- context [Req_EM_T ?x ?y] => destruct (Req_EM_T x y) | |- context [Rle_dec ?x ?y] => destruct (Rle_dec x y) | |- context [Rlt_dec ?x ?y] => destruct (Rlt_dec x y) end.
Example C29_case : forall w, (exists r, take_grade 40 40 (ob_b w) (c_obj 1) = Some (Done r) /\ cexpr r = Comp SV (CBlade 1)) /\
  (exists r, take_grade 40 40 (ob_b w) (c_obj 2) = Some (Done r) /\ cexpr r = Comp (CV 3) (CBlade 3)) /\
  (exists r, take_grade 40 40 (ob_b w) (scalar_obj true 2) = Some (Done r)).
Proof. intros w. split; [|split]; [eexists; (split; [run; reflexivity|reflexivity])|eexists; (split; [run; reflexivity|reflexivity])|]. run. cases; eexists; reflexivity. Qed.
Example C29_case_query : forall w, exists r, grade 40 40 (ob_b w) (scalar_obj false (/ 1000)) = Some (Done r).
Proof. intros w. run. cases; eexists; reflexivity. Qed.
Example C29_case_largest : forall w, exists r, take_largest_grade 40 40 (ob_b w) (scalar_obj false (/ 1000)) = Some (Done r).
Proof. intros w. run. cases; eexists; reflexivity. Qed.
Example C36_case_dp : forall u v w z, (exists r, dp 40 40 (Signed 3 0 0) (ob_a u v) (ob_a w z) (scalar_obj false (/ 1000)) = Some (Done r)) /\
  (forall x y t p, arguments 0 [ob_a u v; ob_a w z; scalar_obj false (/ 1000)] = Some [x; y; t] -> gp_in 40 40 (Signed 3 0 0) (lazy_obj x) (lazy_obj y) = Some (Done p) ->
     Forall (fun c => is_constant c = false \/ is_integer c = true) (coefficients (cexpr p))).
Proof.
  intros u v w z. split.
  - run. cases; eexists; reflexivity.
  - intros x y t p Q E. lazy in Q. apply Some_inj in Q. injection Q as <- <- <-. lazy -[IZR] in E. apply Some_inj in E. injection E as <-. cbn [cexpr]. repeat (constructor; [left; reflexivity|]). constructor.
Qed.
