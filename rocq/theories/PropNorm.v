(** C26: the reverse norm; C35: the tests for null and unit multivectors; C37: the exponential of a
    blade; C43: functions of scalars; C44: unit multivectors. *)
From Coq Require Import NArith ZArith List Bool Reals Lra Lia.
From Verif Require Import Bits SpecBits Expr Sem Wf SpecMv SpecAlg SpecOrder Simp Comp Mapping Ops EvalC SpecEval Lazy SpecLazy Api Extra SpecApi SpecExtra ForEach SpecUtil SpecAbs Norm SpecNorm.
From Verif Require Import MvBase Clifford2 RPowProofs SimpProofs CanonProofs PolyProofs LazyProofs2 ApiProofs ApiProofs2 ApiProofs3 GumProofs ExtraProofs KeepProofs KeepProofs2 KeepProofs3 KeepProofs4 NormProofs4 NormProofs5 NormProofs6 NormProofs7 PropApi PropExtra UnitProofs.
Import ListNotations.
Local Open Scope R_scope.

(** ** C26: the reverse norm *)
(** rnorm(A) of an object with stored and integer coefficients, where the squared norm is not
    negative, is a square root of it (the positive or the negative one) when the squared norm is, as
    an expression, a sum, a stored value, or a power the library knows to be non-negative; it is the
    non-negative one when the squared norm is a sum or a stored value, which is the case of every
    multivector with two or more stored coefficients (below). *)
Theorem C26_rnorm_partial : forall P Q R F k a m o, (P + Q + R <= 63)%N -> int_object (P + Q + R) a -> value a m ->
  0 <= norm2 (signature P Q) m ->
  on_type (body1 (rnorm_sqr F k (Signed P Q R))) [a] (fun c => atomic c = true \/ sure_nonneg c = true) ->
  computed (body1 (rnorm F k (Signed P Q R))) [a] -> rnorm F k (Signed P Q R) a = Some o ->
  o = Ovf \/ exists r u, o = Done r /\ int_object (P + Q + R) r /\ value r [(u, 0%N)] /\ u * u = norm2 (signature P Q) m /\
    (on_type (body1 (rnorm_sqr F k (Signed P Q R))) [a] (fun c => atomic c = true) -> u = sqrt (norm2 (signature P Q) m)).
Proof. intros P Q R F k a m o H. exact (rnorm_ok F k (P + Q + R) (Signed P Q R) H eq_refl a m o). Qed.
Print Assumptions C26_rnorm_partial.

(** Decidable versions of the conditions on types. *)
Definition on_typeb (f : list cliff -> result) (inputs : list cliff) (p : ityping -> expr -> bool) : bool :=
  match arguments 0 inputs with
  | Some args => match f (map lazy_obj args) with Some (Done r) => forallb (p (ctx_int 0 (stored_inputs inputs))) (coefficients (cexpr r)) | _ => true end
  | None => true
  end.
Lemma on_type_check f inputs p (P : expr -> Prop) : (forall i c, p i c = true -> P c) -> on_typeb f inputs p = true -> on_type f inputs P.
Proof. intros H E args r Ea Er. unfold on_typeb in E. rewrite Ea, Er in E. apply Forall_forall. intros x I. rewrite forallb_forall in E. exact (H _ _ (E x I)). Qed.
Lemma computed_check f inputs : on_typeb f inputs computed_coef = true -> computed f inputs.
Proof. intros E args r Ea Er. unfold on_typeb in E. rewrite Ea, Er in E. apply Forall_forall. intros x I. rewrite forallb_forall in E. exact (E x I). Qed.
Lemma settled_check f inputs : on_typeb f inputs (fun _ c => has_getter c || is_integer c) = true -> on_type f inputs settled.
Proof. apply on_type_check. intros i c H. apply orb_prop in H. exact H. Qed.

(** The norm of u e1 + v e2. *)
Ltac run := lazy -[Rmult Rplus Ropp IZR Rinv Rdiv Req_EM_T Rle_dec Rlt_dec Rabs sqrt cos sin cosh sinh Rpower].
Ltac cases := repeat match goal with |- context [Req_EM_T ?x ?y] => destruct (Req_EM_T x y) | |- context [Rle_dec ?x ?y] => destruct (Rle_dec x y) | |- context [Rlt_dec ?x ?y] => destruct (Rlt_dec x y) end.
Lemma norm_a u v : norm2 (signature 3 0) [(u, 1%N); (v, 2%N)] = u * u + v * v.
Proof. unfold norm2, re. cbn. ring. Qed.
Example C26_rnorm_case : forall u v, let S := Signed 3 0 0 in
  0 <= norm2 (signature 3 0) [(u, 1%N); (v, 2%N)] /\
  on_type (body1 (rnorm_sqr 40 40 S)) [ob_a u v] (fun c => atomic c = true) /\ computed (body1 (rnorm 40 40 S)) [ob_a u v] /\
  compiles (rnorm 40 40 S (ob_a u v)) = true.
Proof.
  intros u v S. split; [rewrite norm_a; nra|]. split; [apply (on_type_check _ _ (fun _ => atomic)); [intros _ c H; exact H|run; reflexivity]|]. split; [apply computed_check; run; reflexivity|]. run. cases; reflexivity.
Qed.
(** A single stored coefficient: the norm of x e1 is computed as x, whatever its sign. *)
Definition ob_x (x : R) : cliff := {| cexpr := Comp SV (CBlade 1); cint := false; cvals := [x]; cbits := [] |}.
Example ob_x_ok : forall x, int_object 3 (ob_x x) /\ value (ob_x x) [(x, 1%N)].
Proof.
  intros x. split.
  - exists [(1%N, SV)]. split; [reflexivity|]. split; [apply canonical_check; vm_compute; reflexivity|]. split; [split; [intros H; discriminate H|constructor]|].
    constructor; [|constructor]. split; [reflexivity|left; reflexivity].
  - intros g. exists [(x, 1%N)]. split; [|intros j; reflexivity].
    exists ([], []). split; [exists ([], []); split; [reflexivity|split; [split; reflexivity|intros _; exact Logic.I]]|]. reflexivity.
Qed.
Definition ob_s (x : R) : cliff := {| cexpr := Comp SV (CBlade 0); cint := false; cvals := [x]; cbits := [] |}.
Example ob_s_ok : forall x, int_object 3 (ob_s x) /\ value (ob_s x) [(x, 0%N)].
Proof.
  intros x. split.
  - exists [(0%N, SV)]. split; [reflexivity|]. split; [apply canonical_check; vm_compute; reflexivity|]. split; [split; [intros H; discriminate H|constructor]|].
    constructor; [|constructor]. split; [reflexivity|left; reflexivity].
  - intros g. exists [(x, 0%N)]. split; [|intros j; reflexivity].
    exists ([], []). split; [exists ([], []); split; [reflexivity|split; [split; reflexivity|intros _; exact Logic.I]]|]. reflexivity.
Qed.
Theorem C26_rnorm_refuted : forall x, x < 0 -> exists r, int_object 3 (ob_x x) /\ value (ob_x x) [(x, 1%N)] /\
  rnorm 40 40 (Signed 3 0 0) (ob_x x) = Some (Done r) /\ value r [(x, 0%N)].
Proof.
  intros x H. exists (ob_s x). split; [apply ob_x_ok|]. split; [apply ob_x_ok|]. split; [|apply ob_s_ok]. run. reflexivity.
Qed.
Print Assumptions C26_rnorm_refuted.

(** ** C35: null and unit multivectors *)
Theorem C35_is_null : forall P Q R F k a m tol o, (P + Q + R <= 63)%N -> int_object (P + Q + R) a -> value a m -> 0 <= tol ->
  is_null F k (Signed P Q R) a tol = Some o -> o = Ovf \/ exists b, o = Done b /\ (b = true <-> Rabs (norm2 (signature P Q) m) <= tol).
Proof. intros P Q R F k a m tol o H. exact (null_ok F k (P + Q + R) (Signed P Q R) H eq_refl a m tol o). Qed.
Print Assumptions C35_is_null.
Theorem C35_is_unit : forall P Q R F k a m tol o, (P + Q + R <= 63)%N -> int_object (P + Q + R) a -> value a m -> 0 <= tol ->
  is_unit F k (Signed P Q R) a tol = Some o -> o = Ovf \/ exists b, o = Done b /\ (b = true <-> Rabs (Rabs (norm2 (signature P Q) m) - 1) <= tol).
Proof. intros P Q R F k a m tol o H. exact (unit_test_ok F k (P + Q + R) (Signed P Q R) H eq_refl a m tol o). Qed.
Print Assumptions C35_is_unit.
(** Both tests compile on u e1 + v e2 in the plane of signature (1, 1). *)
Example C35_tests_case : forall u v tol, exists b b', is_null 40 40 (Signed 1 1 1) (ob_a u v) tol = Some (Done b) /\ is_unit 40 40 (Signed 1 1 1) (ob_a u v) tol = Some (Done b').
Proof. intros u v tol. run. cases; do 2 eexists; split; reflexivity. Qed.

(** ** C44: unit multivectors *)
(** unit(A) is A divided by a square root u of |A ~A|; its squared norm is 1 or -1. *)
Theorem C44_unit_partial : forall P Q R F k a m o, (P + Q + R <= 63)%N -> int_object (P + Q + R) a -> value a m ->
  norm2 (signature P Q) m <> 0 -> on_type (body1 (rnorm_sqr F k (Signed P Q R))) [a] settled ->
  computed (body1 (unit F k (Signed P Q R))) [a] -> unit F k (Signed P Q R) a = Some o ->
  o = Ovf \/ exists r u, o = Done r /\ int_object (P + Q + R) r /\ value r (scale (/ u) m) /\ u * u = Rabs (norm2 (signature P Q) m) /\
    Rabs (norm2 (signature P Q) (scale (/ u) m)) = 1.
Proof.
  intros P Q R F k a m o H Oa Va Z T C E. destruct (unit_ok F k (P + Q + R) (Signed P Q R) H eq_refl a m o Oa Va Z T C E) as [->|(r & u & -> & Or & Vr & U)]; [left; reflexivity|right].
  exists r, u. do 4 (split; [first [reflexivity|assumption]|]). exact (unit_norm2 (Signed P Q R) u m U Z).
Qed.
Print Assumptions C44_unit_partial.
Example C44_unit_case : forall u v, u <> 0 -> let S := Signed 3 0 0 in
  norm2 (signature 3 0) [(u, 1%N); (v, 2%N)] <> 0 /\ on_type (body1 (rnorm_sqr 40 40 S)) [ob_a u v] settled /\
  computed (body1 (unit 40 40 S)) [ob_a u v] /\ compiles (unit 40 40 S (ob_a u v)) = true.
Proof.
  intros u v U S. split; [rewrite norm_a; intros X; apply U; nra|]. split; [apply settled_check; run; reflexivity|]. split; [apply computed_check; run; reflexivity|]. run. cases; reflexivity.
Qed.
(** unit of a scalar keeps the sign. *)
Theorem C44_unit_scalar : forall F n dim a v o, (dim <= 63)%N -> int_object dim a -> value a [(v, 0%N)] -> v <> 0 ->
  computed (body1 (unit_scalar F n)) [a] -> unit_scalar F n a = Some o ->
  o = Ovf \/ exists r, o = Done r /\ int_object dim r /\ value r [(v / Rabs v, 0%N)].
Proof. exact unit_scalar_ok. Qed.
Print Assumptions C44_unit_scalar.
Example C44_unit_scalar_case : forall x, x <> 0 -> computed (body1 (unit_scalar 40 40)) [ob_s x] /\ compiles (unit_scalar 40 40 (ob_s x)) = true.
Proof. intros x X. split; [apply computed_check; run; reflexivity|]. run. cases; reflexivity. Qed.
(** The root may be the negative one: unit(x e1) is e1 even when x is negative. *)
Theorem C44_orientation_refuted : forall x, x < 0 -> exists r, int_object 3 (ob_x x) /\ value (ob_x x) [(x, 1%N)] /\
  unit 40 40 (Signed 3 0 0) (ob_x x) = Some (Done r) /\ value r [(1, 1%N)].
Proof.
  intros x H. exists {| cexpr := Comp (CV 1) (CBlade 1); cint := true; cvals := []; cbits := [] |}. split; [apply ob_x_ok|]. split; [apply ob_x_ok|]. split; [run; reflexivity|].
  intros g. exists [(1, 1%N)]. split; [|intros j; reflexivity]. exists ([], []). split; [|reflexivity]. exists ([], []). split; [reflexivity|split; [split; reflexivity|intros _; exact Logic.I]].
Qed.
Print Assumptions C44_orientation_refuted.

(** ** C43: functions of scalars *)
(** abs of an object, and exp, log, cos, sin, tan, cosh, sinh, tanh of a stored scalar. *)
Theorem C43_functions : forall F k n f a m w o, int_object n a -> value a m -> f = NAbs \/ cexpr a = Comp SV (CBlade 0) ->
  real_function f (re m) = Some w -> scalar_fn F k f a = Some o -> o = Ovf \/ exists r, o = Done r /\ int_object n r /\ value r [(w, 0%N)].
Proof. intros F k n. exact (fn_ok F k n). Qed.
Print Assumptions C43_functions.
(** sqrt and cbrt of a stored scalar. *)
Theorem C43_roots : forall F k n d a m w o, d = 2%Z \/ d = 3%Z -> int_object n a -> value a m -> cexpr a = Comp SV (CBlade 0) ->
  0 <= w -> w ^ Z.to_nat d = re m -> root F k d a = Some o -> o = Ovf \/ exists r, o = Done r /\ int_object n r /\ value r [(w, 0%N)].
Proof. intros F k n. exact (root_object F k n). Qed.
Print Assumptions C43_roots.
Example C43_case : forall x f w, In f [NAbs; NExp; NLog; NCos; NSin; NTan; NCosh; NSinh; NTanh] -> real_function f x = Some w ->
  int_object 3 (ob_s x) /\ value (ob_s x) [(x, 0%N)] /\ scalar_fn 40 40 f (ob_s x) = Some (Done (ob_s w)).
Proof.
  intros x f w I E. split; [apply ob_s_ok|]. split; [apply ob_s_ok|]. cbn [In] in I.
  assert (G : scalar_fn 40 40 f (ob_s x) = match real_function f x with Some w => Some (Done (ob_s w)) | None => Some Bad end).
  { repeat (destruct I as [<-|I]; [lazy -[Rabs exp ln cos sin tan cosh sinh tanh Rlt_dec Req_EM_T IZR]; cases; reflexivity|]). destruct I. }
  rewrite G, E. reflexivity.
Qed.
Example C43_roots_case : forall x, 0 <= x -> root 40 40 2 (ob_s x) = Some (Done (ob_s (sqrt x))) /\ 0 <= sqrt x /\ sqrt x ^ 2 = x /\
  exists r, root 40 40 3 (ob_s x) = Some (Done r).
Proof.
  intros x H. split; [run; destruct (Rle_dec 0 x); [reflexivity|contradiction]|]. split; [apply sqrt_pos|]. split; [rewrite <- (sqrt_sqrt x H) at 2; ring|]. eexists. run. reflexivity.
Qed.

(** ** C37: the exponential of a blade *)
(** exp(B, tol) of an object with stored and integer coefficients is, with s the scalar part of B B and
    r = sqrt |s|: 1 + B when |s| <= tol, cos r + (sin r / r) B when s < 0, cosh r + (sinh r / r) B when
    s > 0.  The tolerance is a stored number (its type, integer or floating point, is [int]). *)
Theorem C37_exp : forall P Q R F k a m int tol o, (P + Q + R <= 63)%N -> int_object (P + Q + R) a -> value a m ->
  (int = true -> isint tol) -> 0 <= tol ->
  on_type (body1 (fun x => sp F k P Q R x x)) [a] settled -> computed (body2 (blade_exp F k (Signed P Q R) (P + Q + R))) [a; scalar_obj int tol] ->
  blade_exp F k (Signed P Q R) (P + Q + R) a (scalar_obj int tol) = Some o ->
  o = Ovf \/ exists r, o = Done r /\ int_object (P + Q + R) r /\ value r (mexp tol (re (msp (signature P Q) m m)) m).
Proof. intros P Q R F k a m int tol o H. exact (exp_ok F k (P + Q + R) (Signed P Q R) a m int tol o H eq_refl). Qed.
Print Assumptions C37_exp.
(** When B B is the scalar s, outside the tolerance or zero, this is the sum of the power series of the
    exponential, in every space. *)
Theorem C37_series : forall q m s tol, meq (mgp q m m) [(s, 0%N)] -> 0 <= tol -> tol < Rabs s \/ s = 0 -> is_exp q m (mexp tol s m).
Proof. intros q m s tol H T S. rewrite (mexp_tol tol s m S T). exact (mexp_series q m s H). Qed.
Print Assumptions C37_series.
(** Both together: the computed object is the exponential of the blade. *)
Lemma square_sp q m s : meq (mgp q m m) [(s, 0%N)] -> re (msp q m m) = s.
Proof.
  intros H. unfold re, msp. rewrite (sp_part q m m 0%N). unfold grade_part. rewrite (coef_filter (fun i => N.eqb (grade_of i) 0)). change (N.eqb (grade_of 0) 0) with true. cbv iota.
  assert (E : coef (bilinear (gp_blade q) m m) 0%N = coef [(s, 0%N)] 0%N) by (apply H). rewrite E. cbn. lra.
Qed.
Theorem C37_blade : forall P Q R F k a m s int tol o, (P + Q + R <= 63)%N -> int_object (P + Q + R) a -> value a m ->
  meq (mgp (signature P Q) m m) [(s, 0%N)] -> (int = true -> isint tol) -> 0 <= tol -> tol < Rabs s \/ s = 0 ->
  on_type (body1 (fun x => sp F k P Q R x x)) [a] settled -> computed (body2 (blade_exp F k (Signed P Q R) (P + Q + R))) [a; scalar_obj int tol] ->
  blade_exp F k (Signed P Q R) (P + Q + R) a (scalar_obj int tol) = Some o ->
  o = Ovf \/ exists r e, o = Done r /\ int_object (P + Q + R) r /\ value r e /\ is_exp (signature P Q) m e.
Proof.
  intros P Q R F k a m s int tol o H Oa Va Sq I T D Ty C E. destruct (C37_exp P Q R F k a m int tol o H Oa Va I T Ty C E) as [->|(r & -> & Or & Vr)]; [left; reflexivity|right].
  rewrite (square_sp _ _ _ Sq) in Vr. exists r. eexists. split; [reflexivity|]. split; [exact Or|]. split; [exact Vr|]. exact (C37_series _ m s tol Sq T D).
Qed.
Print Assumptions C37_blade.
(** And exp(B) exp(-B) = 1. *)
Theorem C37_inverse : forall q m s tol, meq (mgp q m m) [(s, 0%N)] -> 0 <= tol -> tol < Rabs s \/ s = 0 ->
  meq (mgp q (mexp tol s m) (mexp tol s (scale (-1) m))) [(1, 0%N)].
Proof. intros q m s tol H T S. apply mexp_inverse; [exact H|]. intros L. destruct S as [S|S]; [lra|exact S]. Qed.
Print Assumptions C37_inverse.
(** The bivector x e12 + y e13 with two stored coefficients, in the Euclidean space and in the space of
    signature (1, 1, 1). *)
Definition ob_r (x y : R) : cliff := {| cexpr := Fn NAdd [Comp SV (CBlade 3); Comp SV (CBlade 5)]; cint := false; cvals := [x; y]; cbits := [] |}.
Example ob_r_ok : forall u v, int_object 3 (ob_r u v) /\ value (ob_r u v) [(u, 3%N); (v, 5%N)].
Proof.
  intros u v. split.
  - exists [(3%N, SV); (5%N, SV)]. split; [reflexivity|]. split; [apply canonical_check; vm_compute; reflexivity|]. split; [split; [intros H; discriminate H|constructor]|].
    constructor; [|constructor; [|constructor]]; (split; [reflexivity|left; reflexivity]).
  - intros g. exists [(u, 3%N); (v, 5%N)]. split; [|intros j; reflexivity].
    exists ([v], []). split; [exists ([v], []); split; [reflexivity|split; [split; reflexivity|intros _; exact Logic.I]]|].
    exists ([], []). split; [exists ([], []); split; [reflexivity|split; [split; reflexivity|intros _; exact Logic.I]]|]. reflexivity.
Qed.
Example C37_case : forall x y tol, let S := Signed 3 0 0 in
  on_type (body1 (fun z => sp 40 40 3 0 0 z z)) [ob_r x y] settled /\ computed (body2 (blade_exp 40 40 S 3)) [ob_r x y; scalar_obj false tol] /\
  compiles (blade_exp 40 40 S 3 (ob_r x y) (scalar_obj false tol)) = true /\
  meq (mgp (signature 3 0) [(x, 3%N); (y, 5%N)] [(x, 3%N); (y, 5%N)]) [(- (x * x + y * y), 0%N)].
Proof.
  intros x y tol S. split; [apply settled_check; run; reflexivity|]. split; [apply computed_check; run; reflexivity|]. split; [lazy; reflexivity|].
  intros k. cbn. destruct k as [|[[[p|p|]|[p|p|]|]|[[p|p|]|[p|p|]|]|]]; cbn; ring.
Qed.
Example C37_case_hyperbolic : forall x tol, let S := Signed 1 1 1 in
  on_type (body1 (fun z => sp 40 40 1 1 1 z z)) [ob_r x 0] settled /\ computed (body2 (blade_exp 40 40 S 3)) [ob_r x 0; scalar_obj false tol] /\
  compiles (blade_exp 40 40 S 3 (ob_r x 0) (scalar_obj false tol)) = true /\
  meq (mgp (signature 1 1) [(x, 3%N); (0, 5%N)] [(x, 3%N); (0, 5%N)]) [(x * x, 0%N)].
Proof.
  intros x tol S. split; [apply settled_check; run; reflexivity|]. split; [apply computed_check; run; reflexivity|]. split; [lazy; reflexivity|].
  intros k. cbn. destruct k as [|[[[p|p|]|[p|p|]|]|[[p|p|]|[p|p|]|]|]]; cbn; ring.
Qed.
