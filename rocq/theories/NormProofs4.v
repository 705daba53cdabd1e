(** Reverse norm, unit multivectors and exponential of a blade. *)
From Coq Require Import NArith ZArith List Bool Lia Reals Lra.
From Verif Require Import Bits SpecBits BitsBase BitsOnes BitsProofs Expr ExprBase Sem Wf SpecMv SpecAlg MvBase RPowProofs Simp SimpProofs SimpProofs2 SmartProofs PresProofs Comp Mapping Ops CompProofs CompProofs2 SpecOrder OrderProofs GradeProofs MappingProofs OuterProofs GumProofs AlgProofs AlgProofs2 Clifford2 Clifford5 EvalC EvalCProofs SpecEval Lazy SpecLazy TagProofs LazyProofs LazyProofs2 CanonProofs PolyProofs Api Extra SpecApi SpecExtra ApiProofs ApiProofs2 ApiProofs3 ExtraProofs KeepProofs2 KeepProofs3 KeepProofs4 SpecAbs AbsProofs Norm SpecNorm NormProofs NormProofs2 NormProofs3.
Import ListNotations.
Local Open Scope R_scope.

Lemma computed_1 (f : cliff -> result) (h : list cliff -> result) a : (forall x, h [x] = f x) -> computed (body1 f) [a] -> computed h [a].
Proof. intros E H args r Ea Er. destruct (args1 _ _ _ Ea) as [x ->]. apply (H [x] r Ea). cbn [map body1] in *. rewrite <- E. exact Er. Qed.

Lemma sumf_square (f : N -> R) c m : sumf (scale c m) (fun i => f i * coef (scale c m) i) = c * c * sumf m (fun i => f i * coef m i).
Proof. rewrite sumf_scale, Rmult_assoc. f_equal. rewrite <- sumf_mult. apply sumf_ext. intros i. rewrite coef_scale. ring. Qed.

Section Obj.
Variables (F n : nat) (dim : N) (S : space).
Hypothesis Hdim : (dim <= 63)%N.
Hypothesis HS : space_ok S dim.
Notation q := (sig_of S).

(** The arguments of a function of one object. *)
Lemma one_argument a m : int_object dim a -> value a m -> forall args, arguments 0 [a] = Some args ->
  let st := stored_inputs [a] in exists x, args = [x] /\ typed_value (ipoly is_pos 1 (N.of_nat (length st))) dim (ctx_env 0 st) x m.
Proof.
  intros Oa Va args Ea st. assert (HO : Forall (int_object dim) [a]) by auto. assert (HV : Forall2 value [a] [m]) by auto. pose proof (inputs_base is_pos is_integer exps_pos int_poly dim [a] HO) as B0.
  destruct (args1 _ _ _ Ea) as [x ->]. exists x. split; [reflexivity|]. rewrite <- B0 in Ea. destruct (args_typed is_pos is_integer exps_pos int_poly dim [a] _ _ HO HV Ea) as [V4 _]. rewrite B0 in V4. inversion V4; subst. assumption.
Qed.
Lemma context_plain P (X : expr -> bool) (HP : closed_class X F P) g args ms body e m : Forall2 (typed_value P dim g) args ms -> body (map lazy_obj args) = Some (Done (lazy_obj e)) -> typed_value P dim g e m ->
  in_context F n (map lazy_obj args) body = Some (Done (lazy_obj e)).
Proof.
  intros V E T. unfold in_context. destruct (nested_args X P F dim g HP args ms V) as [E1 E2]. rewrite E1, E. cbn [andthen lazy_obj cexpr]. unfold lazy_eval. rewrite E2. destruct (T_stored X P F dim g HP e m T) as (_ & Z1 & Z2). rewrite Z1, Z2. reflexivity.
Qed.
(** A function of one object whose result is known once the type of its argument is. *)
Theorem by_type body a m o (G : mv -> Prop) : int_object dim a -> value a m ->
  let hi := N.of_nat (length (stored_inputs [a])) in let g := ctx_env 0 (stored_inputs [a]) in
  (forall x r, arguments 0 [a] = Some [x] -> typed_value (ipoly is_pos 1 hi) dim g x m -> body [lazy_obj x] = Some r -> exists e res, r = Done (lazy_obj e) /\ typed_value (qclass hi) dim g e res /\ G res) ->
  computed (fun l => in_context F n l body) [a] -> in_context F n [a] body = Some o ->
  o = Ovf \/ exists r res, o = Done r /\ int_object dim r /\ value r res /\ G res.
Proof.
  intros Oa Va hi g HB HC E. assert (HO : Forall (int_object dim) [a]) by auto. assert (HV : Forall2 value [a] [m]) by auto. pose proof (inputs_base is_pos is_integer exps_pos int_poly dim [a] HO) as B0.
  assert (Ex : exists args, arguments 0 [a] = Some args). { unfold in_context in E. rewrite B0 in E. destruct (arguments 0 [a]) as [args|]; [eauto|discriminate E]. }
  destruct Ex as [args Ea]. destruct (one_argument a m Oa Va args Ea) as (x & -> & Tx). fold hi g in Tx.
  assert (Eb : exists r, body [lazy_obj x] = Some r). { unfold in_context in E. rewrite B0, Ea in E. cbn [map] in E. destruct (body [lazy_obj x]) as [r|]; [eauto|discriminate E]. }
  destruct Eb as [r Eb]. destruct (HB x r Ea Tx Eb) as (e & res & -> & Te & Gr).
  destruct (computed_context F n dim body [a] [m] res o HO HV) as [->|(r & -> & R1 & R2)]; [|exact HC|exact E|left; reflexivity|right; exists r, res; auto].
  fold hi g. intros args Ea' _. rewrite Ea in Ea'. apply Some_inj in Ea' as <-. cbn [map]. intros r' Er. rewrite Eb in Er. apply Some_inj in Er as <-. exists e. auto.
Qed.

(** ** The reverse norm *)
Definition rnorm_body : list cliff -> result := body1 (fun x => andthen (reverse F n x) (fun y => andthen (sp_in F n S x y) (root F n 2))).
Theorem rnorm_ok a m o : int_object dim a -> value a m -> 0 <= norm2 q m ->
  on_type (body1 (rnorm_sqr F n S)) [a] (fun c => atomic c = true \/ sure_nonneg c = true) ->
  computed (body1 (rnorm F n S)) [a] -> rnorm F n S a = Some o ->
  o = Ovf \/ exists r u, o = Done r /\ int_object dim r /\ value r [(u, 0%N)] /\ u * u = norm2 q m /\ (on_type (body1 (rnorm_sqr F n S)) [a] (fun c => atomic c = true) -> u = sqrt (norm2 q m)).
Proof.
  intros Oa Va L HT HC E. apply (computed_1 _ (fun l => in_context F n l rnorm_body) a ltac:(reflexivity)) in HC. unfold rnorm in E. fold rnorm_body in E.
  set (G := fun res => exists u, res = [(u, 0%N)] /\ u * u = norm2 q m /\ (on_type (body1 (rnorm_sqr F n S)) [a] (fun c => atomic c = true) -> u = sqrt (norm2 q m))).
  destruct (by_type rnorm_body a m o G Oa Va) as [->|(r & res & -> & R1 & R2 & u & -> & U)]; [|exact HC|exact E|left; reflexivity|right; exists r, u; auto].
  set (hi := N.of_nat (length (stored_inputs [a]))). set (g := ctx_env 0 (stored_inputs [a])). intros x r Ea Tx Eb. unfold rnorm_body in Eb. cbn [body1] in Eb. pose proof (ipoly_class is_pos F exps_pos 1 hi) as HP.
  destruct (reverse F n (lazy_obj x)) as [o1|] eqn:E1; [|discriminate Eb]. destruct (y_rev is_pos _ F n dim g HP Hdim x m Tx o1 E1) as (y & -> & Ty). cbn [andthen] in Eb.
  destruct (sp_in F n S (lazy_obj x) (lazy_obj y)) as [o2|] eqn:E2; [|discriminate Eb]. destruct (y_sp is_pos _ F n dim g S HP Hdim HS x y m _ Tx Ty o2 E2) as (s & -> & Ts). cbn [andthen] in Eb.
  assert (Er : rnorm_sqr F n S (lazy_obj x) = Some (Done (lazy_obj s))).
  { unfold rnorm_sqr. refine (context_plain _ _ HP g [x] [m] _ s _ (Forall2_cons _ _ Tx (Forall2_nil _)) _ Ts). cbn [map body1]. rewrite E1. cbn [andthen]. exact E2. }
  assert (HA : forall P, on_type (body1 (rnorm_sqr F n S)) [a] P -> forall c, s = Comp c (CBlade 0) -> P c).
  { intros P H c ->. specialize (H [x] _ Ea Er). cbn in H. inversion H; assumption. }
  destruct (root_ok F n dim hi g s _ r (q_weaken _ _ _ _ _ Ts) (HA _ HT) L Eb) as (e & u & -> & Te & U1 & U2). exists e, [(u, 0%N)]. split; [reflexivity|]. split; [exact Te|]. exists u. split; [reflexivity|]. split; [exact U1|].
  intros H. destruct (root_type F n dim hi g s _ _ (q_weaken _ _ _ _ _ Ts) Eb) as (c & _ & Es & _). exact (U2 c Es (HA _ H c Es)).
Qed.

(** ** Unit multivectors *)
Theorem unit_ok a m o : int_object dim a -> value a m -> norm2 q m <> 0 -> on_type (body1 (rnorm_sqr F n S)) [a] settled ->
  computed (body1 (unit F n S)) [a] -> unit F n S a = Some o ->
  o = Ovf \/ exists r u, o = Done r /\ int_object dim r /\ value r (scale (/ u) m) /\ u * u = Rabs (norm2 q m).
Proof.
  intros Oa Va Nz HT HC E.
  set (body := body1 (fun x => andthen (reverse F n x) (fun y => andthen (sp_in F n S x y) (fun s => andthen (scalar_fn F n NAbs s) (fun s' => andthen (root F n 2 s') (fun u => andthen (inv F n S u) (fun i => gp_in F n S x i))))))) in *.
  apply (computed_1 _ (fun l => in_context F n l body) a ltac:(reflexivity)) in HC. unfold unit in E. fold body in E.
  set (G := fun res => exists u, res = scale (/ u) m /\ u * u = Rabs (norm2 q m)).
  destruct (by_type body a m o G Oa Va) as [->|(r & res & -> & R1 & R2 & u & -> & U)]; [|exact HC|exact E|left; reflexivity|right; exists r, u; auto].
  set (hi := N.of_nat (length (stored_inputs [a]))). set (g := ctx_env 0 (stored_inputs [a])). intros x r Ea Tx Eb. unfold body in Eb. cbn [body1] in Eb. pose proof (ipoly_class is_pos F exps_pos 1 hi) as HP.
  destruct (reverse F n (lazy_obj x)) as [o1|] eqn:E1; [|discriminate Eb]. destruct (y_rev is_pos _ F n dim g HP Hdim x m Tx o1 E1) as (y & -> & Ty). cbn [andthen] in Eb.
  destruct (sp_in F n S (lazy_obj x) (lazy_obj y)) as [o2|] eqn:E2; [|discriminate Eb]. destruct (y_sp is_pos _ F n dim g S HP Hdim HS x y m _ Tx Ty o2 E2) as (s & -> & Ts). cbn [andthen] in Eb.
  assert (Er : rnorm_sqr F n S (lazy_obj x) = Some (Done (lazy_obj s))).
  { unfold rnorm_sqr. refine (context_plain _ _ HP g [x] [m] _ s _ (Forall2_cons _ _ Tx (Forall2_nil _)) _ Ts). cbn [map body1]. rewrite E1. cbn [andthen]. exact E2. }
  assert (HA : forall c, s = Comp c (CBlade 0) -> settled c).
  { intros c ->. specialize (HT [x] _ Ea Er). cbn in HT. inversion HT; assumption. }
  destruct (scalar_fn F n NAbs (lazy_obj s)) as [o3|] eqn:E3; [|discriminate Eb]. destruct (abs_type F n dim hi g s _ o3 Ts HA E3) as (c & b & -> & Ec & -> & Tb & Db & Vb). cbn [andthen] in Eb.
  destruct (root F n 2 (lazy_obj (Comp b (CBlade 0)))) as [o4|] eqn:E4; [|discriminate Eb].
  assert (Ab : coef [(Rabs (coef (msp q m (mrev m)) 0), 0%N)] 0 = Rabs (norm2 q m)) by (cbn; unfold norm2, re; ring).
  destruct (root_ok F n dim hi g _ _ o4 Tb) with (3 := E4) as (e & u & -> & Te & U1 & _); [intros c' [= <-]; exact Db|rewrite Ab; apply Rabs_pos|]. rewrite Ab in U1. cbn [andthen] in Eb.
  assert (Nu : u <> 0) by (intros ->; apply (Rabs_no_R0 _ Nz); rewrite <- U1; ring).
  destruct (inv F n S (lazy_obj e)) as [o5|] eqn:E5; [|discriminate Eb]. assert (Nu2 : norm2 q [(u, 0%N)] <> 0) by (rewrite norm2_scalar; nra). destruct (y_inv is_int _ F n dim g S (q_class F hi) Hdim HS eq_refl e _ Nu2 Te o5 E5) as (v & -> & Tv). cbn [andthen] in Eb.
  destruct (y_gp is_int _ F n dim g S (q_class F hi) Hdim HS x v m _ (q_weaken _ _ _ _ _ Tx) Tv r Eb) as (w & -> & Tw). exists w, (scale (/ u) m). split; [reflexivity|]. split; [|exists u; auto].
  apply (T_meq _ _ _ _ _ _ Tw). intros j. transitivity (coef (mgp q m [(/ u, 0%N)]) j); [|apply gp_scalar_r]. unfold mgp. apply bilinear_meq; [intros i; reflexivity|apply minv_scalar; exact Nu].
Qed.
(** The norm of the result. *)
Lemma norm2_scale c m : norm2 q (scale c m) = c * c * norm2 q m.
Proof. rewrite (norm2_sumf q (scale c m)), (norm2_sumf q m). apply sumf_square. Qed.
Theorem unit_norm2 u m : u * u = Rabs (norm2 q m) -> norm2 q m <> 0 -> Rabs (norm2 q (scale (/ u) m)) = 1.
Proof.
  intros U Nz. assert (Nu : u <> 0) by (intros ->; apply (Rabs_no_R0 _ Nz); rewrite <- U; ring). rewrite norm2_scale, Rabs_mult, <- U, Rabs_right; [field; exact Nu|]. apply Rle_ge, Rle_0_sqr.
Qed.
End Obj.
