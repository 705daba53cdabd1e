(** Functions on integer and rational objects. *)
From Coq Require Import NArith ZArith List Bool Lia Reals Lra.
From Verif Require Import Bits SpecBits Expr ExprBase Sem Wf SpecMv SpecAlg MvBase Simp SimpProofs PresProofs Comp EvalC SpecEval SpecOrder OrderProofs CompProofs2 Mapping Ops ProductProofs OuterProofs GumProofs AlgProofs AlgProofs2 Lazy SpecLazy TagProofs LazyProofs LazyProofs2 CanonProofs PolyProofs Api Extra SpecApi SpecExtra ApiProofs ApiProofs2.
Import ListNotations.

Lemma integer_int e : is_integer e = is_int e. Proof. destruct e; reflexivity. Qed.
Lemma rational_poly e : rational e = ipoly is_int 1 0 e.
Proof.
  induction e as [z|t i| |z|t i| |z|z|pg x IH|c x IHc IHx|f l IH] using expr_ind'; try reflexivity; [cbn; symmetry; apply Bool.not_true_iff_false; exact (no_tag t)|].
  assert (Q : forallb rational l = forallb (ipoly is_int 1 0) l) by (clear -IH; induction IH as [|x l Hx _ IHl]; [reflexivity|]; cbn [forallb]; rewrite Hx, IHl; reflexivity).
  destruct f; try reflexivity; cbn [rational ipoly]; try exact Q. destruct l as [|b [|p [|]]]; try reflexivity; [|destruct p; reflexivity]. inversion IH as [|? ? Hb _]; subst. rewrite Hb. destruct p; cbn [is_int]; rewrite ?andb_true_r, ?andb_false_r; reflexivity.
Qed.
Lemma components_coef p M : coefficients (mv_of (p :: M)) = map snd (p :: M).
Proof. unfold coefficients. rewrite components_mv, map_map. apply map_ext. intros [i c]. reflexivity. Qed.

Section Int.
Variables (F k : nat).
Lemma int_add a b r : eng F OAdd a b = Some r -> is_integer a = true -> is_integer b = true -> is_integer r = true.
Proof. rewrite !integer_int. intros E A B. apply int_inv in A as [x ->]. apply int_inv in B as [y ->]. rewrite (eng_add_cv _ _ _ _ E). reflexivity. Qed.
Lemma int_mul a b r : eng F OMul a b = Some r -> is_integer a = true -> is_integer b = true -> is_integer r = true.
Proof. rewrite !integer_int. intros E A B. apply int_inv in A as [x ->]. apply int_inv in B as [y ->]. rewrite (eng_mul_cv _ _ _ _ E). reflexivity. Qed.
Lemma int_pow' a b r : eng F OPow a b = Some r -> is_integer a = true -> is_pos b = true -> is_integer r = true.
Proof. rewrite !integer_int. apply int_pow. Qed.
Lemma int_poly a : is_integer a = true -> ipoly is_pos 1 0 a = true. Proof. destruct a; try discriminate. reflexivity. Qed.
Theorem int_call op dim inputs ms res o : sound_op is_pos F op dim ms res -> Forall (int_object dim) inputs -> Forall2 value inputs ms ->
  call F k op inputs = Some o -> o = Ovf \/ exists r, o = Done r /\ int_object dim r /\ value r res.
Proof.
  intros HS HO HV E. apply (call_ok is_pos is_integer F k exps_pos ltac:(reflexivity) int_add int_mul int_pow' int_poly op dim inputs ms res o); auto.
  intros args A _ _ _ HA. eapply Forall_impl; [|exact HA]. intros p Hp. unfold exact_coef. rewrite (pos_no_int_div _ _ _ _ Hp). apply orb_true_r.
Qed.
Theorem int_fn body dim inputs ms res o :
  (forall P g args, closed_class is_pos F P -> Forall2 (typed_value P dim g) args ms -> yields P dim g (in_context F k (map lazy_obj args) body) res) ->
  Forall (int_object dim) inputs -> Forall2 value inputs ms ->
  in_context F k inputs body = Some o -> o = Ovf \/ exists r, o = Done r /\ int_object dim r /\ value r res.
Proof.
  intros HS HO HV E. apply (context_ok is_pos is_integer F k exps_pos ltac:(reflexivity) int_add int_mul int_pow' int_poly body dim inputs ms res o); auto.
  intros args A _ _ _ HA. eapply Forall_impl; [|exact HA]. intros p Hp. unfold exact_coef. rewrite (pos_no_int_div _ _ _ _ Hp). apply orb_true_r.
Qed.

Lemma rat_add a b r : eng F OAdd a b = Some r -> rational a = true -> rational b = true -> rational r = true.
Proof. rewrite !rational_poly. exact (ipoly_eng is_int exps_int 1 0 F OAdd a b r). Qed.
Lemma rat_mul a b r : eng F OMul a b = Some r -> rational a = true -> rational b = true -> rational r = true.
Proof. rewrite !rational_poly. exact (ipoly_eng is_int exps_int 1 0 F OMul a b r). Qed.
Lemma rat_pow a b r : eng F OPow a b = Some r -> rational a = true -> is_int b = true -> rational r = true.
Proof. rewrite !rational_poly. exact (ipoly_eng is_int exps_int 1 0 F OPow a b r). Qed.
Lemma rat_poly a : rational a = true -> ipoly is_int 1 0 a = true. Proof. rewrite rational_poly. auto. Qed.
Lemma rat_ids dim inputs : Forall (rat_object dim) inputs -> base_id inputs = 0%N.
Proof. exact (inputs_base is_int rational exps_int rat_poly dim inputs). Qed.
Lemma coefs_all (Q : expr -> bool) A : Forall (fun c => Q c = true) (coefficients (mv_of A)) -> Forall (fun p => Q (snd p) = true) A.
Proof.
  destruct A as [|p A]; [constructor|]. rewrite components_coef. generalize (p :: A). intros l H. induction l; [constructor|]. inversion H; subst. constructor; auto.
Qed.
Theorem rat_call op dim inputs ms res o : sound_op is_int F op dim ms res -> Forall (rat_object dim) inputs -> Forall2 value inputs ms ->
  exact (call F k op) inputs ->
  call F k op inputs = Some o -> o = Ovf \/ exists r, o = Done r /\ rat_object dim r /\ value r res.
Proof.
  intros HS HO HV HE E. apply (call_ok is_int rational F k exps_int ltac:(reflexivity) rat_add rat_mul rat_pow rat_poly op dim inputs ms res o); auto.
  intros args A Ea Eo _ _. pose proof Ea as Ea'. rewrite <- (rat_ids dim inputs HO) in Ea'.
  destruct (args_typed is_int rational exps_int rat_poly dim inputs ms args HO HV Ea') as [V _].
  set (g := ctx_env _ _) in V. pose proof (ipoly_class is_int F exps_int 1 (N.of_nat (length (stored_inputs inputs)))) as HP.
  destruct (nested_args _ _ F dim g HP args ms V) as [E1 _].
  apply (coefs_all (exact_coef (ctx_int 0 (stored_inputs inputs)))). apply (HE args (lazy_obj (mv_of A)) Ea).
  unfold call. rewrite E1, Eo. apply (nested_eval _ _ F k dim g HP args ms _ res V). exact (HS _ g args _ HP V Eo).
Qed.
Theorem rat_fn body dim inputs ms res o :
  (forall P g args, closed_class is_int F P -> Forall2 (typed_value P dim g) args ms -> yields P dim g (in_context F k (map lazy_obj args) body) res) ->
  Forall (rat_object dim) inputs -> Forall2 value inputs ms -> exact (fun l => in_context F k l body) inputs ->
  in_context F k inputs body = Some o -> o = Ovf \/ exists r, o = Done r /\ rat_object dim r /\ value r res.
Proof.
  intros HS HO HV HE E. apply (context_ok is_int rational F k exps_int ltac:(reflexivity) rat_add rat_mul rat_pow rat_poly body dim inputs ms res o); auto.
  intros args A Ea Eo _ _. pose proof Ea as Ea'. rewrite <- (rat_ids dim inputs HO) in Ea'.
  destruct (args_typed is_int rational exps_int rat_poly dim inputs ms args HO HV Ea') as [V _].
  set (g := ctx_env _ _) in V. pose proof (ipoly_class is_int F exps_int 1 (N.of_nat (length (stored_inputs inputs)))) as HP.
  destruct (nested_args _ _ F dim g HP args ms V) as [E1 E2].
  apply (coefs_all (exact_coef (ctx_int 0 (stored_inputs inputs)))). unfold body_op in Eo. destruct (body (map lazy_obj args)) as [[r| |]|] eqn:EB; try discriminate Eo. injection Eo as Eo. rewrite <- Eo.
  refine (HE args {| cexpr := cexpr r |} Ea _). unfold in_context. rewrite E1, EB. cbn [andthen]. unfold lazy_eval. rewrite E2. reflexivity.
Qed.
End Int.
