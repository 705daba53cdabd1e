(** Calls whose result type has coefficients computed at run time. *)
From Coq Require Import NArith ZArith List Bool Lia Reals Lra.
From Verif Require Import Bits SpecBits BitsBase BitsOnes BitsProofs Expr ExprBase Sem Wf SpecMv SpecAlg MvBase RPowProofs Simp SimpProofs SimpProofs2 SmartProofs PresProofs Comp Mapping Ops CompProofs CompProofs2 SpecOrder OrderProofs GradeProofs MappingProofs GumProofs AlgProofs AlgProofs2 EvalC EvalCProofs SpecEval Lazy SpecLazy TagProofs LazyProofs LazyProofs2 CanonProofs PolyProofs Api Extra SpecApi SpecExtra ApiProofs ApiProofs2 ApiProofs3 ExtraProofs KeepProofs2 KeepProofs3 KeepProofs4 SpecAbs AbsProofs Norm SpecNorm NormProofs.
Import ListNotations.
Local Open Scope R_scope.

Definition qclass (hi : N) (e : expr) : bool := query 1 hi e && wf e.
Lemma query_eng lo hi n o a b r : eng n o a b = Some r -> query lo hi a = true -> query lo hi b = true -> query lo hi r = true.
Proof. apply (eng_pres (query lo hi)); reflexivity. Qed.
Lemma no_store_count e : has_stored e = false -> count_vals e = 0%nat /\ count_bits e = 0%nat.
Proof.
  induction e as [z|t i| |z|t i| |z|z|pg x IH|c x IHc IHx|f l IH] using expr_ind'; intros H; try discriminate H; try (split; reflexivity).
  - exact (IH H).
  - cbn [has_stored] in H. apply orb_false_elim in H as [H1 H2]. destruct (IHc H1) as [A1 A2], (IHx H2) as [B1 B2]. cbn [count_vals count_bits]. lia.
  - cbn [has_stored count_vals count_bits] in *. induction IH as [|x l Hx Hl IHl]; [split; reflexivity|]. cbn [existsb fold_right map] in *. apply orb_false_elim in H as [H1 H2]. destruct (Hx H1) as [A1 A2], (IHl H2) as [B1 B2]. lia.
Qed.
Lemma q_class F hi : closed_class is_int F (qclass hi).
Proof.
  unfold qclass. split; [reflexivity|]. split; [|split; [|split]].
  - intros a b r E A B. apply andb_prop in A as [A1 A2]. apply andb_prop in B as [B1 B2]. rewrite (query_eng _ _ _ _ _ _ _ E A1 B1). apply (s_add _ (eng_ok F) _ _ _ A2 B2 E).
  - intros a b r E A B. apply andb_prop in A as [A1 A2]. apply andb_prop in B as [B1 B2]. rewrite (query_eng _ _ _ _ _ _ _ E A1 B1). apply (s_mul _ (eng_ok F) _ _ _ A2 B2 E).
  - intros a b r E A B. apply andb_prop in A as [A1 A2]. apply int_inv in B as [z ->]. rewrite (query_eng _ _ _ _ _ _ _ E A1 eq_refl). apply (s_pow _ (eng_ok F) a (CV z) r A2 eq_refl E).
  - intros c H. apply andb_prop in H as [H1 H2]. pose proof (query_stored _ _ _ H1 H2) as S. destruct (no_store_count c S). auto.
Qed.
Lemma q_weaken hi dim g e m : typed_value (ipoly is_pos 1 hi) dim g e m -> typed_value (qclass hi) dim g e m.
Proof.
  intros ((M & -> & C & HM) & W & V). split; [|split; assumption]. exists M. split; [reflexivity|]. split; [exact C|]. pose proof (M_wf M W) as WM. clear -HM WM.
  induction HM as [|p M [H1 H2] HM IH]; [constructor|]. inversion WM; subst. constructor; [|auto]. split; [|exact H2]. unfold qclass. rewrite (query_numeric _ _ _ (ipoly_numeric is_pos exps_pos _ _ _ H1)). assumption.
Qed.
Lemma q_getter hi c : query 1 hi c = true -> wf c = true -> hi = 0%N -> has_getter c = false.
Proof.
  remember (esize c) as s eqn:Es. revert c Es. induction s as [s IH] using lt_wf_ind. intros e -> Q W ->. destruct e as [z|t0 i| |z|t0 i| |z|z|pg x|c0 x|f l]; try discriminate Q; try reflexivity.
  { cbn in Q. apply andb_prop in Q as [Q1 Q2]. apply N.leb_le in Q1, Q2. lia. }
  assert (IH' : forall x, In x l -> query 1 0 x = true -> wf x = true -> has_getter x = false) by (intros x I Qx Wx; exact (IH _ (esize_in f l x I) x eq_refl Qx Wx eq_refl)).
  destruct (query_inv 1 0 f l Q W) as [(Ff & x & -> & Qx & Wx)|[(Hf & Ql & Wl & Len)|[(-> & x & y & -> & Qx & Qy & Wx & Wy)|(-> & f' & a & b & x & y & -> & Hf & G & Qa & Qb & Qx & Qy & Wa & Wb & Wx & Wy)]]]; cbn [has_getter].
  - cbn [existsb]. rewrite (IH' x); cbn; auto.
  - rewrite forallb_forall in Ql, Wl. destruct (existsb has_getter l) eqn:E; [|reflexivity]. apply existsb_exists in E as (x & I & E). rewrite (IH' x I (Ql x I) (Wl x I)) in E. discriminate E.
  - cbn [existsb]. rewrite (IH' x), (IH' y); cbn; auto.
  - assert (Lt : (esize (Fn f' [a; b]) < esize (Fn NIf [Fn f' [a; b]; x; y]))%nat) by (apply esize_in; cbn; auto).
    assert (La : (esize a < esize (Fn NIf [Fn f' [a; b]; x; y]))%nat) by (eapply Nat.lt_trans; [|exact Lt]; apply esize_in; cbn; auto).
    assert (Lb : (esize b < esize (Fn NIf [Fn f' [a; b]; x; y]))%nat) by (eapply Nat.lt_trans; [|exact Lt]; apply esize_in; cbn; auto).
    rewrite (IH _ La a eq_refl Qa Wa eq_refl), (IH _ Lb b eq_refl Qb Wb eq_refl) in G. discriminate G.
Qed.

Section Calls.
Variables (F n : nat) (dim : N).
Theorem computed_call op inputs ms res o : Forall (int_object dim) inputs -> Forall2 value inputs ms ->
  let hi := N.of_nat (length (stored_inputs inputs)) in let g := ctx_env 0 (stored_inputs inputs) in
  (forall args e, arguments 0 inputs = Some args -> Forall2 (typed_value (ipoly is_pos 1 hi) dim g) args ms -> op args = Some e ->
     typed_value (qclass hi) dim g e res /\ Forall (fun c => computed_coef (ctx_int 0 (stored_inputs inputs)) c = true) (coefficients e)) ->
  call F n op inputs = Some o ->
  o = Ovf \/ exists r, o = Done r /\ int_object dim r /\ value r res.
Proof.
  intros HO HV hi g HR E. assert (D : stored_inputs inputs = [] \/ stored_inputs inputs <> []) by (destruct (stored_inputs inputs); [left; reflexivity|right; discriminate]). destruct D as [ES|Ne].
  - right. pose proof (inputs_base is_pos is_integer exps_pos int_poly dim inputs HO) as B0. unfold call in E. rewrite B0 in E. destruct (arguments 0 inputs) as [args|] eqn:Ea; [|discriminate E]. destruct (op args) as [e|] eqn:Eo; [|discriminate E].
    pose proof Ea as Ea'. rewrite <- B0 in Ea'. destruct (args_typed is_pos is_integer exps_pos int_poly dim inputs _ args HO HV Ea') as [V4 _]. rewrite B0 in V4. fold g hi in V4.
    destruct (HR args e eq_refl V4 Eo) as ((Gd & We & Ve) & HC). pose proof Gd as (A & -> & CA & HA). destruct (q_class F hi) as (_ & _ & _ & _ & Sh). destruct (good_stored _ dim _ Sh Gd) as (_ & Z1 & Z2).
    unfold lazy_eval in E. rewrite ES in E. rewrite Z1, Z2 in E. apply Some_inj in E as <-. eexists. split; [reflexivity|].
    pose proof (coefs_all (computed_coef (ctx_int 0 (stored_inputs inputs))) A HC) as HC'. assert (H0 : hi = 0%N) by (unfold hi; rewrite ES; reflexivity).
    assert (HI : Forall (fun p => is_integer (snd p) = true) A).
    { clear -HA HC' H0. induction HC' as [|p A H HC IH]; [constructor|]. inversion HA as [|? ? [H1 _] HA']; subst. constructor; [|auto]. apply andb_prop in H1 as [H1 H2]. unfold computed_coef in H. rewrite (q_getter hi _ H1 H2 H0) in H. rewrite orb_false_r in H. exact H. }
    split.
    + exists A. split; [reflexivity|]. split; [exact CA|]. split; [split; constructor|]. clear -HI HA. induction HI as [|p A H HC IH]; [constructor|]. inversion HA as [|? ? [H1 H2] HA']; subst. constructor; [|auto]. split; [exact H2|right]. split; [exact H|]. destruct (snd p); try discriminate H. reflexivity.
    + apply (good_const_value A) with g; [eapply Forall_impl; [|exact HI]; intros p Hp; apply int_const, Hp|exact Ve].
  - refine (open_ok is_pos is_integer F n exps_pos (fun z => eq_refl) (int_add F) (int_mul F) (int_pow' F) int_poly op dim inputs ms res o Ne HO HV _ E). fold hi g. intros args e Ea V4 Eo.
    destruct (HR args e Ea V4 Eo) as ((Gd & We & Ve) & HC). destruct Gd as (A & -> & CA & HA). exists A. split; [reflexivity|]. split; [exact CA|]. split; [exact Ve|]. split; [exact We|]. split; [eapply Forall_impl; [|exact HA]; intros p [_ H]; exact H|].
    pose proof (coefs_all (computed_coef (ctx_int 0 (stored_inputs inputs))) A HC) as HC'. clear -HA HC'. induction HC' as [|p A H HC IH]; [constructor|]. inversion HA as [|? ? [H1 _] HA']; subst. constructor; [|auto]. apply andb_prop in H1 as [H1 _].
    unfold computed_coef in H. apply orb_prop in H as [H|H]; [destruct (snd p); try discriminate H; auto|]. apply andb_prop in H as [G Nd]. split; [right; auto|]. unfold exact_coef. rewrite Nd. apply orb_true_r.
Qed.
(** The same for a function that opens a context. *)
Theorem computed_context body inputs ms res o : Forall (int_object dim) inputs -> Forall2 value inputs ms ->
  let hi := N.of_nat (length (stored_inputs inputs)) in let g := ctx_env 0 (stored_inputs inputs) in
  (forall args, arguments 0 inputs = Some args -> Forall2 (typed_value (ipoly is_pos 1 hi) dim g) args ms -> yields (qclass hi) dim g (body (map lazy_obj args)) res) ->
  computed (fun l => in_context F n l body) inputs ->
  in_context F n inputs body = Some o ->
  o = Ovf \/ exists r, o = Done r /\ int_object dim r /\ value r res.
Proof.
  intros HO HV hi g HY HC E. pose proof (inputs_base is_pos is_integer exps_pos int_poly dim inputs HO) as B0.
  apply (computed_call (body_op body) inputs ms res o HO HV).
  - fold hi g. intros args e Ea V4 Eo. pose proof (HY args Ea V4) as Y. unfold body_op in Eo. destruct (body (map lazy_obj args)) as [r|] eqn:EB; [|discriminate Eo]. destruct (Y r eq_refl) as (e' & -> & Te). cbn [lazy_obj cexpr] in Eo. apply Some_inj in Eo as <-. split; [exact Te|].
    apply (HC args (lazy_obj e') Ea). unfold in_context. destruct (nested_args is_pos (ipoly is_pos 1 hi) F dim g (ipoly_class is_pos F exps_pos 1 hi) args ms V4) as [E1 E2]. rewrite E1, EB. cbn [andthen lazy_obj cexpr]. unfold lazy_eval. rewrite E2.
    destruct Te as (Gd & _). destruct (q_class F hi) as (_ & _ & _ & _ & Sh). destruct (good_stored _ dim _ Sh Gd) as (_ & Z1 & Z2). rewrite Z1, Z2. reflexivity.
  - unfold call. unfold in_context in E. rewrite B0 in *. destruct (arguments 0 inputs) as [args|] eqn:Ea; [|discriminate E]. pose proof Ea as Ea'. rewrite <- B0 in Ea'. destruct (args_typed is_pos is_integer exps_pos int_poly dim inputs _ args HO HV Ea') as [V4 _]. rewrite B0 in V4. fold g hi in V4.
    pose proof (HY args eq_refl V4) as Y. unfold body_op. destruct (body (map lazy_obj args)) as [r|] eqn:EB; [|discriminate E]. destruct (Y r eq_refl) as (e' & -> & Te). exact E.
Qed.
End Calls.
