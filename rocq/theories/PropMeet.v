(** C49: the join of two blades. *)
From Coq Require Import NArith ZArith List Bool Reals Lra Lia.
From Verif Require Import Bits SpecBits Expr Sem Wf SpecMv SpecAlg SpecOrder Simp Comp Mapping Ops EvalC SpecEval Lazy SpecLazy Api Extra Grade SpecApi SpecExtra ForEach SpecUtil Norm SpecNorm Copy Build SpecMeet Meet.
From Verif Require Import Visit MvBase CanonProofs BuildProofs PropNorm JoinMath MeetProofs MeetProofs2.
Import ListNotations.
Local Open Scope R_scope.

(** ** C49: fast_join *)
(** fast_join(A, B, tol, mtr) of two blades of grades up to 7, with stored or integer coefficients, not both
    of integral types, each with a coefficient above the tolerance: a blade of unit (Euclidean) norm in the
    sum of the subspaces of A and B, which contains the subspace of the argument of the higher grade; with
    the tolerance 0 it stands for the sum of the two subspaces.  (No exception, no undefined behaviour; [F],
    [n], [fuel]: the recursion depths of the model.) *)
Theorem C49_fast_join_partial : forall F n fuel dim a b av bv A B tint tol o, (dim <= 63)%N -> int_object dim a -> int_object dim b -> value a A -> value b B ->
  blade_of dim av A -> blade_of dim bv B -> (length av <= 7)%nat -> (length bv <= 7)%nat -> (cint a && cint b)%bool = false ->
  (tint = true -> isint tol) -> 0 <= tol -> (exists k, tol < Rabs (coef A k)) -> (exists k, tol < Rabs (coef B k)) ->
  (if (length bv <=? length av)%nat then units_exact F n fuel dim a b else units_exact F n fuel dim b a) ->
  fast_join F n fuel dim a b tint tol = Some o ->
  o = Overflow \/ exists r J cs, o = Ret r /\ value r J /\ blade_of dim cs J /\ norm2 (fun _ => 1) J = 1 /\ Forall (in_span (av ++ bv)) cs /\
    Forall (in_span cs) (if (length bv <=? length av)%nat then av else bv) /\ (tol = 0 -> Forall (in_span cs) (av ++ bv)).
Proof.
  intros F n fuel dim a b av bv A B tint tol o Hd Oa Ob Va Vb Ba Bb Sa Sb HI Ti T Ka Kb U E.
  destruct (fast_join_ok F n fuel dim a b av bv A B tint tol Hd Oa Ob Va Vb Ba Bb Sa Sb HI Ti T Ka Kb U o E) as [->|(r & -> & J & cs & _ & H)]; [left; reflexivity|right]. exists r, J, cs. split; [reflexivity|exact H].
Qed.
Print Assumptions C49_fast_join_partial.

(** Vectors of three-dimensional space: x e1 + y e2 + z e3 and u e1 + v e2. *)
Definition va (x y z : R) : cliff := store [1; 2; 4]%N [x; y; z].
Definition vb (u v : R) : cliff := store [1; 2]%N [u; v].
Lemma unit_exact_check F n a :
  match cexpr a with
  | Comp _ (CBlade 0) => on_typeb (body1 (unit_scalar F n)) [a] computed_coef
  | _ => on_typeb (body1 (rnorm_sqr F n Real)) [a] (fun _ c => has_getter c || is_integer c) && on_typeb (body1 (unit F n Real)) [a] computed_coef
  end = true -> unit_exact F n a.
Proof.
  intros H. unfold unit_exact. destruct (cexpr a) as [| | | | | | | | |c d|]; try (apply andb_prop in H; destruct H as [H1 H2]; split; [apply settled_check, H1|apply computed_check, H2]).
  destruct d as [| | | | | | |[|p]| | |]; try (apply andb_prop in H; destruct H as [H1 H2]; split; [apply settled_check, H1|apply computed_check, H2]). apply computed_check, H.
Qed.
Lemma done_inj {T} (x y : T) : Some (Done x) = Some (Done y) -> x = y. Proof. congruence. Qed.
(** The type of the result of a call does not depend on the stored values. *)
Definition eval_type (F n : nat) (inputs : list cliff) (e : expr) : option (expr * bool) :=
  match stored_inputs inputs with
  | [] => Some (e, true)
  | st => match eval_t F n (base_id inputs + 1) (base_id inputs + N.of_nat (length st)) e with
          | Some (t, code) => Some (t, forallb (store_int (ctx_int (base_id inputs) st)) code)
          | None => None
          end
  end.
Lemma lazy_eval_type F n inputs e r : lazy_eval F n inputs e = Some (Done r) -> eval_type F n inputs e = Some (cexpr r, cint r).
Proof.
  unfold lazy_eval, eval_type. destruct (stored_inputs inputs) as [|a l]; [intros E; apply done_inj in E; subst; reflexivity|].
  destruct eval_t as [[t code]|]; [|discriminate]. cbv zeta. intros E. apply GumProofs.Some_inj in E. destruct run_stores as [[vs bs]| |]; try discriminate. destruct fit; [|discriminate]. destruct fit; [|discriminate]. inversion E. reflexivity.
Qed.
Definition context_type (F n : nat) (inputs : list cliff) (body : list cliff -> result) : option (expr * bool) :=
  match arguments (base_id inputs) inputs with
  | Some args => match body (map lazy_obj args) with Some (Done r) => eval_type F n inputs (cexpr r) | _ => None end
  | None => None
  end.
Lemma in_context_type F n inputs body r : in_context F n inputs body = Some (Done r) -> context_type F n inputs body = Some (cexpr r, cint r).
Proof.
  unfold in_context, context_type. destruct arguments as [args|]; [|discriminate]. destruct body as [[b| |]|]; try discriminate. apply lazy_eval_type.
Qed.
Definition call_type (F n : nat) (op : list expr -> option expr) (inputs : list cliff) : option (expr * bool) :=
  match arguments (base_id inputs) inputs with
  | Some args => match op args with Some e => eval_type F n inputs e | _ => None end
  | None => None
  end.
Lemma call_typed F n op inputs r : call F n op inputs = Some (Done r) -> call_type F n op inputs = Some (cexpr r, cint r).
Proof.
  unfold call, call_type. destruct arguments as [args|]; [|discriminate]. destruct op as [e|]; try discriminate. apply lazy_eval_type.
Qed.
Lemma put_type i a f : put_one i a = Some (Ret f) -> cexpr f = cexpr a /\ cint f = cint a.
Proof. unfold put_one. destruct Nat.ltb; [|discriminate]. intros E. apply GumProofs.Some_inj, ret_inj in E. subst. split; reflexivity. Qed.
Lemma pair_inj {X Y} (a b : X) (c d : Y) : Some (a, c) = Some (b, d) -> a = b /\ c = d. Proof. intros E. split; congruence. Qed.
Ltac rin H := lazy -[Rmult Rplus Ropp IZR Rinv Rdiv Req_EM_T Rle_dec Rlt_dec Rabs sqrt cos sin cosh sinh Rpower] in H.
(** [c] is known to be of the type computed in [H]. *)
Ltac of_type H c := rin H; apply pair_inj in H; let x := fresh in let y := fresh in destruct H as [x y]; let e := fresh in let i := fresh in let v := fresh in let b := fresh in destruct c as [e i v b]; cbn [cexpr cint] in x, y; subst.
Lemma units_case x y z u v : units_exact 40 40 40 3 (va x y z) (vb u v).
Proof.
  split; [apply unit_exact_check; run; reflexivity|]. intros i j f l w p Ef El Ew Ep.
  unfold basis_f in Ef. assert (Et : full_multivector 40 40 40 3 1 1 = Some (stored_type [1; 2; 4]%N)) by (vm_compute; reflexivity). rewrite Et in Ef. cbn [typed obind] in Ef. apply put_type in Ef. destruct Ef as [Tf If].
  unfold largest_blade in El. assert (Ed : derived 40 40 (cexpr (vb u v)) = Some (stored_type [1; 2]%N)) by (vm_compute; reflexivity). rewrite Ed in El. cbn [typed obind] in El. apply put_type in El. destruct El as [Tl Il].
  destruct f as [fe fi fv fb], l as [le li lv lb]. cbn [cexpr cint zeros] in Tf, If, Tl, Il. subst.
  apply call_typed in Ew. of_type Ew w. apply in_context_type in Ep. of_type Ep p.
  split; [apply unit_exact_check; run; reflexivity|]. intros t vs c d Ej Lv Ec Ed'. 
  assert (Ej' : join_type 40 40 40 3 (cexpr (va x y z)) (cexpr (vb u v)) = Some (stored_type [1; 2; 4; 3; 5; 6]%N)) by (vm_compute; reflexivity). rewrite Ej' in Ej. apply GumProofs.Some_inj in Ej. subst t.
  apply in_context_type in Ec. of_type Ec c. apply call_typed in Ed'. of_type Ed' d. apply unit_exact_check; run; reflexivity.
Qed.
(** Compilation only depends on the types. *)
Definition safe {A} (P : A -> Prop) (x : option (out A)) : Prop := match x with Some (Ret a) => P a | Some _ => True | None => False end.
Definition of (t : expr) (i : bool) (a : cliff) : Prop := cexpr a = t /\ cint a = i.
Definition any {A} (_ : A) : Prop := True.
Lemma safe_bind {A B} (P : A -> Prop) (Q : B -> Prop) x (f : A -> option (out B)) : safe P x -> (forall a, P a -> safe Q (f a)) -> safe Q (obind x f).
Proof. destruct x as [[a| | |]|]; cbn; auto. Qed.
Lemma safe_context F n inputs body t i : context_type F n inputs body = Some (t, i) -> safe (of t i) (ran (in_context F n inputs body)).
Proof.
  intros T. assert (N : in_context F n inputs body <> None).
  { unfold context_type in T. unfold in_context. destruct arguments as [args|]; [|discriminate]. destruct body as [[b| |]|]; try discriminate. cbn. unfold eval_type in T. unfold lazy_eval. destruct stored_inputs; [discriminate|]. destruct eval_t as [[? ?]|]; [|discriminate]. discriminate. }
  destruct (in_context F n inputs body) as [[r| |]|] eqn:E; cbn; auto. apply in_context_type in E. rewrite E in T. apply pair_inj in T. exact T.
Qed.
Lemma safe_call F n op inputs t i : call_type F n op inputs = Some (t, i) -> safe (of t i) (ran (call F n op inputs)).
Proof.
  intros T. assert (N : call F n op inputs <> None).
  { unfold call_type in T. unfold call. destruct arguments as [args|]; [|discriminate]. destruct op as [b|]; try discriminate. cbn. unfold eval_type in T. unfold lazy_eval. destruct stored_inputs; [discriminate|]. destruct eval_t as [[? ?]|]; [|discriminate]. discriminate. }
  destruct (call F n op inputs) as [[r| |]|] eqn:E; cbn; auto. apply call_typed in E. rewrite E in T. apply pair_inj in T. exact T.
Qed.
Lemma safe_copy check tol a r : (expr_eqb (cexpr a) (cexpr r) && Bool.eqb (cint a) (cint r))%bool = true -> cexpr a = cexpr r -> safe (of (cexpr r) (cint r)) (copied_to (copy_into check tol a r)).
Proof. intros H E. unfold copy_into. rewrite H. apply andb_prop in H as [_ H]. apply eqb_prop in H. split; [exact E|exact H]. Qed.
Lemma safe_copy_to check tol a r : plan (2 * (length (comps_of (cexpr a)) + length (comps_of (cexpr r)))) check (comps_of (cexpr a)) (comps_of (cexpr r)) <> None ->
  (expr_eqb (cexpr a) (cexpr r) && Bool.eqb (cint a) (cint r))%bool = false -> safe (of (cexpr r) (cint r)) (copied_to (copy_into check tol a r)).
Proof. intros H E. unfold copy_into. rewrite E. destruct plan; [|contradiction]. cbn [copied_to]. destruct execute; cbn; auto. split; reflexivity. Qed.
Lemma safe_visit {S} (f : visitor S) st a : (can_be_stored (cexpr a) && forallb visitable (comps_of (cexpr a)))%bool = true -> safe any (ran (for_each_component f st a)).
Proof. intros H. unfold for_each_component. rewrite H. destruct for_each_list; cbn; exact I. Qed.
Lemma safe_zero a tol : (can_be_stored (cexpr a) && forallb visitable (comps_of (cexpr a)))%bool = true -> safe any (ran (is_zero a tol)).
Proof. intros H. unfold is_zero, for_each_component. rewrite H. cbn. destruct for_each_list; cbn; exact I. Qed.
Lemma safe_loop {A} (f : A -> N -> option (out (A * bool))) (P : A -> Prop) st x : (x < 2 ^ 64)%N -> P st -> (forall s i, P s -> safe (fun r => P (fst r)) (f s i)) -> safe P (loop f st x).
Proof.
  intros Hx H0 H. unfold loop. rewrite VisitProofs.for_each_basis_vector_correct by exact Hx. generalize (map N.succ (indices x)). intros l.
  destruct (fold_stop _ _ l) as [s b] eqn:E. change s with (fst (s, b)). rewrite <- E. clear E s b. revert st H0. induction l as [|i l IH]; intros st H0; [exact H0|].
  cbn [fold_stop]. cbn [obind]. specialize (H st i H0) as Hi. destruct (f st i) as [[[a k]| | |]|]; cbn in Hi; [|cbn; exact I|cbn; exact I|cbn; exact I|contradiction].
  destruct k; [apply IH, Hi|exact Hi].
Qed.
Lemma safe_put i a : safe (of (cexpr a) (cint a)) (put_one i a).
Proof. unfold put_one. destruct Nat.ltb; cbn; [split; reflexivity|exact I]. Qed.
Lemma safe_weak {A} (P Q : A -> Prop) x : (forall a, P a -> Q a) -> safe P x -> safe Q x.
Proof. intros H. destruct x as [[a| | |]|]; cbn; auto. Qed.
Ltac known a := let e := fresh in let i := fresh in let v := fresh in let b := fresh in let x := fresh in let y := fresh in
  destruct a as [e i v b]; intros [x y]; cbn [cexpr cint] in x, y; subst.
Ltac known_safe := run; reflexivity.
Lemma eval_length F n inputs e r : lazy_eval F n inputs e = Some (Done r) -> length (cvals r) = count_vals (cexpr r).
Proof.
  unfold lazy_eval. destruct (stored_inputs inputs) as [|a l]; [intros E; apply done_inj in E; subst; apply repeat_length|].
  destruct eval_t as [[t code]|]; [|discriminate]. cbv zeta. intros E. apply GumProofs.Some_inj in E. destruct run_stores as [[vs bs]| |]; try discriminate.
  unfold fit in E. destruct (Nat.leb_spec (length vs) (count_vals t)); [|discriminate]. destruct Nat.leb; [|discriminate]. inversion E. cbn [cvals cexpr]. rewrite app_length, repeat_length. lia.
Qed.
Lemma safe_grade F n a tol i : call_type F n (op2 (deduce_t F grade_join)) [a; tol] = Some (stored_type [0]%N, i) -> safe any (grade_in F n a tol).
Proof.
  intros T. unfold grade_in, grade. pose proof (safe_call _ _ _ _ _ _ T) as S. destruct (call _ _ _ _) as [[r| |]|] eqn:E; cbn in S |- *; try exact I; [|exact S].
  assert (L : length (cvals r) = count_vals (cexpr r)). { unfold call in E. destruct arguments; [|discriminate]. destruct op2; [|discriminate]. exact (eval_length _ _ _ _ _ E). }
  destruct S as [T1 _]. unfold grade_number. rewrite T1 in *. destruct (cvals r); [discriminate L|]. exact I.
Qed.
Lemma safe_basis i : safe (of (stored_type [1; 2; 4]%N) true) (basis_f 40 40 40 3 i).
Proof. unfold basis_f. assert (Et : full_multivector 40 40 40 3 1 1 = Some (stored_type [1; 2; 4]%N)) by (vm_compute; reflexivity). rewrite Et. apply (safe_put _ (zeros (stored_type [1; 2; 4]%N) true)). Qed.
Lemma safe_step b l tol s i : of (stored_type [1; 2]%N) false b \/ of (stored_type [1; 2; 4]%N) false b -> cexpr l = cexpr b -> cint l = true -> 
  of (stored_type [1; 2; 4; 3; 5; 6]%N) false (fst s) -> safe (fun r => of (stored_type [1; 2; 4; 3; 5; 6]%N) false (fst (fst r))) (fast_join_step 40 40 40 3 b l tol s i).
Proof.
  intros B L1 L2. destruct s as [j g], l as [le li lv lb], b as [be bi bv bb]. cbn [fst]. known j. cbn [cexpr cint] in L1, L2. subst.
  destruct B as [[B1 B2]|[B1 B2]]; cbn [cexpr cint] in B1, B2; subst; unfold fast_join_step. 
  - eapply safe_bind; [apply safe_basis|]. intros f. known f.
    eapply safe_bind; [unfold project_vector; apply safe_context; run; reflexivity|]. intros p. known p.
    eapply safe_bind; [unfold unit_em; cbn [cexpr]; unfold unit; apply safe_context; run; reflexivity|]. intros p. known p.
    eapply safe_bind; [unfold op_em, outer; apply safe_call; run; reflexivity|]. intros p. known p.
    eapply safe_bind; [apply safe_zero; run; reflexivity|]. intros [|] _; [cbn; split; reflexivity|].
    eapply safe_bind; [unfold unit_em; cbn [cexpr]; unfold unit; apply safe_context; run; reflexivity|]. intros p. known p.
    eapply safe_bind; [unfold checked_trivial_copy; apply safe_copy_to; run; [discriminate|reflexivity]|]. intros p. known p. cbn; split; reflexivity.
  - eapply safe_bind; [apply safe_basis|]. intros f. known f.
    eapply safe_bind; [unfold project_vector; apply safe_context; run; reflexivity|]. intros p. known p.
    eapply safe_bind; [unfold unit_em; cbn [cexpr]; unfold unit; apply safe_context; run; reflexivity|]. intros p. known p.
    eapply safe_bind; [unfold op_em, outer; apply safe_call; run; reflexivity|]. intros p. known p.
    eapply safe_bind; [apply safe_zero; run; reflexivity|]. intros [|] _; [cbn; split; reflexivity|].
    eapply safe_bind; [unfold unit_em; cbn [cexpr]; unfold unit; apply safe_context; run; reflexivity|]. intros p. known p.
    eapply safe_bind; [unfold checked_trivial_copy; apply safe_copy_to; run; [discriminate|reflexivity]|]. intros p. known p. cbn; split; reflexivity.
Qed.
Lemma safe_pick b : of (stored_type [1; 2]%N) false b \/ of (stored_type [1; 2; 4]%N) false b -> safe (fun r => (fst r < 2 ^ 64)%N) (largest_component b).
Proof.
  intros B. destruct b as [be bi bv bb]. destruct B as [[B1 B2]|[B1 B2]]; cbn [cexpr cint] in B1, B2; subst; unfold largest_component, for_each_component; cbn -[Rlt_dec Rabs N.lt];
  repeat (destruct bv as [|? bv]; cbn -[Rlt_dec Rabs N.lt]; [exact I|]; repeat (destruct Rlt_dec; cbn -[Rlt_dec Rabs N.lt])); reflexivity.
Qed.
Lemma safe_impl flip a b gl gr tol :
  of (stored_type [1; 2; 4]%N) false a /\ of (stored_type [1; 2]%N) false b \/ of (stored_type [1; 2; 4]%N) false b /\ of (stored_type [1; 2]%N) false a ->
  safe any (fast_join_impl 40 40 40 3 flip a gl b gr tol).
Proof.
  assert (Ej : join_type 40 40 40 3 (stored_type [1; 2; 4]%N) (stored_type [1; 2]%N) = Some (stored_type [1; 2; 4; 3; 5; 6]%N)) by (vm_compute; reflexivity).
  assert (Ek : join_type 40 40 40 3 (stored_type [1; 2]%N) (stored_type [1; 2; 4]%N) = Some (stored_type [1; 2; 4; 3; 5; 6]%N)) by (vm_compute; reflexivity).
  assert (D1 : derived 40 40 (stored_type [1; 2]%N) = Some (stored_type [1; 2]%N)) by (vm_compute; reflexivity).
  assert (D2 : derived 40 40 (stored_type [1; 2; 4]%N) = Some (stored_type [1; 2; 4]%N)) by (vm_compute; reflexivity).
  intros H. unfold fast_join_impl.
  assert (T : join_type 40 40 40 3 (cexpr a) (cexpr b) = Some (stored_type [1; 2; 4; 3; 5; 6]%N)). { destruct H as [[[-> _] [-> _]]|[[-> _] [-> _]]]; [exact Ej|exact Ek]. }
  assert (I0 : (cint a && cint b)%bool = false). { destruct H as [[[_ ->] _]|[[_ Q] [_ ->]]]; reflexivity. }
  assert (Hb : of (stored_type [1; 2]%N) false b \/ of (stored_type [1; 2; 4]%N) false b) by tauto.
  assert (D : derived 40 40 (cexpr b) = Some (cexpr b)). { destruct Hb as [[-> _]|[-> _]]; [exact D1|exact D2]. }
  assert (Ha : of (stored_type [1; 2]%N) false a \/ of (stored_type [1; 2; 4]%N) false a) by tauto.
  rewrite T, I0. cbn [typed obind]. destruct (_ || _)%bool; [exact I|].
  assert (U : safe (of (cexpr a) false) (ran (unit_em 40 40 a))).
  { destruct a as [ae ai av ab]. destruct Ha as [[A1 A2]|[A1 A2]]; cbn [cexpr cint] in *; subst; unfold unit_em; cbn [cexpr]; unfold unit; apply safe_context; run; reflexivity. }
  eapply safe_bind; [exact U|]. intros w Hw.
  eapply (safe_bind (of (stored_type [1; 2; 4; 3; 5; 6]%N) false)). 
  { destruct w as [we wi wv wb]. destruct Hw as [W1 W2]; cbn [cexpr cint] in W1, W2; subst. unfold checked_trivial_copy. destruct Ha as [[A1 A2]|[A1 A2]]; rewrite A1; (refine (safe_copy_to true tol _ (zeros (stored_type [1; 2; 4; 3; 5; 6]%N) false) _ _); [run; discriminate|run; reflexivity]). }
  intros j Hj. destruct (_ || _)%bool; [exact I|].
  eapply safe_bind; [apply safe_pick, Hb|]. intros [lb li] L. cbn [fst snd] in L |- *.
  assert (G : safe (fun l => cexpr l = cexpr b /\ cint l = true) (largest_blade 40 40 b li)). { unfold largest_blade. rewrite D. cbn [typed obind]. apply (safe_put li {| cexpr := cexpr b; cint := true; cvals := _; cbits := cbits b |}). }
  eapply safe_bind; [exact G|]. intros l [L1 L2].
  assert (V : safe (fun l => cexpr l = cexpr b /\ cint l = true) (ran (reverse 40 40 l))). 
  { destruct l as [le li' lv lb']. cbn [cexpr cint] in L1, L2. subst. destruct Hb as [[B1 B2]|[B1 B2]]; rewrite B1; unfold reverse; apply safe_call; run; reflexivity. }
  eapply safe_bind; [exact V|]. clear l V L1 L2. intros l [L1 L2].
  eapply safe_bind.
  { apply (safe_loop _ (fun s => of (stored_type [1; 2; 4; 3; 5; 6]%N) false (fst s))); [exact L|exact Hj|]. intros s i Hs. apply safe_step; assumption. }
  intros [k g] K. cbn [fst] in K |- *. destruct (flip && Z.odd (gl * gr))%bool; [|exact I]. 
  apply (safe_weak (of (stored_type [1; 2; 4; 3; 5; 6]%N) false)); [intros; exact I|]. destruct k as [ke ki kv kb]. destruct K as [K1 K2]. cbn [cexpr cint] in K1, K2. subst. unfold neg, gp_scalar. apply safe_call; run; reflexivity.
Qed.
Lemma compiles_case x y z u v tol : safe any (fast_join 40 40 40 3 (va x y z) (vb u v) false tol).
Proof.
  unfold fast_join. eapply (safe_bind any); [eapply safe_grade; run; reflexivity|]. intros gl _. eapply (safe_bind any); [eapply safe_grade; run; reflexivity|]. intros gr _.
  destruct (Z.leb gr gl); apply safe_impl; [left|right]; repeat split.
Qed.
Lemma times_one m : meq (scale 1 (mop m one)) m.
Proof.
  intros k. rewrite Verif.AlgProofs.coef_scale, Rmult_1_l. apply Clifford.op_one_r.
Qed.
Lemma vector_blade m : is_vector 3 m -> ~ meq m [] -> blade_of 3 [m] m.
Proof.
  intros V Z. split; [constructor; [exact V|constructor]|]. split; [exists 1|exact Z]. intros k. cbn [wedge]. rewrite times_one. reflexivity.
Qed.
(** The hypotheses of the theorem hold for the vectors x e1 + y e2 + z e3 and u e1 + v e2, with the
    tolerance 0, whenever z and v are not zero: *)
Example C49_case : forall x y z u v, z <> 0 -> v <> 0 -> let A := [(x, 1%N); (y, 2%N); (z, 4%N)] in let B := [(u, 1%N); (v, 2%N)] in
  int_object 3 (va x y z) /\ int_object 3 (vb u v) /\ value (va x y z) A /\ value (vb u v) B /\ blade_of 3 [A] A /\ blade_of 3 [B] B /\
  (exists k, 0 < Rabs (coef A k)) /\ (exists k, 0 < Rabs (coef B k)) /\ units_exact 40 40 40 3 (va x y z) (vb u v) /\
  exists o, fast_join 40 40 40 3 (va x y z) (vb u v) false 0 = Some o.
Proof.
  intros x y z u v Hz Hv A B.
  assert (KA : coef A 4%N = z) by (unfold A; cbn; ring). assert (KB : coef B 2%N = v) by (unfold B; cbn; ring).
  split; [apply stored_object; [apply LazyProofs2.canonical_check; vm_compute; reflexivity|repeat constructor|discriminate]|]. split; [apply stored_object; [apply LazyProofs2.canonical_check; vm_compute; reflexivity|repeat constructor|discriminate]|].
  split; [apply (stored_value [1; 2; 4]%N false [x; y; z]); reflexivity|]. split; [apply (stored_value [1; 2]%N false [u; v]); reflexivity|].
  split; [apply vector_blade; [split|intros Q; specialize (Q 4%N); rewrite KA in Q; cbn in Q; lra]|].
  { repeat constructor. }
  { repeat constructor. }
  split; [apply vector_blade; [split|intros Q; specialize (Q 2%N); rewrite KB in Q; cbn in Q; lra]|].
  { repeat constructor. }
  { repeat constructor. }
  split; [exists 4%N; rewrite KA; apply Rabs_pos_lt, Hz|]. split; [exists 2%N; rewrite KB; apply Rabs_pos_lt, Hv|]. split; [apply units_case|].
  pose proof (compiles_case x y z u v 0) as C. destruct (fast_join _ _ _ _ _ _ _ _) as [o|]; [exists o; reflexivity|contradiction].
Qed.

(** ** Grades from 8 up *)
Definition post {A} (P : A -> Prop) (x : option (out A)) : Prop := forall a, x = Some (Ret a) -> P a.
Lemma post_bind {A B} (P : A -> Prop) (Q : B -> Prop) x (f : A -> option (out B)) : post P x -> (forall a, P a -> post Q (f a)) -> post Q (obind x f).
Proof. intros H1 H2 b E. destruct x as [[a| | |]|]; try discriminate. exact (H2 a (H1 a eq_refl) b E). Qed.
Lemma ret_some {T} (x y : T) : Some (Ret x) = Some (Ret y) -> x = y. Proof. congruence. Qed.
Lemma post_any {A} (x : option (out A)) : post any x. Proof. intros a _. exact I. Qed.
Lemma post_ret {A} (P : A -> Prop) a : P a -> post P (Some (Ret a)). Proof. intros H b E. apply ret_some in E. subst. exact H. Qed.
Lemma post_copy check tol a r : post (fun c => cexpr c = cexpr r) (copied_to (copy_into check tol a r)).
Proof.
  intros c E. unfold copy_into in E. destruct (_ && _)%bool eqn:Q.
  - apply andb_prop in Q as [Q _]. apply ExprBase.expr_eqb_eq in Q. cbn in E. apply ret_some in E. subst. exact Q.
  - destruct plan; [|discriminate]. cbn [copied_to] in E. destruct execute; try discriminate. apply ret_some in E. subst. reflexivity.
Qed.
Lemma post_loop {A} (f : A -> N -> option (out (A * bool))) (P : A -> Prop) st x : P st -> (forall s i, P s -> post (fun r => P (fst r)) (f s i)) -> post P (loop f st x).
Proof.
  intros H0 H. unfold loop, for_each_basis_vector. set (g := fun (s : option (out A)) (i : N) => _).
  assert (G : forall s i, post P s -> post P (fst (g s i))).
  { intros s i Hs. unfold g. destruct s as [[a| | |]|]; cbn [obind]; try (intros b E; discriminate E). destruct (f a i) as [[[b c]| | |]|] eqn:E; try (intros b' E'; discriminate E'). cbn [fst]. apply post_ret. exact (H a i (Hs a eq_refl) _ E). }
  clearbody g. assert (L : forall k s x b, post P s -> post P (match for_each_basis_vector_loop k g s x b with Some (s, _) => s | None => None end)).
  { induction k as [|k IH]; intros s y b Hs; [intros a E; discriminate E|]. cbn [for_each_basis_vector_loop]. destruct (_ && _)%bool; [|exact Hs]. destruct (g s _) as [s' kg] eqn:E. apply IH. change s' with (fst (s', kg)). rewrite <- E. apply G, Hs. }
  apply L, post_ret, H0.
Qed.
Definition high : cliff := store [255]%N [1].
Definition ninth : cliff := store [256]%N [1].
Lemma grade_post F n a b z : (b < 2 ^ 9)%N -> int_object 9 a -> value a [(1, b)] -> z = Z.of_N (grade_of b) -> post (fun g => g = z) (grade_in F n a (scalar_obj false 0)).
Proof.
  intros L O V Hz g E. assert (H : holds (fun x => x = z) (grade_in F n a (scalar_obj false 0))).
  { unfold grade_in. apply (holds_bind (fun r => value r [(IZR z, 0%N)])); [|intros r _ Vr; exact (number_value r z Vr)]. apply holds_ran. intros o Eo.
    destruct (PropGrade.C29_grade_homogeneous F n 9 a [(1, b)] (grade_of b) false 0 o ltac:(discriminate) O V ltac:(discriminate) ltac:(lra)) as [->|(r & -> & Vr)]; [| |exact Eo|left; reflexivity|right].
    - intros k. unfold grade_part. cbn [filter snd]. rewrite N.eqb_refl. reflexivity.
    - exists b. cbn [coef]. rewrite N.eqb_refl, Rplus_0_r, Rabs_R1. lra.
    - exists r. rewrite Hz. auto. }
  destruct (H _ E) as [Q|(x & Q & ->)]; [discriminate Q|]. apply ret_inj in Q. exact Q.
Qed.
(** The type of the join of a blade of grade 8 and a vector of nine-dimensional space has no component of
    grade 9 (leftmost_set_bit is wrong above 255: see C05): fast_join of e1^...^e8 and e9 does not yield the
    join, a multiple of e1^...^e9. *)
Theorem C49_high_grades_refuted : forall F n fuel r,
  int_object 9 high /\ value high [(1, 255%N)] /\ int_object 9 ninth /\ value ninth [(1, 256%N)] /\
  (fast_join F n fuel 9 high ninth false 0 = Some (Ret r) -> ~ names_blade (cexpr r) 511).
Proof.
  intros F n fuel r.
  assert (Oa : int_object 9 high). { apply stored_object; [apply LazyProofs2.canonical_check; vm_compute; reflexivity|repeat constructor|discriminate]. }
  assert (Ob : int_object 9 ninth). { apply stored_object; [apply LazyProofs2.canonical_check; vm_compute; reflexivity|repeat constructor|discriminate]. }
  assert (Va : value high [(1, 255%N)]) by (apply (stored_value [255]%N false [1]); reflexivity).
  assert (Vb : value ninth [(1, 256%N)]) by (apply (stored_value [256]%N false [1]); reflexivity).
  do 4 (split; [assumption|]). revert r. change (post (fun r => ~ names_blade (cexpr r) 511) (fast_join F n fuel 9 high ninth false 0)).
  unfold fast_join. eapply post_bind; [apply (grade_post F n high 255 8); [reflexivity|exact Oa|exact Va|reflexivity]|]. intros gl ->.
  eapply post_bind; [apply (grade_post F n ninth 256 1); [reflexivity|exact Ob|exact Vb|reflexivity]|]. intros gr ->. change (Z.leb 1 8) with true. cbv iota.
  unfold fast_join_impl. destruct (join_type F n fuel 9 (cexpr high) (cexpr ninth)) as [t|] eqn:Et; [|intros r E; discriminate E]. cbn [typed obind].
  change (join_type F n fuel 9 (cexpr high) (cexpr ninth)) with (full_multivector F n fuel 9 8 8) in Et.
  destruct (full_some F n fuel 9 8 8 t ltac:(discriminate) ltac:(discriminate) ltac:(discriminate) Et) as (l & [_ Bl] & ->).
  assert (N : ~ names_blade (stored_type l) 511). { rewrite stored_names; [rewrite Bl; intros [_ [_ G]]; vm_compute in G; apply G; reflexivity|]. intros ->. apply (proj2 (Bl 255%N)). split; [reflexivity|split; discriminate]. }
  destruct (_ || _)%bool; [apply post_ret, N|]. eapply post_bind; [apply post_any|]. intros u _. eapply post_bind; [apply post_copy|]. intros j Hj. cbn [cexpr zeros] in Hj.
  change (8 =? 0)%Z with false. change (8 =? Z.of_N 9)%Z with false. cbn [orb andb]. eapply post_bind; [apply post_any|]. intros p _. eapply post_bind; [apply post_any|]. intros q _. eapply post_bind; [apply post_any|]. intros w _.
  eapply post_bind; [apply (post_loop _ (fun s => cexpr (fst s) = stored_type l)); [exact Hj|]|intros [c g] Hc; apply post_ret; cbn [fst] in *; rewrite Hc; exact N].
  intros [c g] i Hc. cbn [fst] in Hc. unfold fast_join_step. do 4 (eapply post_bind; [apply post_any|]; intros ? _). eapply post_bind; [apply post_any|]. intros [|] _; [apply post_ret; exact Hc|].
  eapply post_bind; [apply post_any|]. intros ? _. eapply post_bind; [apply post_copy|]. intros d Hd. apply post_ret. cbn [fst]. congruence.
Qed.
Print Assumptions C49_high_grades_refuted.
