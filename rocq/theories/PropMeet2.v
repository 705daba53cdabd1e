(** C50: the meet of two blades; the order of the arguments of fast_join. *)
From Coq Require Import NArith ZArith List Bool Reals Lra Lia.
From Verif Require Import Bits SpecBits Expr Sem Wf SpecMv SpecAlg SpecOrder Simp Comp Mapping Ops EvalC SpecEval Lazy SpecLazy Api Extra Grade SpecApi SpecExtra ForEach SpecUtil Norm SpecNorm Copy Build SpecMeet Meet.
From Verif Require Import Visit MvBase CanonProofs BuildProofs PropNorm JoinMath MeetProofs MeetProofs2 MeetProofs3 PropApi PropMeet.
Import ListNotations.
Local Open Scope R_scope.

(** ** C50: fast_meet_and_join *)
(** fast_meet_and_join(A, B, tol, mtr) of two blades as in C49, when the inverse of the join is computed at
    run time without a quotient of two integers: the second result is a unit blade J, the first one is
    (B J^-1) A, with left contractions of the Euclidean metric.  With the tolerance 0, the join stands for
    the sum of the two subspaces and the meet is a blade, not zero, that stands for their intersection. *)
Theorem C50_fast_meet_partial : forall F n fuel dim a b av bv A B tint tol o, (dim <= 63)%N -> int_object dim a -> int_object dim b -> value a A -> value b B ->
  blade_of dim av A -> blade_of dim bv B -> (length av <= 7)%nat -> (length bv <= 7)%nat -> (cint a && cint b)%bool = false ->
  (tint = true -> isint tol) -> 0 <= tol -> (exists k, tol < Rabs (coef A k)) -> (exists k, tol < Rabs (coef B k)) ->
  (if (length bv <=? length av)%nat then units_exact F n fuel dim a b else units_exact F n fuel dim b a) ->
  (forall r, fast_join F n fuel dim a b tint tol = Some (Ret r) -> computed (body1 (inv F n Real)) [r]) ->
  fast_meet_and_join F n fuel dim a b tint tol = Some o ->
  o = Overflow \/ exists m j M J cs, o = Ret (m, j) /\ value m M /\ value j J /\ blade_of dim cs J /\ norm2 (fun _ => 1) J = 1 /\
    meq M (mlcont (fun _ => 1) (mlcont (fun _ => 1) B (minv (fun _ => 1) J)) A) /\
    (tol = 0 -> (forall x, in_span cs x <-> in_span (av ++ bv) x) /\ exists ms, blade_of dim ms M /\ forall x, in_span ms x <-> in_span av x /\ in_span bv x).
Proof.
  intros F n fuel dim a b av bv A B tint tol o Hd Oa Ob Va Vb Ba Bb Sa Sb HI Ti T Ka Kb U HC E.
  destruct (fast_meet_ok F n fuel dim a b av bv A B tint tol Hd Oa Ob Va Vb Ba Bb Sa Sb HI Ti T Ka Kb U HC o E) as [->|([m j] & -> & M & J & cs & H)]; [left; reflexivity|right]. exists m, j, M, J, cs. split; [reflexivity|exact H].
Qed.
Print Assumptions C50_fast_meet_partial.

(** Planes of three-dimensional space: x e1^e2 + y e1^e3 + z e2^e3. *)
Definition plane (x y z : R) : cliff := store [3; 5; 6]%N [x; y; z].
Notation vt := (stored_type [1; 2; 4]%N).
Notation pt := (stored_type [3; 5; 6]%N).
Notation jt := (stored_type [3; 5; 6; 7]%N).
Lemma plane_units x y z u v w : units_exact 40 40 40 3 (plane x y z) (plane u v w).
Proof.
  split; [apply unit_exact_check; run; reflexivity|]. intros i j f l c p Ef El Ew Ep.
  unfold basis_f in Ef. assert (Et : full_multivector 40 40 40 3 1 1 = Some vt) by (vm_compute; reflexivity). rewrite Et in Ef. cbn [typed obind] in Ef. apply put_type in Ef. destruct Ef as [Tf If].
  unfold largest_blade in El. assert (Ed : derived 40 40 (cexpr (plane u v w)) = Some pt) by (vm_compute; reflexivity). rewrite Ed in El. cbn [typed obind] in El. apply put_type in El. destruct El as [Tl Il].
  destruct f as [fe fi fv fb], l as [le li lv lb]. cbn [cexpr cint zeros] in Tf, If, Tl, Il. subst.
  apply call_typed in Ew. of_type Ew c. apply in_context_type in Ep. of_type Ep p.
  split; [apply unit_exact_check; run; reflexivity|]. intros t vs c d Ej Lv Ec Ed'. 
  assert (Ej' : join_type 40 40 40 3 (cexpr (plane x y z)) (cexpr (plane u v w)) = Some jt) by (vm_compute; reflexivity). rewrite Ej' in Ej. apply GumProofs.Some_inj in Ej. subst t.
  apply in_context_type in Ec. of_type Ec c. apply call_typed in Ed'. of_type Ed' d. apply unit_exact_check; run; reflexivity.
Qed.
Lemma plane_step b l tol s i : of pt false b -> cexpr l = pt -> cint l = true -> of jt false (fst s) -> safe (fun r => of jt false (fst (fst r))) (fast_join_step 40 40 40 3 b l tol s i).
Proof.
  intros [B1 B2] L1 L2. destruct s as [j g], l as [le li lv lb], b as [be bi bv bb]. cbn [fst]. known j. cbn [cexpr cint] in L1, L2, B1, B2. subst. unfold fast_join_step. 
  eapply safe_bind; [apply safe_basis|]. intros f. known f.
  eapply safe_bind; [unfold project_vector; apply safe_context; run; reflexivity|]. intros p. known p.
  eapply safe_bind; [unfold unit_em; cbn [cexpr]; unfold unit; apply safe_context; run; reflexivity|]. intros p. known p.
  eapply safe_bind; [unfold op_em, outer; apply safe_call; run; reflexivity|]. intros p. known p.
  eapply safe_bind; [apply safe_zero; run; reflexivity|]. intros [|] _; [cbn; split; reflexivity|].
  eapply safe_bind; [unfold unit_em; cbn [cexpr]; unfold unit; apply safe_context; run; reflexivity|]. intros p. known p.
  eapply safe_bind; [unfold checked_trivial_copy; apply safe_copy_to; run; [discriminate|reflexivity]|]. intros p. known p. cbn; split; reflexivity.
Qed.
Lemma plane_pick b : of pt false b -> safe (fun r => (fst r < 2 ^ 64)%N) (largest_component b).
Proof.
  destruct b as [be bi bv bb]. intros [B1 B2]; cbn [cexpr cint] in B1, B2; subst; unfold largest_component, for_each_component; cbn -[Rlt_dec Rabs N.lt];
  repeat (destruct bv as [|? bv]; cbn -[Rlt_dec Rabs N.lt]; [exact I|]; repeat (destruct Rlt_dec; cbn -[Rlt_dec Rabs N.lt])); reflexivity.
Qed.
Lemma plane_impl flip a b gl gr tol : of pt false a -> of pt false b -> safe (of jt false) (fast_join_impl 40 40 40 3 flip a gl b gr tol).
Proof.
  intros [A1 A2] Hb. pose proof Hb as [B1 B2]. unfold fast_join_impl. rewrite A1, A2, B1.
  assert (Ej : join_type 40 40 40 3 pt pt = Some jt) by (vm_compute; reflexivity). assert (D : derived 40 40 pt = Some pt) by (vm_compute; reflexivity).
  rewrite Ej. cbn [typed obind andb]. destruct (_ || _)%bool; [split; reflexivity|].
  assert (U : safe (of pt false) (ran (unit_em 40 40 a))). { destruct a as [ae ai av ab]. cbn [cexpr cint] in *; subst; unfold unit_em; cbn [cexpr]; unfold unit; apply safe_context; run; reflexivity. }
  eapply safe_bind; [exact U|]. intros w. known w.
  eapply (safe_bind (of jt false)). 
  { unfold checked_trivial_copy. refine (safe_copy_to true tol _ (zeros jt false) _ _); [run; discriminate|run; reflexivity]. }
  intros j Hj. destruct (_ || _)%bool; [exact Hj|].
  eapply safe_bind; [apply plane_pick, Hb|]. intros [lb li] L. cbn [fst snd] in L |- *.
  assert (G : safe (fun l => cexpr l = pt /\ cint l = true) (largest_blade 40 40 b li)). { unfold largest_blade. rewrite B1, D. cbn [typed obind]. apply (safe_put li {| cexpr := pt; cint := true; cvals := _; cbits := cbits b |}). }
  eapply safe_bind; [exact G|]. intros l [L1 L2].
  assert (V : safe (fun l => cexpr l = pt /\ cint l = true) (ran (reverse 40 40 l))). { destruct l as [le li' lv lb']. cbn [cexpr cint] in L1, L2. subst. unfold reverse; apply safe_call; run; reflexivity. }
  eapply safe_bind; [exact V|]. clear l V L1 L2. intros l [L1 L2].
  eapply safe_bind.
  { apply (safe_loop _ (fun s => of jt false (fst s))); [exact L|exact Hj|]. intros s i Hs. apply plane_step; assumption. }
  intros [k g] K. cbn [fst] in K |- *. destruct (flip && Z.odd (gl * gr))%bool; [|exact K]. 
  destruct k as [ke ki kv kb]. destruct K as [K1 K2]. cbn [cexpr cint] in K1, K2. subst. unfold neg, gp_scalar. apply safe_call; run; reflexivity.
Qed.
Lemma plane_join x y z u v w tol : safe (of jt false) (fast_join 40 40 40 3 (plane x y z) (plane u v w) false tol).
Proof.
  unfold fast_join. eapply (safe_bind any); [eapply safe_grade; run; reflexivity|]. intros gl _. eapply (safe_bind any); [eapply safe_grade; run; reflexivity|]. intros gr _.
  destruct (Z.leb gr gl); apply plane_impl; split; reflexivity.
Qed.
Lemma plane_meet x y z u v w tol : safe any (fast_meet_and_join 40 40 40 3 (plane x y z) (plane u v w) false tol).
Proof.
  unfold fast_meet_and_join. eapply safe_bind; [apply plane_join|]. intros r. known r.
  eapply safe_bind; [unfold inv; apply safe_context; run; reflexivity|]. intros i. known i.
  eapply safe_bind; [cbn [lcont_in]; apply safe_call; run; reflexivity|]. intros d. known d.
  eapply safe_bind; [cbn [lcont_in]; apply safe_call; run; reflexivity|]. intros m _. exact I.
Qed.
Lemma plane_blade x y z : x <> 0 -> blade_of 3 [[(1, 1%N); (- (z / x), 4%N)]; [(x, 2%N); (y, 4%N)]] [(x, 3%N); (y, 5%N); (z, 6%N)].
Proof.
  intros X. split; [repeat constructor|]. split.
  - exists 1. set (t := - (z / x)). set (W := wedge _). lazy -[Rmult Rplus Ropp IZR Rinv Rdiv t] in W. subst W. intros k. rewrite Verif.AlgProofs.coef_scale. cbn [coef]. destruct (N.eqb 3 k), (N.eqb 5 k), (N.eqb 6 k); unfold t; field; exact X.
  - intros Q. specialize (Q 3%N). cbn in Q. lra.
Qed.
(** The hypotheses of the theorem hold for the planes x e1^e2 + y e1^e3 + z e2^e3 and u e1^e2 + v e1^e3 +
    w e2^e3, with the tolerance 0, whenever x and u are not zero (the planes may be equal or not): *)
Example C50_case : forall x y z u v w, x <> 0 -> u <> 0 -> exists av bv, let A := [(x, 3%N); (y, 5%N); (z, 6%N)] in let B := [(u, 3%N); (v, 5%N); (w, 6%N)] in
  int_object 3 (plane x y z) /\ int_object 3 (plane u v w) /\ value (plane x y z) A /\ value (plane u v w) B /\ blade_of 3 av A /\ blade_of 3 bv B /\ length av = 2%nat /\ length bv = 2%nat /\
  (exists k, 0 < Rabs (coef A k)) /\ (exists k, 0 < Rabs (coef B k)) /\ units_exact 40 40 40 3 (plane x y z) (plane u v w) /\
  (forall r, fast_join 40 40 40 3 (plane x y z) (plane u v w) false 0 = Some (Ret r) -> computed (body1 (inv 40 40 Real)) [r]) /\
  exists o, fast_meet_and_join 40 40 40 3 (plane x y z) (plane u v w) false 0 = Some o.
Proof.
  intros x y z u v w Hx Hu. exists [[(1, 1%N); (- (z / x), 4%N)]; [(x, 2%N); (y, 4%N)]], [[(1, 1%N); (- (w / u), 4%N)]; [(u, 2%N); (v, 4%N)]]. intros A B.
  assert (O : forall p q r, int_object 3 (plane p q r)) by (intros p q r; apply stored_object; [apply LazyProofs2.canonical_check; vm_compute; reflexivity|repeat constructor|discriminate]).
  assert (V : forall p q r, value (plane p q r) [(p, 3%N); (q, 5%N); (r, 6%N)]) by (intros p q r; apply (stored_value [3; 5; 6]%N false [p; q; r]); reflexivity).
  assert (K : forall p q r, p <> 0 -> exists k, 0 < Rabs (coef [(p, 3%N); (q, 5%N); (r, 6%N)] k)) by (intros p q r P; exists 3%N; cbn [coef]; change (N.eqb 3 3) with true; change (N.eqb 5 3) with false; change (N.eqb 6 3) with false; cbv iota; rewrite !Rplus_0_r; apply Rabs_pos_lt, P).
  do 2 (split; [apply O|]). do 2 (split; [apply V|]). do 2 (split; [apply plane_blade; assumption|]). do 2 (split; [reflexivity|]). do 2 (split; [apply K; assumption|]). split; [apply plane_units|]. split.
  - intros r E. pose proof (plane_join x y z u v w 0) as S. rewrite E in S. cbn [safe] in S. revert S. known r. apply computed_check. run. reflexivity.
  - pose proof (plane_meet x y z u v w 0) as C. destruct (fast_meet_and_join _ _ _ _ _ _ _ _) as [o|]; [exists o; reflexivity|contradiction].
Qed.

(** ** C49: the order of the arguments *)
Lemma flip_impl F n fuel dim a gl b gr tol : gl <> (-2)%Z -> gr <> (-2)%Z -> gl <> 0%Z -> gl <> Z.of_N dim ->
  fast_join_impl F n fuel dim true a gl b gr tol = (r <~ fast_join_impl F n fuel dim false a gl b gr tol ;; if Z.odd (gl * gr) then ran (neg F n r) else Some (Ret r)).
Proof.
  intros H1 H2 H3 H4. apply Z.eqb_neq in H1, H2, H3, H4. unfold fast_join_impl. rewrite H1, H2, H3, H4. cbn [orb andb]. 
  destruct (typed _) as [[t| | |]|]; cbn [obind]; try reflexivity. destruct (ran _) as [[u| | |]|]; cbn [obind]; try reflexivity. destruct (copied_to _) as [[j| | |]|]; cbn [obind]; try reflexivity.
  destruct (largest_component b) as [[l| | |]|]; cbn [obind]; try reflexivity. destruct (largest_blade F n b (snd l)) as [[g| | |]|]; cbn [obind]; try reflexivity. destruct (ran _) as [[v| | |]|]; cbn [obind]; try reflexivity. destruct (loop _ _ _) as [[r| | |]|]; cbn [obind]; reflexivity.
Qed.
(** When the grades differ and neither blade spans the space, exchanging the arguments of fast_join
    multiplies the result by -1 to the product of the grades. *)
Theorem C49_swap : forall F n fuel dim a b av bv A B tint tol r o, (dim <= 63)%N -> int_object dim a -> int_object dim b -> value a A -> value b B ->
  blade_of dim av A -> blade_of dim bv B -> (length av < length bv)%nat -> (length bv <= 7)%nat -> (N.of_nat (length bv) < dim)%N -> (cint a && cint b)%bool = false ->
  (tint = true -> isint tol) -> 0 <= tol -> (exists k, tol < Rabs (coef A k)) -> (exists k, tol < Rabs (coef B k)) -> units_exact F n fuel dim b a ->
  fast_join F n fuel dim b a tint tol = Some (Ret r) -> fast_join F n fuel dim a b tint tol = Some o ->
  o = Overflow \/ exists r' J, o = Ret r' /\ value r J /\ value r' (scale (if Nat.odd (length av * length bv) then -1 else 1) J).
Proof.
  intros F n fuel dim a b av bv A B tint tol r o Hd Oa Ob Va Vb Ba Bb Lt Sb Ld HI Ti T Ka Kb U E E'.
  assert (Q : (length av <=? length bv)%nat = true) by (apply Nat.leb_le; lia).
  pose proof (fast_join_ok F n fuel dim b a bv av B A tint tol Hd Ob Oa Vb Va Bb Ba Sb ltac:(lia) ltac:(rewrite andb_comm; exact HI) Ti T Kb Ka) as H. rewrite Q in H. destruct (H U _ E) as [C|(x & C & J & cs & Or & Vr & _)]; [discriminate C|]. apply ret_inj in C. subst x. clear H.
  pose proof (grade_ok F n dim a av A tint tol Hd Oa Va Ba Ti T Ka) as Ga. pose proof (grade_ok F n dim b bv B tint tol Hd Ob Vb Bb Ti T Kb) as Gb. unfold fast_join in E, E'.
  destruct (grade_in F n b (scalar_obj tint tol)) as [[gb| | |]|]; cbn [obind] in E; try discriminate E. destruct (grade_in F n a (scalar_obj tint tol)) as [[ga| | |]|]; cbn [obind] in E; try discriminate E.
  destruct (Ga _ eq_refl) as [C|(x & C & X)]; [discriminate C|]. apply ret_inj in C. subst x. destruct (Gb _ eq_refl) as [C|(x & C & Y)]; [discriminate C|]. apply ret_inj in C. subst x. subst ga gb. clear Ga Gb. cbn [obind] in E'.
  rewrite (proj2 (Z.leb_le _ _)) in E by lia. rewrite (proj2 (Z.leb_gt _ _)) in E' by lia. rewrite flip_impl in E' by lia. rewrite E in E'. cbn [obind] in E'.
  assert (P : Z.odd (Z.of_nat (length bv) * Z.of_nat (length av)) = Nat.odd (length av * length bv)). { rewrite <- Nat2Z.inj_mul, (Nat.mul_comm (length av)). generalize (length bv * length av)%nat. intros k. rewrite <- Nat.negb_even, <- Z.negb_even. f_equal. destruct (Nat.even k) eqn:Ev.
    - apply Nat.even_spec in Ev. destruct Ev as [h ->]. apply Z.even_spec. exists (Z.of_nat h). lia.
    - apply not_true_iff_false. intros Z. apply not_true_iff_false in Ev. apply Ev. apply Nat.even_spec. apply Z.even_spec in Z. destruct Z as [h Z]. exists (Z.to_nat h). lia. }
  rewrite P in E'. destruct (Nat.odd _).
  - destruct (neg F n r) as [x|] eqn:En; [|discriminate E'].
    destruct (C24_neg dim F n r J x Hd Or Vr En) as [->|(r' & -> & _ & Vr')]; cbn [ran] in E'; apply GumProofs.Some_inj in E'; subst o; [left; reflexivity|right]. exists r', J. auto.
  - apply GumProofs.Some_inj in E'. subst o. right. exists r, J. split; [reflexivity|]. split; [exact Vr|]. apply (ExtraProofs.value_meq _ _ _ Vr). intros k. rewrite Verif.AlgProofs.coef_scale. ring.
Qed.
Print Assumptions C49_swap.

(** A trivector and a vector of four-dimensional space: e1^e2^(x e3 + y e4) and u e3 + v e4. *)
Definition tri (x y : R) : cliff := store [7; 11]%N [x; y].
Definition vec2 (u v : R) : cliff := store [4; 8]%N [u; v].
Notation tt3 := (stored_type [7; 11]%N).
Notation tv := (stored_type [4; 8]%N).
Notation tj := (stored_type [7; 11; 13; 14; 15]%N).
Notation v4 := (stored_type [1; 2; 4; 8]%N).
Lemma tri_units x y u v : units_exact 40 40 40 4 (tri x y) (vec2 u v).
Proof.
  split; [apply unit_exact_check; run; reflexivity|]. intros i j f l c p Ef El Ew Ep.
  unfold basis_f in Ef. assert (Et : full_multivector 40 40 40 4 1 1 = Some v4) by (vm_compute; reflexivity). rewrite Et in Ef. cbn [typed obind] in Ef. apply put_type in Ef. destruct Ef as [Tf If].
  unfold largest_blade in El. assert (Ed : derived 40 40 (cexpr (vec2 u v)) = Some tv) by (vm_compute; reflexivity). rewrite Ed in El. cbn [typed obind] in El. apply put_type in El. destruct El as [Tl Il].
  destruct f as [fe fi fv fb], l as [le li lv lb]. cbn [cexpr cint zeros] in Tf, If, Tl, Il. subst.
  apply call_typed in Ew. of_type Ew c. apply in_context_type in Ep. of_type Ep p.
  split; [apply unit_exact_check; run; reflexivity|]. intros t vs c d Ej Lv Ec Ed'. 
  assert (Ej' : join_type 40 40 40 4 (cexpr (tri x y)) (cexpr (vec2 u v)) = Some tj) by (vm_compute; reflexivity). rewrite Ej' in Ej. apply GumProofs.Some_inj in Ej. subst t.
  apply in_context_type in Ec. of_type Ec c. apply call_typed in Ed'. of_type Ed' d. apply unit_exact_check; run; reflexivity.
Qed.
Lemma tri_step b l tol s i : of tv false b -> cexpr l = tv -> cint l = true -> of tj false (fst s) -> safe (fun r => of tj false (fst (fst r))) (fast_join_step 40 40 40 4 b l tol s i).
Proof.
  intros [B1 B2] L1 L2. destruct s as [j g], l as [le li lv lb], b as [be bi bv bb]. cbn [fst]. known j. cbn [cexpr cint] in L1, L2, B1, B2. subst. unfold fast_join_step. 
  eapply (safe_bind (of v4 true)); [unfold basis_f; assert (Et : full_multivector 40 40 40 4 1 1 = Some v4) by (vm_compute; reflexivity); rewrite Et; apply (safe_put _ (zeros v4 true))|]. intros f. known f.
  eapply safe_bind; [unfold project_vector; apply safe_context; run; reflexivity|]. intros p. known p.
  eapply safe_bind; [unfold unit_em; cbn [cexpr]; unfold unit; apply safe_context; run; reflexivity|]. intros p. known p.
  eapply safe_bind; [unfold op_em, outer; apply safe_call; run; reflexivity|]. intros p. known p.
  eapply safe_bind; [apply safe_zero; run; reflexivity|]. intros [|] _; [cbn; split; reflexivity|].
  eapply safe_bind; [unfold unit_em; cbn [cexpr]; unfold unit; apply safe_context; run; reflexivity|]. intros p. known p.
  eapply safe_bind; [unfold checked_trivial_copy; apply safe_copy_to; run; [discriminate|reflexivity]|]. intros p. known p. cbn; split; reflexivity.
Qed.
Lemma tri_pick b : of tv false b -> safe (fun r => (fst r < 2 ^ 64)%N) (largest_component b).
Proof.
  destruct b as [be bi bv bb]. intros [B1 B2]; cbn [cexpr cint] in B1, B2; subst; unfold largest_component, for_each_component; cbn -[Rlt_dec Rabs N.lt];
  repeat (destruct bv as [|? bv]; cbn -[Rlt_dec Rabs N.lt]; [exact I|]; repeat (destruct Rlt_dec; cbn -[Rlt_dec Rabs N.lt])); reflexivity.
Qed.
Lemma tri_impl flip a b gl gr tol : of tt3 false a -> of tv false b -> safe any (fast_join_impl 40 40 40 4 flip a gl b gr tol).
Proof.
  intros [A1 A2] Hb. pose proof Hb as [B1 B2]. unfold fast_join_impl. rewrite A1, A2, B1.
  assert (Ej : join_type 40 40 40 4 tt3 tv = Some tj) by (vm_compute; reflexivity). assert (D : derived 40 40 tv = Some tv) by (vm_compute; reflexivity).
  rewrite Ej. cbn [typed obind andb]. destruct (_ || _)%bool; [exact I|].
  assert (U : safe (of tt3 false) (ran (unit_em 40 40 a))). { destruct a as [ae ai av ab]. cbn [cexpr cint] in *; subst; unfold unit_em; cbn [cexpr]; unfold unit; apply safe_context; run; reflexivity. }
  eapply safe_bind; [exact U|]. intros w. known w.
  eapply (safe_bind (of tj false)). 
  { unfold checked_trivial_copy. refine (safe_copy_to true tol _ (zeros tj false) _ _); [run; discriminate|run; reflexivity]. }
  intros j Hj. destruct (_ || _)%bool; [exact I|].
  eapply safe_bind; [apply tri_pick, Hb|]. intros [lb li] L. cbn [fst snd] in L |- *.
  assert (G : safe (fun l => cexpr l = tv /\ cint l = true) (largest_blade 40 40 b li)). { unfold largest_blade. rewrite B1, D. cbn [typed obind]. apply (safe_put li {| cexpr := tv; cint := true; cvals := _; cbits := cbits b |}). }
  eapply safe_bind; [exact G|]. intros l [L1 L2].
  assert (V : safe (fun l => cexpr l = tv /\ cint l = true) (ran (reverse 40 40 l))). { destruct l as [le li' lv lb']. cbn [cexpr cint] in L1, L2. subst. unfold reverse; apply safe_call; run; reflexivity. }
  eapply safe_bind; [exact V|]. clear l V L1 L2. intros l [L1 L2].
  eapply safe_bind.
  { apply (safe_loop _ (fun s => of tj false (fst s))); [exact L|exact Hj|]. intros s i Hs. apply tri_step; assumption. }
  intros [k g] K. cbn [fst] in K |- *. destruct (flip && Z.odd (gl * gr))%bool; [|exact I]. 
  apply (safe_weak (of tj false)); [intros; exact I|]. destruct k as [ke ki kv kb]. destruct K as [K1 K2]. cbn [cexpr cint] in K1, K2. subst. unfold neg, gp_scalar. apply safe_call; run; reflexivity.
Qed.
Lemma safe_holds {A} (P : A -> Prop) x : safe any x -> holds P x -> safe P x.
Proof. destruct x as [[a| | |]|]; cbn; auto. intros _ H. destruct (H _ eq_refl) as [C|(b & C & Pb)]; [discriminate C|]. apply ret_inj in C. subst. exact Pb. Qed.
(** The hypotheses of the theorem hold for them, with the tolerance 0, whenever x and u are not zero, and the
    product of the grades is odd: *)
Example C49_swap_case : forall x y u v, x <> 0 -> u <> 0 -> exists av bv, let A := [(u, 4%N); (v, 8%N)] in let B := [(x, 7%N); (y, 11%N)] in
  int_object 4 (vec2 u v) /\ int_object 4 (tri x y) /\ value (vec2 u v) A /\ value (tri x y) B /\ blade_of 4 av A /\ blade_of 4 bv B /\ length av = 1%nat /\ length bv = 3%nat /\
  (exists k, 0 < Rabs (coef A k)) /\ (exists k, 0 < Rabs (coef B k)) /\ units_exact 40 40 40 4 (tri x y) (vec2 u v) /\
  (exists o, fast_join 40 40 40 4 (tri x y) (vec2 u v) false 0 = Some o) /\ exists o, fast_join 40 40 40 4 (vec2 u v) (tri x y) false 0 = Some o.
Proof.
  intros x y u v Hx Hu. exists [[(u, 4%N); (v, 8%N)]], [[(1, 1%N)]; [(1, 2%N)]; [(x, 4%N); (y, 8%N)]]. intros A B.
  assert (OA : int_object 4 (vec2 u v)) by (apply stored_object; [apply LazyProofs2.canonical_check; vm_compute; reflexivity|repeat constructor|discriminate]).
  assert (OB : int_object 4 (tri x y)) by (apply stored_object; [apply LazyProofs2.canonical_check; vm_compute; reflexivity|repeat constructor|discriminate]).
  assert (VA : value (vec2 u v) A) by (apply (stored_value [4; 8]%N false [u; v]); reflexivity). assert (VB : value (tri x y) B) by (apply (stored_value [7; 11]%N false [x; y]); reflexivity).
  assert (KA : coef A 4%N = u) by (unfold A; cbn; ring). assert (KB : coef B 7%N = x) by (unfold B; cbn; ring).
  assert (BA : blade_of 4 [A] A). { split; [repeat constructor|]. split; [exists 1|intros Q; specialize (Q 4%N); rewrite KA in Q; exact (Hu Q)]. intros k. cbn [wedge]. rewrite times_one. reflexivity. }
  assert (BB : blade_of 4 [[(1, 1%N)]; [(1, 2%N)]; [(x, 4%N); (y, 8%N)]] B). { split; [repeat constructor|]. split; [exists 1|intros Q; specialize (Q 7%N); rewrite KB in Q; exact (Hx Q)]. set (W := wedge _). lazy -[Rmult Rplus Ropp IZR Rinv Rdiv] in W. subst W B. intros k. rewrite Verif.AlgProofs.coef_scale. cbn [coef]. destruct (N.eqb 7 k), (N.eqb 11 k); ring. }
  assert (PA : exists k, 0 < Rabs (coef A k)) by (exists 4%N; rewrite KA; apply Rabs_pos_lt, Hu). assert (PB : exists k, 0 < Rabs (coef B k)) by (exists 7%N; rewrite KB; apply Rabs_pos_lt, Hx).
  do 6 (split; [assumption|]). do 2 (split; [reflexivity|]). do 2 (split; [assumption|]). split; [apply tri_units|].
  assert (GA : safe (fun g => g = 1%Z) (grade_in 40 40 (vec2 u v) (scalar_obj false 0))). { apply safe_holds; [eapply safe_grade; run; reflexivity|]. exact (grade_ok 40 40 4 _ [A] A false 0 ltac:(discriminate) OA VA BA ltac:(discriminate) (Rle_refl 0) PA). }
  assert (GB : safe (fun g => g = 3%Z) (grade_in 40 40 (tri x y) (scalar_obj false 0))). { apply safe_holds; [eapply safe_grade; run; reflexivity|]. exact (grade_ok 40 40 4 _ _ B false 0 ltac:(discriminate) OB VB BB ltac:(discriminate) (Rle_refl 0) PB). }
  split.
  - assert (S : safe any (fast_join 40 40 40 4 (tri x y) (vec2 u v) false 0)). { unfold fast_join. eapply safe_bind; [exact GB|]. intros g ->. eapply safe_bind; [exact GA|]. intros g ->. apply tri_impl; split; reflexivity. }
    destruct (fast_join _ _ _ _ _ _ _ _) as [o|]; [exists o; reflexivity|contradiction].
  - assert (S : safe any (fast_join 40 40 40 4 (vec2 u v) (tri x y) false 0)). { unfold fast_join. eapply safe_bind; [exact GA|]. intros g ->. eapply safe_bind; [exact GB|]. intros g ->. apply tri_impl; split; reflexivity. }
    destruct (fast_join _ _ _ _ _ _ _ _) as [o|]; [exists o; reflexivity|contradiction].
Qed.
