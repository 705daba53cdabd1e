(** C52: the meet and join of two blades from their delta product. *)
From Coq Require Import NArith ZArith List Bool Reals Lra Lia.
From Verif Require Import Bits SpecBits Expr Sem Wf SpecMv SpecAlg SpecOrder Simp Comp Mapping Ops EvalC SpecEval Lazy SpecLazy Api Extra Grade SpecApi SpecExtra ForEach SpecUtil Norm SpecNorm Copy Build SpecMeet SpecMeet2 Meet.
From Verif Require Import Visit MvBase CanonProofs BuildProofs PropNorm JoinMath MeetProofs MeetProofs2 MeetProofs3 MeetProofs5 MeetProofs6 PropApi PropMeet PropMeet2.
Import ListNotations.
Local Open Scope R_scope.

(** ** C52: meet_and_join *)
(** meet_and_join(A, B, tol, mtr) of two blades of grades up to 7, with stored or integer coefficients, not
    both of integral types, when the part of highest grade of their geometric product (the delta product) has
    a coefficient above the two tolerances and the inverses are computed at run time without a quotient of
    two integers: a call that returns either returns a meet or a join that is zero, or it returns a blade
    whose subspace is contained in both of A and B, and a blade whose subspace contains both; with the tolerance 0
    the first one stands for the intersection of the two subspaces and the second one for their sum. *)
Theorem C52_meet_and_join_partial : forall F n fuel dim a b av bv A B tint tol dint dtol m j, (dim <= 63)%N -> int_object dim a -> int_object dim b -> value a A -> value b B ->
  blade_of dim av A -> blade_of dim bv B -> (length av <= 7)%nat -> (length bv <= 7)%nat -> (cint a && cint b)%bool = false ->
  (tint = true -> isint tol) -> 0 <= tol -> (dint = true -> isint dtol) -> 0 <= dtol ->
  (exists k, tol < Rabs (coef A k)) -> (exists k, tol < Rabs (coef B k)) -> top_above tol A B -> top_above dtol A B ->
  (if (length av <=? length bv)%nat then inverses_exact F n fuel dim a b dint dtol else inverses_exact F n fuel dim b a dint dtol) ->
  meet_and_join F n fuel dim a b tint tol (scalar_obj dint dtol) = Some (Ret (m, j)) ->
  value m [] \/ value j [] \/
  exists M J ms js, value m M /\ value j J /\ blade_of dim ms M /\ blade_of dim js J /\
    (forall x, in_span ms x -> in_span av x /\ in_span bv x) /\ (forall x, in_span (av ++ bv) x -> in_span js x) /\
    (tol = 0 -> (forall x, in_span ms x <-> in_span av x /\ in_span bv x) /\ (forall x, in_span js x <-> in_span (av ++ bv) x)).
Proof.
  intros F n fuel dim a b av bv A B tint tol dint dtol m j Hd Oa Ob Va Vb Ba Bb Sa Sb HI Ti T Di Dt Ka Kb T1 T2 X E.
  destruct (meet_and_join_ok F n fuel dim a b av bv A B tint tol dint dtol Hd Oa Ob Va Vb Ba Bb Sa Sb HI Ti T Di Dt Ka Kb T1 T2 X (m, j) E) as [[[_ V]|[_ V]]|(M & J & cs & gs & _ & _ & V1 & V2 & B1 & B2 & C1 & C2 & C3 & H)]; [auto|auto|right; right].
  exists M, J, cs, gs. cbn [fst snd] in *. do 4 (split; [assumption|]). assert (S1 : forall x, in_span cs x -> in_span av x /\ in_span bv x) by (intros x Hx; split; [exact (span_trans av cs x C1 Hx)|exact (span_trans bv cs x C2 Hx)]).
  assert (S2 : forall x, in_span (av ++ bv) x -> in_span gs x) by (intros x Hx; exact (span_trans gs _ x C3 Hx)).
  split; [exact S1|]. split; [exact S2|]. intros T0. destruct (H T0) as [H1 H2]. split; intros x; split; [apply S1|intros [X1 X2]; apply H1; assumption|intros Hx; exact (span_trans _ gs x H2 Hx)|apply S2].
Qed.
Print Assumptions C52_meet_and_join_partial.

(** The line of x e1. *)
Definition line (x : R) : cliff := store [1]%N [x].
Definition yes {A} (P : A -> Prop) (x : option (out A)) : Prop := exists a, x = Some (Ret a) /\ P a.
Lemma yes_bind {A B} (P : A -> Prop) (Q : B -> Prop) x (f : A -> option (out B)) : yes P x -> (forall a, P a -> yes Q (f a)) -> yes Q (obind x f).
Proof. intros (a & -> & Ha) H. exact (H a Ha). Qed.
Lemma yes_eq {A} (P : A -> Prop) a : P a -> yes P (Some (Ret a)). Proof. intros H. exists a. auto. Qed.
(** The loop on the indices of a set. *)
Fixpoint walk {A} (f : A -> N -> option (out (A * bool))) (st : A) (l : list N) : option (out A) :=
  match l with [] => Some (Ret st) | i :: l' => r <~ f st (N.succ i) ;; if snd r then walk f (fst r) l' else Some (Ret (fst r)) end.
Lemma loop_walk {A} (f : A -> N -> option (out (A * bool))) st x : (x < 2 ^ 64)%N -> loop f st x = walk f st (indices x).
Proof.
  intros Hx. unfold loop. rewrite VisitProofs.for_each_basis_vector_correct by exact Hx. generalize (indices x). intros l. revert st. induction l as [|i l IH]; intros st; [reflexivity|].
  cbn [map fold_stop walk obind]. destruct (f st (N.succ i)) as [[[s k]| | |]|]; try reflexivity. cbn [fst snd]. destruct k; [apply IH|reflexivity].
Qed.
Definition box (i : bool) (l : list N) (vs : list R) : cliff := {| cexpr := stored_type l; cint := i; cvals := vs; cbits := [] |}.
Lemma yes_number i l : yes (fun g => g = l) (grade_number (box i [0]%N [IZR l])).
Proof.
  pose proof (number_value (box i [0]%N [IZR l]) l (stored_value [0]%N i [IZR l] eq_refl)) as H. destruct (grade_number (box i [0]%N [IZR l])) as [o|] eqn:E; [|cbv [grade_number box stored_type mv_of svs map entry fst snd cexpr cvals] in E; discriminate E].
  destruct (H o eq_refl) as [->|(a & -> & Ha)]; [cbv [grade_number box stored_type mv_of svs map entry fst snd cexpr cvals] in E; discriminate E|]. exists a. auto.
Qed.
Ltac decides := repeat match goal with
  | |- context [Req_EM_T ?u ?v] => destruct (Req_EM_T u v) as [?Q|?Q]; try (exfalso; (lra || nra))
  | |- context [Rlt_dec ?u ?v] => destruct (Rlt_dec u v) as [?Q|?Q]; try (exfalso; (lra || nra))
  | |- context [Rle_dec ?u ?v] => destruct (Rle_dec u v) as [?Q|?Q]; try (exfalso; (lra || nra)) end.
Ltac step P := apply (yes_bind P).
Ltac done_vals := eexists; split; [reflexivity|]; unfold line, store, box, stored_type; cbn [svs map mv_of entry fst snd]; repeat (f_equal; []); repeat (apply f_equal2 || apply f_equal); try reflexivity; try field; try lra.
(** Two equal lines of the plane. *)
Example C52_line : forall x y, 0 < x -> 0 < y -> meet_and_join 40 40 40 2 (line x) (line y) false 0 (scalar_obj false 0) = Some (Ret (store [0; 1; 2]%N [0; 1; 0], store [1; 2; 3]%N [x * y; 0; 0])).
Proof.
  intros x y X Y. pose proof (Rmult_lt_0_compat x y X Y) as XY. pose proof (Rabs_right x ltac:(lra)) as AX. pose proof (Rabs_right y ltac:(lra)) as AY. pose proof (Rabs_right (x * y) ltac:(lra)) as AXY.
  cut (yes (fun r => r = (store [0; 1; 2]%N [0; 1; 0], store [1; 2; 3]%N [x * y; 0; 0])) (meet_and_join 40 40 40 2 (line x) (line y) false 0 (scalar_obj false 0))); [intros (r & E & ->); exact E|].
  assert (GR : forall z, 0 < z -> Rabs z = z -> yes (fun g => g = 1%Z) (grade_in 40 40 (line z) (scalar_obj false 0))).
  { intros z Z AZ. unfold grade_in. step (fun r => r = box true [0]%N [1]); [run; decides; done_vals|]. intros r ->. apply (yes_number true 1). }
  unfold meet_and_join. apply (yes_bind _ _ _ _ (GR x X AX)). intros ? ->. apply (yes_bind _ _ _ _ (GR y Y AY)). intros ? ->. cbn [Z.leb Z.compare].
  unfold meet_and_join_impl. assert (E1 : meet_type 40 40 40 2 (cexpr (line x)) (cexpr (line y)) = Some (stored_type [0; 1; 2]%N)) by (vm_compute; reflexivity). assert (E2 : full_join_type 40 40 40 2 (cexpr (line x)) (cexpr (line y)) = Some (stored_type [1; 2; 3]%N)) by (vm_compute; reflexivity).
  rewrite E1, E2. cbn [typed obind]. change (cint (line x) && cint (line y))%bool with false. change (zeros (stored_type [0; 1; 2]%N) false) with (store [0; 1; 2]%N [0; 0; 0]). change (zeros (stored_type [1; 2; 3]%N) false) with (store [1; 2; 3]%N [0; 0; 0]). cbn [Z.eqb orb].
  step (fun r => r = store [0]%N [x * y]); [run; decides; done_vals|]. intros ? ->.
  step (fun g => g = 0%Z). { unfold grade_in. step (fun r => r = box true [0]%N [0]); [run; decides; done_vals|]. intros r ->. apply (yes_number true 0). } intros ? ->. cbn [Z.eqb Z.add Z.sub Z.opp Z.div2 Pos.add Pos.succ Pos.div2 negb].
  step (fun r : cliff * cliff => r = (store [0; 1; 2]%N [0; 1; 0], store [1; 2; 3]%N [x * y; 0; 0])); [|intros r ->; cbn [andb]; eexists; auto].
  step (fun r => r = store [0; 1; 2]%N [1; 0; 0]); [run; decides; done_vals|]. intros ? ->.
  step (fun r => r = store [1; 2; 3]%N [0; 0; 1]); [run; decides; done_vals|]. intros ? ->.
  step (fun r => r = store [3]%N [- (x * y)]); [run; decides; done_vals|]. intros ? ->.
  step (fun r => r = store [3]%N [/ (x * y)]); [run; decides; done_vals|]. intros ? ->.
  step (fun r => r = store [1]%N [/ x]); [run; decides; done_vals|]. intros ? ->.
  pose proof (Rabs_pos (- (x * y))) as AP. step (fun r => r = (3%N, 0%nat)); [run; decides; try (eexists; split; reflexivity)|]. intros ? ->.
  rewrite loop_walk by reflexivity. cbn [fst]. replace (indices 3) with [0; 1]%N by (vm_compute; reflexivity). cbn [walk].
  step (fun s : (cliff * Z * cliff * Z) => (fst (fst (fst s)), snd (fst s)) = (store [0; 1; 2]%N [0; 1; 0], store [1; 2; 3]%N [x * y; 0; 0])); [|intros [[[m gm] j] gj] E; cbn [fst snd] in E; rewrite <- E; eexists; split; reflexivity].
  step (fun s : (cliff * Z * cliff * Z) * bool => snd s = false /\ (fst (fst (fst (fst s))), snd (fst (fst s))) = (store [0; 1; 2]%N [0; 1; 0], store [1; 2; 3]%N [x * y; 0; 0])); [|intros [s k] [E1' E2']; cbn [fst snd] in E1', E2'; subst k; cbn [snd fst]; exists s; auto].
  unfold meet_step. cbn [m_lhs m_rhs m_dual m_inv_lhs m_inv_dual].
  step (fun r => r = box true [1; 2]%N [1; 0]); [run; decides; done_vals|]. intros ? ->.
  step (fun r => r = store [1; 2]%N [1; 0]); [run; decides; done_vals|]. intros ? ->.
  step (fun r => r = store [1]%N [1]); [run; decides; done_vals|]. intros ? ->.
  step (fun r => r = false); [run; pose proof (Rabs_right 1 ltac:(lra)); decides; eexists; split; reflexivity|]. intros ? ->. cbv iota.
  step (fun s : cliff * Z * cliff * bool => snd s = false /\ (fst (fst (fst s)), snd (fst s)) = (store [0; 1; 2]%N [0; 1; 0], store [1; 2; 3]%N [x * y; 0; 0])); [|intros [[[m gm] j] k] [E1' E2']; cbn [fst snd] in E1', E2'; subst k; cbn [negb]; eexists; split; [reflexivity|split; [reflexivity|exact E2']]].
  pose proof Rabs_R0 as A0.
  step (fun r => r = store [1; 3]%N [1; 0]); [run; decides; done_vals|]. intros ? ->.
  step (fun r => r = store [0; 1; 2]%N [0; 1; 0]); [run; decides; done_vals|]. intros ? ->. cbn [Z.eqb Z.add].
  step (fun r => r = store [0; 1; 2]%N [0; 1; 0]); [run; decides; done_vals|]. intros ? ->.
  step (fun r => r = store [0;1]%N [x; 0]); [run; decides; done_vals|]. intros ? ->.
  step (fun r => r = store [1]%N [x * y]); [run; decides; done_vals|]. intros ? ->.
  step (fun r => r = store [1; 2; 3]%N [x * y; 0; 0]); [run; decides; done_vals|]. intros ? ->.
  eexists. split; [reflexivity|split; reflexivity].
Qed.

Lemma line_exact x y : inverses_exact 40 40 40 2 (line x) (line y) false 0.
Proof.
  split; [|split; [|split]].
  - intros a b t p Q E. lazy in Q. apply GumProofs.Some_inj in Q. injection Q as <- <- <-. lazy -[IZR] in E. apply GumProofs.Some_inj in E. injection E as <-. cbn [cexpr]. repeat (constructor; [left; reflexivity|]). constructor.
  - apply computed_check. run. reflexivity.
  - intros d Ed. apply in_context_type in Ed. of_type Ed d. split; [apply computed_check; run; reflexivity|]. intros e Ee. apply in_context_type in Ee. of_type Ee e. apply computed_check. run. reflexivity.
  - intros t vs Et Lv.
    assert (E1 : meet_type 40 40 40 2 (cexpr (line x)) (cexpr (line y)) = Some (stored_type [0; 1; 2]%N)) by (vm_compute; reflexivity). assert (E2 : full_join_type 40 40 40 2 (cexpr (line x)) (cexpr (line y)) = Some (stored_type [1; 2; 3]%N)) by (vm_compute; reflexivity).
    rewrite E1, E2 in Et. destruct Et as [Et|Et]; apply GumProofs.Some_inj in Et; subst t; apply computed_check; run; reflexivity.
Qed.
(** The hypotheses of the theorem hold for these lines, with the tolerances 0. *)
Example C52_case : forall x y, 0 < x -> 0 < y -> exists av bv,
  int_object 2 (line x) /\ int_object 2 (line y) /\ value (line x) [(x, 1%N)] /\ value (line y) [(y, 1%N)] /\ blade_of 2 av [(x, 1%N)] /\ blade_of 2 bv [(y, 1%N)] /\ (length av = 1)%nat /\ (length bv = 1)%nat /\
  (exists k, 0 < Rabs (coef [(x, 1%N)] k)) /\ (exists k, 0 < Rabs (coef [(y, 1%N)] k)) /\ top_above 0 [(x, 1%N)] [(y, 1%N)] /\ inverses_exact 40 40 40 2 (line x) (line y) false 0.
Proof.
  intros x y X Y. exists [[(x, 1%N)]], [[(y, 1%N)]].
  assert (O : forall p, int_object 2 (line p)) by (intros p; apply stored_object; [apply LazyProofs2.canonical_check; vm_compute; reflexivity|repeat constructor|discriminate]).
  assert (V : forall p, value (line p) [(p, 1%N)]) by (intros p; apply (stored_value [1]%N false [p]); reflexivity).
  assert (K : forall p, 0 < p -> exists k, 0 < Rabs (coef [(p, 1%N)] k)) by (intros p P; exists 1%N; cbn; rewrite Rplus_0_r; apply Rabs_pos_lt; lra).
  assert (B : forall p, 0 < p -> blade_of 2 [[(p, 1%N)]] [(p, 1%N)]).
  { intros p P. split; [repeat constructor|]. split; [exists 1; set (W := wedge _); lazy -[Rmult Rplus Ropp IZR Rinv Rdiv] in W; subst W; intros k; rewrite Verif.AlgProofs.coef_scale; cbn [coef]; destruct (N.eqb 1 k); lra|intros Q; specialize (Q 1%N); cbn in Q; lra]. }
  do 2 (split; [apply O|]). do 2 (split; [apply V|]). do 2 (split; [apply B; assumption|]). do 2 (split; [reflexivity|]). do 2 (split; [apply K; assumption|]). split; [|apply line_exact].
  exists 0%N. set (W := mgp _ _ _). lazy -[Rmult Rplus Ropp IZR Rinv Rdiv] in W. subst W. cbn [coef]. change (N.eqb 0 0) with true. cbv iota. pose proof (Rmult_lt_0_compat x y X Y) as XY. split.
  - apply Rabs_pos_lt. nra.
  - intros k' H. destruct (N.eqb 0 k') eqn:Ek; [apply N.eqb_eq in Ek; subst k'; reflexivity|lra].
Qed.
