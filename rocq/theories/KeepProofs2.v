(** Grade selection and grade queries on multivector objects. *)
From Coq Require Import NArith ZArith List Bool Lia Reals Lra.
From Verif Require Import Bits SpecBits BitsBase BitsOnes BitsProofs Expr ExprBase Sem Wf SpecMv SpecAlg MvBase Simp SimpProofs SmartProofs PresProofs SpecRat SpecAbs AbsProofs Comp Mapping Ops CompProofs CompProofs2 SpecOrder OrderProofs GradeProofs MappingProofs GumProofs AlgProofs EvalC SpecEval Lazy SpecLazy TagProofs LazyProofs LazyProofs2 CanonProofs PolyProofs Api Extra SpecApi ApiProofs ApiProofs2 ApiProofs3 Grade SpecGrade KeepProofs.
Import ListNotations.

(** ** Shapes *)
Lemma entry_inj p q : entry p = entry q -> p = q.
Proof. destruct p, q. unfold entry. cbn [fst snd]. congruence. Qed.
Lemma mv_of_inj M M' : canonical M -> canonical M' -> mv_of M = mv_of M' -> M = M'.
Proof.
  intros C C' E. assert (Z : forall p, canonical [p] -> mv_of [p] <> mv_of []).
  { intros p Cp Q. destruct (canonical_tail _ _ Cp) as (_ & _ & Nz & _). destruct p as [i c]. unfold mv_of, entry in Q. cbn [fst snd] in Q, Nz. injection Q as Q _. contradiction. }
  destruct M as [|p [|q M]], M' as [|p' [|q' M']]; try reflexivity; try (destruct (Z p C E)); try (destruct (Z p' C' (eq_sym E))); try (cbn in E; discriminate E).
  - f_equal. apply entry_inj. exact E.
  - cbn [mv_of] in E. assert (E' : map entry (p :: q :: M) = map entry (p' :: q' :: M')) by congruence. clear -E'. revert E'. generalize (p :: q :: M) (p' :: q' :: M'). intros l. induction l as [|x l IH]; intros [|y l'] E; try discriminate E; [reflexivity|].
    cbn [map] in E. f_equal; [apply entry_inj; congruence|apply IH; congruence].
Qed.
Lemma c_expr_eq z : c_expr z = Comp (CV z) (CBlade 0). Proof. destruct z; reflexivity. Qed.

(** The arguments handed out by a context: getters and the constants of the inputs. *)
Definition arg_shape (K : expr -> bool) (e : expr) : Prop :=
  exists M, e = mv_of M /\ canonical M /\ Forall (fun p => (exists t j, snd p = GV t j) \/ K (snd p) = true) M.
Section Shape.
Variables (K : expr -> bool).
Hypothesis Kc : forall a, K a = true -> const a = true.
Lemma args_shape dim inputs : Forall (object K dim) inputs -> forall base args, arguments base inputs = Some args -> Forall (arg_shape K) args.
Proof.
  induction 1 as [|a l (M & Ea & C & W & HM) HL IH]; intros base args E; [injection E as <-; constructor|]. cbn [arguments] in E. destruct (has_stored (cexpr a)) eqn:S.
  - destruct (tag_vars (base + 1) (cexpr a) 0 0) as [e|] eqn:Et; [|discriminate]. destruct (arguments (base + 1) l) as [r|] eqn:Er; [|discriminate]. injection E as <-. constructor; [|eauto]. rewrite Ea in Et.
    assert (HS : Forall (fun p => snd p = SV \/ const (snd p) = true) M) by (eapply Forall_impl; [|exact HM]; intros p [_ [->|[Kp _]]]; [auto|right; apply Kc, Kp]).
    destruct (tag_mv _ M e Et C HS) as (M' & -> & C' & F2). exists M'. split; [reflexivity|]. split; [exact C'|]. clear -F2 HM. induction F2 as [|p q M M' [_ H2] F2 IH]; [constructor|]. inversion HM as [|? ? [_ Hp] HM']; subst. constructor; [|auto].
    destruct H2 as [[_ [j ->]]|[Cp ->]]; [left; eauto|right]. destruct Hp as [Hp|[Kp _]]; [rewrite Hp in Cp; discriminate Cp|exact Kp].
  - destruct (arguments base l) as [r|] eqn:Er; [|discriminate]. injection E as <-. constructor; [|eauto]. exists M. split; [exact Ea|]. split; [exact C|]. rewrite Ea, has_stored_mv in S.
    clear -HM S. induction HM as [|p M [_ Hp] HM IH]; [constructor|]. cbn [existsb] in S. apply orb_false_iff in S as [S1 S2]. constructor; [|auto]. destruct Hp as [Hp|[Kp _]]; [rewrite Hp in S1; discriminate S1|right; exact Kp].
Qed.
End Shape.

(** ** take_grade with a constant grade *)
Definition kept (z : Z) (p : N * expr) : expr := if Z.eqb (Z.of_N (ones (fst p))) z then snd p else CV 0.
Lemma keep_const F k z M r : canonical M -> keep_grade F k (mv_of M) (c_expr z) = Some r ->
  let A := filter nonzero (map (fun p => (fst p, kept z p)) M) in r = mv_of A /\ canonical A /\ incl A M.
Proof.
  intros C E A. assert (I : incl A M).
  { intros [i c] H. unfold A in H. apply filter_In in H as [H Nz]. apply in_map_iff in H as ([j d] & Q & H). unfold kept in Q. cbn [fst snd] in Q. pose proof (f_equal fst Q) as Q1. pose proof (f_equal snd Q) as Q2. cbn [fst snd] in Q1, Q2. subst i c. destruct (Z.eqb _ z); [exact H|]. discriminate Nz. }
  rewrite c_expr_eq in E. destruct M as [|p M].
  - cbn in E. split; [|split; [apply canonical_nil|exact I]]. cbn [A map filter]. apply Some_inj in E as <-. destruct z; reflexivity.
  - unfold keep_grade in E. rewrite comps_mv in E. destruct (keep_canon F k (Comp (CV z) (CBlade 0)) (kept z) (p :: M) r ltac:(discriminate) C) with (2 := E) as [R1 R2]; [|auto].
    destruct C as [_ C]. eapply Forall_impl; [|exact C]. intros [i c] [Nz _]. unfold entry, kept. cbn [keep_comp fst snd] in *. f_equal. destruct (Z.eqb _ z); [|reflexivity]. destruct c as [[]| | | | | | | | | |]; try reflexivity; congruence.
Qed.
Lemma sound_keep X F k dim z ma : (dim <= 63)%N -> sound_op X F (op1 (fun x => keep_grade F k x (c_expr z))) dim [ma] (keepR (IZR z) ma).
Proof.
  intros Hd P g args e HP HA E. inversion HA as [|a ? ? ? Ta HA1]; subst. inversion HA1; subst. cbn [op1] in E. pose proof (T_dim P dim g a ma Ta) as Da. destruct Ta as ((M & -> & C & HM) & W & V).
  destruct (keep_const F k z M e C E) as (R1 & R2 & R3). rewrite c_expr_eq in E. destruct (keep_value F k (mv_of M) (CV z) e (IZR z) W (or_intror (ex_intro _ z eq_refl)) eq_refl E) as (W' & V' & _).
  split; [|split; [exact W'|apply V'; [apply num_cv|apply (in_dim_mono dim); [lia|exact Da]|exact V]]]. eexists. split; [exact R1|]. split; [exact R2|]. rewrite Forall_forall in HM |- *. intros p Hp. apply HM, R3, Hp.
Qed.
Lemma const_arg b a z : arguments b [a; c_obj z] = (r <- arguments b [a] ;; Some (r ++ [c_expr z])) /\ stored_inputs [a; c_obj z] = stored_inputs [a] /\ base_id [a; c_obj z] = base_id [a].
Proof.
  assert (Hs : has_stored (c_expr z) = false) by (rewrite c_expr_eq; reflexivity).
  split; [|split].
  - cbn [arguments c_obj lazy_obj cexpr]. rewrite Hs. destruct (has_stored (cexpr a)); [|reflexivity]. destruct (tag_vars (b + 1) (cexpr a) 0 0); reflexivity.
  - cbn [stored_inputs filter c_obj lazy_obj cexpr]. rewrite Hs. reflexivity.
  - unfold base_id. cbn [fold_right c_obj lazy_obj cexpr]. rewrite c_expr_eq. reflexivity.
Qed.
Lemma take_const F n a z : take_grade F n a (c_obj z) = call F n (op1 (fun x => keep_grade F n x (c_expr z))) [a].
Proof.
  unfold take_grade, call. destruct (const_arg (base_id [a]) a z) as (E1 & E2 & E3). rewrite E3, E1. cbn [arguments]. destruct (if has_stored (cexpr a) then _ else _) as [r|] eqn:Er; [|reflexivity].
  assert (L : exists x, r = [x]). { destruct (has_stored (cexpr a)); [destruct (tag_vars _ (cexpr a) 0 0); [|discriminate Er]|]; cbn in Er; apply Some_inj in Er as <-; eauto. } destruct L as [x ->].
  cbn [app op1 op2]. destruct (keep_grade F n x (c_expr z)); [|reflexivity]. unfold lazy_eval. rewrite E2, E3. reflexivity.
Qed.
Lemma int_const a : is_integer a = true -> const a = true. Proof. destruct a; try discriminate. reflexivity. Qed.
Lemma rat_const a : rational a = true -> const a = true.
Proof. intros H. apply (ipoly_numeric is_int exps_int), rat_poly, H. Qed.
Theorem take_grade_ok F n dim a m z o : (dim <= 63)%N -> rat_object dim a -> value a m -> take_grade F n a (c_obj z) = Some o ->
  o = Ovf \/ exists r, o = Done r /\ rat_object dim r /\ value r (keepR (IZR z) m).
Proof.
  intros Hd Oa Va E. rewrite take_const in E.
  apply (call_ok is_int rational F n exps_int ltac:(reflexivity) (rat_add F) (rat_mul F) (rat_pow F) rat_poly _ dim [a] [m] _ o (sound_keep is_int F n dim z m Hd) (Forall_cons _ Oa (Forall_nil _)) (Forall2_cons _ _ Va (Forall2_nil _))); [|exact E].
  intros args A Ea Eo CA _. pose proof (args_shape rational rat_const dim [a] (Forall_cons _ Oa (Forall_nil _)) 0 args Ea) as HS. destruct args as [|x [|]]; try discriminate Eo. cbn [op1] in Eo. inversion HS as [|? ? (M & -> & CM & HM) _]; subst.
  destruct (keep_const F n z M _ CM Eo) as (R1 & R2 & R3). apply mv_of_inj in R1; [|exact CA|exact R2]. rewrite R1 in *. rewrite Forall_forall in HM |- *. intros p Hp. unfold exact_coef. destruct (HM p (R3 p Hp)) as [(t & j & ->)|Kp]; [reflexivity|].
  rewrite (const_getter _ (rat_const _ Kp)). reflexivity.
Qed.
Theorem take_grade_int F n dim a m z o : (dim <= 63)%N -> int_object dim a -> value a m -> take_grade F n a (c_obj z) = Some o ->
  o = Ovf \/ exists r, o = Done r /\ int_object dim r /\ value r (keepR (IZR z) m).
Proof.
  intros Hd Oa Va E. rewrite take_const in E. apply (int_call F n _ dim [a] [m] _ o (sound_keep is_pos F n dim z m Hd)); auto.
Qed.
