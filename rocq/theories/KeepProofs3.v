(** Grade queries: conditionals evaluated at run time. *)
From Coq Require Import NArith ZArith List Bool Lia Reals Lra.
From Verif Require Import Bits SpecBits BitsBase BitsOnes BitsProofs Expr ExprBase Sem Wf SpecMv SpecAlg MvBase RPowProofs Simp SimpProofs SimpProofs2 SmartProofs PresProofs SpecRat SpecAbs AbsProofs Comp Mapping Ops CompProofs CompProofs2 SpecOrder OrderProofs GradeProofs MappingProofs GumProofs AlgProofs EvalC SpecEval Lazy SpecLazy TagProofs LazyProofs LazyProofs2 CanonProofs PolyProofs Api Extra SpecApi ApiProofs ApiProofs2 ApiProofs3 Grade SpecGrade KeepProofs KeepProofs2.
Import ListNotations.
Local Open Scope R_scope.

(** ** A scalar as last argument *)
Lemma last_scalar l int x : forall base args, arguments base (l ++ [scalar_obj int x]) = Some args ->
  exists args', args = args' ++ [Comp (GV (base + N.of_nat (length (stored_inputs (l ++ [scalar_obj int x])))) 0) (CBlade 0)] /\ length args' = length l.
Proof.
  induction l as [|a l IH]; intros base args E.
  - cbn in E. apply Some_inj in E as <-. exists []. split; reflexivity.
  - cbn [app arguments] in E. cbn [app stored_inputs filter]. destruct (has_stored (cexpr a)) eqn:S.
    + destruct (tag_vars (base + 1) (cexpr a) 0 0) as [e|]; [|discriminate]. destruct (arguments (base + 1) (l ++ [scalar_obj int x])) as [r|] eqn:Er; [|discriminate]. apply Some_inj in E as <-.
      destruct (IH _ _ Er) as (args' & -> & L). exists (e :: args'). split; [|cbn; lia]. cbn [app length]. do 4 f_equal. unfold stored_inputs. f_equal. lia.
    + destruct (arguments base (l ++ [scalar_obj int x])) as [r|] eqn:Er; [|discriminate]. apply Some_inj in E as <-. destruct (IH _ _ Er) as (args' & -> & L). exists (cexpr a :: args'). split; [reflexivity|cbn; lia].
Qed.
Lemma stored_last l int x : stored_inputs (l ++ [scalar_obj int x]) = stored_inputs l ++ [scalar_obj int x].
Proof. unfold stored_inputs. rewrite filter_app. reflexivity. Qed.
Lemma last_num l int x : let st := stored_inputs (l ++ [scalar_obj int x]) in num (ctx_env 0 st) (GV (N.of_nat (length st)) 0) x.
Proof.
  intros st. unfold num. cbn [sem ctx_env ev]. assert (L : (0 < length st)%nat) by (unfold st; rewrite stored_last, app_length; cbn; lia).
  replace (N.ltb 0 _) with true by (symmetry; apply N.ltb_lt; lia). replace (N.to_nat (_ - 0 - 1)) with (length st - 1)%nat by lia.
  unfold st. rewrite stored_last, app_length, nth_error_app2 by (cbn; lia). cbn [length]. replace (_ + 1 - 1 - _)%nat with 0%nat by lia. reflexivity.
Qed.
Lemma scalar_object K dim int x : (int = true -> isint x) -> object K dim (scalar_obj int x).
Proof.
  intros H. exists [(0%N, SV)]. split; [reflexivity|]. split; [apply canonical_one; [discriminate|reflexivity]|]. split; [split; [intros E; constructor; auto|constructor]|].
  constructor; [|constructor]. split; [cbn; apply N.neq_0_lt_0, N.pow_nonzero; discriminate|left; reflexivity].
Qed.
Lemma scalar_value int x : value (scalar_obj int x) [(x, 0%N)].
Proof.
  intros g. exists [(x, 0%N)]. split; [|intros b; reflexivity]. exists ([], []). split; [|reflexivity]. exists ([], []). split; [reflexivity|]. split; [split; reflexivity|]. intros _. exact I.
Qed.

(** ** Conditionals *)
Section Cond.
Variables (hi : N) (i : ityping) (g : env).
Definition numexp (e : expr) : Prop := query 1 hi e = true /\ wf e = true /\ no_int_div i e = true.
(** A query result: it depends on a getter or is an integer. *)
Definition qexp (e : expr) : Prop := numexp e /\ (has_getter e = true \/ exists z, e = CV z).
Definition qtest (t : expr) : Prop := (exists b, t = CBool b) \/
  (exists f a b, t = Fn f [a; b] /\ (f = NLe \/ f = NEqual) /\ numexp a /\ numexp b /\ (has_getter a || has_getter b)%bool = true).
Lemma q_cv z : qexp (CV z). Proof. repeat split. right. eauto. Qed.
Lemma getter_open e : has_getter e = true -> is_constant e = false.
Proof.
  induction e as [z|t k| |z|t k| |z|z|pg x IH|c x IHc IHx|f l IH] using expr_ind'; intros H; try discriminate H; try reflexivity; cbn [has_getter is_constant] in *.
  - apply orb_prop in H as [H|H]; [rewrite IHc|rewrite IHx]; auto using andb_false_r.
  - induction IH as [|x l Hx _ IHl]; [discriminate H|]. cbn [existsb forallb] in *. apply orb_prop in H as [H|H]; [rewrite Hx|rewrite IHl]; auto using andb_false_r.
Qed.
Lemma getter_or a b : qexp a -> qexp b -> (has_getter a || has_getter b)%bool = true \/ exists x y, a = CV x /\ b = CV y.
Proof. intros [_ [A|[x ->]]] [_ [B|[y ->]]]; [left; rewrite A; reflexivity|left; rewrite A; reflexivity|left; rewrite B; apply orb_true_r|right; eauto]. Qed.
Lemma le_test a b : numexp a -> numexp b -> (has_getter a || has_getter b)%bool = true \/ (exists x y, a = CV x /\ b = CV y) -> qtest (mk_le a b).
Proof.
  intros A B [G|(x & y & -> & ->)]; [|left; exists (Z.leb x y); reflexivity]. assert (K : qtest (if expr_eqb a b && negb (has_stored a) then CBool true else Fn NLe [a; b])).
  { destruct (_ && _)%bool; [left; eauto|]. right. exists NLe, a, b. auto. }
  destruct a; try exact K; destruct b; try exact K; discriminate G.
Qed.
Lemma equal_test a b : qexp a -> qexp b -> qtest (mk_equal a b).
Proof.
  intros A B. destruct (getter_or a b A B) as [G|(x & y & -> & ->)].
  - unfold mk_equal. destruct (expr_eqb a b && negb (has_stored a))%bool; [left; eauto|]. destruct (_ && is_constant b)%bool; [left; eauto|].
    right. exists NEqual, a, b. destruct A as [A _], B as [B _]. auto 6.
  - left. unfold mk_equal. destruct (expr_eqb (CV x) (CV y)); cbn; eauto.
Qed.
Lemma if_numexp t x y : qtest t -> numexp x -> numexp y -> numexp (mk_if t x y).
Proof.
  intros Ht Hx Hy. destruct Ht as [[[|] ->]|(f & a & b & -> & Hf & (A1 & A2 & A3) & (B1 & B2 & B3) & G)]; [exact Hx|exact Hy|].
  assert (E : mk_if (Fn f [a; b]) x y = if expr_eqb x y && negb (has_stored x) then x else Fn NIf [Fn f [a; b]; x; y]) by (destruct Hf as [-> | ->]; reflexivity). rewrite E. clear E.
  destruct (_ && _)%bool; [exact Hx|]. destruct Hx as (X1 & X2 & X3), Hy as (Y1 & Y2 & Y3). split; [|split].
  - destruct Hf as [-> | ->]; cbn [query]; rewrite G, A1, B1, X1, Y1; reflexivity.
  - assert (Wt : wf (Fn f [a; b]) = true) by (destruct Hf as [-> | ->]; apply wf_fn2; congruence). cbn [wf forallb] in *. rewrite Wt, X2, Y2. reflexivity.
  - destruct Hf as [-> | ->]; cbn [no_int_div forallb]; rewrite A3, B3, X3, Y3; reflexivity.
Qed.
Lemma if_getter t x y : qtest t -> (exists f l, t = Fn f l) -> x <> y -> has_getter (mk_if t x y) = true.
Proof.
  intros [[[|] ->]|(f & a & b & -> & Hf & _ & _ & G)] (f' & l & Q) N; try discriminate Q.
  assert (E : mk_if (Fn f [a; b]) x y = if expr_eqb x y && negb (has_stored x) then x else Fn NIf [Fn f [a; b]; x; y]) by (destruct Hf as [-> | ->]; reflexivity). rewrite E. clear E.
  destruct (expr_eqb x y) eqn:Exy; [apply expr_eqb_eq in Exy; contradiction|]. cbn [andb has_getter existsb]. rewrite !orb_false_r. rewrite G. reflexivity.
Qed.
Lemma if_q t x y : qtest t -> qexp x -> qexp y -> qexp (mk_if t x y).
Proof.
  intros Ht [Hx Gx] [Hy Gy]. split; [apply if_numexp; auto|]. pose proof Ht as [[[|] ->]|(f & a & b & -> & Hf & _ & _ & G)]; [exact Gx|exact Gy|].
  destruct (expr_eqb x y) eqn:Exy.
  - apply expr_eqb_eq in Exy as <-. assert (E : mk_if (Fn f [a; b]) x x = if expr_eqb x x && negb (has_stored x) then x else Fn NIf [Fn f [a; b]; x; x]) by (destruct Hf as [-> | ->]; reflexivity). rewrite E. clear E.
    destruct (_ && _)%bool; [exact Gx|left]. cbn [has_getter existsb]. rewrite !orb_false_r. rewrite G. reflexivity.
  - left. apply if_getter; [exact Ht|eauto|]. intros ->. rewrite expr_eqb_refl in Exy. discriminate Exy.
Qed.
Lemma if_value t b x y u v : istrue g t b -> num g x u -> num g y v -> num g (mk_if t x y) (if b then u else v).
Proof. intros T X Y. apply (if_num _ _ _ _ _ _ T). destruct b; assumption. Qed.
Lemma qexp_plain e : qexp e -> plain_const e = true.
Proof. intros [_ [G|[z ->]]]; [|reflexivity]. apply getter_open in G. destruct e; cbn [plain_const]; try reflexivity; rewrite G; reflexivity. Qed.
Lemma equal_value a b x y : qexp a -> qexp b -> num g a (IZR x) -> num g b (IZR y) -> istrue g (mk_equal a b) (Z.eqb x y).
Proof. intros A B Na Nb. rewrite <- eqR_Z. apply equal_num; [right; right; split; apply qexp_plain; assumption|exact Na|exact Nb]. Qed.
Definition leR (a b : R) : bool := if Rle_dec a b then true else false.
Lemma le_value a b x y : num g a x -> num g b y -> istrue g (mk_le a b) (leR x y).
Proof. intros A B. unfold istrue. apply le_ok. unfold num in *. cbn [sem map fn_sem]. rewrite A, B. reflexivity. Qed.
Lemma leR_Z x y : leR (IZR x) (IZR y) = Z.leb x y.
Proof. unfold leR. destruct (Rle_dec (IZR x) (IZR y)) as [H|H], (Z.leb_spec x y) as [Q|Q]; auto; [apply le_IZR in H; lia|exfalso; apply H, IZR_le; lia]. Qed.

(** ** The grade query *)
Variables (F : nat) (T : expr) (tol : R).
Hypothesis HT : numexp T.
Hypothesis GT : has_getter T = true.
Hypothesis VT : num g T tol.
Definition gval (v : R) (k : N) : Z := if leR (Rabs v) tol then (-2)%Z else Z.of_N k.
Definition gjoin (a b : Z) : Z :=
  if Z.eqb a (-1) then (-1)%Z else if Z.eqb b (-1) then (-1)%Z else if Z.eqb a (-2) then b else if Z.eqb b (-2) then a else if Z.eqb a b then a else (-1)%Z.
Definition ljoin (a b : Z) : Z := if Z.leb a b then b else a.
Fixpoint fold_grade (join : Z -> Z -> Z) (m : mv) : Z :=
  match m with [] => (-2)%Z | [p] => gval (fst p) (grade_of (snd p)) | p :: m' => join (gval (fst p) (grade_of (snd p))) (fold_grade join m') end.
Definition joins (join : expr -> expr -> expr) (zj : Z -> Z -> Z) : Prop :=
  forall a b x y, qexp a -> qexp b -> num g a (IZR x) -> num g b (IZR y) -> qexp (join a b) /\ num g (join a b) (IZR (zj x y)).
Lemma grade_joins : joins grade_join gjoin.
Proof.
  intros a b x y A B Na Nb. unfold grade_join, gjoin. pose proof (num_cv g (-1)) as N1. pose proof (num_cv g (-2)) as N2.
  assert (IfZ : forall t c u v p q, istrue g t c -> num g u (IZR p) -> num g v (IZR q) -> num g (mk_if t u v) (IZR (if c then p else q))).
  { intros t c u v p q T0 U V. pose proof (if_value t c u v _ _ T0 U V) as W. destruct c; exact W. }
  split.
  - repeat (apply if_q; [apply equal_test; auto using q_cv|auto using q_cv|]). auto using q_cv.
  - repeat (apply IfZ; [apply equal_value; auto using q_cv|auto|]). auto.
Qed.
Lemma largest_joins : joins largest_join ljoin.
Proof.
  intros a b x y A B Na Nb. unfold largest_join, ljoin. split.
  - apply if_q; auto. apply le_test; [apply A|apply B|apply getter_or; auto].
  - pose proof (le_value a b _ _ Na Nb) as L. rewrite leR_Z in L. pose proof (if_value _ _ b a _ _ L Nb Na) as W. destruct (Z.leb x y); exact W.
Qed.
(** Coefficients: integers and polynomials that are not constant. *)
Definition pcoef (c : expr) : Prop := ipoly is_pos 1 hi c = true /\ wf c = true /\ (is_constant c = false \/ exists z, c = CV z).
Lemma pos_nonneg c : ipoly is_pos 1 hi c = true -> is_non_negative c = true -> sure_nonneg c = true.
Proof.
  induction c as [z|t k| |z|t k| |z|z|pg x IH|c x IHc IHx|f l IH] using expr_ind'; intros P N; try discriminate P; try discriminate N; auto. rewrite Forall_forall in IH. destruct f; try discriminate P; cbn [ipoly is_non_negative sure_nonneg] in *; try discriminate N.
  - destruct l as [|b [|p [|]]]; try discriminate P. apply andb_prop in P as [P1 P2]. apply pos_inv in P2 as (z & -> & _). apply orb_prop in N as [N|N]; [rewrite (IH b); cbn; auto|]. cbn [is_even] in N. rewrite N. apply orb_true_r.
  - rewrite forallb_forall in *. auto.
Qed.
Lemma abs_num c r v : pcoef c -> mk_abs F c = Some r -> num g c v -> numexp r /\ num g r (Rabs v).
Proof.
  intros (P & W & D) E N. assert (C : abs_covered c).
  { destruct (is_non_negative c) eqn:Q; [left; apply pos_nonneg; auto|]. destruct D as [D|[z ->]]; [right; right; auto|right; left; left; eauto]. }
  split; [|exact (abs_ok F c r W C E g v N)]. unfold mk_abs in E. destruct (eng F OMul (CV (-1)) c) as [m|] eqn:Em; [|discriminate]. apply Some_inj in E as <-.
  assert (Nc : numexp c) by (split; [apply query_numeric, (ipoly_numeric is_pos exps_pos), P|split; [exact W|exact (pos_no_int_div i _ _ _ P)]]).
  destruct (is_non_negative c); [exact Nc|]. destruct D as [D|[z ->]].
  - rewrite D. cbn [andb]. destruct Nc as (A1 & A2 & A3). split; [|split; [cbn [wf forallb]; rewrite A2; reflexivity|cbn [no_int_div forallb]; rewrite A3; reflexivity]].
    apply query_numeric. cbn [numeric fun1]. rewrite (ipoly_numeric is_pos exps_pos _ _ _ P). reflexivity.
  - cbn [is_constant is_fn andb orb negb] in *. rewrite (eng_mul_cv _ _ _ _ Em). repeat split.
Qed.
Lemma grade_comp_q k c r v : pcoef c -> (k < 2 ^ 63)%N -> grade_comp F T (Comp c (CBlade k)) = Some r -> num g c v ->
  qexp r /\ num g r (IZR (gval v (grade_of k))).
Proof.
  intros P Hk E N. cbn [grade_comp basis_vectors] in E. destruct (mk_abs F c) as [a|] eqn:Ea; [|discriminate]. apply Some_inj in E as <-. destruct (abs_num c a v P Ea N) as [Na Va].
  assert (On : ones k = grade_of k) by (apply ones_correct; apply lt63_64; exact Hk). cbn [mk_count]. rewrite On.
  assert (Gt : (has_getter a || has_getter T)%bool = true) by (rewrite GT; apply orb_true_r).
  split; [apply if_q; auto using q_cv; apply le_test; auto|]. unfold gval.
  pose proof (if_value _ _ (CV (-2)) (CV (Z.of_N (grade_of k))) _ _ (le_value a T _ _ Va VT) (num_cv g (-2)) (num_cv g (Z.of_N (grade_of k)))) as W. destruct (leR (Rabs v) tol); exact W.
Qed.
Lemma deduce_q join zj : joins join zj -> forall M m r, M <> [] -> Forall (fun p => pcoef (snd p) /\ (fst p < 2 ^ 63)%N) M -> Forall2 (dcomp g) (map entry M) m ->
  deduce F join T (map entry M) = Some r -> qexp r /\ num g r (IZR (fold_grade zj m)).
Proof.
  intros J. induction M as [|[k c] M IH]; intros m r Ne HM D E; [congruence|]. inversion HM as [|? ? [Hc Hk] HM']; subst. inversion D as [|? [v b] ? m' Dp D']; subst. cbn [fst snd] in *.
  destruct (dentry _ _ _ _ Dp) as [Nv Eb]. cbn [fst snd] in Nv, Eb. subst b. destruct M as [|q M].
  - inversion D'; subst. cbn [fold_grade fst snd]. cbn [map deduce] in E. exact (grade_comp_q k c r v Hc Hk E Nv).
  - assert (E' : (a <- grade_comp F T (entry (k, c)) ;; b <- deduce F join T (map entry (q :: M)) ;; Some (join a b)) = Some r) by exact E. clear E.
    destruct (grade_comp F T (entry (k, c))) as [a|] eqn:Ea; [|discriminate]. destruct (deduce F join T (map entry (q :: M))) as [b|] eqn:Eb; [|discriminate]. apply Some_inj in E' as <-.
    destruct (grade_comp_q k c a v Hc Hk Ea Nv) as [A1 A2]. destruct (IH m' b ltac:(discriminate) HM' D' eq_refl) as [B1 B2].
    inversion D' as [|? ? ? m'' ? ?]; subst. exact (J a b _ _ A1 B1 A2 B2).
Qed.
Lemma deduce_mv join zj M m r : joins join zj -> canonical M -> Forall (fun p => pcoef (snd p)) M -> den g (mv_of M) m ->
  deduce F join T (comps_of (mv_of M)) = Some r -> qexp r /\ num g r (IZR (fold_grade zj m)).
Proof.
  intros J [_ C] HM D E. apply den_entries in D as [[-> ->]|[Ne D]].
  - cbn [mv_of comps_of deduce] in E. cbn [fold_grade fst snd]. refine (grade_comp_q 0 (CV 0) r 0 _ eq_refl E (num_cv g 0)). split; [reflexivity|]. split; [reflexivity|eauto].
  - destruct M as [|p M]; [congruence|]. rewrite comps_mv in E. refine (deduce_q join zj J (p :: M) m r Ne _ D E). clear -HM C. induction HM; inversion C as [|? ? [? ?] ?]; subst; constructor; auto.
Qed.
End Cond.

(** ** What the folds mean *)
Definition sigp (tol : R) (p : R * N) : Prop := tol < Rabs (fst p).
Lemma gval_sig tol v k : (tol < Rabs v /\ gval tol v k = Z.of_N k) \/ (~ tol < Rabs v /\ gval tol v k = (-2)%Z).
Proof. unfold gval, leR. destruct (Rle_dec (Rabs v) tol); [right|left]; split; auto; lra. Qed.
Definition mspec (tol : R) (m : mv) (z : Z) : Prop :=
  (z = (-2)%Z /\ forall p, In p m -> ~ sigp tol p) \/
  (exists p, In p m /\ sigp tol p /\ z = Z.of_N (grade_of (snd p)) /\ forall q, In q m -> sigp tol q -> grade_of (snd q) = grade_of (snd p)) \/
  (z = (-1)%Z /\ exists p q, In p m /\ In q m /\ sigp tol p /\ sigp tol q /\ grade_of (snd p) <> grade_of (snd q)).
Definition lspec (tol : R) (m : mv) (z : Z) : Prop :=
  (z = (-2)%Z /\ forall p, In p m -> ~ sigp tol p) \/
  (exists p, In p m /\ sigp tol p /\ z = Z.of_N (grade_of (snd p)) /\ forall q, In q m -> sigp tol q -> (grade_of (snd q) <= grade_of (snd p))%N).
Lemma fold_cons tol zj p q m : fold_grade tol zj (p :: q :: m) = zj (gval tol (fst p) (grade_of (snd p))) (fold_grade tol zj (q :: m)).
Proof. reflexivity. Qed.
Lemma fold_mixed tol m : mspec tol m (fold_grade tol gjoin m).
Proof.
  induction m as [|p m IH]; [left; split; [reflexivity|intros p []]|]. destruct m as [|q m].
  - cbn [fold_grade]. destruct (gval_sig tol (fst p) (grade_of (snd p))) as [[S ->]|[S ->]].
    + right. left. exists p. split; [left; reflexivity|]. split; [exact S|]. split; [reflexivity|]. intros q [->|[]] _. reflexivity.
    + left. split; [reflexivity|]. intros q [->|[]]. exact S.
  - rewrite fold_cons. revert IH. generalize (q :: m) (fold_grade tol gjoin (q :: m)). intros l z IH.
    destruct (gval_sig tol (fst p) (grade_of (snd p))) as [[S ->]|[S ->]]; unfold gjoin.
    + replace (Z.eqb (Z.of_N _) (-1)) with false by (symmetry; apply Z.eqb_neq; lia). replace (Z.eqb (Z.of_N _) (-2)) with false by (symmetry; apply Z.eqb_neq; lia).
      destruct IH as [[-> A]|[(r & R1 & R2 & -> & R3)|[-> (r & s & R1 & R2 & R3 & R4 & R5)]]].
      * change (Z.eqb (-2) (-1)) with false. change (Z.eqb (-2) (-2)) with true. cbv iota. right. left. exists p. split; [left; reflexivity|]. split; [exact S|]. split; [reflexivity|]. intros r [->|H] Sr; [reflexivity|destruct (A r H Sr)].
      * replace (Z.eqb (Z.of_N (grade_of (snd r))) (-1)) with false by (symmetry; apply Z.eqb_neq; lia). replace (Z.eqb (Z.of_N (grade_of (snd r))) (-2)) with false by (symmetry; apply Z.eqb_neq; lia).
        destruct (Z.eqb_spec (Z.of_N (grade_of (snd p))) (Z.of_N (grade_of (snd r)))) as [Q|Q].
        -- right. left. exists p. split; [left; reflexivity|]. split; [exact S|]. split; [reflexivity|]. intros s [->|H] Ss; [reflexivity|]. rewrite (R3 s H Ss). lia.
        -- right. right. split; [reflexivity|]. exists p, r. split; [left; reflexivity|]. split; [right; exact R1|]. split; [exact S|]. split; [exact R2|]. congruence.
      * change (Z.eqb (-1) (-1)) with true. cbv iota. right. right. split; [reflexivity|]. exists r, s. split; [right; exact R1|]. split; [right; exact R2|]. auto.
    + change (Z.eqb (-2) (-1)) with false. change (Z.eqb (-2) (-2)) with true. cbv iota.
      destruct IH as [[-> A]|[(r & R1 & R2 & -> & R3)|[-> (r & s & R1 & R2 & R3 & R4 & R5)]]].
      * change (Z.eqb (-2) (-1)) with false. cbv iota. left. split; [reflexivity|]. intros r [->|H]; [exact S|exact (A r H)].
      * replace (Z.eqb (Z.of_N (grade_of (snd r))) (-1)) with false by (symmetry; apply Z.eqb_neq; lia). right. left. exists r. split; [right; exact R1|]. split; [exact R2|]. split; [reflexivity|]. intros s [->|H] Ss; [destruct (S Ss)|exact (R3 s H Ss)].
      * change (Z.eqb (-1) (-1)) with true. cbv iota. right. right. split; [reflexivity|]. exists r, s. split; [right; exact R1|]. split; [right; exact R2|]. auto.
Qed.
Lemma fold_largest tol m : lspec tol m (fold_grade tol ljoin m).
Proof.
  induction m as [|p m IH]; [left; split; [reflexivity|intros p []]|]. destruct m as [|q m].
  - cbn [fold_grade]. destruct (gval_sig tol (fst p) (grade_of (snd p))) as [[S ->]|[S ->]].
    + right. exists p. split; [left; reflexivity|]. split; [exact S|]. split; [reflexivity|]. intros q [->|[]] _. apply N.le_refl.
    + left. split; [reflexivity|]. intros q [->|[]]. exact S.
  - rewrite fold_cons. revert IH. generalize (q :: m) (fold_grade tol ljoin (q :: m)). intros l z IH.
    destruct (gval_sig tol (fst p) (grade_of (snd p))) as [[S ->]|[S ->]]; unfold ljoin; destruct IH as [[-> A]|(r & R1 & R2 & -> & R3)].
    + replace (Z.leb (Z.of_N _) (-2)) with false by (symmetry; apply Z.leb_gt; lia). right. exists p. split; [left; reflexivity|]. split; [exact S|]. split; [reflexivity|]. intros r [->|H] Sr; [apply N.le_refl|destruct (A r H Sr)].
    + right. destruct (Z.leb_spec (Z.of_N (grade_of (snd p))) (Z.of_N (grade_of (snd r)))) as [Q|Q].
      * exists r. split; [right; exact R1|]. split; [exact R2|]. split; [reflexivity|]. intros s [->|H] Ss; [lia|exact (R3 s H Ss)].
      * exists p. split; [left; reflexivity|]. split; [exact S|]. split; [reflexivity|]. intros s [->|H] Ss; [lia|pose proof (R3 s H Ss); lia].
    + change (Z.leb (-2) (-2)) with true. cbv iota. left. split; [reflexivity|]. intros r [->|H]; [exact S|exact (A r H)].
    + replace (Z.leb (-2) (Z.of_N _)) with true by (symmetry; apply Z.leb_le; lia). right. exists r. split; [right; exact R1|]. split; [exact R2|]. split; [reflexivity|]. intros s [->|H] Ss; [destruct (S Ss)|exact (R3 s H Ss)].
Qed.
Lemma coef_nodup (m : mv) : NoDup (map snd m) -> forall v b, In (v, b) m -> coef m b = v.
Proof.
  induction m as [|[c k] m IH]; intros ND v b H; [destruct H|]. inversion ND as [|? ? N1 N2]; subst. cbn [coef]. destruct H as [E|H].
  - injection E as -> ->. rewrite N.eqb_refl. assert (Z : coef m b = 0); [|rewrite Z; lra]. clear -N1. induction m as [|[c k] m IH]; [reflexivity|]. cbn [coef map snd In] in *. destruct (N.eqb_spec k b) as [->|]; [exfalso; auto|]. rewrite IH by auto. lra.
  - destruct (N.eqb_spec k b) as [->|]; [exfalso; apply N1; apply in_map_iff; exists (v, b); auto|]. rewrite (IH N2 v b H). lra.
Qed.
Lemma coef_In (m : mv) b : coef m b <> 0 -> exists v, In (v, b) m.
Proof.
  induction m as [|[c k] m IH]; cbn [coef]; intros H; [lra|]. destruct (N.eqb_spec k b) as [->|]; [exists c; left; reflexivity|]. destruct IH as [v Hv]; [lra|]. exists v. right. exact Hv.
Qed.
Lemma sig_iff tol m : 0 <= tol -> NoDup (map snd m) -> (forall p, In p m -> sigp tol p -> significant tol m (snd p)) /\ (forall b, significant tol m b -> exists p, In p m /\ sigp tol p /\ snd p = b).
Proof.
  intros Ht ND. split.
  - intros [v b] H S. unfold significant. cbn [snd]. rewrite (coef_nodup m ND v b H). exact S.
  - intros b S. unfold significant in S. destruct (coef_In m b) as [v Hv]; [intros Q; rewrite Q, Rabs_R0 in S; lra|]. exists (v, b). split; [exact Hv|]. split; [|reflexivity]. unfold sigp. cbn [fst]. rewrite <- (coef_nodup m ND v b Hv). exact S.
Qed.
Lemma mspec_grade tol m m' z : 0 <= tol -> NoDup (map snd m) -> meq m m' -> mspec tol m z -> has_grade tol m' z.
Proof.
  intros Ht ND Q H. destruct (sig_iff tol m Ht ND) as [S1 S2]. assert (SQ : forall b, significant tol m b <-> significant tol m' b) by (intros b; unfold significant; rewrite (Q b); reflexivity).
  destruct H as [[-> A]|[(p & P1 & P2 & -> & P3)|[-> (p & q & P1 & P2 & P3 & P4 & P5)]]].
  - left. split; [reflexivity|]. intros b S. apply SQ in S. destruct (S2 b S) as (p & H1 & H2 & _). exact (A p H1 H2).
  - right. left. exists (snd p). split; [apply SQ, S1; auto|]. split; [reflexivity|]. intros b S. apply SQ in S. destruct (S2 b S) as (q & H1 & H2 & <-). exact (P3 q H1 H2).
  - right. right. split; [reflexivity|]. exists (snd p), (snd q). split; [apply SQ, S1; auto|]. split; [apply SQ, S1; auto|exact P5].
Qed.
Lemma lspec_largest tol m m' z : 0 <= tol -> NoDup (map snd m) -> meq m m' -> lspec tol m z -> has_largest tol m' z.
Proof.
  intros Ht ND Q H. destruct (sig_iff tol m Ht ND) as [S1 S2]. assert (SQ : forall b, significant tol m b <-> significant tol m' b) by (intros b; unfold significant; rewrite (Q b); reflexivity).
  destruct H as [[-> A]|(p & P1 & P2 & -> & P3)].
  - left. split; [reflexivity|]. intros b S. apply SQ in S. destruct (S2 b S) as (p & H1 & H2 & _). exact (A p H1 H2).
  - right. exists (snd p). split; [apply SQ, S1; auto|]. split; [reflexivity|]. intros b S. apply SQ in S. destruct (S2 b S) as (q & H1 & H2 & <-). exact (P3 q H1 H2).
Qed.
Lemma den_nodup g M m : canonical M -> den g (mv_of M) m -> NoDup (map snd m).
Proof.
  intros C D. apply den_entries in D as [[-> ->]|[_ D]]; [repeat constructor; intros []|]. destruct C as [C _].
  assert (E : map snd m = map fst M). { clear C. revert m D. induction M as [|[k c] M IH]; intros m D; inversion D as [|? p ? m' Dp D']; subst; [reflexivity|]. cbn [map fst]. rewrite (IH m' D'). destruct (dentry _ _ _ _ Dp) as [_ ->]. reflexivity. }
  rewrite E. clear -C. induction (map fst M) as [|x l IH]; [constructor|]. inversion C as [|? ? C' A]; subst. constructor; [|auto]. intros H. rewrite Forall_forall in A. exact (blade_lt_irrefl x (A x H)).
Qed.
