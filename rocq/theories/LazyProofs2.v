(** Lazy evaluation of multivectors with compile-time blades: components, storage, result. *)
From Coq Require Import NArith ZArith List Bool Reals Lra Lia Sorting.Sorted.
From Verif Require Import Bits Expr ExprBase Sem Wf SpecBits SpecMv MvBase Simp SimpProofs SimpProofs2 PresProofs SpecAlg
  SpecOrder OrderProofs EvalC SpecEval EvalCProofs Comp CompProofs AlgProofs Lazy SpecLazy LazyProofs.
Import ListNotations.
Local Open Scope R_scope.

Lemma canonical_nil : canonical []. Proof. split; constructor. Qed.
Lemma canonical_one k c : c <> CV 0 -> (k < 2 ^ 63)%N -> canonical [(k, c)].
Proof. intros H K. apply canonical_cons; auto using canonical_nil; constructor. Qed.
(** A canonical list is determined by its entries. *)
Lemma canonical_ext : forall A B, canonical A -> canonical B -> (forall k, listed A k = listed B k) -> A = B.
Proof.
  induction A as [|[k c] A IH]; intros B CA CB H.
  - destruct B as [|[k c] B]; [reflexivity|]. specialize (H k). cbn [listed fst snd] in H. rewrite N.eqb_refl in H. discriminate.
  - destruct B as [|[j d] B]; [specialize (H k); cbn [listed fst snd] in H; rewrite N.eqb_refl in H; discriminate|].
    destruct (canonical_tail _ _ CA) as (CA' & AA & _). destruct (canonical_tail _ _ CB) as (CB' & AB & _). cbn [fst snd] in *.
    assert (E : k = j).
    { destruct (N.eq_dec k j) as [|Nkj]; [auto|]. exfalso. destruct (blade_total k j Nkj) as [L|L].
      - pose proof (H k) as Hk. cbn [listed fst snd] in Hk. rewrite N.eqb_refl in Hk. destruct (N.eqb_spec j k); [congruence|]. symmetry in Hk. apply listed_In in Hk. rewrite Forall_forall in AB.
        exact (blade_lt_irrefl _ (blade_lt_trans _ _ _ L (AB _ Hk))).
      - pose proof (H j) as Hk. cbn [listed fst snd] in Hk. rewrite N.eqb_refl in Hk. destruct (N.eqb_spec k j); [congruence|]. apply listed_In in Hk. rewrite Forall_forall in AA.
        exact (blade_lt_irrefl _ (blade_lt_trans _ _ _ L (AA _ Hk))). }
    subst j. assert (c = d) by (specialize (H k); cbn [listed fst snd] in H; rewrite N.eqb_refl in H; congruence). subst d. f_equal. apply IH; auto.
    intros i. specialize (H i). cbn [listed fst snd] in H. destruct (N.eqb_spec k i) as [Eki|]; [|exact H]. rewrite <- Eki. rewrite (listed_above k A AA), (listed_above k B AB). reflexivity.
Qed.
(** Adding an entry smaller than all the others puts it first. *)
Lemma cadd_first F n M1 M2 r k : canonical M1 -> canonical M2 -> map fst M1 = [k] \/ M1 = [] -> Forall (blade_lt k) (map fst M2) ->
  cadd F n (mv_of M1) (mv_of M2) = Some r -> r = mv_of (M1 ++ M2) /\ canonical (M1 ++ M2).
Proof.
  intros C1 C2 H A E. assert (C : canonical (M1 ++ M2)).
  { destruct H as [H| ->]; [|exact C2]. destruct M1 as [|[j c] [|]]; try discriminate H. injection H as ->. destruct (canonical_tail _ _ C1) as (_ & _ & X & Y). apply canonical_cons; auto. }
  split; [|exact C]. destruct (cadd_canonical F n _ _ _ C1 C2 E) as [(M & -> & CM & LM) _]. f_equal. apply canonical_ext; auto. intros i. rewrite LM.
  destruct H as [H| ->]; [|reflexivity]. destruct M1 as [|[j c] [|]]; try discriminate H. injection H as ->. cbn [app listed fst snd]. destruct (N.eqb_spec k i) as [Eki|]; [|reflexivity]. rewrite <- Eki, (listed_above k M2 A). reflexivity.
Qed.

Section Entries.
Variables (F n : nat) (lo hi : N).
Notation evt := (eval_t F n lo hi).
(** Result entries and stored expressions of a list of entries. *)
Inductive ev_list : entries -> entries -> list expr -> Prop :=
| ev_nil : ev_list [] [] []
| ev_open k c A M cs : wf c = true -> query lo hi c = true -> has_getter c = true -> ev_list A M cs -> ev_list ((k, c) :: A) ((k, SV) :: M) (c :: cs)
| ev_const k c t A M cs : evt c = Some (t, []) -> const t = true -> keeps c t -> t <> CV 0 -> ev_list A M cs -> ev_list ((k, c) :: A) ((k, t) :: M) cs
| ev_zero k c A M cs : evt c = Some (CV 0, []) -> keeps c (CV 0) -> ev_list A M cs -> ev_list ((k, c) :: A) M cs.
Lemma ev_list_fst A M cs : ev_list A M cs -> forall P, Forall P (map fst A) -> Forall P (map fst M).
Proof. induction 1; intros P HP; cbn [map fst] in *; try (inversion HP; subst); constructor || auto; auto. Qed.
Lemma ev_entry k c t code : coefficient_ok lo hi c -> (k < 2 ^ 63)%N -> evt (Comp c (CBlade k)) = Some (t, code) ->
  exists M1 cs, t = mv_of M1 /\ canonical M1 /\ code = map StV cs /\ (map fst M1 = [k] \/ M1 = []) /\
  forall A M cs', ev_list A M cs' -> ev_list ((k, c) :: A) (M1 ++ M) (cs ++ cs').
Proof.
  intros [W H] K E. cbn [eval_t do_nothing] in E. destruct (evt c) as [[c' k1]|] eqn:Ec; [|discriminate]. unfold move in E. injection E as <- <-. rewrite app_nil_r.
  destruct H as [[Nu G]|A].
  - pose proof (ev_query F n lo hi c Nu W _ _ Ec) as R. unfold ev_ok in R. rewrite G in R. destruct R as [-> ->]. exists [(k, SV)], [c]. cbn [mv_of entry component_t fst snd map].
    split; [reflexivity|]. split; [apply canonical_one; [discriminate|exact K]|]. split; [reflexivity|]. split; [auto|]. intros. constructor; auto.
  - destruct (ev_arith F n lo hi c A W _ _ Ec) as (C & -> & Kp).
    assert (D : c' = CV 0 \/ c' <> CV 0 /\ component_t c' (CBlade k) = Comp c' (CBlade k)) by (destruct c' as [[]| | | | | | | | | |]; auto; right; (split; [discriminate|reflexivity])).
    destruct D as [->|[Nz ->]].
    + exists [], []. split; [reflexivity|]. split; [exact canonical_nil|]. split; [reflexivity|]. split; [auto|]. intros. cbn [app]. eapply ev_zero; eauto.
    + exists [(k, c')], []. split; [reflexivity|]. split; [apply canonical_one; auto|]. split; [reflexivity|]. split; [auto|]. intros. cbn [app]. eapply ev_const; eauto.
Qed.
Lemma csplit_mv_of M : csplit (mv_of M) <> None.
Proof. destruct M as [|p [|]]; discriminate. Qed.
Lemma nary_entries : forall A, A <> [] -> canonical A -> Forall (fun p => coefficient_ok lo hi (snd p)) A -> forall t code, eval_nary NAdd mk_add (add_any F n) evt (map entry A) = Some (t, code) ->
  exists M cs, t = mv_of M /\ canonical M /\ code = map StV cs /\ ev_list A M cs.
Proof.
  induction A as [|[k c] A IH]; intros Ne CA HF t code E; [congruence|]. destruct (canonical_tail _ _ CA) as (CA' & AA & _ & Lk). inversion HF as [|? ? Hc HF']; subst. cbn [fst snd] in *.
  destruct A as [|p A].
  - cbn [map eval_nary] in E. destruct (ev_entry k c t code Hc Lk E) as (M1 & cs & -> & C1 & -> & _ & K). exists M1, cs. split; [reflexivity|]. split; [exact C1|]. split; [reflexivity|].
    specialize (K [] [] [] ev_nil). rewrite !app_nil_r in K. exact K.
  - specialize (IH ltac:(discriminate) CA' HF'). cbn [map] in E. cbn [eval_nary] in E. fold (eval_nary NAdd mk_add (add_any F n) evt) in E. fold (map entry) in E.
    destruct (mk_add (entry p :: map entry A)); [|discriminate]. change (entry (k, c)) with (Comp c (CBlade k)) in E. destruct (evt (Comp c (CBlade k))) as [[x' cx]|] eqn:Ex; [|discriminate].
    destruct (ev_entry k c x' cx Hc Lk Ex) as (M1 & cs1 & -> & C1 & -> & S1 & K).
    change (match eval_nary NAdd mk_add (add_any F n) evt (map entry (p :: A)) with Some (y', cy) => if store_v2 (mv_of M1) y' then store_value (Fn NAdd (map entry ((k, c) :: p :: A))) else move (add_any F n (mv_of M1) y') (map StV cs1 ++ cy) | None => None end = Some (t, code)) in E.
    destruct (eval_nary NAdd mk_add (add_any F n) evt (map entry (p :: A))) as [[y' cy]|]; [|discriminate]. destruct (IH _ _ eq_refl) as (M2 & cs2 & -> & C2 & -> & L2).
    assert (Z : store_v2 (mv_of M1) (mv_of M2) = false).
    { unfold store_v2. assert (Y : forall M, is_sv (mv_of M) = false) by (destruct M as [|? [|]]; reflexivity). rewrite !Y, andb_false_r. reflexivity. }
    rewrite Z in E. unfold move, add_any in E. pose proof (csplit_mv_of M1) as Y1. pose proof (csplit_mv_of M2) as Y2. destruct (csplit (mv_of M1)) as [q|]; [|congruence]. destruct (csplit (mv_of M2)) as [q'|]; [|congruence].
    destruct (cadd F n (mv_of M1) (mv_of M2)) as [r|] eqn:Er; [|destruct q, q'; discriminate]. assert (E' : Some (r, map StV cs1 ++ map StV cs2) = Some (t, code)) by exact E. injection E' as <- <-.
    destruct (cadd_first F n M1 M2 r k C1 C2 S1 (ev_list_fst _ _ _ L2 _ AA) Er) as [-> CM]. exists (M1 ++ M2), (cs1 ++ cs2). split; [reflexivity|]. split; [exact CM|]. split; [symmetry; apply map_app|]. apply K. exact L2.
Qed.
Lemma eval_entries A t code : canonical A -> Forall (fun p => coefficient_ok lo hi (snd p)) A -> evt (mv_of A) = Some (t, code) ->
  exists M cs, t = mv_of M /\ canonical M /\ code = map StV cs /\ ev_list A M cs.
Proof.
  intros CA HF E. destruct A as [|p A]; [|destruct A as [|p' A]].
  - cbn in E. injection E as <- <-. exists [], []. split; [reflexivity|]. split; [exact canonical_nil|]. split; [reflexivity|constructor].
  - apply nary_entries; auto. discriminate.
  - apply nary_entries; auto. discriminate.
Qed.

(** *** Storage *)
Lemma counts_mv M : count_vals (mv_of M) = fold_right (fun p n => (count_vals (snd p) + n)%nat) 0%nat M /\ count_bits (mv_of M) = fold_right (fun p n => (count_bits (snd p) + n)%nat) 0%nat M.
Proof.
  destruct M as [|p [|q M]]; [split; reflexivity|cbn; rewrite !Nat.add_0_r; split; reflexivity|].
  cbn [mv_of count_vals count_bits]. change (map entry (p :: q :: M)) with (map entry (p :: q :: M)). generalize (p :: q :: M). intros L.
  induction L as [|[k c] L [IH1 IH2]]; [split; reflexivity|]. cbn [map fold_right]. rewrite IH1, IH2. cbn. rewrite !Nat.add_0_r. split; reflexivity.
Qed.
Lemma ev_counts A M cs : ev_list A M cs -> count_vals (mv_of M) = length cs /\ count_bits (mv_of M) = 0%nat.
Proof.
  intros H. rewrite (proj1 (counts_mv M)), (proj2 (counts_mv M)). induction H as [|k c A M cs W Nu G H [IH1 IH2]|k c t A M cs E C K Z H [IH1 IH2]|k c A M cs E K H [IH1 IH2]]; cbn [fold_right snd length count_vals count_bits]; auto.
  destruct (const_shape _ C) as (_ & _ & _ & _ & _ & -> & ->). rewrite IH1, IH2. auto.
Qed.
(** *** Values *)
Section Run.
Variables (i : ityping) (g : env).
Hypothesis T : typed i g.
Lemma run_stores_nums : forall cs vs, Forall2 (num g) cs vs -> Forall (fun c => wf c = true /\ no_int_div i c = true) cs ->
  run_stores i g (map StV cs) = Done (vs, []) \/ run_stores i g (map StV cs) = Ovf.
Proof.
  induction 1 as [|c v cs vs H H2 IH]; intros HF; [left; reflexivity|]. inversion HF as [|? ? [W ND] HF']; subst. cbn [map run_stores].
  destruct (run_correct i g c (VN v) T W ND H) as [->| ->]; cbn [to_value]; [|auto]. destruct (IH HF') as [->| ->]; auto.
Qed.
End Run.
Lemma sread_const g e : has_stored e = false -> forall s, no_blade e = true -> sread g e s = (sem g e, s).
Proof.
  induction e as [z|t i| |z|t i| |z|z|pg x IH|c x IHc IHx|f l IH] using expr_ind'; intros H s B; try discriminate; try reflexivity. cbn [sread sem has_stored no_blade] in *.
  match goal with |- context [?go l s] => set (reads := go) end. assert (K : reads l s = (map (sem g) l, s)); [|rewrite K; reflexivity].
  revert s. induction IH as [|x l Hx Hl IHl]; intros s; [reflexivity|]. cbn. fold reads. cbn [existsb forallb] in *. apply orb_false_elim in H as [H1 H2]. apply andb_prop in B as [B1 B2].
  rewrite Hx; auto. cbn [fst snd]. rewrite IHl; auto.
Qed.
Lemma const_no_blade e : const e = true -> no_blade e = true.
Proof.
  induction e as [z|t i| |z|t i| |z|z|pg x IH|c x IHc IHx|f l IH] using expr_ind'; intros H; try discriminate; try reflexivity. unfold const in *.
  assert (K : forallb (numeric 1 0) l = true -> forallb no_blade l = true).
  { clear H. induction IH as [|x l Hx Hl IHl]; [reflexivity|]. cbn [forallb]. intros H. apply andb_prop in H as [H1 H2]. rewrite Hx, IHl; auto. }
  cbn [no_blade]. apply K. destruct f; cbn [numeric] in *; try (destruct l as [|x [|]]; try discriminate H; cbn [fun1 andb] in *; try discriminate H; cbn [forallb]; rewrite !andb_true_r; exact H); try exact H.
  destruct l as [|x [|y [|]]]; try discriminate H. cbn [forallb]. rewrite !andb_true_r. exact H.
Qed.
Lemma den_entries g A m : den g (mv_of A) m <-> (A = [] /\ m = [(0, 0%N)]) \/ (A <> [] /\ Forall2 (dcomp g) (map entry A) m).
Proof.
  rewrite den_iff. destruct A as [|p A].
  - cbn. split.
    + intros H. inversion H as [|? [v k] ? l D HN]; subst. inversion HN; subst. destruct D as (D1 & D2 & _). cbn in D1, D2. left. unfold num in D1. cbn in D1. injection D1 as <-. subst k. auto.
    + intros [[_ ->]|[H _]]; [|congruence]. constructor; [|constructor]. split; [reflexivity|]. split; [reflexivity|]. intros _. exact I.
  - assert (E : comps_of (mv_of (p :: A)) = map entry (p :: A)) by (destruct A; reflexivity). rewrite E. split; [intros H; right; split; [discriminate|exact H]|intros [[H _]|[_ H]]; [discriminate H|exact H]].
Qed.
Lemma dentry g k c p : dcomp g (entry (k, c)) p -> num g c (fst p) /\ snd p = k. Proof. intros (A & B & _). auto. Qed.
Lemma ev_values g' A M cs : ev_list A M cs -> forall g m, Forall2 (dcomp g) (map entry A) m ->
  exists vs, Forall2 (num g) cs vs /\ forall vs0 bs, exists m', scomps g' (map entry M) (vs ++ vs0, bs) m' (vs0, bs) /\ meq m' m.
Proof.
  induction 1 as [|k c A M cs W Nu G H IH|k c t A M cs E C [Wt K] Z H IH|k c A M cs E [_ K] H IH]; intros g m D.
  - inversion D; subst. exists []. split; [constructor|]. intros. exists []. split; [reflexivity|intros j; reflexivity].
  - cbn [map] in D. inversion D as [|? [v j] ? m1 D1 D2]; subst. destruct (dentry _ _ _ _ D1) as [V J]. cbn [fst snd] in *. subst j. destruct (IH g m1 D2) as (vs & V1 & V2). exists (v :: vs). split; [constructor; auto|].
    intros vs0 bs. destruct (V2 vs0 bs) as (m' & S & Q). exists ((v, k) :: m'). split; [|intros j; specialize (Q j); cbn [coef]; lra].
    exists (vs ++ vs0, bs). split; [|exact S]. exists (vs ++ vs0, bs). split; [reflexivity|]. split; [split; reflexivity|]. intros _. exact I.
  - cbn [map] in D. inversion D as [|? [v j] ? m1 D1 D2]; subst. destruct (dentry _ _ _ _ D1) as [V J]. cbn [fst snd] in *. subst j. destruct (IH g m1 D2) as (vs & V1 & V2). exists vs. split; [auto|].
    intros vs0 bs. destruct (V2 vs0 bs) as (m' & S & Q). exists ((v, k) :: m'). split; [|intros j; specialize (Q j); cbn [coef]; lra].
    exists (vs ++ vs0, bs). split; [|exact S]. exists (vs ++ vs0, bs). split; [|split; [split; reflexivity|intros _; exact I]]. cbn [fst].
    destruct (const_shape _ C) as (_ & _ & _ & _ & NS & _). rewrite (sread_const g' t NS _ (const_no_blade _ C)). f_equal.
    assert (X : forall g1 g2 e, const e = true -> sem g1 e = sem g2 e); [|rewrite (X g' g t C); apply K; exact V].
    clear. intros g1 g2 e. unfold const. induction e as [z|t i| |z|t i| |z|z|pg x IH|c x IHc IHx|f l IH] using expr_ind'; intros H; try discriminate; [reflexivity|exfalso; exact (no_tag t H)|].
    cbn [sem]. f_equal. apply map_ext_in. rewrite Forall_forall in IH. intros a Ha. apply IH; [exact Ha|].
    assert (Q : forallb (numeric 1 0) l = true).
    { destruct f; cbn [numeric] in *; try (destruct l as [|x [|]]; try discriminate H; cbn [fun1 andb] in *; try discriminate H; cbn [forallb]; rewrite !andb_true_r; exact H); try exact H.
      destruct l as [|x [|y [|]]]; try discriminate H. cbn [forallb]. rewrite !andb_true_r. exact H. }
    rewrite forallb_forall in Q. apply Q. exact Ha.
  - cbn [map] in D. inversion D as [|? [v j] ? m1 D1 D2]; subst. destruct (dentry _ _ _ _ D1) as [V J]. cbn [fst snd] in *. subst j. destruct (IH g m1 D2) as (vs & V1 & V2). exists vs. split; [auto|].
    intros vs0 bs. destruct (V2 vs0 bs) as (m' & S & Q). exists m'. split; [exact S|]. specialize (K g v V). unfold num in K. cbn in K. injection K as <-. intros j. specialize (Q j). cbn [coef]. destruct (N.eqb k j); lra.
Qed.
Lemma ev_evaluated A M cs : ev_list A M cs -> Forall (fun p => snd p = SV \/ wf (snd p) = true /\ numeric 1 0 (snd p) = true) M.
Proof. induction 1 as [| |k c t A M cs E C [Wt K] Z H IH|]; auto. Qed.
End Entries.

Lemma lazy_eval_stored F n inputs e : stored_inputs inputs <> [] -> lazy_eval F n inputs e =
  match eval_t F n (base_id inputs + 1) (base_id inputs + N.of_nat (length (stored_inputs inputs))) e with
  | None => None
  | Some (t, code) =>
    Some match run_stores (ctx_int (base_id inputs) (stored_inputs inputs)) (ctx_env (base_id inputs) (stored_inputs inputs)) code with
         | Ovf => Ovf
         | Bad => Bad
         | Done (vs, bs) =>
           match fit 0 (count_vals t) vs, fit 0%N (count_bits t) bs with
           | Some vs', Some bs' => Done {| cexpr := t; cint := forallb (store_int (ctx_int (base_id inputs) (stored_inputs inputs))) code; cvals := vs'; cbits := bs' |}
           | _, _ => Bad
           end
         end
  end.
Proof. intros H. unfold lazy_eval. destruct (stored_inputs inputs); [congruence|reflexivity]. Qed.

(** lazy.eval on an expression over the arguments of the context: type, storage and value of the result. *)
Theorem lazy_eval_list F n inputs A o m :
  let base := base_id inputs in let st := stored_inputs inputs in
  let g := ctx_env base st in let i := ctx_int base st in
  st <> [] -> typed i g -> canonical A ->
  Forall (fun p => coefficient_ok (base + 1) (base + N.of_nat (length st)) (snd p) /\ exact_coef i (snd p) = true) A ->
  den g (mv_of A) m -> lazy_eval F n inputs (mv_of A) = Some o ->
  o = Ovf \/ exists r M cs, o = Done r /\ cexpr r = mv_of M /\ canonical M /\ ev_list F n (base + 1) (base + N.of_nat (length st)) A M cs /\
    well_stored r /\ (forall g', value_in g' r m).
Proof.
  intros base st g i Ne T CA HF D E. rewrite (lazy_eval_stored F n inputs _ Ne) in E. fold base st in E. fold g i in E.
  destruct (eval_t F n (base + 1) (base + N.of_nat (length st)) (mv_of A)) as [[t code]|] eqn:Et; [|discriminate].
  assert (HF1 : Forall (fun p => coefficient_ok (base + 1) (base + N.of_nat (length st)) (snd p)) A) by (eapply Forall_impl; [|exact HF]; intros p [X _]; exact X).
  destruct (eval_entries F n _ _ A t code CA HF1 Et) as (M & cs & -> & CM & -> & L).
  assert (Wcs : Forall (fun c => wf c = true /\ no_int_div i c = true) cs).
  { clear -L HF. induction L as [|k c A M cs W Nu G H IH|k c t A M cs Ec C K Z H IH|k c A M cs Ec K H IH]; [constructor| | |]; inversion HF as [|? ? [_ X] HF']; subst; auto. unfold exact_coef in X. cbn [snd] in X. rewrite G in X. auto. }
  assert (V : exists vs, Forall2 (num g) cs vs /\ forall g', exists m', scomps g' (components (mv_of M)) (vs, []) m' ([], []) /\ meq m' m).
  { apply den_entries in D as [[-> ->]|[Na D]].
    - inversion L; subst. exists []. split; [constructor|]. intros g'. exists [(0, 0%N)]. split; [|intros k; reflexivity]. exists ([], []). split; [|reflexivity]. exists ([], []). split; [reflexivity|]. split; [split; reflexivity|]. intros _. exact I.
    - destruct (ev_values F n _ _ g A M cs L g m D) as (vs & V1 & _). exists vs. split; [exact V1|]. intros g'. destruct (ev_values F n _ _ g' A M cs L g m D) as (vs' & V1' & V2).
      assert (vs' = vs) as -> by (refine (AlgProofs.Forall2_fun (num g) cs _ vs' vs V1' V1); intros x y z; apply num_fun).
      destruct M as [|p M].
      + destruct (V2 [] []) as (m' & S & Q). rewrite app_nil_r in S. destruct m' as [|]; [|destruct S]. exists [(0, 0%N)]. cbn in S. split; [|intros k; rewrite <- (Q k); cbn [coef]; destruct (N.eqb 0 k); lra].
        exists ([], []). injection S as <-. split; [|reflexivity]. exists ([], []). split; [reflexivity|]. split; [split; reflexivity|]. intros _. exact I.
      + destruct (V2 [] []) as (m' & S & Q). rewrite app_nil_r in S. exists m'. split; [|exact Q]. change (components (mv_of (p :: M))) with (comps_of (mv_of (p :: M))).
        assert (X : comps_of (mv_of (p :: M)) = map entry (p :: M)) by (destruct M; reflexivity). rewrite X. exact S. }
  destruct V as (vs & V1 & V2). destruct (run_stores_nums i g T cs vs V1 Wcs) as [R|R]; rewrite R in E; [|injection E as <-; left; reflexivity].
  destruct (ev_counts _ _ _ _ _ _ _ L) as [N1 N2]. assert (Lv : length vs = length cs) by (clear -V1; induction V1; cbn [length]; auto).
  unfold fit in E. rewrite N1, N2, Lv, Nat.leb_refl in E. cbn [length Nat.leb Nat.sub repeat] in E. injection E as <-.
  right. eexists. exists M, cs. split; [reflexivity|]. split; [reflexivity|]. split; [exact CM|]. split; [exact L|]. split.
  { split; [|constructor]. cbn [cint cvals]. rewrite Nat.sub_diag, app_nil_r. intros Hi. clear -V1 Wcs Hi T. induction V1 as [|c v cs vs H H2 IH]; [constructor|]. inversion Wcs as [|? ? [W ND] Wcs']; subst.
    cbn [map forallb store_int] in Hi. apply andb_prop in Hi as [H1 H3]. constructor; [|auto]. exact (proj2 (run_correct_n i g T (S (esize c)) c (Nat.lt_succ_diag_r _) W ND) v H H1). }
  intros g'. destruct (V2 g') as (m' & S & Q). exists m'. split; [|exact Q]. cbn [cexpr cvals cbits]. rewrite Nat.sub_diag, app_nil_r. exact S.
Qed.

(** lazy.eval on an expression over the arguments of the context. *)
Theorem lazy_eval_value F n inputs A o m :
  let base := base_id inputs in let st := stored_inputs inputs in
  let g := ctx_env base st in let i := ctx_int base st in
  st <> [] -> typed i g -> canonical A ->
  Forall (fun p => coefficient_ok (base + 1) (base + N.of_nat (length st)) (snd p) /\ exact_coef i (snd p) = true) A ->
  den g (mv_of A) m -> lazy_eval F n inputs (mv_of A) = Some o ->
  o = Ovf \/ exists r M, o = Done r /\ cexpr r = mv_of M /\ evaluated M /\ forall g', value_in g' r m.
Proof.
  intros base st g i Ne T CA HF D E. destruct (lazy_eval_list F n inputs A o m Ne T CA HF D E) as [->|(r & M & cs & -> & R & C & L & _ & V)]; [auto|right].
  exists r, M. split; [reflexivity|]. split; [exact R|]. split; [split; [exact C|exact (ev_evaluated _ _ _ _ _ _ _ L)]|exact V].
Qed.

Lemma typed_ctx base l : Forall well_stored l -> typed (ctx_int base l) (ctx_env base l).
Proof.
  intros H. rewrite Forall_forall in H. split; intros t k r.
  - unfold ctx_int, ctx_env. cbn [ev]. destruct (N.ltb base t); [|discriminate]. destruct (nth_error l _) as [a|] eqn:E; [|discriminate].
    intros Hi Hr. destruct (H a (nth_error_In _ _ E)) as [Hv _]. specialize (Hv Hi). rewrite Forall_forall in Hv. exact (Hv r (nth_error_In _ _ Hr)).
  - unfold ctx_env. cbn [eb]. destruct (N.ltb base t); [|discriminate]. destruct (nth_error l _) as [a|] eqn:E; [|discriminate].
    intros Hr. destruct (H a (nth_error_In _ _ E)) as [_ Hv]. rewrite Forall_forall in Hv. exact (Hv r (nth_error_In _ _ Hr)).
Qed.
Lemma stored_Forall (P : cliff -> Prop) l : Forall P l -> Forall P (stored_inputs l).
Proof. intros H. apply Forall_forall. intros a I. apply filter_In in I as [I _]. rewrite Forall_forall in H. auto. Qed.

(** A check for concrete lists. *)
Definition blade_ltb (k l : N) : bool := (if N.ltb (grade_of k) (grade_of l) then true else N.eqb (grade_of k) (grade_of l) && N.ltb k l)%bool.
Fixpoint canonical_b (l : entries) : bool :=
  match l with
  | [] => true
  | p :: l' => forallb (fun q => blade_ltb (fst p) (fst q)) l' && negb (is_cv 0 (snd p)) && N.ltb (fst p) (2 ^ 63) && canonical_b l'
  end.
Lemma blade_ltb_lt k l : blade_ltb k l = true -> blade_lt k l.
Proof. unfold blade_ltb, blade_lt. destruct (N.ltb_spec (grade_of k) (grade_of l)); [auto|]. rewrite andb_true_iff, N.eqb_eq, N.ltb_lt. tauto. Qed.
Lemma canonical_check l : canonical_b l = true -> canonical l.
Proof.
  induction l as [|p l IH]; intros H; [exact canonical_nil|]. cbn [canonical_b] in H. rewrite !andb_true_iff in H. destruct H as [[[H1 H2] H3] H4].
  apply canonical_cons; [auto| |intros E; rewrite E in H2; discriminate|apply N.ltb_lt; exact H3].
  apply Forall_forall. intros x I. apply in_map_iff in I as (q & <- & I). apply blade_ltb_lt. rewrite forallb_forall in H1. exact (H1 q I).
Qed.
