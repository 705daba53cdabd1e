(** Sums of products of stored coefficients always have a result. *)
From Coq Require Import NArith ZArith List Bool Lia Sorting.Sorted.
From Verif Require Import Bits Expr ExprBase Simp SimpMono.
Import ListNotations.

(** The product of coefficient [i] of the first argument and [j] of the second, times [z]. *)
Definition key := (N * N)%type.
Definition klt (p q : key) : Prop := (fst p < fst q)%N \/ (fst p = fst q /\ (snd p < snd q)%N).
Definition prod (p : key) : expr := Fn NMul [GV 1 (fst p); GV 2 (snd p)].
Definition term (t : Z * key) : expr := if Z.eqb (fst t) 1 then prod (snd t) else Fn NMul [CV (fst t); GV 1 (fst (snd t)); GV 2 (snd (snd t))].
Definition sum_of (l : list (Z * key)) : expr :=
  match l with [] => CV 0 | [t] => term t | _ => Fn NAdd (map term l) end.

Definition klt_b (p q : key) : bool := N.ltb (fst p) (fst q) || (N.eqb (fst p) (fst q) && N.ltb (snd p) (snd q)).
Lemma klt_spec p q : klt_b p q = true <-> klt p q.
Proof. unfold klt_b, klt. rewrite orb_true_iff, andb_true_iff, !N.ltb_lt, N.eqb_eq. tauto. Qed.
Lemma klt_total p q : p <> q -> klt p q \/ klt q p.
Proof. destruct p as [i j], q as [i' j']. unfold klt. cbn [fst snd]. intros H. destruct (N.lt_trichotomy i i') as [|[->|]]; auto. destruct (N.lt_trichotomy j j') as [|[->|]]; auto. congruence. Qed.
Lemma klt_trans p q r : klt p q -> klt q r -> klt p r. Proof. unfold klt. lia. Qed.
Lemma klt_irrefl p : ~ klt p p. Proof. unfold klt. lia. Qed.
Lemma klt_b_false p q : klt q p -> klt_b p q = false.
Proof. intros H. destruct (klt_b p q) eqn:E; [|reflexivity]. apply klt_spec in E. destruct (klt_irrefl p (klt_trans _ _ _ E H)). Qed.

Lemma lt_gv t i i' : lt (GV t i) (GV t i') = N.ltb i i'.
Proof. cbv -[N.ltb N.eqb]. rewrite N.ltb_irrefl, N.eqb_refl. reflexivity. Qed.
Lemma lt_term s t : lt (term s) (term t) = klt_b (snd s) (snd t).
Proof.
  destruct s as [z [i j]], t as [z' [i' j']]. unfold term, prod, klt_b. cbn [fst snd].
  destruct (Z.eqb z 1), (Z.eqb z' 1); cbv -[N.ltb N.eqb]; cbn [N.eqb N.ltb]; rewrite ?N.ltb_irrefl, ?N.eqb_refl; cbn [N.ltb N.eqb N.compare Pos.compare Pos.compare_cont Pos.eqb];
  destruct (N.lt_trichotomy i i') as [H|[->|H]].
  all: try (rewrite (proj2 (N.ltb_lt i i')) by exact H; reflexivity).
  all: try (rewrite N.ltb_irrefl, N.eqb_refl; destruct (N.ltb j j'); reflexivity).
  all: rewrite (proj2 (N.ltb_ge i i')) by lia; rewrite (proj2 (N.ltb_lt i' i)) by lia; rewrite (proj2 (N.eqb_neq i i')) by lia; reflexivity.
Qed.

Lemma eqb_false a b : a <> b -> expr_eqb a b = false.
Proof. intros H. destruct (expr_eqb a b) eqn:E; [|reflexivity]. apply expr_eqb_eq in E. contradiction. Qed.
Definition ordered (a b : expr) : expr := if lt a b then Fn NAdd [a; b] else Fn NAdd [b; a].
(** The heads of two sums are never collected nor folded. *)
Definition head_rules (rec : op -> expr -> expr -> option expr) : list rule :=
  [add_collect1 rec; add_collect2 rec; add_collect3 rec; add_collect4 rec; add_collect5 rec; add_collect6 rec; add_collect7 rec;
   add_const1; add_const2 rec; add_const3 rec; add_const4 rec; add_const5 rec].
Definition last_rules (rec : op -> expr -> expr -> option expr) : list rule := [add_merge_lt rec; add_merge_gt rec; add_merge_eq rec].
Lemma apply_no rs rs' a b : Forall (fun r : rule => r a b = no) rs -> apply_rules (rs ++ rs') a b = apply_rules rs' a b.
Proof. induction 1 as [|r rs H _ IH]; [reflexivity|]. cbn [app apply_rules]. rewrite H. exact IH. Qed.
Lemma step_split rec a b : addition_step rec a b = apply_rules (add_zero :: map (add_helper rec) (head_rules rec) ++ last_rules rec) a b.
Proof. reflexivity. Qed.
Lemma step_heads rec a b x xs y ys : split_add a = (x, xs) -> split_add b = (y, ys) -> is_cv 0 a = false -> is_cv 0 b = false ->
  Forall (fun r => r x y = no) (head_rules rec) -> addition_step rec a b = apply_rules (last_rules rec) a b.
Proof.
  intros A B Za Zb H. rewrite step_split. cbn [apply_rules]. assert (Z : add_zero a b = no).
  { unfold add_zero. destruct a as [[]| | | | | | | | | |], b as [[]| | | | | | | | | |]; try discriminate; reflexivity. }
  rewrite Z. unfold no. apply apply_no. apply Forall_map. eapply Forall_impl; [|exact H]. intros r Hr. unfold add_helper. rewrite A, B, Hr. reflexivity.
Qed.
Lemma gv_add F t i i' : i <> i' -> eng (S F) OAdd (GV t i) (GV t i') = Some (ordered (GV t i) (GV t i')).
Proof.
  intros H. cbn [eng]. rewrite (step_heads (eng F) (GV t i) (GV t i') (GV t i) None (GV t i') None eq_refl eq_refl eq_refl eq_refl).
  - cbn [apply_rules last_rules]. unfold add_merge_lt, add_merge_gt, ordered. cbn [split_add]. rewrite !lt_gv.
    destruct (N.ltb i i') eqn:E; [reflexivity|]. apply N.ltb_ge in E. rewrite (proj2 (N.ltb_lt i' i)) by lia. reflexivity.
  - repeat apply Forall_cons; try apply Forall_nil; try reflexivity. unfold add_collect1. rewrite eqb_false by congruence. reflexivity.
Qed.
Lemma simplified_no rec p q : rec OAdd p q = Some (ordered p q) -> mk_add [p; q] = Some (Fn NAdd [p; q]) -> mk_add [q; p] = Some (Fn NAdd [q; p]) -> forall k, collect_with rec p q k = no.
Proof. intros E P Q k. unfold collect_with, simplified. rewrite E, P, Q. unfold ordered. destruct (lt p q); rewrite expr_eqb_refl, ?orb_true_r; reflexivity. Qed.
Lemma gv_collect rec t i i' : rec OAdd (GV t i) (GV t i') = Some (ordered (GV t i) (GV t i')) -> forall k, collect_with rec (GV t i) (GV t i') k = no.
Proof. intros E. apply simplified_no; [exact E|reflexivity|reflexivity]. Qed.
Lemma prods_no F p q : p <> q -> Forall (fun r => r (prod p) (prod q) = no) (head_rules (eng (S F))).
Proof.
  destruct p as [i j], q as [i' j']. intros H. unfold head_rules, prod. cbn [fst snd].
  assert (E : expr_eqb (Fn NMul [GV 1 i; GV 2 j]) (Fn NMul [GV 1 i'; GV 2 j']) = false) by (apply eqb_false; congruence).
  repeat apply Forall_cons; try apply Forall_nil; try reflexivity.
  - unfold add_collect1. rewrite E. reflexivity.
  - cbn [add_collect4 exprs_eqb]. destruct (N.eq_dec j j') as [<-|Nj].
    + rewrite expr_eqb_refl. cbn [andb]. apply gv_collect, gv_add. congruence.
    + rewrite eqb_false by congruence. reflexivity.
  - cbn [add_collect7]. destruct (N.eq_dec i i') as [<-|Ni].
    + rewrite expr_eqb_refl. cbn [mk_mul]. apply gv_collect, gv_add. congruence.
    + rewrite eqb_false by congruence. reflexivity.
Qed.
Lemma term_split t : split_add (term t) = (term t, None).
Proof. unfold term, prod. destruct (Z.eqb (fst t) 1); reflexivity. Qed.
Lemma term_nz z t : is_cv z (term t) = false.
Proof. unfold term, prod. destruct (Z.eqb (fst t) 1); reflexivity. Qed.
Lemma add_terms (t u : Z * key) : mk_add [term t; term u] = Some (Fn NAdd [term t; term u]).
Proof. unfold mk_add. cbn [existsb]. rewrite !term_nz, andb_false_r. reflexivity. Qed.
Lemma pair_add F s t : snd s <> snd t -> Forall (fun r => r (term s) (term t) = no) (head_rules (eng F)) -> eng (S F) OAdd (term s) (term t) = Some (ordered (term s) (term t)).
Proof.
  intros N H. cbn [eng]. rewrite (step_heads (eng F) _ _ _ _ _ _ (term_split s) (term_split t) (term_nz 0 s) (term_nz 0 t) H).
  cbn [apply_rules last_rules]. unfold add_merge_lt, add_merge_gt. rewrite !term_split. unfold ordered. rewrite !lt_term, !add_terms.
  destruct (klt_b (snd s) (snd t)) eqn:E; [reflexivity|]. destruct (klt_total _ _ N) as [L|L]; [apply klt_spec in L; congruence|]. apply klt_spec in L. rewrite L. reflexivity.
Qed.
Lemma term_prod k : term (1%Z, k) = prod k. Proof. reflexivity. Qed.
Lemma prods_add F p q : p <> q -> eng (S (S F)) OAdd (prod p) (prod q) = Some (ordered (prod p) (prod q)).
Proof. intros H. exact (pair_add (S F) (1%Z, p) (1%Z, q) H (prods_no F p q H)). Qed.
Lemma prod_mul z k : z <> 1%Z -> term (z, k) = Fn NMul [CV z; GV 1 (fst k); GV 2 (snd k)].
Proof. intros H. unfold term. cbn [fst snd]. apply Z.eqb_neq in H. rewrite H. reflexivity. Qed.
Lemma prod_factors k : mk_mul [GV 1 (fst k); GV 2 (snd k)] = Some (prod k). Proof. reflexivity. Qed.
Lemma terms_no F s t : snd s <> snd t -> Forall (fun r => r (term s) (term t) = no) (head_rules (eng (S (S F)))).
Proof.
  destruct s as [z p], t as [z' q]. cbn [snd]. intros H. destruct (Z.eq_dec z 1) as [->|N], (Z.eq_dec z' 1) as [->|N'].
  - exact (prods_no (S F) p q H).
  - rewrite term_prod, (prod_mul z' q N'). destruct p as [i j], q as [i' j']. unfold head_rules, prod. cbn [fst snd].
    assert (E : expr_eqb (Fn NMul [GV 1 i'; GV 2 j']) (Fn NMul [GV 1 i; GV 2 j]) = false) by (apply eqb_false; congruence).
    repeat apply Forall_cons; try apply Forall_nil; try reflexivity.
    all: try (unfold add_collect1; rewrite eqb_false by congruence; reflexivity).
    all: try (unfold add_collect3; rewrite E; reflexivity).
    all: cbn [add_collect4 exprs_eqb]; rewrite ?andb_false_r; reflexivity.
  - rewrite term_prod, (prod_mul z p N). destruct p as [i j], q as [i' j']. unfold head_rules, prod. cbn [fst snd].
    assert (E : expr_eqb (Fn NMul [GV 1 i; GV 2 j]) (Fn NMul [GV 1 i'; GV 2 j']) = false) by (apply eqb_false; congruence).
    repeat apply Forall_cons; try apply Forall_nil; try reflexivity.
    all: try (unfold add_collect1; rewrite eqb_false by congruence; reflexivity).
    all: try (unfold add_collect2; rewrite E; reflexivity).
    all: cbn [add_collect4 exprs_eqb]; rewrite ?andb_false_r; reflexivity.
  - rewrite (prod_mul z p N), (prod_mul z' q N'). pose proof (prods_add F p q H) as PA. pose proof (prod_factors p) as M1. pose proof (prod_factors q) as M2. destruct p as [i j], q as [i' j']. unfold head_rules. cbn [fst snd] in *.
    assert (E : exprs_eqb [GV 1 i; GV 2 j] [GV 1 i'; GV 2 j'] = false).
    { cbn [exprs_eqb]. destruct (N.eq_dec i i') as [->|]; [|rewrite eqb_false by congruence; reflexivity]. rewrite (eqb_false (GV 2 j)) by congruence. apply andb_false_r. }
    repeat apply Forall_cons; try apply Forall_nil; try reflexivity.
    + unfold add_collect1. rewrite eqb_false by congruence. reflexivity.
    + unfold add_collect4. rewrite E. reflexivity.
    + unfold add_collect7. destruct (expr_eqb (CV z) (CV z')); [|reflexivity]. rewrite M1, M2. apply simplified_no; [exact PA| |]; reflexivity.
Qed.

(** Sums in increasing order of the keys. *)
Definition increasing (l : list (Z * key)) : Prop := StronglySorted klt (map snd l).
Definition apart (l m : list (Z * key)) : Prop := forall k, In k (map snd l) -> In k (map snd m) -> False.
Lemma sum_split t l : split_add (sum_of (t :: l)) = (term t, match l with [] => None | _ => Some (map term l) end).
Proof. destruct l as [|u l]; [apply term_split|reflexivity]. Qed.
Lemma sum_nz t l : is_cv 0 (sum_of (t :: l)) = false.
Proof. destruct l as [|u l]; [apply term_nz|reflexivity]. Qed.
Lemma nz_terms l : existsb (is_cv 0) (map term l) = false.
Proof. induction l as [|t l IH]; [reflexivity|]. cbn [map existsb]. rewrite term_nz. exact IH. Qed.
Lemma add_sum t l : mk_add (map term (t :: l)) = Some (sum_of (t :: l)).
Proof. destruct l as [|u l]; [reflexivity|]. unfold mk_add, sum_of. cbn [map]. change (term t :: term u :: map term l) with (map term (t :: u :: l)). rewrite nz_terms, andb_false_r. reflexivity. Qed.
Lemma sum_front F t u l : klt (snd t) (snd u) -> eng (S (S (S F))) OAdd (term t) (sum_of (u :: l)) = Some (sum_of (t :: u :: l)).
Proof.
  intros L. assert (N : snd t <> snd u) by (intros E; rewrite E in L; exact (klt_irrefl _ L)).
  change (addition_step (eng (S (S F))) (term t) (sum_of (u :: l)) = Some (sum_of (t :: u :: l))).
  rewrite (step_heads _ _ _ _ _ _ _ (term_split t) (sum_split u l) (term_nz 0 t) (sum_nz u l) (terms_no F t u N)).
  cbn [apply_rules last_rules]. unfold add_merge_lt. rewrite term_split, sum_split, lt_term. apply klt_spec in L. rewrite L. rewrite <- add_sum. destruct l as [|v l].
  - change (mk_add [term t; sum_of [u]]) with (mk_add (map term [t; u])). rewrite add_sum. reflexivity.
  - change (mk_add (term t :: term u :: map term (v :: l))) with (mk_add (map term (t :: u :: v :: l))). rewrite add_sum. reflexivity.
Qed.
(** The union of two sums without a common key. *)
Theorem sum_merge F : forall k l m, (length l + length m <= k)%nat -> l <> [] -> m <> [] -> increasing l -> increasing m -> apart l m ->
  exists r, eng (k + 3 + F) OAdd (sum_of l) (sum_of m) = Some (sum_of r) /\ increasing r /\ (forall t, In t r <-> In t l \/ In t m) /\ length r = (length l + length m)%nat.
Proof.
  induction k as [|k IH]; intros [|s l] [|t m] K Nl Nm Il Im Ap; try congruence; [cbn [length] in K; lia|].
  assert (N : snd s <> snd t) by (intros E; apply (Ap (snd s)); [left; reflexivity|rewrite E; left; reflexivity]).
  inversion Il as [|? ? Il' Fl E1]; subst. inversion Im as [|? ? Im' Fm E1]; subst. cbn [length] in K.
  replace (S k + 3 + F)%nat with (S (S (S (k + 1 + F)))) by lia.
  assert (ST : eng (S (S (S (k + 1 + F)))) OAdd (sum_of (s :: l)) (sum_of (t :: m)) = apply_rules (last_rules (eng (S (S (k + 1 + F))))) (sum_of (s :: l)) (sum_of (t :: m))).
  { change (addition_step (eng (S (S (k + 1 + F)))) (sum_of (s :: l)) (sum_of (t :: m)) = apply_rules (last_rules (eng (S (S (k + 1 + F))))) (sum_of (s :: l)) (sum_of (t :: m))).
    apply (step_heads _ _ _ _ _ _ _ (sum_split s l) (sum_split t m) (sum_nz s l) (sum_nz t m) (terms_no _ s t N)). }
  rewrite ST. clear ST. cbn [apply_rules last_rules]. unfold add_merge_lt, add_merge_gt. rewrite !sum_split, !lt_term.
  destruct (klt_total _ _ N) as [L|L].
  - rewrite (proj2 (klt_spec _ _) L). assert (Fm' : Forall (klt (snd s)) (map snd (t :: m))).
    { constructor; [exact L|]. eapply Forall_impl; [|exact Fm]. intros x. apply klt_trans. exact L. }
    destruct l as [|s' l].
    + exists (s :: t :: m). split; [|split; [constructor; [exact Im|exact Fm']|split; [cbn [In]; tauto|reflexivity]]].
      destruct m as [|t' m]; [change (mk_add [sum_of [s]; sum_of [t]]) with (mk_add (map term [s; t]))|change (mk_add (sum_of [s] :: term t :: map term (t' :: m))) with (mk_add (map term (s :: t :: t' :: m)))]; rewrite add_sum; reflexivity.
    + rewrite add_sum. destruct (IH (s' :: l) (t :: m)) as (r & E & Ir & Mr & Lr); try congruence; auto; [cbn [length] in *; lia| |].
      { intros x X Y. apply (Ap x); [right; exact X|exact Y]. }
      replace (S (S (k + 1 + F))) with (k + 3 + F)%nat by lia. rewrite E. cbn [length] in Lr. destruct r as [|u r]; [cbn [length] in Lr; lia|].
      assert (Fr : Forall (klt (snd s)) (map snd (u :: r))).
      { apply Forall_map, Forall_forall. intros x X. apply Mr in X as [X|X]; apply (in_map snd) in X; [exact (proj1 (Forall_forall _ _) Fl _ X)|exact (proj1 (Forall_forall _ _) Fm' _ X)]. }
      assert (Lu : klt (snd s) (snd u)) by (inversion Fr; auto).
      replace (k + 3 + F)%nat with (S (S (S (k + F)))) by lia. rewrite (sum_front (k + F) s u r Lu). exists (s :: u :: r). split; [reflexivity|]. split; [constructor; [exact Ir|exact Fr]|].
      split; [|cbn [length] in *; lia]. intros x. change (In x (s :: u :: r)) with (s = x \/ In x (u :: r)). rewrite Mr. cbn [In]. tauto.
  - rewrite (klt_b_false _ _ L), (proj2 (klt_spec _ _) L). assert (Fl' : Forall (klt (snd t)) (map snd (s :: l))).
    { constructor; [exact L|]. eapply Forall_impl; [|exact Fl]. intros x. apply klt_trans. exact L. }
    destruct m as [|t' m].
    + exists (t :: s :: l). split; [|split; [constructor; [exact Il|exact Fl']|split; [cbn [In]; tauto|cbn [length]; lia]]].
      destruct l as [|s' l]; [change (mk_add [sum_of [t]; sum_of [s]]) with (mk_add (map term [t; s]))|change (mk_add (sum_of [t] :: term s :: map term (s' :: l))) with (mk_add (map term (t :: s :: s' :: l)))]; rewrite add_sum; reflexivity.
    + rewrite add_sum. destruct (IH (s :: l) (t' :: m)) as (r & E & Ir & Mr & Lr); try congruence; auto; [cbn [length] in *; lia| |].
      { intros x X Y. apply (Ap x); [exact X|right; exact Y]. }
      replace (S (S (k + 1 + F))) with (k + 3 + F)%nat by lia. rewrite E. cbn [length] in Lr. destruct r as [|u r]; [cbn [length] in Lr; lia|].
      assert (Fr : Forall (klt (snd t)) (map snd (u :: r))).
      { apply Forall_map, Forall_forall. intros x X. apply Mr in X as [X|X]; apply (in_map snd) in X; [exact (proj1 (Forall_forall _ _) Fl' _ X)|exact (proj1 (Forall_forall _ _) Fm _ X)]. }
      assert (Lu : klt (snd t) (snd u)) by (inversion Fr; auto).
      replace (k + 3 + F)%nat with (S (S (S (k + F)))) by lia. rewrite (sum_front (k + F) t u r Lu). exists (t :: u :: r). split; [destruct l; reflexivity|]. split; [constructor; [exact Ir|exact Fr]|].
      split; [|cbn [length] in *; lia]. intros x. change (In x (t :: u :: r)) with (t = x \/ In x (u :: r)). rewrite Mr. cbn [In]. tauto.
Qed.
