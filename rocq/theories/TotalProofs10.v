(** Linear combinations of the stored coefficients of one argument always have a sum. *)
From Coq Require Import NArith ZArith List Bool Lia Sorting.Sorted.
From Verif Require Import Bits Expr ExprBase Simp SimpMono TotalProofs.
Import ListNotations.

Section Linear.
Variable tag : N.
(** [z] times coefficient [i] of the argument. *)
Definition lterm (t : Z * N) : expr := if Z.eqb (fst t) 1 then GV tag (snd t) else Fn NMul [CV (fst t); GV tag (snd t)].
Definition lsum (l : list (Z * N)) : expr :=
  match l with [] => CV 0 | [t] => lterm t | _ => Fn NAdd (map lterm l) end.
(** Multiples of a coefficient precede the coefficients themselves. *)
Definition tlt_b (s t : Z * N) : bool :=
  if Z.eqb (fst s) 1 then if Z.eqb (fst t) 1 then N.ltb (snd s) (snd t) else false else if Z.eqb (fst t) 1 then true else N.ltb (snd s) (snd t).
Definition tlt (s t : Z * N) : Prop := tlt_b s t = true.
Lemma lt_lterm s t : lt (lterm s) (lterm t) = tlt_b s t.
Proof.
  destruct s as [z i], t as [z' i']. unfold lterm, tlt_b. cbn [fst snd].
  destruct (Z.eqb z 1), (Z.eqb z' 1); cbv -[N.ltb N.eqb]; rewrite ?N.ltb_irrefl, ?N.eqb_refl; try reflexivity; destruct (N.ltb i i') eqn:E1, (N.ltb i' i) eqn:E2; reflexivity.
Qed.
Lemma tlt_trans s t u : tlt s t -> tlt t u -> tlt s u.
Proof. unfold tlt, tlt_b. destruct (Z.eqb (fst s) 1), (Z.eqb (fst t) 1), (Z.eqb (fst u) 1); rewrite ?N.ltb_lt; try congruence; lia. Qed.
Lemma tlt_irrefl s : ~ tlt s s.
Proof. unfold tlt, tlt_b. destruct (Z.eqb (fst s) 1); rewrite N.ltb_irrefl; congruence. Qed.
Lemma tlt_total s t : snd s <> snd t -> tlt s t \/ tlt t s.
Proof. unfold tlt, tlt_b. intros H. destruct (Z.eqb (fst s) 1), (Z.eqb (fst t) 1); rewrite ?N.ltb_lt; auto; lia. Qed.
Lemma tlt_no s t : tlt t s -> tlt_b s t = false.
Proof. intros H. destruct (tlt_b s t) eqn:E; [|reflexivity]. destruct (tlt_irrefl s (tlt_trans _ _ _ E H)). Qed.
Lemma lprods_no F i i' : i <> i' -> Forall (fun r => r (GV tag i) (GV tag i') = no) (head_rules (eng F)).
Proof.
  intros H. unfold head_rules. repeat apply Forall_cons; try apply Forall_nil; try reflexivity. unfold add_collect1. rewrite eqb_false by congruence. reflexivity.
Qed.
Lemma lprod_mul z k : z <> 1%Z -> lterm (z, k) = Fn NMul [CV z; GV tag k].
Proof. intros H. unfold lterm. cbn [fst snd]. apply Z.eqb_neq in H. rewrite H. reflexivity. Qed.
Lemma lterms_no F s t : snd s <> snd t -> Forall (fun r => r (lterm s) (lterm t) = no) (head_rules (eng (S F))).
Proof.
  destruct s as [z i], t as [z' i']. cbn [snd]. intros H. assert (E : expr_eqb (GV tag i) (GV tag i') = false) by (apply eqb_false; congruence). assert (E' : expr_eqb (GV tag i') (GV tag i) = false) by (apply eqb_false; congruence).
  destruct (Z.eq_dec z 1) as [->|N], (Z.eq_dec z' 1) as [->|N'].
  - exact (lprods_no (S F) i i' H).
  - rewrite (lprod_mul z' i' N'). change (lterm (1%Z, i)) with (GV tag i). unfold head_rules.
    repeat apply Forall_cons; try apply Forall_nil; try reflexivity; (cbn [add_collect2 add_collect3 add_collect4 add_collect5 add_collect6 add_collect7 mk_mul exprs_eqb]; rewrite ?E, ?E'; reflexivity).
  - rewrite (lprod_mul z i N). change (lterm (1%Z, i')) with (GV tag i'). unfold head_rules.
    repeat apply Forall_cons; try apply Forall_nil; try reflexivity; (cbn [add_collect2 add_collect3 add_collect4 add_collect5 add_collect6 add_collect7 mk_mul exprs_eqb]; rewrite ?E, ?E'; reflexivity).
  - rewrite (lprod_mul z i N), (lprod_mul z' i' N'). unfold head_rules.
    repeat apply Forall_cons; try apply Forall_nil; try reflexivity.
    + unfold add_collect1. rewrite eqb_false by congruence. reflexivity.
    + unfold add_collect4. cbn [exprs_eqb]. rewrite E. reflexivity.
    + unfold add_collect7. destruct (expr_eqb (CV z) (CV z')); [|reflexivity]. cbn [mk_mul]. apply gv_collect, gv_add. congruence.
Qed.
Lemma lterm_split t : split_add (lterm t) = (lterm t, None).
Proof. unfold lterm. destruct (Z.eqb (fst t) 1); reflexivity. Qed.
Lemma lterm_nz z t : is_cv z (lterm t) = false.
Proof. unfold lterm. destruct (Z.eqb (fst t) 1); reflexivity. Qed.
Lemma ladd_terms (t u : Z * N) : mk_add [lterm t; lterm u] = Some (Fn NAdd [lterm t; lterm u]).
Proof. unfold mk_add. cbn [existsb]. rewrite !lterm_nz, andb_false_r. reflexivity. Qed.
(** Sums in increasing order, each coefficient once. *)
Definition before (s t : Z * N) : Prop := tlt s t /\ snd s <> snd t.
Definition lincreasing (l : list (Z * N)) : Prop := StronglySorted before l.
Definition lapart (l m : list (Z * N)) : Prop := forall k, In k (map snd l) -> In k (map snd m) -> False.
Lemma lsum_split t l : split_add (lsum (t :: l)) = (lterm t, match l with [] => None | _ => Some (map lterm l) end).
Proof. destruct l as [|u l]; [apply lterm_split|reflexivity]. Qed.
Lemma lsum_nz t l : is_cv 0 (lsum (t :: l)) = false.
Proof. destruct l as [|u l]; [apply lterm_nz|reflexivity]. Qed.
Lemma lnz_terms l : existsb (is_cv 0) (map lterm l) = false.
Proof. induction l as [|t l IH]; [reflexivity|]. cbn [map existsb]. rewrite lterm_nz. exact IH. Qed.
Lemma ladd_sum t l : mk_add (map lterm (t :: l)) = Some (lsum (t :: l)).
Proof. destruct l as [|u l]; [reflexivity|]. unfold mk_add, lsum. cbn [map]. change (lterm t :: lterm u :: map lterm l) with (map lterm (t :: u :: l)). rewrite lnz_terms, andb_false_r. reflexivity. Qed.
Lemma lsum_front F t u l : before t u -> eng (S (S (S F))) OAdd (lterm t) (lsum (u :: l)) = Some (lsum (t :: u :: l)).
Proof.
  intros [L N].
  change (addition_step (eng (S (S F))) (lterm t) (lsum (u :: l)) = Some (lsum (t :: u :: l))).
  rewrite (step_heads _ _ _ _ _ _ _ (lterm_split t) (lsum_split u l) (lterm_nz 0 t) (lsum_nz u l) (lterms_no (S F) t u N)).
  cbn [apply_rules last_rules]. unfold add_merge_lt. rewrite lterm_split, lsum_split, lt_lterm. unfold tlt in L. rewrite L. rewrite <- ladd_sum. destruct l as [|v l].
  - change (mk_add [lterm t; lsum [u]]) with (mk_add (map lterm [t; u])). rewrite ladd_sum. reflexivity.
  - change (mk_add (lterm t :: lterm u :: map lterm (v :: l))) with (mk_add (map lterm (t :: u :: v :: l))). rewrite ladd_sum. reflexivity.
Qed.
(** The union of two sums without a common key. *)
Theorem lsum_merge F : forall k l m, (length l + length m <= k)%nat -> l <> [] -> m <> [] -> lincreasing l -> lincreasing m -> lapart l m ->
  exists r, eng (k + 3 + F) OAdd (lsum l) (lsum m) = Some (lsum r) /\ lincreasing r /\ (forall t, In t r <-> In t l \/ In t m) /\ length r = (length l + length m)%nat.
Proof.
  induction k as [|k IH]; intros [|s l] [|t m] K Nl Nm Il Im Ap; try congruence; [cbn [length] in K; lia|].
  assert (N : snd s <> snd t) by (intros E; apply (Ap (snd s)); [left; reflexivity|rewrite E; left; reflexivity]).
  inversion Il as [|? ? Il' Fl E1]; subst. inversion Im as [|? ? Im' Fm E1]; subst. cbn [length] in K.
  replace (S k + 3 + F)%nat with (S (S (S (k + 1 + F)))) by lia.
  assert (ST : eng (S (S (S (k + 1 + F)))) OAdd (lsum (s :: l)) (lsum (t :: m)) = apply_rules (last_rules (eng (S (S (k + 1 + F))))) (lsum (s :: l)) (lsum (t :: m))).
  { change (addition_step (eng (S (S (k + 1 + F)))) (lsum (s :: l)) (lsum (t :: m)) = apply_rules (last_rules (eng (S (S (k + 1 + F))))) (lsum (s :: l)) (lsum (t :: m))).
    apply (step_heads _ _ _ _ _ _ _ (lsum_split s l) (lsum_split t m) (lsum_nz s l) (lsum_nz t m) (lterms_no _ s t N)). }
  rewrite ST. clear ST. cbn [apply_rules last_rules]. unfold add_merge_lt, add_merge_gt. rewrite !lsum_split, !lt_lterm.
  destruct (tlt_total _ _ N) as [L|L].
  - pose proof L as LL. unfold tlt in LL. rewrite LL. assert (Fm' : Forall (before s) (t :: m)).
    { constructor; [split; [exact L|exact N]|]. apply Forall_forall. intros x X. split; [exact (tlt_trans _ _ _ L (proj1 (proj1 (Forall_forall _ _) Fm x X)))|]. intros E. apply (Ap (snd s)); [left; reflexivity|]. rewrite E. right. apply in_map, X. }
    destruct l as [|s' l].
    + exists (s :: t :: m). split; [|split; [constructor; [exact Im|exact Fm']|split; [cbn [In]; tauto|reflexivity]]].
      destruct m as [|t' m]; [change (mk_add [lsum [s]; lsum [t]]) with (mk_add (map lterm [s; t]))|change (mk_add (lsum [s] :: lterm t :: map lterm (t' :: m))) with (mk_add (map lterm (s :: t :: t' :: m)))]; rewrite ladd_sum; reflexivity.
    + rewrite ladd_sum. destruct (IH (s' :: l) (t :: m)) as (r & E & Ir & Mr & Lr); try congruence; auto; [cbn [length] in *; lia| |].
      { intros x X Y. apply (Ap x); [right; exact X|exact Y]. }
      replace (S (S (k + 1 + F))) with (k + 3 + F)%nat by lia. rewrite E. cbn [length] in Lr. destruct r as [|u r]; [cbn [length] in Lr; lia|].
      assert (Fr : Forall (before s) (u :: r)).
      { apply Forall_forall. intros x X. apply Mr in X as [X|X]; [exact (proj1 (Forall_forall _ _) Fl _ X)|exact (proj1 (Forall_forall _ _) Fm' _ X)]. }
      assert (Lu : before s u) by (inversion Fr; auto).
      replace (k + 3 + F)%nat with (S (S (S (k + F)))) by lia. rewrite (lsum_front (k + F) s u r Lu). exists (s :: u :: r). split; [reflexivity|]. split; [constructor; [exact Ir|exact Fr]|].
      split; [|cbn [length] in *; lia]. intros x. change (In x (s :: u :: r)) with (s = x \/ In x (u :: r)). rewrite Mr. cbn [In]. tauto.
  - pose proof L as LL. unfold tlt in LL. rewrite (tlt_no _ _ L), LL. assert (Fl' : Forall (before t) (s :: l)).
    { constructor; [split; [exact L|congruence]|]. apply Forall_forall. intros x X. split; [exact (tlt_trans _ _ _ L (proj1 (proj1 (Forall_forall _ _) Fl x X)))|]. intros E. apply (Ap (snd t)); [|left; reflexivity]. rewrite E. right. apply in_map, X. }
    destruct m as [|t' m].
    + exists (t :: s :: l). split; [|split; [constructor; [exact Il|exact Fl']|split; [cbn [In]; tauto|cbn [length]; lia]]].
      destruct l as [|s' l]; [change (mk_add [lsum [t]; lsum [s]]) with (mk_add (map lterm [t; s]))|change (mk_add (lsum [t] :: lterm s :: map lterm (s' :: l))) with (mk_add (map lterm (t :: s :: s' :: l)))]; rewrite ladd_sum; reflexivity.
    + rewrite ladd_sum. destruct (IH (s :: l) (t' :: m)) as (r & E & Ir & Mr & Lr); try congruence; auto; [cbn [length] in *; lia| |].
      { intros x X Y. apply (Ap x); [exact X|right; exact Y]. }
      replace (S (S (k + 1 + F))) with (k + 3 + F)%nat by lia. rewrite E. cbn [length] in Lr. destruct r as [|u r]; [cbn [length] in Lr; lia|].
      assert (Fr : Forall (before t) (u :: r)).
      { apply Forall_forall. intros x X. apply Mr in X as [X|X]; [exact (proj1 (Forall_forall _ _) Fl' _ X)|exact (proj1 (Forall_forall _ _) Fm _ X)]. }
      assert (Lu : before t u) by (inversion Fr; auto).
      replace (k + 3 + F)%nat with (S (S (S (k + F)))) by lia. rewrite (lsum_front (k + F) t u r Lu). exists (t :: u :: r). split; [destruct l; reflexivity|]. split; [constructor; [exact Ir|exact Fr]|].
      split; [|cbn [length] in *; lia]. intros x. change (In x (t :: u :: r)) with (t = x \/ In x (u :: r)). rewrite Mr. cbn [In]. tauto.
Qed.
End Linear.
