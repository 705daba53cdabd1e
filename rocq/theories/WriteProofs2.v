(** Two multivectors with the same text look the same. *)
From Coq Require Import NArith ZArith List Bool Reals String Ascii Lia Lra.
From Verif Require Import Bits Expr SpecBits Sem Wf SpecMv EvalC SpecEval Lazy SpecLazy Api SpecApi SpecUtil SpecCopy Write SpecWrite WriteProofs Wick2.
Import ListNotations.
Local Open Scope string_scope.
Local Opaque indices.

(** ** Texts without a character *)
Fixpoint free (c : ascii) (s : string) : bool := match s with "" => true | String d s' => negb (Ascii.eqb d c) && free c s' end.
Lemma free_app c a b : free c (a ++ b) = (free c a && free c b)%bool.
Proof. induction a as [|d a IH]; [reflexivity|]. cbn [append free]. rewrite IH. apply andb_assoc. Qed.
Lemma split_at c a : forall b r r', free c a = true -> free c b = true -> a ++ String c r = b ++ String c r' -> a = b /\ r = r'.
Proof.
  induction a as [|d a IH]; intros [|d' b] r r' Fa Fb E; cbn [append free] in *.
  - injection E as E. auto.
  - injection E as E1 E2. subst d'. rewrite Ascii.eqb_refl in Fb. discriminate Fb.
  - injection E as E1 E2. subst d. rewrite Ascii.eqb_refl in Fa. discriminate Fa.
  - injection E as E1 E2. subst d'. apply andb_prop in Fa as [_ Fa]. apply andb_prop in Fb as [_ Fb]. destruct (IH b r r' Fa Fb E2) as [-> ->]. auto.
Qed.
Lemma free_no c a b r : free c a = true -> a <> b ++ String c r.
Proof. intros F ->. rewrite free_app in F. cbn [free] in F. rewrite Ascii.eqb_refl in F. apply andb_prop in F as [_ F]. discriminate F. Qed.
Lemma word_free c s : word s = true -> mark c = true -> free c s = true.
Proof.
  intros W M. destruct s as [|d s]; [discriminate W|]. unfold word in W. revert W. generalize (String d s). clear d s. intros s. induction s as [|d s IH]; intros W; [reflexivity|]. cbn [list_ascii_of_string forallb free] in *. apply andb_prop in W as [W1 W2]. rewrite (IH W2), andb_true_r.
  destruct (Ascii.eqb_spec d c) as [->|_]; [rewrite M in W1; discriminate W1|reflexivity].
Qed.
Lemma word_first s : word s = true -> exists c t, s = String c t /\ mark c = false.
Proof. destruct s as [|c t]; [discriminate|]. cbn. intros W. apply andb_prop in W as [W _]. exists c, t. split; [reflexivity|]. apply negb_true_iff, W. Qed.
Lemma word_not s c t : word s = true -> mark c = true -> s <> String c t.
Proof. intros W M ->. destruct (word_first _ W) as (d & u & E & N). injection E as <- <-. congruence. Qed.
Lemma after c a b : free c a = true -> free c b = true -> a ++ String c "" = b ++ String c "" -> a = b.
Proof. intros A B E. exact (proj1 (split_at c a b _ _ A B E)). Qed.

Section Names.
Variables (f : format) (names : list string).
Hypothesis Ok : readable f names.
Local Notation name := (fun i => nth (N.to_nat i) names "").
Lemma name_word i : (N.to_nat i < List.length names)%nat -> word (name i) = true /\ name i <> "1".
Proof. intros H. destruct Ok as (_ & _ & F & _). rewrite Forall_forall in F. apply F, nth_In, H. Qed.

(** ** Blades *)
Lemma names_inj l : forall l', Forall (fun i => (N.to_nat i < List.length names)%nat) l -> Forall (fun i => (N.to_nat i < List.length names)%nat) l' -> l <> [] -> l' <> [] ->
  String.concat "^" (map name l) = String.concat "^" (map name l') -> l = l'.
Proof.
  assert (NI : forall i j, (N.to_nat i < List.length names)%nat -> (N.to_nat j < List.length names)%nat -> name i = name j -> i = j).
  { intros i j Hi Hj E. destruct Ok as (_ & _ & _ & D). apply N2Nat.inj. exact (proj1 (NoDup_nth names "") D _ _ Hi Hj E). }
  assert (FR : forall i, (N.to_nat i < List.length names)%nat -> free "^" (name i) = true) by (intros i Hi; apply word_free; [apply name_word, Hi|reflexivity]).
  induction l as [|i l IH]; intros [|j l'] H H' N N' E; try contradiction. inversion H as [|? ? H1 H2]; subst. inversion H' as [|? ? H1' H2']; subst. destruct l as [|i' l]; destruct l' as [|j' l']; cbn [map String.concat] in E.
  - f_equal. apply NI; assumption.
  - exfalso. exact (free_no "^" (name i) (name j) _ (FR i H1) E).
  - exfalso. exact (free_no "^" (name j) (name i) _ (FR j H1') (eq_sym E)).
  - destruct (split_at "^" (name i) (name j) _ _ (FR i H1) (FR j H1') E) as [E1 E2]. f_equal; [apply NI; assumption|]. apply IH; try assumption; discriminate.
Qed.
Lemma blade_inj k k' : (k < 2 ^ 64)%N -> (k' < 2 ^ 64)%N -> named names k -> named names k' -> blade_text names k = blade_text names k' -> k = k'.
Proof.
  intros L L' H H' E. rewrite <- (bits_indices k L), <- (bits_indices k' L'). f_equal. unfold blade_text, named in *. revert E H H'.
  assert (ONE : forall i l, Forall (fun i => (N.to_nat i < List.length names)%nat) (i :: l) -> "1" <> String.concat "^" (map name (i :: l))).
  { intros i l H E. inversion H as [|? ? H1 H2]; subst. destruct l as [|j l]; cbn [map String.concat] in E; [exact (proj2 (name_word i H1) (eq_sym E))|exact (free_no "^" "1" (name i) _ eq_refl E)]. }
  destruct (indices k) as [|i l]; destruct (indices k') as [|j l']; intros E H H'; [reflexivity|exfalso; exact (ONE _ _ H' E)|exfalso; exact (ONE _ _ H (eq_sym E))|]. apply names_inj; try assumption; discriminate.
Qed.
Lemma blade_free c k : named names k -> mark c = true -> Ascii.eqb "^" c = false -> free c (blade_text names k) = true.
Proof.
  intros H M N. unfold blade_text, named in *. destruct (indices k) as [|i l]; [destruct (Ascii.eqb_spec "1" c) as [<-|Ne]; [discriminate M|cbn [free]; apply Ascii.eqb_neq in Ne; rewrite Ne; reflexivity]|]. revert H. generalize (i :: l). clear i l. intros l. induction l as [|i l IH]; intros H; [reflexivity|].
  inversion H as [|? ? H1 H2]; subst. destruct l as [|j l]; [apply word_free; [apply name_word, H1|exact M]|]. change (free c (name i ++ String "^" (String.concat "^" (map name (j :: l)))) = true). rewrite free_app. cbn [free]. rewrite (IH H2), N, (word_free c _ (proj1 (name_word i H1)) M). reflexivity.
Qed.
Lemma blade_first k c t : named names k -> mark c = true -> Ascii.eqb "^" c = false -> blade_text names k <> String c t.
Proof. intros H M N E. pose proof (blade_free c k H M N) as F. rewrite E in F. cbn [free] in F. rewrite Ascii.eqb_refl in F. discriminate F. Qed.

(** ** Components *)
Definition coefficient_part (c : expr) (v : R) : string := match c with CV z => "<" ++ of_int f z ++ ">" | _ => number_text f v end.
Definition blade_part (b : expr) (k : N) : string := match b with CBlade _ => "<" ++ blade_text names k ++ ">" | _ => blade_text names k end.
Lemma int_word z : word (of_int f z) = true. Proof. apply Ok. Qed.
Lemma num_word v : word (of_num f v) = true. Proof. apply Ok. Qed.
Lemma number_free v : free " " (number_text f v) = true.
Proof. unfold number_text. pose proof (word_free " " _ (num_word v) eq_refl) as F. destruct Rle_dec; [exact F|]. cbn [append free]. rewrite free_app, F. reflexivity. Qed.
Lemma coefficient_free c v : free " " (coefficient_part c v) = true.
Proof. destruct c; try apply number_free. cbn [coefficient_part append free]. rewrite free_app, (word_free " " _ (int_word z) eq_refl). reflexivity. Qed.
Lemma blade_part_free b k : named names k -> free " " (blade_part b k) = true.
Proof. intros H. pose proof (blade_free " " k H eq_refl eq_refl) as F. destruct b; try exact F. cbn [blade_part append free]. rewrite free_app, F. reflexivity. Qed.
Lemma number_not v t : number_text f v <> String "<" t.
Proof. unfold number_text. destruct Rle_dec; [apply word_not; [apply num_word|reflexivity]|discriminate]. Qed.
Lemma number_inj v w : number_text f v = number_text f w -> of_num f v = of_num f w /\ (0 <= v <-> 0 <= w)%R.
Proof.
  unfold number_text. destruct (Rle_dec 0 v) as [P|P]; destruct (Rle_dec 0 w) as [Q|Q]; intros E.
  - tauto.
  - exfalso. exact (word_not _ "(" _ (num_word v) eq_refl E).
  - exfalso. exact (word_not _ "(" _ (num_word w) eq_refl (eq_sym E)).
  - injection E as E. split; [|tauto]. apply (after ")"); [apply word_free; [apply num_word|reflexivity]|apply word_free; [apply num_word|reflexivity]|exact E].
Qed.
Lemma part_alike c b d b' p q : coefficient_part c (fst p) = coefficient_part d (fst q) -> snd p = snd q -> alike f (Comp c b) (Comp d b') p q.
Proof.
  intros E S. split; [exact S|]. destruct c; destruct d; cbn [coefficient_part] in E; try (exact (number_inj _ _ E)); try (exfalso; exact (number_not _ _ E)); try (exfalso; exact (number_not _ _ (eq_sym E))).
  injection E as E. apply (after ">"); [apply word_free; [apply int_word|reflexivity]|apply word_free; [apply int_word|reflexivity]|exact E].
Qed.
Lemma blade_part_inj b b' k k' : (k < 2 ^ 64)%N -> (k' < 2 ^ 64)%N -> named names k -> named names k' -> blade_part b k = blade_part b' k' -> k = k'.
Proof.
  intros L L' H H'. assert (Q : blade_text names k = blade_text names k' -> k = k') by (apply blade_inj; assumption).
  destruct b; destruct b'; cbn [blade_part]; intros E; try (exact (Q E)); try (exfalso; exact (blade_first k "<" _ H eq_refl eq_refl E)); try (exfalso; exact (blade_first k' "<" _ H' eq_refl eq_refl (eq_sym E))).
  injection E as E. apply Q, (after ">"); [apply blade_free; auto|apply blade_free; auto|exact E].
Qed.
Definition shown (q : expr * (R * N)) : string := component_text f names (fst q) (snd q).
Definition fine (q : expr * (R * N)) : Prop := (exists c b, fst q = Comp c b) /\ (snd (snd q) < 2 ^ 64)%N /\ named names (snd (snd q)).
Lemma shown_inj l : forall l', Forall fine l -> Forall fine l' -> l <> [] -> l' <> [] -> String.concat " + " (map shown l) = String.concat " + " (map shown l') ->
  Forall2 (fun q r => alike f (fst q) (fst r) (snd q) (snd r)) l l'.
Proof.
  induction l as [|q l IH]; intros [|r l'] H H' N N' E; try contradiction. inversion H as [|? ? H1 H2]; subst. inversion H' as [|? ? H1' H2']; subst. destruct q as [e [v k]]. destruct r as [e' [v' k']]. destruct H1 as ((c & b & Q) & L & Nm). destruct H1' as ((c' & b' & Q') & L' & Nm'). cbn [fst snd] in *. subst e e'.
  assert (Z : forall c b v k, shown (Comp c b, (v, k)) = coefficient_part c v ++ String " " ("* " ++ blade_part b k)) by reflexivity.
  assert (G : forall t t', shown (Comp c b, (v, k)) ++ t = shown (Comp c' b', (v', k')) ++ t' -> coefficient_part c v = coefficient_part c' v' /\ blade_part b k ++ t = blade_part b' k' ++ t').
  { intros t t' X. rewrite !Z, !append_assoc in X. cbn [append] in X. destruct (split_at " " _ _ _ _ (coefficient_free c v) (coefficient_free c' v') X) as [X1 X2]. injection X2 as X2. auto. }
  destruct l as [|q l]; destruct l' as [|r l']; cbn [map] in E.
  - change (shown (Comp c b, (v, k)) = shown (Comp c' b', (v', k'))) in E. rewrite <- (append_nil (shown (Comp c b, _))), <- (append_nil (shown (Comp c' b', _))) in E. destruct (G _ _ E) as [X1 X2]. rewrite !append_nil in X2.
    constructor; [|constructor]. apply part_alike; [exact X1|exact (blade_part_inj b b' k k' L L' Nm Nm' X2)].
  - exfalso. change (shown (Comp c b, (v, k)) = shown (Comp c' b', (v', k')) ++ " + " ++ String.concat " + " (map shown (r :: l'))) in E. rewrite <- (append_nil (shown (Comp c b, _))) in E. destruct (G _ _ E) as [_ X2]. rewrite append_nil in X2. exact (free_no " " _ _ _ (blade_part_free b k Nm) X2).
  - exfalso. change (shown (Comp c b, (v, k)) ++ " + " ++ String.concat " + " (map shown (q :: l)) = shown (Comp c' b', (v', k'))) in E. rewrite <- (append_nil (shown (Comp c' b', _))) in E. destruct (G _ _ E) as [_ X2]. rewrite append_nil in X2. exact (free_no " " _ _ _ (blade_part_free b' k' Nm') (eq_sym X2)).
  - change (shown (Comp c b, (v, k)) ++ " + " ++ String.concat " + " (map shown (q :: l)) = shown (Comp c' b', (v', k')) ++ " + " ++ String.concat " + " (map shown (r :: l'))) in E. destruct (G _ _ E) as [X1 X2].
    destruct (split_at " " _ _ _ _ (blade_part_free b k Nm) (blade_part_free b' k' Nm') X2) as [X3 X4]. injection X4 as X4. constructor; [apply part_alike; [exact X1|exact (blade_part_inj b b' k k' L L' Nm Nm' X3)]|]. apply IH; try assumption; discriminate.
Qed.
End Names.
