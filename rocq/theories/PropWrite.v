(** C53: the text of a multivector. *)
From Coq Require Import NArith ZArith List Bool Reals String Ascii Lia Lra Decimal DecimalString.
From Verif Require Import Bits Expr SpecBits Sem Wf SpecMv EvalC SpecEval Lazy SpecLazy Api SpecApi SpecUtil SpecCopy Write SpecWrite WriteProofs WriteProofs2 Wick2.
Import ListNotations.
Local Open Scope string_scope.

Lemma blades_named names m : (List.length names <= 64)%nat -> Forall (fun p : R * N => (snd p < 2 ^ N.of_nat (List.length names))%N) m -> Forall (fun p : R * N => (snd p < 2 ^ 64)%N /\ named names (snd p)) m.
Proof.
  intros L H. eapply Forall_impl; [|exact H]. intros p Hp. split.
  - eapply N.lt_le_trans; [exact Hp|]. apply N.pow_le_mono_r; lia.
  - apply Forall_forall. intros i Hi. pose proof (indices_below _ _ _ Hp Hi). lia.
Qed.

(** ** C53: write and operator << *)
(** An object with stored or integer coefficients and blades that are stored or known at compile time (a sum has
    two components or more), in a space whose basis vectors all have a name: the text is that of its
    components, in order. *)
Theorem C53_text : forall f names a m, plain_object a -> (forall l, cexpr a = Fn NAdd l -> (2 <= List.length l)%nat) -> component_values a m ->
  (List.length names <= 64)%nat -> Forall (fun p => (snd p < 2 ^ N.of_nat (List.length names))%N) m -> write f names a = Some (multivector_text f names a m).
Proof. intros f names a m P L V N H. apply write_ok; [exact P|exact V|exact L|apply blades_named; assumption]. Qed.
Print Assumptions C53_text.

Lemma scomps_length g l : forall s m s', scomps g l s m s' -> List.length l = List.length m.
Proof. induction l as [|e l IH]; intros s [|p m] s' H; try contradiction; [reflexivity|]. destruct H as (s1 & _ & H). cbn [List.length]. rewrite (IH _ _ _ H). reflexivity. Qed.
Lemma plain_fine names l : forall m, List.length l = List.length m -> forallb plain_comp l = true -> Forall (fun p : R * N => (snd p < 2 ^ 64)%N /\ named names (snd p)) m -> Forall (fine names) (List.combine l m).
Proof.
  induction l as [|e l IH]; intros [|p m] L P H; try discriminate L; [constructor|]. cbn [forallb] in P. apply andb_prop in P as [P1 P2]. inversion H as [|? ? H1 H2]; subst. constructor; [|apply IH; try assumption; injection L; auto].
  split; [|exact H1]. destruct e; try discriminate P1. eexists _, _. reflexivity.
Qed.
Lemma combine_nil {A B} (l : list A) (m : list B) : List.length l = List.length m -> l <> [] -> List.combine l m <> [].
Proof. destruct l; [contradiction|]. destruct m; [discriminate|]. discriminate. Qed.
Lemma components_ne a : (forall l, cexpr a = Fn NAdd l -> (2 <= List.length l)%nat) -> components (cexpr a) <> [].
Proof. intros L. destruct (cexpr a) as [| | | | | | | | | |g l]; try discriminate. destruct g; try discriminate. cbn [components]. specialize (L l eq_refl). destruct l; [cbn in L; lia|discriminate]. Qed.
(** Two such objects with the same text, when numbers and basis vectors are printed as words that can be told
    apart from the punctuation: they have the same number of components, on the same blades and in the same
    order, each either stored in both or an integer constant in both, and printed alike. *)
Theorem C53_unambiguous : forall f names a b m m' t, readable f names -> plain_object a -> plain_object b ->
  (forall l, cexpr a = Fn NAdd l -> (2 <= List.length l)%nat) -> (forall l, cexpr b = Fn NAdd l -> (2 <= List.length l)%nat) -> component_values a m -> component_values b m' ->
  (List.length names <= 64)%nat -> Forall (fun p => (snd p < 2 ^ N.of_nat (List.length names))%N) m -> Forall (fun p => (snd p < 2 ^ N.of_nat (List.length names))%N) m' ->
  write f names a = Some t -> write f names b = Some t ->
  Forall2 (fun q r => alike f (fst q) (fst r) (snd q) (snd r)) (List.combine (components (cexpr a)) m) (List.combine (components (cexpr b)) m').
Proof.
  intros f names a b m m' t Ok Pa Pb La Lb Va Vb L H H' Ea Eb. pose proof (C53_text f names a m Pa La Va L H) as Ta. pose proof (C53_text f names b m' Pb Lb Vb L H') as Tb. rewrite Ea in Ta. rewrite Eb in Tb.
  assert (E : multivector_text f names a m = multivector_text f names b m') by congruence. clear Ta Tb Ea Eb.
  set (g := {| ev := fun _ _ => None; eb := fun _ _ => None |}). pose proof (scomps_length _ _ _ _ _ (Va g)) as A. pose proof (scomps_length _ _ _ _ _ (Vb g)) as B.
  apply (shown_inj f names Ok); [apply plain_fine; [exact A|apply Pa|apply blades_named; assumption]|apply plain_fine; [exact B|apply Pb|apply blades_named; assumption]|apply combine_nil; [exact A|apply components_ne, La]|apply combine_nil; [exact B|apply components_ne, Lb]|exact E].
Qed.
Print Assumptions C53_unambiguous.
(** If moreover different numbers of the two objects are printed differently, the objects have the same value. *)
Lemma read_const g e s p s' z b : scomp g e s p s' -> e = Comp (CV z) b -> fst p = IZR z.
Proof. intros S ->. destruct S as (s1 & R & _). cbn in R. injection R as R _. auto. Qed.
Lemma same_values f g g' l : forall l' s s' s1 s1' m m', scomps g l s m s1 -> scomps g' l' s' m' s1' -> forallb plain_comp l = true -> forallb plain_comp l' = true ->
  (forall z z', of_int f z = of_int f z' -> z = z') -> (forall p q, In p m -> In q m' -> of_num f (fst p) = of_num f (fst q) -> fst p = fst q) ->
  Forall2 (fun q r => alike f (fst q) (fst r) (snd q) (snd r)) (List.combine l m) (List.combine l' m') -> m = m'.
Proof.
  induction l as [|e l IH]; intros l' s s' s1 s1' m m' S S' P P' I1 I2 F; destruct m as [|p m]; try contradiction; destruct l' as [|e' l']; destruct m' as [|p' m']; try contradiction; cbn [List.combine] in F; inversion F as [|? ? ? ? F1 F2]; subst; [reflexivity|].
  destruct S as (s2 & S1 & S2). destruct S' as (s2' & S1' & S2'). cbn [forallb] in P, P'. apply andb_prop in P as [P1 P2]. apply andb_prop in P' as [P1' P2']. cbn [fst snd] in F1. f_equal; [|apply (IH l' s2 s2' s1 s1' m m' S2 S2' P2 P2' I1); [intros a b Ha Hb; apply I2; right; assumption|exact F2]].
  destruct F1 as [Fk Fc]. apply injective_projections; [|exact Fk]. destruct e as [| | | | | | | | |c d|]; try discriminate P1. destruct e' as [| | | | | | | | |c' d'|]; try discriminate P1'.
  destruct c as [z| | | | | | | | | |]; destruct c' as [z'| | | | | | | | | |]; try contradiction; try (apply I2; [left; reflexivity|left; reflexivity|exact (proj1 Fc)]).
  rewrite (read_const _ _ _ _ _ z d S1 eq_refl), (read_const _ _ _ _ _ z' d' S1' eq_refl), (I1 _ _ Fc). reflexivity.
Qed.
Theorem C53_faithful : forall f names a b m m' t, readable f names -> (forall z z', of_int f z = of_int f z' -> z = z') ->
  (forall p q, In p m -> In q m' -> of_num f (fst p) = of_num f (fst q) -> fst p = fst q) -> plain_object a -> plain_object b ->
  (forall l, cexpr a = Fn NAdd l -> (2 <= List.length l)%nat) -> (forall l, cexpr b = Fn NAdd l -> (2 <= List.length l)%nat) -> component_values a m -> component_values b m' ->
  (List.length names <= 64)%nat -> Forall (fun p => (snd p < 2 ^ N.of_nat (List.length names))%N) m -> Forall (fun p => (snd p < 2 ^ N.of_nat (List.length names))%N) m' ->
  write f names a = Some t -> write f names b = Some t -> m = m'.
Proof.
  intros f names a b m m' t Ok I1 I2 Pa Pb La Lb Va Vb L H H' Ea Eb. set (g := {| ev := fun _ _ => None; eb := fun _ _ => None |}).
  exact (same_values f g g _ _ _ _ _ _ _ _ (Va g) (Vb g) (proj1 Pa) (proj1 Pb) I1 I2 (C53_unambiguous f names a b m m' t Ok Pa Pb La Lb Va Vb L H H' Ea Eb)).
Qed.
Print Assumptions C53_faithful.

(** Decimal numbers are words; a format that prints integers in the decimal system, and 5/2 and -1 for
    stored numbers. *)
Definition decimal (z : Z) : string := NilZero.string_of_int (Z.to_int z).
Lemma digits_free d : forallb (fun c => negb (mark c)) (list_ascii_of_string (NilEmpty.string_of_uint d)) = true.
Proof. induction d; [reflexivity| | | | | | | | | |]; cbn [NilEmpty.string_of_uint list_ascii_of_string forallb]; rewrite IHd; reflexivity. Qed.
Lemma digits_word d : word (NilZero.string_of_uint d) = true.
Proof. destruct d; try reflexivity; cbn [NilZero.string_of_uint NilEmpty.string_of_uint word list_ascii_of_string forallb]; rewrite digits_free; reflexivity. Qed.
Lemma decimal_word z : word (decimal z) = true.
Proof.
  unfold decimal. destruct (Z.to_int z) as [d|d]; [apply digits_word|]. cbn [NilZero.string_of_int]. pose proof (digits_word d) as W. destruct (NilZero.string_of_uint d) as [|c s]; [discriminate W|]. cbn [word list_ascii_of_string forallb] in *. rewrite W. reflexivity.
Qed.
Definition plain_format : format := {| of_int := decimal; of_num := fun v => if Rle_dec 0 v then "2.5" else "-1" |}.
Definition three : list string := ["e1"; "e2"; "e3"].
Example C53_readable : readable plain_format three.
Proof.
  split; [exact decimal_word|]. split; [intros v; cbn [of_num plain_format]; destruct Rle_dec; reflexivity|]. split; [repeat constructor; discriminate|].
  repeat constructor; cbn [In]; intuition discriminate.
Qed.
(** 5/2 - e1^e3 + 7 E, where E is a stored blade. *)
Definition sample (b : N) : cliff := {| cexpr := Fn NAdd [Comp SV (CBlade 0); Comp SV (CBlade 5); Comp (CV 7) (DBlade 4 SBits)]; cint := false; cvals := [(5 / 2)%R; (-1)%R]; cbits := [b] |}.
Example C53_case : plain_object (sample 3) /\ component_values (sample 3) [((5 / 2)%R, 0%N); ((-1)%R, 5%N); (7%R, 3%N)] /\
  write plain_format three (sample 3) = Some "2.5 * <1> + (-1) * <e1^e3> + <7> * e1^e2".
Proof.
  assert (V : component_values (sample 3) [((5 / 2)%R, 0%N); ((-1)%R, 5%N); (7%R, 3%N)]).
  { intros g. exists ([(-1)%R], [3%N]). split; [exists ([(-1)%R], [3%N]); split; [reflexivity|]; split; [split; reflexivity|intros _; exact I]|].
    exists ([], [3%N]). split; [exists ([], [3%N]); split; [reflexivity|]; split; [split; reflexivity|intros _; exact I]|].
    exists ([], []). split; [|reflexivity]. exists ([], [3%N]). split; [reflexivity|]. split; [split; reflexivity|]. intros _. reflexivity. }
  assert (P : plain_object (sample 3)) by (split; [reflexivity|discriminate]). split; [exact P|]. split; [exact V|].
  rewrite (C53_text plain_format three (sample 3) _ P ltac:(intros l E; injection E as <-; cbn; lia) V ltac:(cbn; lia) ltac:(repeat constructor)).
  unfold multivector_text. cbn [components sample cexpr List.combine map fst snd component_text]. unfold number_text. cbn [of_num of_int plain_format].
  destruct (Rle_dec 0 (5 / 2)) as [A|A]; [|lra]. destruct (Rle_dec 0 (-1)) as [B|B]; [lra|]. reflexivity.
Qed.
