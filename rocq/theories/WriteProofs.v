(** The text of a multivector, and what can be read from it. *)
From Coq Require Import NArith ZArith List Bool Reals String Ascii Lia Lra.
From Verif Require Import Bits Expr SpecBits Sem Wf SpecMv EvalC SpecEval Lazy SpecLazy Api SpecApi SpecUtil SpecCopy Write SpecWrite BitsBase BitsOnes BitsProofs VisitProofs.
Import ListNotations.
Local Open Scope string_scope.

(** ** Blades *)
Lemma first_index x : (x < 2 ^ 64)%N -> x <> 0%N -> exists i, rightmost_set_bit x = (2 ^ i)%N /\ set_bit_index (2 ^ i) = i /\ (i < 64)%N /\ indices x = i :: indices (N.lxor x (2 ^ i)) /\ (N.lxor x (2 ^ i) < x)%N.
Proof.
  intros Hx Hne. destruct (rightmost_set_bit_correct x) as [i [E [T L]]]; try lia.
  assert (Hi : (N.to_nat i < 64)%nat) by (destruct (N.lt_ge_cases i 64); [lia|]; rewrite (testbit_high x 64) in T by auto; discriminate).
  exists i. split; [exact E|]. split; [apply set_bit_index_correct; lia|]. split; [lia|]. rewrite !idx_all.
  assert (D : idx_from x 0 64 = i :: idx_from x (1 + N.to_nat i) (63 - N.to_nat i)).
  { replace 64%nat with (N.to_nat i + (1 + (63 - N.to_nat i)))%nat by lia. rewrite idx_from_skip by (intros j Hj; apply L; lia). unfold idx_from at 1. cbn [Nat.add seq map filter]. rewrite N2Nat.id, T. do 2 f_equal; f_equal; lia. }
  assert (D' : idx_from (N.lxor x (2 ^ i)) 0 64 = idx_from x (1 + N.to_nat i) (63 - N.to_nat i)).
  { replace 64%nat with ((1 + N.to_nat i) + (63 - N.to_nat i))%nat at 1 by lia. rewrite idx_from_skip.
    - rewrite Nat.add_0_l. apply idx_from_ext. intros j Hj. rewrite N.lxor_spec, N.pow2_bits_false by lia. apply xorb_false_r.
    - intros j Hj. rewrite N.lxor_spec. destruct (N.eq_dec (N.of_nat j) i) as [->|Hn].
      + rewrite T, N.pow2_bits_true. reflexivity.
      + rewrite N.pow2_bits_false by auto. rewrite L by lia. reflexivity. }
  split; [rewrite D, D'; reflexivity|].
  assert (Q : N.lxor x (2 ^ i) = N.ldiff x (2 ^ i)).
  { apply N.bits_inj. intros j. rewrite N.lxor_spec, N.ldiff_spec. destruct (N.eq_dec j i) as [->|Hn]; [rewrite T, N.pow2_bits_true; reflexivity|rewrite N.pow2_bits_false by auto; destruct (N.testbit x j); reflexivity]. }
  rewrite Q. pose proof (N.sub_nocarry_ldiff x (2 ^ i)) as S. rewrite <- S; [assert (2 ^ i <> 0)%N by (apply N.pow_nonzero; lia)|].
  - assert (2 ^ i <= x)%N; [|lia]. destruct (N.le_gt_cases (2 ^ i) x) as [G|G]; [exact G|]. rewrite (testbit_high x i i) in T by (auto; lia). discriminate T.
  - apply N.bits_inj. intros j. rewrite N.ldiff_spec, N.bits_0. destruct (N.eq_dec j i) as [->|Hn]; [rewrite T, N.pow2_bits_true; reflexivity|rewrite N.pow2_bits_false by auto; reflexivity].
Qed.
Lemma indices_0 : indices 0 = []. Proof. vm_compute. reflexivity. Qed.
Local Opaque indices.
Lemma empty_append s : "" ++ s = s. Proof. reflexivity. Qed.
Lemma append_nil s : s ++ "" = s. Proof. induction s as [|c s IH]; [reflexivity|]. cbn. rewrite IH. reflexivity. Qed.
Lemma append_assoc (a b c : string) : (a ++ b) ++ c = a ++ b ++ c. Proof. induction a as [|x a IH]; [reflexivity|]. cbn. rewrite IH. reflexivity. Qed.
Lemma concat_cons s l : String.concat "" (s :: l) = s ++ String.concat "" l.
Proof. destruct l; [cbn; rewrite append_nil; reflexivity|reflexivity]. Qed.
Lemma concat_caret s l : String.concat "^" (s :: l) = s ++ String.concat "" (map (fun t => "^" ++ t) l).
Proof.
  revert s. induction l as [|t l IH]; intros s; [cbn; rewrite append_nil; reflexivity|]. change (String.concat "^" (s :: t :: l)) with (s ++ "^" ++ String.concat "^" (t :: l)). rewrite IH. cbn [map]. rewrite concat_cons. cbn [append]. reflexivity.
Qed.
Section Names.
Variables (f : format) (names : list string).
Definition named (x : N) : Prop := Forall (fun i => (N.to_nat i < List.length names)%nat) (indices x).
Lemma vectors_tail arg : forall x, (x < arg)%N -> (x < 2 ^ 64)%N -> named x -> forall fuel, (List.length (indices x) < fuel)%nat ->
  write_vectors names fuel arg x = Some (String.concat "" (map (fun i => "^" ++ nth (N.to_nat i) names "") (indices x))).
Proof.
  intros x. induction x as [x IH] using (well_founded_induction N.lt_wf_0). intros A X H fuel Hf. destruct fuel as [|fuel]; [lia|]. cbn [write_vectors].
  destruct (N.eqb_spec x 0) as [->|Nz]; [rewrite indices_0; reflexivity|]. destruct (first_index x X Nz) as (i & E & B & I & D & L). rewrite E.
  unfold named in H. rewrite D in H. inversion H as [|? ? H1 H2]; subst. unfold set_bit_index in B. rewrite B, (nth_error_nth' names "" H1). rewrite D in Hf. cbn [List.length] in Hf.
  rewrite (IH _ L ltac:(lia) ltac:(lia) H2 fuel ltac:(lia)). replace (x =? arg)%N with false by (symmetry; apply N.eqb_neq; lia). rewrite D. cbn [map].
  cbv iota. rewrite concat_cons, append_assoc. reflexivity.
Qed.
Lemma vectors_head x fuel : (x < 2 ^ 64)%N -> x <> 0%N -> named x -> (List.length (indices x) <= fuel)%nat -> write_vectors names (S fuel) x x = Some (String.concat "^" (map (fun i => nth (N.to_nat i) names "") (indices x))).
Proof.
  intros X Nz H LX. destruct (first_index x X Nz) as (i & E & B & I & D & L). cbn [write_vectors]. rewrite (proj2 (N.eqb_neq x 0) Nz), E.
  unfold named in H. rewrite D in *. inversion H as [|? ? H1 H2]; subst. unfold set_bit_index in B. rewrite B, (nth_error_nth' names "" H1). cbn [List.length] in LX.
  rewrite (vectors_tail x _ L ltac:(lia) H2 fuel ltac:(lia)), N.eqb_refl. cbn [map]. rewrite concat_caret, map_map. cbv iota. rewrite empty_append. reflexivity.
Qed.
Lemma blade_ok x : (x < 2 ^ 64)%N -> named x -> write_basis_blade names x = Some (blade_text names x).
Proof.
  intros X H. unfold write_basis_blade, blade_text. destruct (N.eqb_spec x 0) as [->|Nz]; [rewrite indices_0; reflexivity|].
  assert (LX : (List.length (indices x) <= 64)%nat) by (rewrite idx_all; apply idx_len). rewrite (vectors_head x 64 X Nz H LX). destruct (first_index x X Nz) as (i & _ & _ & _ & D & _). rewrite D. reflexivity.
Qed.

(** ** Components *)
Lemma component_ok g e s p s' : plain_comp e = true -> scomp g e s p s' -> (snd p < 2 ^ 64)%N -> named (snd p) -> write_expression f names e s = Some (component_text f names e p, s').
Proof.
  intros P S X H. pose proof (blade_ok (snd p) X H) as B. destruct p as [v k]. cbn [fst snd] in *. destruct e as [| | | | | | | | |c b|]; try discriminate P. destruct S as (s1 & R & S & _). cbn [fst snd] in *.
  assert (C : exists t, write_expression f names c s = Some (t, s1) /\ is_fn NAdd c = false /\ t = match c with CV z => "<" ++ of_int f z ++ ">" | _ => number_text f v end).
  { destruct b as [| | | | | | |b|pg b| |]; try discriminate P; [|destruct b; try discriminate P]; (destruct c; try discriminate P; cbn [sread sem] in R; [injection R as _ <-; eexists; split; [reflexivity|split; reflexivity]|]; destruct s as [[|w ws] bs]; cbn [fst snd] in R; [discriminate R|]; injection R as <- <-; eexists; split; [reflexivity|split; reflexivity]). }
  destruct C as (t & C & N & ->). cbn [write_expression component_text fst snd]. rewrite N, C. cbn [with_text].
  destruct b as [| | | | | | |b|pg b| |]; try discriminate P; [|destruct b; try discriminate P].
  - destruct S as [-> ->]. cbn [write_expression]. rewrite B. cbn [text_then]. rewrite append_assoc. reflexivity.
  - destruct S as [S _]. cbn [sread] in S. destruct s1 as [vs [|w ws]]; cbn [fst snd] in S; [discriminate S|]. injection S as -> <-. cbn [write_expression snd fst]. rewrite B. cbn [text_then]. rewrite append_assoc. reflexivity.
Qed.
Lemma sum_ok g l : forall s m s', (2 <= List.length l)%nat -> forallb plain_comp l = true -> scomps g l s m s' -> Forall (fun p => (snd p < 2 ^ 64)%N /\ named (snd p)) m ->
  write_expression f names (Fn NAdd l) s = Some (String.concat " + " (map (fun q => component_text f names (fst q) (snd q)) (List.combine l m)), s').
Proof.
  induction l as [|x l IH]; intros s m s' L P S H; [cbn [List.length] in L; lia|]. cbn [forallb] in P. apply andb_prop in P as [P1 P2]. destruct m as [|p m]; [contradiction|]. destruct S as (s1 & S1 & S2). inversion H as [|? ? [X1 X2] H2]; subst.
  pose proof (component_ok g x s p s1 P1 S1 X1 X2) as C. cbn [write_expression]. destruct l as [|y [|z l]]; [cbn [List.length] in L; lia| |].
  - destruct m as [|q m]; [contradiction|]. destruct S2 as (s2 & S2 & S3). destruct m; [|contradiction]. cbn in S3. subst s2. inversion H2 as [|? ? [Y1 Y2] _]; subst. cbn [forallb] in P2. rewrite andb_true_r in P2.
    rewrite C. cbn [with_text]. rewrite (component_ok g y s1 q s' P2 S2 Y1 Y2). cbn [text_then List.combine map fst snd String.concat]. rewrite append_assoc. reflexivity.
  - rewrite C. cbn [with_text]. specialize (IH s1 m s' ltac:(cbn [List.length]; lia) P2 S2 H2). cbn [write_expression] in IH. cbn [write_expression]. rewrite IH. cbn [text_then].
    destruct m as [|q m]; [contradiction|]. cbn [List.combine map]. cbn [fst snd]. set (T := component_text f names x p). rewrite append_assoc. reflexivity.
Qed.
Theorem write_ok a m : plain_object a -> component_values a m -> (forall l, cexpr a = Fn NAdd l -> (2 <= List.length l)%nat) -> Forall (fun p => (snd p < 2 ^ 64)%N /\ named (snd p)) m ->
  write f names a = Some (multivector_text f names a m).
Proof.
  intros [P _] V L H. specialize (V {| ev := fun _ _ => None; eb := fun _ _ => None |}). unfold write, multivector_text. destruct (cexpr a) as [| | | | | | | | |c b|g l] eqn:E; try discriminate P.
  - cbn [components] in *. destruct m as [|p [|q m]]; [contradiction| |destruct V as (s1 & _ & V); contradiction]. destruct V as (s1 & V & Q). cbn in Q. subst s1. inversion H as [|? ? [X1 X2] _]; subst. cbn [forallb] in P. rewrite andb_true_r in P.
    rewrite (component_ok _ _ _ _ _ P V X1 X2). reflexivity.
  - destruct g; try discriminate P. cbn [components] in *. rewrite (sum_ok _ l _ _ _ (L l eq_refl) P V H). reflexivity.
Qed.
End Names.
