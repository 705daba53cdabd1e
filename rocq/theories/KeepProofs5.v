(** The parts of all grades add up to the multivector. *)
From Coq Require Import NArith ZArith List Bool Lia Reals Lra.
From Verif Require Import Bits SpecBits BitsBase BitsProofs Expr Sem Wf SpecMv SpecAlg MvBase SpecOrder OrderProofs GradeProofs EvalC SpecEval Lazy SpecLazy CanonProofs Api SpecApi ApiProofs Clifford5 KeepProofs KeepProofs2 Grade GumProofs AlgProofs.
Import ListNotations.
Local Open Scope R_scope.

Definition grades (dim : N) : list N := map N.of_nat (seq 0 (N.to_nat dim + 1)).
Lemma coef_concat ks m b : NoDup ks -> coef (concat (map (fun k => grade_part k m) ks)) b = if existsb (N.eqb (grade_of b)) ks then coef m b else 0.
Proof.
  induction 1 as [|k ks H ND IH]; [reflexivity|]. cbn [map concat existsb]. rewrite coef_app, IH, coef_grade_part. destruct (N.eqb_spec (grade_of b) k) as [<-|]; cbn [orb]; [|ring].
  replace (existsb (N.eqb (grade_of b)) ks) with false; [ring|]. symmetry. apply not_true_is_false. intros Q. apply existsb_exists in Q as (x & I & Q). apply N.eqb_eq in Q. subst x. contradiction.
Qed.
Lemma scomps_blades g : forall M s m s', scomps g (map entry M) s m s' -> map snd m = map fst M.
Proof.
  induction M as [|[j c] M IH]; intros s [|p m] s' H; cbn [map scomps] in H; try contradiction; [reflexivity|]. destruct H as (s1 & H1 & H2). cbn [map fst]. rewrite (IH _ _ _ H2). f_equal.
  unfold entry in H1. cbn [fst snd scomp] in H1. destruct H1 as (s2 & _ & (Q & _) & _). exact Q.
Qed.
Lemma coef_out m b : ~ In b (map snd m) -> coef m b = 0.
Proof. induction m as [|p m IH]; [reflexivity|]. intros H. cbn [map In] in H. destruct p as [v j]. cbn [snd] in H. cbn [coef]. rewrite IH by tauto. destruct (N.eqb_spec j b) as [Q|Q]; [tauto|ring]. Qed.
Lemma value_out K n a m b : object K n a -> value a m -> (2 ^ n <= b)%N -> coef m b = 0.
Proof.
  intros (M & EM & C & WS & HM) V H. destruct (V {| ev := fun _ _ => None; eb := fun _ _ => None |}) as (m' & S & Q). rewrite <- (Q b). apply coef_out. rewrite EM in S. destruct M as [|p M].
  - cbn [mv_of components scomps] in S. destruct m' as [|q m']; [contradiction|]. destruct S as (s1 & (s2 & _ & (Qb & _) & _) & S). destruct m'; [|contradiction]. cbn [map In]. intros [E|[]]. rewrite Qb in E. pose proof (N.pow_nonzero 2 n). lia.
  - rewrite components_mv in S. rewrite (scomps_blades _ _ _ _ _ S). intros I. apply in_map_iff in I as (q & <- & I). rewrite Forall_forall in HM. destruct (HM q I) as [L _]. lia.
Qed.
Lemma parts_sum K n a m : (n <= 63)%N -> object K n a -> value a m -> meq (concat (map (fun k => grade_part k m) (grades n))) m.
Proof.
  intros Hn O V b. rewrite coef_concat; [|unfold grades; apply FinFun.Injective_map_NoDup; [intros x y Q; lia|apply seq_NoDup]]. destruct (N.ltb_spec b (2 ^ n)) as [L|L].
  - replace (existsb (N.eqb (grade_of b)) (grades n)) with true; [reflexivity|]. symmetry. apply existsb_exists. exists (grade_of b). split; [|apply N.eqb_refl]. apply in_map_iff. exists (N.to_nat (grade_of b)). split; [lia|].
    pose proof (grade_le b n ltac:(lia) L). apply in_seq. lia.
  - rewrite (value_out K n a m b O V L). destruct (existsb _ _); reflexivity.
Qed.
