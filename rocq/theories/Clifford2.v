(** More laws of the specified products: vectors, grades, sign changes, contractions, duality,
    the regressive product (specification side only). *)
From Coq Require Import NArith ZArith List Bool Reals Lra Lia Setoid Morphisms.
From Verif Require Import Bits SpecBits BitsBase BitsOnes BitsProofs Sem SpecMv SpecAlg MvBase GradeProofs SmartProofs Clifford.
Import ListNotations.
Local Open Scope R_scope.

(** ** Vectors *)
Theorem op_vector v : homog 1 v -> meq (bilinear op_blade v v) [].
Proof.
  intros H. pose proof (op_comm 1 1 v v H H) as E. change (N.odd (1 * 1)) with true in E. cbn match in E.
  intros k. specialize (E k). rewrite coef_sumf, coef_sumf, sumf_scale in E. rewrite coef_sumf. cbn [coef]. lra.
Qed.
Lemma grade_part_1 k c b : grade_part k [(c, b)] = if N.eqb (grade_of b) k then [(c, b)] else [].
Proof. unfold grade_part. cbn [filter snd]. reflexivity. Qed.
Lemma grade_gp_eq a b : grade_of (N.lxor a b) = 0%N -> (a < 2 ^ 64)%N -> (b < 2 ^ 64)%N -> a = b.
Proof. intros H Ha Hb. apply N.lxor_eq. apply grade_0; [apply lxor_lt; auto|exact H]. Qed.
Theorem gp_vectors q n u v : (n <= 64)%N -> in_space n u -> in_space n v -> homog 1 u -> homog 1 v ->
  meq (bilinear (gp_blade q) u v ++ bilinear (gp_blade q) v u) (scale 2 (bilinear (sp_blade q) u v)).
Proof.
  intros Hn Iu Iv Hu Hv. apply meq_sumf. intros h. rewrite sumf_app, sumf_scale, !sumf_bilinear, (sumf_exch v u), <- sumf_plus, <- sumf_mult.
  unfold homog, in_space in *. rewrite Forall_forall in Iu, Iv, Hu, Hv. pose proof (pow_le_mono n 64 Hn) as P.
  apply sumf_ext_in. intros [x i] Hi. specialize (Iu _ Hi). specialize (Hu _ Hi). cbn [snd] in *. rewrite <- sumf_plus, <- sumf_mult.
  apply sumf_ext_in. intros [y j] Hj. specialize (Iv _ Hj). specialize (Hv _ Hj). cbn [snd] in *.
  unfold sp_blade, gp_blade. rewrite grade_part_1, (N.lxor_comm j i), (N.land_comm j i).
  pose proof (sign_swap i j) as S. revert S. rewrite !grade_of_pop in *. generalize sign_of (squares q) (h (N.lxor i j)). intros s sq hh S. rewrite S. clear S.
  assert (P1 : pop i = 1%nat) by lia. assert (P2 : pop j = 1%nat) by lia. rewrite P1, P2.
  pose proof (pop_lxor i j) as X. pose proof (pop_land_l i j) as L.
  destruct (N.eqb_spec (N.of_nat (pop (N.lxor i j))) 0) as [E|E].
  - assert (pop (N.land i j) = 1%nat) by lia. rewrite H. change (Nat.odd (1 * 1 + 1)) with false. cbn match. cbn [sumf]. lra.
  - assert (pop (N.land i j) = 0%nat) by lia. rewrite H. change (Nat.odd (1 * 1 + 0)) with true. cbn match. cbn [sumf]. lra.
Qed.

(** ** Grades of products *)
Lemma homog_app k a b : homog k a -> homog k b -> homog k (a ++ b). Proof. intros; apply Forall_app; auto. Qed.
Lemma homog_scale k c a : homog k a -> homog k (scale c a).
Proof. intros H. apply Forall_map. exact H. Qed.
Lemma homog_bilinear (f : N -> N -> mv) r s t a b : (forall i j, grade_of i = r -> grade_of j = s -> homog t (f i j)) -> homog r a -> homog s b -> homog t (bilinear f a b).
Proof.
  intros H Ha Hb. unfold bilinear, linear, homog in *. rewrite Forall_forall in *. intros p Hp. apply in_flat_map in Hp as ([x i] & Hi & Hp).
  unfold scale in Hp. cbn [fst snd] in Hp. apply in_map_iff in Hp as (p' & <- & Hp'). apply in_flat_map in Hp' as ([y j] & Hj & Hp'). cbn [fst snd] in *.
  apply in_map_iff in Hp' as (p'' & <- & Hp''). cbn [snd]. specialize (H i j (Ha _ Hi) (Hb _ Hj)). rewrite Forall_forall in H. exact (H _ Hp'').
Qed.
Theorem op_grades_add r s a b : homog r a -> homog s b -> homog (r + s) (bilinear op_blade a b).
Proof.
  apply homog_bilinear. intros i j Hi Hj. unfold op_blade. destruct (N.eqb_spec (N.land i j) 0) as [E|]; [|constructor].
  constructor; [|constructor]. cbn [snd]. pose proof (grade_lor i j) as G. rewrite E, grade_of_0 in G. lia.
Qed.
Lemma grade_part_app k a b : grade_part k (a ++ b) = grade_part k a ++ grade_part k b.
Proof. apply filter_app. Qed.
Lemma grade_part_scale k c a : grade_part k (scale c a) = scale c (grade_part k a).
Proof.
  unfold grade_part, scale. induction a as [|[x i] a IH]; [reflexivity|]. cbn [map filter fst snd]. rewrite IH. destruct (N.eqb (grade_of i) k); reflexivity.
Qed.
Lemma grade_part_linear k f a : grade_part k (linear f a) = linear (fun i => grade_part k (f i)) a.
Proof.
  unfold linear. induction a as [|[x i] a IH]; [reflexivity|]. cbn [flat_map]. rewrite grade_part_app, grade_part_scale, IH. reflexivity.
Qed.
Lemma sumf_grade_part k a h : sumf (grade_part k a) h = sumf a (fun b => if N.eqb (grade_of b) k then h b else 0).
Proof.
  unfold grade_part. induction a as [|[x i] a IH]; [reflexivity|]. cbn [filter snd sumf]. destruct (N.eqb (grade_of i) k); cbn [sumf]; rewrite IH; lra.
Qed.
Global Instance grade_part_meq : Proper (eq ==> meq ==> meq) grade_part.
Proof. intros k k' <- a a' E. apply meq_sumf. intros h. rewrite !sumf_grade_part. apply sumf_meq, E. Qed.
Lemma grade_part_bilinear k f a b : meq (grade_part k (bilinear f a b)) (bilinear (fun i j => grade_part k (f i j)) a b).
Proof.
  apply meq_sumf. intros h. rewrite sumf_grade_part, !sumf_bilinear. apply sumf_ext. intros i. apply sumf_ext. intros j. rewrite sumf_grade_part. reflexivity.
Qed.
(** A product of homogeneous arguments whose blade product is a grade part of the geometric product. *)
Lemma homog_part q (f : N -> N -> mv) t r s a b : (forall i j, grade_of i = r -> grade_of j = s -> f i j = grade_part t (gp_blade q i j)) ->
  homog r a -> homog s b -> meq (bilinear f a b) (grade_part t (bilinear (gp_blade q) a b)).
Proof.
  intros H Ha Hb. rewrite grade_part_bilinear. apply bilinear_ext_in. intros p p' Hp Hp'. unfold homog in *. rewrite Forall_forall in Ha, Hb.
  rewrite H; [reflexivity|exact (Ha _ Hp)|exact (Hb _ Hp')].
Qed.
Theorem lcont_part q r s a b : (r <= s)%N -> homog r a -> homog s b -> meq (bilinear (lcont_blade q) a b) (grade_part (s - r) (bilinear (gp_blade q) a b)).
Proof. intros L. apply homog_part. intros i j <- <-. unfold lcont_blade. destruct (N.leb_spec (grade_of i) (grade_of j)); [reflexivity|lia]. Qed.
Theorem lcont_none q r s a b : (s < r)%N -> homog r a -> homog s b -> meq (bilinear (lcont_blade q) a b) [].
Proof.
  intros L Ha Hb. apply meq_sumf. intros h. rewrite sumf_bilinear. cbn [sumf]. rewrite <- (sumf_0 a). unfold homog in *. rewrite Forall_forall in Ha, Hb.
  apply sumf_ext_in. intros p Hp. rewrite <- (sumf_0 b). apply sumf_ext_in. intros p' Hp'. unfold lcont_blade. rewrite (Ha _ Hp), (Hb _ Hp').
  destruct (N.leb_spec r s); [lia|reflexivity].
Qed.
Theorem rcont_part q r s a b : (s <= r)%N -> homog r a -> homog s b -> meq (bilinear (rcont_blade q) a b) (grade_part (r - s) (bilinear (gp_blade q) a b)).
Proof. intros L. apply homog_part. intros i j <- <-. unfold rcont_blade. destruct (N.leb_spec (grade_of j) (grade_of i)); [reflexivity|lia]. Qed.
Theorem rcont_none q r s a b : (r < s)%N -> homog r a -> homog s b -> meq (bilinear (rcont_blade q) a b) [].
Proof.
  intros L Ha Hb. apply meq_sumf. intros h. rewrite sumf_bilinear. cbn [sumf]. rewrite <- (sumf_0 a). unfold homog in *. rewrite Forall_forall in Ha, Hb.
  apply sumf_ext_in. intros p Hp. rewrite <- (sumf_0 b). apply sumf_ext_in. intros p' Hp'. unfold rcont_blade. rewrite (Ha _ Hp), (Hb _ Hp').
  destruct (N.leb_spec s r); [lia|reflexivity].
Qed.
Theorem sp_part q a b : meq (bilinear (sp_blade q) a b) (grade_part 0 (bilinear (gp_blade q) a b)).
Proof. symmetry. apply grade_part_bilinear. Qed.
Theorem dot_part q r s a b : homog r a -> homog s b -> meq (bilinear (dot_blade q) a b) (grade_part (absdiff r s) (bilinear (gp_blade q) a b)).
Proof. apply homog_part. intros i j <- <-. reflexivity. Qed.
Theorem hip_part q r s a b : r <> 0%N -> s <> 0%N -> homog r a -> homog s b -> meq (bilinear (hip_blade q) a b) (grade_part (absdiff r s) (bilinear (gp_blade q) a b)).
Proof. intros Hr Hs. apply homog_part. intros i j <- <-. unfold hip_blade. apply N.eqb_neq in Hr, Hs. rewrite Hr, Hs. reflexivity. Qed.
Theorem hip_none q r s a b : r = 0%N \/ s = 0%N -> homog r a -> homog s b -> meq (bilinear (hip_blade q) a b) [].
Proof.
  intros D Ha Hb. apply meq_sumf. intros h. rewrite sumf_bilinear. cbn [sumf]. rewrite <- (sumf_0 a). unfold homog in *. rewrite Forall_forall in Ha, Hb.
  apply sumf_ext_in. intros p Hp. rewrite <- (sumf_0 b). apply sumf_ext_in. intros p' Hp'. unfold hip_blade. rewrite (Ha _ Hp), (Hb _ Hp').
  destruct D as [-> | ->]; [reflexivity|]. rewrite orb_true_r. reflexivity.
Qed.

(** ** Sign changes *)
Fixpoint tri (k : nat) : nat := match k with O => 0 | S m => tri m + m end.
Lemma tri_2 k : (2 * tri k = k * (k - 1))%nat.
Proof.
  induction k as [|k IH]; [reflexivity|]. cbn [tri]. rewrite Nat.mul_add_distr_l, IH. replace (S k - 1)%nat with k by lia. destruct k; [reflexivity|].
  replace (S k - 1)%nat with k by lia. nia.
Qed.
Lemma tri_N k : (N.of_nat k * (N.of_nat k - 1) / 2 = N.of_nat (tri k))%N.
Proof.
  pose proof (tri_2 k). replace (N.of_nat k * (N.of_nat k - 1))%N with (N.of_nat (tri k) * 2)%N; [|change 1%N with (N.of_nat 1); change 2%N with (N.of_nat 2); rewrite <- Nat2N.inj_sub, <- !Nat2N.inj_mul; f_equal; lia]. apply N.div_mul. discriminate.
Qed.
Lemma tri_N1 k : (N.of_nat k * (N.of_nat k + 1) / 2 = N.of_nat (tri k + k))%N.
Proof.
  pose proof (tri_2 (S k)) as H. cbn [tri] in H. replace (S k - 1)%nat with k in H by lia. replace (N.of_nat k * (N.of_nat k + 1))%N with (N.of_nat (tri k + k) * 2)%N; [|change 1%N with (N.of_nat 1); change 2%N with (N.of_nat 2); rewrite <- Nat2N.inj_add, <- !Nat2N.inj_mul; f_equal; nia]. apply N.div_mul. discriminate.
Qed.
Lemma tri_add a b : tri (a + b) = (tri a + tri b + a * b)%nat.
Proof. induction a; cbn [Nat.add tri]; [lia|]. rewrite IHa. lia. Qed.
Lemma tri_lxor x a b c : (x + 2 * c = a + b)%nat -> Nat.odd (tri x) = xorb (xorb (Nat.odd (tri a)) (Nat.odd (tri b))) (Nat.odd (a * b + c)).
Proof.
  intros E. assert (H : Nat.odd (tri (a + b)) = xorb (Nat.odd (tri x)) (Nat.odd c)).
  { rewrite <- E, tri_add. replace (2 * c)%nat with (c + c)%nat by lia. rewrite tri_add.
    replace (tri x + (tri c + tri c + c * c) + x * (c + c))%nat with (tri x + c * c + 2 * (tri c + x * c))%nat by lia.
    rewrite Nat.odd_add_mul_2, odd_add, Nat.odd_mul. destruct (Nat.odd c); reflexivity. }
  rewrite tri_add, !odd_add in H. rewrite odd_add. destruct (Nat.odd (tri x)), (Nat.odd (tri a)), (Nat.odd (tri b)), (Nat.odd (a * b)), (Nat.odd c); try reflexivity; discriminate H.
Qed.
Definition sg (b : bool) : R := if b then -1 else 1.
Lemma sg_xor a b : sg (xorb a b) = sg a * sg b. Proof. destruct a, b; cbn; lra. Qed.
Lemma sg_sq a : sg a * sg a = 1. Proof. destruct a; cbn; lra. Qed.
Lemma rev_sg a : rev_blade a = [(sg (Nat.odd (tri (pop a))), a)].
Proof. unfold rev_blade. rewrite grade_of_pop, tri_N, odd_of_nat. reflexivity. Qed.
Lemma inv_sg a : inv_blade a = [(sg (Nat.odd (pop a)), a)].
Proof. unfold inv_blade. rewrite grade_of_pop, odd_of_nat. reflexivity. Qed.
Lemma conj_sg a : conj_blade a = [(sg (Nat.odd (tri (pop a) + pop a)), a)].
Proof. unfold conj_blade. rewrite grade_of_pop, tri_N1, odd_of_nat. reflexivity. Qed.
Lemma sumf_rev a h : sumf (linear rev_blade a) h = sumf a (fun i => sg (Nat.odd (tri (pop i))) * h i).
Proof. rewrite sumf_linear. apply sumf_ext. intros i. rewrite rev_sg. apply sumf1. Qed.
Lemma sumf_inv a h : sumf (linear inv_blade a) h = sumf a (fun i => sg (Nat.odd (pop i)) * h i).
Proof. rewrite sumf_linear. apply sumf_ext. intros i. rewrite inv_sg. apply sumf1. Qed.
Lemma sumf_conj a h : sumf (linear conj_blade a) h = sumf a (fun i => sg (Nat.odd (tri (pop i) + pop i)) * h i).
Proof. rewrite sumf_linear. apply sumf_ext. intros i. rewrite conj_sg. apply sumf1. Qed.
Theorem rev_rev a : meq (linear rev_blade (linear rev_blade a)) a.
Proof. apply meq_sumf. intros h. rewrite !sumf_rev. apply sumf_ext. intros i. rewrite <- Rmult_assoc, sg_sq. lra. Qed.
Theorem inv_inv a : meq (linear inv_blade (linear inv_blade a)) a.
Proof. apply meq_sumf. intros h. rewrite !sumf_inv. apply sumf_ext. intros i. rewrite <- Rmult_assoc, sg_sq. lra. Qed.
Theorem conj_conj a : meq (linear conj_blade (linear conj_blade a)) a.
Proof. apply meq_sumf. intros h. rewrite !sumf_conj. apply sumf_ext. intros i. rewrite <- Rmult_assoc, sg_sq. lra. Qed.
Theorem conj_rev_inv a : meq (linear conj_blade a) (linear rev_blade (linear inv_blade a)).
Proof.
  apply meq_sumf. intros h. rewrite sumf_conj, sumf_rev, sumf_inv. apply sumf_ext. intros i. rewrite odd_add, sg_xor. ring.
Qed.
Lemma rev_sign i j : sg (Nat.odd (tri (pop (N.lxor i j)))) * sign_of j i = sg (Nat.odd (tri (pop i))) * sg (Nat.odd (tri (pop j))) * sign_of i j.
Proof.
  pose proof (tri_lxor _ _ _ _ (pop_lxor i j)) as T. pose proof (sign_swap i j) as S.
  revert T S. generalize (pop (N.lxor i j)) (pop (N.land i j)) (pop i) (pop j) (sign_of i j) (sign_of j i). intros x c a b s t T S.
  rewrite S, T, !sg_xor. fold (sg (Nat.odd (a * b + c))). pose proof (sg_sq (Nat.odd (a * b + c))) as Q.
  transitivity (sg (Nat.odd (tri a)) * sg (Nat.odd (tri b)) * s * (sg (Nat.odd (a * b + c)) * sg (Nat.odd (a * b + c)))); [ring|]. rewrite Q. ring.
Qed.
Lemma bilinear_rev (f : N -> N -> mv) a b :
  (forall i j h, sumf (f j i) (fun k => sg (Nat.odd (tri (pop k))) * h k) = sg (Nat.odd (tri (pop i))) * (sg (Nat.odd (tri (pop j))) * sumf (f i j) h)) ->
  meq (linear rev_blade (bilinear f a b)) (bilinear f (linear rev_blade b) (linear rev_blade a)).
Proof.
  intros H. apply meq_sumf. intros h. rewrite sumf_rev, !sumf_bilinear, sumf_rev, sumf_exch. apply sumf_ext. intros i.
  rewrite sumf_rev, <- sumf_mult. apply sumf_ext. intros j. apply H.
Qed.
Theorem rev_gp q a b : meq (linear rev_blade (bilinear (gp_blade q) a b)) (bilinear (gp_blade q) (linear rev_blade b) (linear rev_blade a)).
Proof.
  apply bilinear_rev. intros i j h. unfold gp_blade. rewrite !sumf1. pose proof (rev_sign i j) as E. rewrite (N.lxor_comm j i), (N.land_comm j i).
  revert E. generalize (sg (Nat.odd (tri (pop (N.lxor i j))))) (sg (Nat.odd (tri (pop i)))) (sg (Nat.odd (tri (pop j)))) (sign_of i j) (sign_of j i) (squares q (N.land i j)) (h (N.lxor i j)).
  intros x y z s t u v E. transitivity ((x * t) * u * v); [ring|]. rewrite E. ring.
Qed.
Lemma inv_sign i j : sg (Nat.odd (pop (N.lxor i j))) = sg (Nat.odd (pop i)) * sg (Nat.odd (pop j)).
Proof.
  pose proof (pop_lxor i j) as E. revert E. generalize (pop (N.lxor i j)) (pop (N.land i j)) (pop i) (pop j). intros x c a b E.
  rewrite <- sg_xor, <- odd_add, <- E, Nat.odd_add_mul_2. reflexivity.
Qed.
Theorem inv_gp q a b : meq (linear inv_blade (bilinear (gp_blade q) a b)) (bilinear (gp_blade q) (linear inv_blade a) (linear inv_blade b)).
Proof.
  apply meq_sumf. intros h. rewrite sumf_inv, !sumf_bilinear, sumf_inv. apply sumf_ext. intros i. rewrite sumf_inv, <- sumf_mult. apply sumf_ext. intros j. unfold gp_blade. rewrite !sumf1.
  pose proof (inv_sign i j) as E. revert E. generalize (sg (Nat.odd (pop (N.lxor i j)))) (sign_of i j) (squares q (N.land i j)) (h (N.lxor i j)) (sg (Nat.odd (pop i))) (sg (Nat.odd (pop j))).
  intros x s u v y z E. rewrite E. ring.
Qed.
Theorem conj_gp q a b : meq (linear conj_blade (bilinear (gp_blade q) a b)) (bilinear (gp_blade q) (linear conj_blade b) (linear conj_blade a)).
Proof.
  rewrite conj_rev_inv. rewrite (linear_meq rev_blade rev_blade _ _ (fun _ => reflexivity _) (inv_gp q a b)), rev_gp, !conj_rev_inv. reflexivity.
Qed.
Theorem rev_op a b : meq (linear rev_blade (bilinear op_blade a b)) (bilinear op_blade (linear rev_blade b) (linear rev_blade a)).
Proof.
  apply bilinear_rev. intros i j h. unfold op_blade. rewrite (N.land_comm j i). pose proof (rev_sign i j) as R. destruct (N.eqb_spec (N.land i j) 0) as [E|]; [|cbn [sumf]; lra].
  rewrite (N.lor_comm j i), (lor_lxor i j E), !sumf1.
  revert R. generalize (sg (Nat.odd (tri (pop (N.lxor i j))))) (sg (Nat.odd (tri (pop i)))) (sg (Nat.odd (tri (pop j)))) (sign_of i j) (sign_of j i) (h (N.lxor i j)).
  intros x y z s t v R. transitivity ((x * t) * v); [ring|]. rewrite R. ring.
Qed.
