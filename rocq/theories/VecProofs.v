(** Proofs: products of vectors in the algebra of a bilinear form. *)
From Coq Require Import NArith ZArith List Bool Reals Lra Lia.
From Verif Require Import Bits BitsBase SpecBits BitsProofs Expr Sem SpecMv SpecAlg MvBase GradeProofs Clifford Clifford2 SpecGeneral Wick Wick2 SpecUtil AlgProofs SpecSpaces GenMul BuildProofs.
Import ListNotations.
Local Open Scope R_scope.
Local Opaque sign_of indices.

Lemma pow_in i n : (i < n)%N -> (2 ^ i < 2 ^ n)%N. Proof. intros H. apply N.pow_lt_mono_r; [reflexivity|exact H]. Qed.
Lemma coords_in n xs : forall i, (i + N.of_nat (length xs) <= n)%N -> in_space n (coordinates i xs).
Proof. induction xs as [|x xs IH]; intros i H; [constructor|]. cbn [length] in H. cbn [coordinates]. constructor; [cbn [snd]; apply pow_in; lia|]. apply IH. lia. Qed.
Lemma coords_homog xs : forall i, (i + N.of_nat (length xs) <= 64)%N -> homog 1 (coordinates i xs).
Proof. induction xs as [|x xs IH]; intros i H; [constructor|]. cbn [length] in H. cbn [coordinates]. constructor; [cbn [snd]; apply BuildProofs.grade_pow; lia|]. apply IH. lia. Qed.
Lemma row_sum A t n (H : N -> N -> R) i ys : (forall a b, (a < n)%N -> (b < n)%N -> H (2 ^ a)%N (2 ^ b)%N = A a b * t) -> (i < n)%N ->
  forall j, (j + N.of_nat (length ys) <= n)%N -> sumf (coordinates j ys) (H (2 ^ i)%N) = inner_row A i j ys * t.
Proof.
  intros K Hi. induction ys as [|y ys IH]; intros j L; cbn [coordinates sumf inner_row]; [ring|]. cbn [length] in L. rewrite (K i j Hi ltac:(lia)), (IH (j + 1)%N ltac:(lia)). ring.
Qed.
Lemma inner_sum A t n (H : N -> N -> R) ys : (forall a b, (a < n)%N -> (b < n)%N -> H (2 ^ a)%N (2 ^ b)%N = A a b * t) -> (N.of_nat (length ys) <= n)%N ->
  forall xs i, (i + N.of_nat (length xs) <= n)%N -> sumf (coordinates i xs) (fun p => sumf (coordinates 0 ys) (H p)) = inner_from A i xs ys * t.
Proof.
  intros K Ly. induction xs as [|x xs IH]; intros i L; cbn [coordinates sumf inner_from]; [ring|]. cbn [length] in L. rewrite (row_sum A t n H i ys K ltac:(lia) 0%N ltac:(lia)), (IH (i + 1)%N ltac:(lia)). ring.
Qed.

Section Vectors.
Variables (n : N) (A : N -> N -> R) (G : N -> N -> mv).
Hypothesis Hn : (n <= 64)%N.
Hypothesis HG : geometric n A G.
Lemma basis_gp a b h : (a < n)%N -> (b < n)%N -> sumf (G (2 ^ a) (2 ^ b)) h = sumf (op_blade (2 ^ a) (2 ^ b)) h + A a b * h 0%N.
Proof.
  intros Ha Hb. destruct HG as (_ & _ & V & _). pose proof (V a (2 ^ b)%N Ha (pow_in b n Hb)) as Q. apply meq_iff with (h := h) in Q. rewrite Q, sumf_app. f_equal. unfold contract. rewrite indices_pow2 by lia. cbn [map]. rewrite sumf1, N.lxor_nilpotent, sign_0_r. ring.
Qed.
Variables (xs ys : list R).
Hypothesis Lx : (N.of_nat (length xs) <= n)%N.
Hypothesis Ly : (N.of_nat (length ys) <= n)%N.
Notation u := (coordinates 0 xs).
Notation v := (coordinates 0 ys).
Lemma coords_pow zs p : forall i, (i + N.of_nat (length zs) <= n)%N -> In p (coordinates i zs) -> exists a, (a < n)%N /\ snd p = (2 ^ a)%N.
Proof. induction zs as [|z zs IH]; intros i L; cbn [coordinates]; intros []; cbn [length] in L; [subst p; exists i; split; [lia|reflexivity]|]. apply (IH (i + 1)%N); [lia|assumption]. Qed.
(** The product of two vectors. *)
Theorem vectors_gp : meq (bilinear G u v) (bilinear op_blade u v ++ [(inner A xs ys, 0%N)]).
Proof.
  apply meq_iff. intros h. rewrite sumf_app, !sumf_bilinear, sumf1. unfold inner.
  rewrite <- (inner_sum A (h 0%N) n (fun p r => sumf (G p r) h - sumf (op_blade p r) h) ys) by (try lia; intros a b Ha Hb; rewrite (basis_gp a b h Ha Hb); ring).
  rewrite <- sumf_plus. apply sumf_ext_in. intros p _. rewrite <- sumf_plus. apply sumf_ext_in. intros r _. ring.
Qed.
Lemma inner_log : inner A xs ys = sumf u (fun p => sumf v (fun r => A (N.log2 p) (N.log2 r))).
Proof. unfold inner. rewrite (inner_sum A 1 n (fun p r => A (N.log2 p) (N.log2 r)) ys); [ring| |lia|lia]. intros a b _ _. rewrite !N.log2_pow2 by apply N.le_0_l. ring. Qed.
(** The scalar product of two vectors. *)
Theorem vectors_sp : meq (bilinear (part_sp G) u v) [(inner A xs ys, 0%N)].
Proof.
  apply meq_iff. intros h. rewrite sumf1.
  assert (E : sumf (bilinear (part_sp G) u v) h = sumf (bilinear G u v) (fun b => if N.eqb (grade_of b) 0 then h b else 0)).
  { rewrite !sumf_bilinear. apply sumf_ext_in. intros p _. apply sumf_ext_in. intros r _. unfold part_sp. apply sumf_grade_part. }
  rewrite E, (sumf_meq _ _ _ vectors_gp), sumf_app, sumf1, sumf_bilinear.
  assert (Z : sumf u (fun i => sumf v (fun j => sumf (op_blade i j) (fun b => if N.eqb (grade_of b) 0 then h b else 0))) = 0).
  { transitivity (sumf u (fun _ => 0)); [|apply sumf_0]. apply sumf_ext_in. intros p Hp. transitivity (sumf v (fun _ => 0)); [|apply sumf_0]. apply sumf_ext_in. intros r Hr.
    destruct (coords_pow xs p 0%N ltac:(lia) Hp) as (a & La & ->). destruct (coords_pow ys r 0%N ltac:(lia) Hr) as (b & Lb & ->).
    rewrite sumf_op_one. destruct (N.eqb_spec (grade_of (N.lor (2 ^ a) (2 ^ b))) 0) as [Q|_]; [exfalso|ring]. apply grade_0 in Q.
    - apply N.lor_eq_0_iff in Q as [Q _]. exact (N.pow_nonzero 2 a ltac:(discriminate) Q).
    - assert (B : (N.lor (2 ^ a) (2 ^ b) < 2 ^ n)%N) by (apply BitsBase.lor_lt; apply pow_in; assumption). exact (pow2_64 n _ Hn B). }
  rewrite Z. replace (grade_of 0) with 0%N by (symmetry; exact grade_of_0). cbn [N.eqb]. ring.
Qed.
End Vectors.
Section Sum.
Variables (n : N) (A : N -> N -> R) (G : N -> N -> mv).
Hypothesis Hn : (n <= 64)%N.
Hypothesis HG : geometric n A G.
Variables (xs ys : list R).
Hypothesis Lx : (N.of_nat (length xs) <= n)%N.
Hypothesis Ly : (N.of_nat (length ys) <= n)%N.
Hypothesis S : forall i j, A i j = A j i.
Lemma inner_sym : inner A ys xs = inner A xs ys.
Proof. rewrite (inner_log n A Hn xs ys Lx Ly), (inner_log n A Hn ys xs Ly Lx), sumf_exch. apply sumf_ext. intros p. apply sumf_ext. intros r. apply S. Qed.
Theorem vectors_sum : meq (bilinear G (coordinates 0 xs) (coordinates 0 ys) ++ bilinear G (coordinates 0 ys) (coordinates 0 xs)) [(2 * inner A xs ys, 0%N)].
Proof.
  pose proof (vectors_gp n A G Hn HG xs ys Lx Ly) as Q1. pose proof (vectors_gp n A G Hn HG ys xs Ly Lx) as Q2. pose proof (op_comm 1 1 _ _ (coords_homog xs 0%N ltac:(lia)) (coords_homog ys 0%N ltac:(lia))) as Q3.
  intros k. rewrite coef_app, (Q1 k), (Q2 k), !coef_app, (Q3 k), inner_sym, coef_scale. change (N.odd (1 * 1)) with true. cbv iota. generalize (coef (bilinear op_blade (coordinates 0 xs) (coordinates 0 ys)) k). intros w. cbn [coef]. destruct (N.eqb 0 k); lra.
Qed.
End Sum.

(** ** Orthogonal bases: the product of SpecMv is the geometric product of the diagonal form. *)
Lemma diagonal_D q i h b : (i < 64)%N -> D (diagonal_form q) i h b = q i * P i h b.
Proof.
  intros Hi. unfold D. transitivity (lsum (fun j => (q i * P j h b) * (if N.eqb j i then 1 else 0)) idx).
  - apply lsum_ext. intros j _. unfold diagonal_form. rewrite (N.eqb_sym j i). destruct (N.eqb i j); ring.
  - apply (pick (fun j => q i * P j h b)); [apply idx_nodup|apply idx_in, Hi].
Qed.
Lemma lxor_pow_in n a b : (a < 2 ^ n)%N -> (b < 2 ^ n)%N -> (N.lxor a b < 2 ^ n)%N.
Proof. apply BitsBase.lxor_lt. Qed.
Theorem diagonal_geometric q n : (n <= 64)%N -> geometric n (diagonal_form q) (gp_blade q).
Proof.
  intros Hn. split; [|split; [|split]].
  - intros a b Ha Hb. constructor; [|constructor]. cbn [snd]. apply lxor_pow_in; assumption.
  - intros b _ j. unfold gp_blade. rewrite sign_0_l, N.land_0_l, squares_0, N.lxor_0_l, Rmult_1_l. reflexivity.
  - intros i b Hi Hb. apply meq_iff. intros h. rewrite sumf_app, sumf_vector, sumf_contract by (exact (pow2_64 n b Hn Hb)). rewrite (diagonal_D q i h b) by lia. unfold gp_blade. rewrite sumf1, land_pow2_bit.
    unfold E, P. destruct (N.testbit b i) eqn:T.
    + rewrite squares_pow2 by lia. rewrite (N.lxor_comm (2 ^ i) b). ring.
    + rewrite squares_0, (N.lxor_comm (2 ^ i) b). ring.
  - intros a b c _ _ _. pose proof (gp_assoc q [(1, a)] [(1, b)] [(1, c)]) as H. intros j. specialize (H j).
    assert (U : forall x y, meq (bilinear (gp_blade q) [(1, x)] [(1, y)]) (gp_blade q x y)). { intros x y. apply meq_iff. intros h. rewrite sumf_bilinear, !sumf1. ring. }
    assert (L : forall m m', meq m m' -> forall x, meq (bilinear (gp_blade q) m x) (bilinear (gp_blade q) m' x)). { intros m m' Q x. apply meq_iff. intros h. rewrite !sumf_bilinear. apply sumf_meq, Q. }
    assert (R' : forall m m', meq m m' -> forall x, meq (bilinear (gp_blade q) x m) (bilinear (gp_blade q) x m')). { intros m m' Q x. apply meq_iff. intros h. rewrite !sumf_bilinear. apply sumf_ext. intros i. apply sumf_meq, Q. }
    rewrite (L _ _ (U a b) _ j) in H. rewrite (R' _ _ (U b c) _ j) in H. exact H.
Qed.
