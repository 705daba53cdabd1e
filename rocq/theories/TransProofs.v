(** Translations of the homogeneous model preserve outer products, and compose by the addition of directions. *)
From Coq Require Import NArith ZArith List Bool Lia Reals Lra Setoid Morphisms.
From Verif Require Import Bits SpecBits Expr Sem Wf BitsBase SpecMv SpecAlg SpecExtra MvBase GradeProofs OuterProofs Clifford Clifford2 Clifford3 Clifford4 Clifford5 AlgProofs SpecGeneral Wick GenSum Wick2 DetProofs SpecSpaces VecProofs GenMul GenApi SpecGeo GaProofs GaRound GeoApi SpecMeet JoinMath.
Import ListNotations.
Local Open Scope R_scope.
Local Opaque sign_of indices idx.

Section Translate.
Variable D : N.
Hypothesis HD : (D + 1 <= 63)%N.
Notation n := (D + 1)%N.
Notation q := (signature (D + 1) 0).
Notation "a ^^ b" := (mop a b) (at level 40, left associativity).
Notation "a << b" := (mlcont q a b) (at level 40, left associativity).
Notation ins := (in_space n).
Notation vec := (vec n).
Notation ip := (ip (diagonal_form q)).
Notation e := [(1, (2 ^ D)%N)].
Notation T := (mtranslate D).

Lemma e_vec : vec e. Proof. constructor; [exists D; split; [lia|reflexivity]|constructor]. Qed.
Lemma t_leibniz v m : vec v -> ins m -> meq (e << (v ^^ m)) (scale (ip e v) m ++ scale (-1) (v ^^ (e << m))).
Proof. intros V M. exact (vec_leibniz n (diagonal_form q) (gp_blade q) ltac:(lia) (diagonal_geometric q n ltac:(lia)) e v m e_vec V M). Qed.
Lemma t_scalar v : vec v -> meq (e << v) [(ip e v, 0%N)].
Proof. intros V. exact (vec_scalar n (diagonal_form q) (gp_blade q) ltac:(lia) (diagonal_geometric q n ltac:(lia)) e v e_vec V). Qed.
Lemma t_unfold d f : T d f = f ++ d ^^ (e << f). Proof. reflexivity. Qed.
Lemma t_in a b : ins a -> ins b -> ins (a << b).
Proof. exact (lin n (diagonal_form q) (gp_blade q) (diagonal_geometric q n ltac:(lia)) a b). Qed.
Lemma T_meq d d' f f' : meq d d' -> meq f f' -> meq (T d f) (T d' f').
Proof. intros E1 E2. rewrite !t_unfold. apply meq_add; [exact E2|]. apply mop_meq; [exact E1|]. apply mlcont_meq; [reflexivity|exact E2]. Qed.
Lemma op_scalar d c : meq (d ^^ [(c, 0%N)]) (scale c d).
Proof.
  assert (Q : meq [(c, 0%N)] (scale c one)) by (intros j; rewrite cs_; unfold one; cbn; destruct j; ring).
  refine (transitivity (mop_meq d d (reflexivity d) _ _ Q) _). refine (transitivity (op_scl_r c d one) _). apply meq_scl, op_one_r.
Qed.
(** A translated vector. *)
Lemma T_vec d v : vec v -> meq (T d v) (v ++ scale (ip e v) d).
Proof. intros V. rewrite t_unfold. apply meq_add; [reflexivity|]. refine (transitivity (mop_meq d d (reflexivity d) _ _ (t_scalar v V)) _). apply op_scalar. Qed.
Lemma T_one d : meq (T d one) one.
Proof. rewrite t_unfold. assert (Z : meq (e << one) []) by (apply (lcont_none q 1 0); [lia|apply (vec_homog n ltac:(lia)), e_vec|exact one_homog]). refine (transitivity (meq_add _ _ _ _ (reflexivity one) (op_zero_r d _ Z)) _). apply nil_app. Qed.
(** The outer product with a vector is preserved. *)
Lemma T_op d v m : vec d -> vec v -> ins m -> meq (T d (v ^^ m)) (T d v ^^ T d m).
Proof.
  intros Vd V M. refine (transitivity _ (symmetry (mop_meq _ _ (T_vec d v V) _ _ (reflexivity (T d m))))). rewrite !t_unfold.
  refine (transitivity (meq_add _ _ _ _ (reflexivity _) (mop_meq d d (reflexivity d) _ _ (t_leibniz v m V M))) _).
  refine (transitivity (meq_add _ _ _ _ (reflexivity _) (op_add_r d _ _)) _).
  refine (transitivity (meq_add _ _ _ _ (reflexivity _) (meq_add _ _ _ _ (op_scl_r _ _ _) (op_scl_r _ _ _))) _).
  refine (transitivity (meq_add _ _ _ _ (reflexivity _) (meq_add _ _ _ _ (reflexivity _) (meq_scl (-1) _ _ (anti n HD d v (e << m) Vd V)))) _).
  symmetry. refine (transitivity (op_add_l _ _ _) _). refine (transitivity (meq_add _ _ _ _ (op_add_r _ _ _) (op_scl_l _ _ _)) _).
  refine (transitivity (meq_add _ _ _ _ (reflexivity _) (meq_scl _ _ _ (op_add_r _ _ _))) _).
  refine (transitivity (meq_add _ _ _ _ (reflexivity _) (meq_scl _ _ _ (meq_add _ _ _ _ (reflexivity _) (square n HD d (e << m) Vd)))) _).
  intros j. rewrite !ca_, !cs_, !ca_. cbn [coef]. ring.
Qed.
Lemma T_is_vec d v : vec d -> vec v -> exists v', vec v' /\ meq (T d v) v'.
Proof. intros Vd V. exists (v ++ scale (ip e v) d). split; [apply vec_app; [exact V|apply vec_scale, Vd]|apply T_vec, V]. Qed.
Lemma T_wedge d vs : vec d -> Forall vec vs -> meq (T d (wedge vs)) (wedge (map (T d) vs)).
Proof.
  intros Vd H. induction H as [|v vs V H IH]; [apply T_one|]. cbn [wedge map].
  refine (transitivity (T_op d v (wedge vs) Vd V (wedge_in n vs H)) _). apply mop_meq; [reflexivity|exact IH].
Qed.
Lemma T_scale d c m : meq (T d (scale c m)) (scale c (T d m)).
Proof.
  assert (L : meq (e << scale c m) (scale c (e << m))) by apply Verif.Clifford.bilinear_scale_r.
  rewrite !t_unfold. refine (transitivity (meq_add _ _ _ _ (reflexivity _) (mop_meq d d (reflexivity d) _ _ L)) _).
  refine (transitivity (meq_add _ _ _ _ (reflexivity _) (op_scl_r c d _)) _). intros j. rewrite !ca_, !cs_, !ca_. ring.
Qed.
(** Composition. *)
Lemma e_twice m : ins m -> meq (e << (e << m)) [].
Proof.
  intros M. pose proof (vec_in n e e_vec) as Ie. pose proof (dual_op q n m e e ltac:(lia) Ie Ie M) as A. refine (transitivity (y := (e ^^ e) << m) _ _); [symmetry; exact A|].
  assert (Z : meq (e ^^ e) []) by (apply op_vector, (vec_homog n ltac:(lia)), e_vec). exact (mlcont_meq q _ _ Z m m (reflexivity m)).
Qed.
Lemma T_twice a b m : vec b -> ip e b = 0 -> ins m -> meq (T a (T b m)) (T (a ++ b) m).
Proof.
  intros Vb Zb M. rewrite (t_unfold a), (t_unfold b), (t_unfold (a ++ b)).
  assert (L : meq (e << (m ++ b ^^ (e << m))) (e << m)).
  { refine (transitivity (bilinear_app_r _ e m _) _). change (meq (e << m ++ e << (b ^^ (e << m))) (e << m)).
    refine (transitivity (meq_add _ _ _ _ (reflexivity _) (t_leibniz b (e << m) Vb (t_in _ _ (vec_in n e e_vec) M))) _). rewrite Zb.
    refine (transitivity (meq_add _ _ _ _ (reflexivity _) (meq_add _ _ _ _ (reflexivity _) (meq_scl (-1) _ _ (op_zero_r b _ (e_twice m M))))) _).
    intros j. rewrite !ca_, !cs_. cbn [coef]. ring. }
  refine (transitivity (meq_add _ _ _ _ (reflexivity _) (mop_meq a a (reflexivity a) _ _ L)) _).
  refine (transitivity _ (symmetry (meq_add _ _ _ _ (reflexivity m) (op_add_l a b (e << m))))).
  intros j. rewrite !ca_. ring.
Qed.
End Translate.
