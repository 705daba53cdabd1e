(** The constants of the algebra definitions: products of basis blades. *)
From Coq Require Import NArith ZArith List Bool Lia Reals Lra Setoid Morphisms.
From Verif Require Import Bits SpecBits Expr Sem Wf BitsBase SpecMv SpecAlg SpecExtra MvBase GradeProofs OuterProofs Clifford Clifford2 Clifford4 AlgProofs AlgProofs2 SpecGeneral SpecSpaces VecProofs SpecGeo GaProofs GeoProofs GaRound Wick Wick2 GenApi.
Import ListNotations.
Local Open Scope R_scope.
Local Opaque sign_of indices ggp glc gsp grc mop scale meq.

Section Euclid.
Variables (n : N) (B : N -> N -> R) (G : N -> N -> mv) (D : N).
Hypothesis Hn : (n <= 64)%N.
Hypothesis HG : geometric n B G.
Hypothesis SB : forall i j, B i j = B j i.
Hypothesis HD : (D <= n)%N.
Hypothesis OB : forall i j, (D <= i)%N -> (j < D)%N -> B i j = 0.
Notation A := [(1, (2 ^ D - 1)%N)].
Notation "a ** b" := (ggp G a b) (at level 40, left associativity).
Notation "a ^^ b" := (mop a b) (at level 40, left associativity).
Notation "a << b" := (glc G a b) (at level 40, left associativity).

Lemma mask_bit j : N.testbit (2 ^ D - 1) j = N.ltb j D.
Proof.
  rewrite <- N.pred_sub, <- N.ones_equiv. destruct (N.ltb_spec j D); [apply N.ones_spec_low; assumption|apply N.ones_spec_high; assumption].
Qed.
Lemma A_in : in_space n A.
Proof.
  constructor; [|constructor]. cbn [snd]. assert (2 ^ D <= 2 ^ n)%N by (apply N.pow_le_mono_r; [discriminate|exact HD]). pose proof (N.pow_nonzero 2 D ltac:(discriminate)). lia.
Qed.
Lemma A_homog : homog D A.
Proof. constructor; [|constructor]. cbn [snd]. apply grade_mask. lia. Qed.
Lemma A_ortho u : vec n u -> Forall (fun p => (D <= N.log2 (snd p))%N) u -> meq (u << A) [].
Proof.
  intros Vu H. apply meq_sumf. intros h. rewrite (sumf_lc n B G Hn HG u A h Vu A_in). rewrite (sumf_ext_in u _ (fun _ => 0)).
  - rewrite sumf_none. reflexivity.
  - intros p Ip. pose proof (proj1 (Forall_forall _ _) H p Ip) as L. rewrite sumf1. unfold Wick.D. rewrite (lsum_ext _ (fun _ => 0)); [rewrite lsum_0; ring|]. intros j _.
    unfold P. rewrite mask_bit. destruct (N.ltb_spec j D) as [J|]; [rewrite (OB _ j L J); ring|ring].
Qed.

(** Right factor of two null vectors. *)
Section Null.
Variables (p ni : mv).
Hypotheses (Vp : vec n p) (Vi : vec n ni) (Hp : Forall (fun q => (D <= N.log2 (snd q))%N) p) (Hi : Forall (fun q => (D <= N.log2 (snd q))%N) ni).
Hypotheses (Ipp : ip B p p = 0) (Iii : ip B ni ni = 0) (Ipi : ip B p ni = -1).
Let Pa := A_ortho p Vp Hp.
Let Na := A_ortho ni Vi Hi.
Let Ip := vec_in n p Vp.
Let Ii := vec_in n ni Vi.
Notation E := (p ** ni ++ one).
Lemma E_op : meq E (p ^^ ni).
Proof.
  pose proof (vec_gp n B G Hn HG p ni Vp Ii) as Q. pose proof (vec_scalar n B G Hn HG p ni Vp Vi) as Q'. rewrite Ipi in Q'. rewrite Q' in Q.
  Local Transparent meq. intros j. specialize (Q j). rewrite coef_app in Q. rewrite coef_app, Q. unfold one. cbn [coef]. destruct (N.eqb 0 j); ring.
Qed.
Let I1 : in_space n one. Proof. exact (in_scalar n 1). Qed.
Let IE : in_space n E. Proof. apply in_space_app. split; [exact (gin n B G HG p ni Ip Ii)|exact I1]. Qed.
Lemma null_gp : meq (A ^^ (p ^^ ni)) (A ** E).
Proof.
  transitivity (scale (flip D) (flat p ni A)).
  - assert (Q : meq (A ^^ (p ^^ ni)) (scale (flip D) (p ^^ A) ^^ ni)).
    { transitivity ((A ^^ p) ^^ ni); [symmetry; exact (op_assoc A p ni)|]. rewrite (op_swap1 D p A (vec_homog n Hn p Vp) A_homog). reflexivity. }
    rewrite Q, op_scale_l. apply scale_meq; [reflexivity|]. unfold flat. exact (op_assoc p A ni).
  - rewrite (flat_E n B G Hn HG p ni A D Vp Vi Ipi A_in A_homog Pa Na), scale_scale, flip_sq, scale_one. symmetry. exact (E_a n B G Hn HG SB p ni A D Vp Vi A_in A_homog Pa Na).
Qed.
Lemma null_contract : meq (grc G (A ^^ (p ^^ ni)) (p ^^ ni)) A.
Proof.
  assert (H1 : homog (1 + 1) (p ^^ ni)) by (apply op_grades_add; apply (vec_homog n Hn); assumption).
  assert (H2 : homog (D + (1 + 1)) (A ^^ (p ^^ ni))) by (apply op_grades_add; [exact A_homog|exact H1]).
  rewrite (rc_part G (D + (1 + 1)) (1 + 1) _ _ ltac:(lia) H2 H1). replace (D + (1 + 1) - (1 + 1))%N with D by lia.
  rewrite <- (homog_part_id D A A_homog) at 2. apply grade_part_meq; [reflexivity|]. rewrite null_gp, <- E_op, (gA n B G HG A _ _ A_in IE IE), (E_E n B G Hn HG SB p ni Vp Vi Ipp Ipi). exact (g1r n B G Hn HG A A_in).
Qed.
End Null.
(** Right factor of one unit vector. *)
Lemma unit_contract p : vec n p -> Forall (fun q => (D <= N.log2 (snd q))%N) p -> ip B p p = 1 -> meq (grc G (A ^^ p) p) A.
Proof.
  intros Vp Hp Ipp. pose proof (A_ortho p Vp Hp) as Pa. pose proof (vec_in n p Vp) as Ip. pose proof (vec_homog n Hn p Vp) as H1.
  assert (H2 : homog (D + 1) (A ^^ p)) by (apply op_grades_add; [exact A_homog|exact H1]).
  rewrite (rc_part G (D + 1) 1 _ _ ltac:(lia) H2 H1). replace (D + 1 - 1)%N with D by lia. rewrite <- (homog_part_id D A A_homog) at 2. apply grade_part_meq; [reflexivity|].
  assert (Q : meq (A ^^ p) (A ** p)).
  { rewrite (op_swap1 D p A H1 A_homog), (ortho_op n B G Hn HG p A Vp A_in Pa). symmetry. exact (ortho_swap n B G Hn HG SB p D A Vp A_in A_homog Pa). }
  rewrite Q, (gA n B G HG A p p A_in Ip Ip), (vec_square n B G Hn HG SB p Vp), Ipp. exact (g1r n B G Hn HG A A_in).
Qed.
End Euclid.
