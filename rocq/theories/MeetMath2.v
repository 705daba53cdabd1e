(** The delta product of two blades, and subspaces of the same dimension. *)
From Coq Require Import NArith ZArith List Bool Lia Reals Lra Setoid Morphisms RelationClasses Classical.
From Verif Require Import Bits SpecBits Expr Sem Wf BitsBase SpecMv SpecAlg SpecExtra MvBase GradeProofs OuterProofs Clifford Clifford2 Clifford3 Clifford4 Clifford5 AlgProofs SpecGeneral Wick GenSum Wick2 DetProofs SpecSpaces VecProofs GenMul GenApi SpecGeo GaProofs GeoApi GaRound SpecNorm SpecMeet JoinMath MeetMath.
Import ListNotations.
Local Open Scope R_scope.
Local Opaque sign_of indices idx.

Section Space.
Variable n : N.
Hypothesis Hn : (n <= 63)%N.
Notation "a ^^ b" := (mop a b) (at level 40, left associativity).
Notation "a << b" := (mlcont e1 a b) (at level 40, left associativity).
Notation "a ** b" := (mgp e1 a b) (at level 40, left associativity).
Notation ins := (in_space n).
Notation vec := (GaProofs.vec n).
Notation form := (diagonal_form e1).
Notation ip := (GaProofs.ip form).
Notation perp := MeetMath.perp.

(** ** Dimension *)
Theorem independent_part vs : Forall vec vs -> exists us, Forall vec us /\ (length us <= length vs)%nat /\ ~ meq (wedge us) [] /\ forall x, in_span us x <-> in_span vs x.
Proof.
  intros V. induction V as [|v vs Hv V IH].
  - exists []. split; [constructor|]. split; [apply Nat.le_refl|]. split; [|tauto]. intros Z. specialize (Z 0%N). cbn in Z. lra.
  - destruct IH as (us & Vu & L & NZ & S). destruct (classic (meq (v ^^ wedge us) [])) as [Z|Z].
    + exists us. split; [exact Vu|]. split; [cbn [length]; lia|]. split; [exact NZ|]. pose proof (op_zero_in n Hn us v Vu NZ Hv Z) as Sv.
      intros x. split; [intros H; apply span_cons, S, H|]. apply span_trans. constructor; [exact Sv|]. apply Forall_forall. intros w Hw. apply S, span_in, Hw.
    + exists (v :: us). split; [constructor; assumption|]. split; [cbn [length]; lia|]. split; [exact Z|]. intros x. split; apply span_trans; (constructor; [apply span_in; left; reflexivity|]); apply Forall_forall; intros w Hw; apply span_cons, S, span_in, Hw.
Qed.
Lemma gen_scalar vs k m : gen n vs k m -> k = 0%nat -> exists c, meq m (scale c one).
Proof.
  induction 1 as [k|ls H|k a b Ha IHa Hb IHb|k c a Ha IHa|k a b E Ib Ha IHa]; intros K.
  - exists 0. intros i. rewrite cs_. cbn. ring.
  - destruct ls; [|discriminate K]. exists 1. intros i. rewrite cs_. cbn [wedge]. ring.
  - destruct (IHa K) as [c A], (IHb K) as [d B]. exists (c + d). intros i. rewrite ca_, (A i), (B i), !cs_. ring.
  - destruct (IHa K) as [d A]. exists (c * d). intros i. rewrite !cs_, (A i), cs_. ring.
  - destruct (IHa K) as [c A]. exists c. intros i. rewrite <- (E i). apply A.
Qed.
Lemma lcs_too_many vs k m us : Forall vec us -> gen n vs k m -> (k < length us)%nat -> meq (lcs us m) [].
Proof.
  intros V G. induction V as [|u us U Us IH]; intros L; [cbn in L; lia|]. cbn [lcs fold_right]. change (meq (u << lcs us m) []). destruct (Nat.eq_dec k (length us)) as [E|E].
  - destruct (gen_scalar vs _ _ (lcs_gen n Hn vs us k m Us G) ltac:(lia)) as [c Q]. refine (transitivity (lc_c _ _ _ _ (reflexivity u) Q) _). refine (transitivity (lc_scl_r _ _ _) _). apply meq_nil_scale, (lc_vec_one n Hn), U.
  - apply lc_zero_r, IH. cbn [length] in L. lia.
Qed.
Theorem dimension us cs : Forall vec us -> ~ meq (wedge us) [] -> Forall vec cs -> Forall (in_span cs) us -> (length us <= length cs)%nat.
Proof.
  intros Vu NU Vc S. destruct (independent_part cs Vc) as (ds & Vd & L & ND & SD).
  assert (S' : Forall (in_span ds) us) by (eapply Forall_impl; [|exact S]; intros x; apply SD).
  destruct (contract n Hn us ds Vd ND Vu NU S') as (es & w & W0 & Ve & E & NE & _).
  destruct (Nat.le_gt_cases (length us) (length ds)) as [|Q]; [lia|]. exfalso. apply NE. apply (scale_nz w); [exact W0|]. refine (transitivity (symmetry E) _).
  refine (transitivity (symmetry (lcs_wedge n Hn us _ Vu (wedge_in n ds Vd))) _). exact (lcs_too_many ds (length ds) _ us Vu (wedge_gen n ds Vd) Q).
Qed.
Theorem same_dimension us cs : Forall vec us -> ~ meq (wedge us) [] -> Forall vec cs -> Forall (in_span cs) us -> (length cs <= length us)%nat -> forall x, in_span us x <-> in_span cs x.
Proof.
  intros Vu NU Vc S L x. split; [apply span_trans, S|]. apply span_trans. apply Forall_forall. intros c Hc. assert (C : vec c) by (rewrite Forall_forall in Vc; auto).
  destruct (classic (meq (c ^^ wedge us) [])) as [Z|Z]; [exact (op_zero_in n Hn us c Vu NU C Z)|]. exfalso.
  assert (length (c :: us) <= length cs)%nat; [|cbn [length] in *; lia]. apply dimension; [constructor; assumption|exact Z|exact Vc|constructor; [apply span_in, Hc|exact S]].
Qed.

(** ** Blades of the same subspace are multiples of each other *)
Lemma gen_orth vs os : Forall vec os -> orth os -> forall m, gen n vs (length os) m -> Forall (fun o => meq (o ^^ m) []) os -> exists c, meq m (scale c (wedge os)).
Proof.
  intros V O. revert V. induction O as [|o os NO P O IH]; intros V m G Z; [exact (gen_scalar vs _ m G eq_refl)|].
  inversion V as [|? ? Vo Vs]; subst. inversion Z as [|? ? Zo Zs]; subst. pose proof (gen_in n vs _ m G) as Im.
  destruct (IH Vs (o << m)) as [c Q].
  - exact (gen_lc n Hn vs o (S (length os)) m Vo G).
  - unfold perp in P. rewrite Forall_forall in *. intros u Hu. pose proof (leibniz n Hn o u m Vo (Vs u Hu) Im) as Lb. pose proof (lc_zero_r o _ (Zs u Hu)) as Y. intros k. specialize (Lb k). rewrite (Y k), ca_, !cs_, (P u Hu) in Lb. cbn [coef] in *. lra.
  - exists (/ ip o o * c). pose proof (leibniz n Hn o o m Vo Vo Im) as Lb. pose proof (lc_zero_r o _ Zo) as Y. intros k. specialize (Lb k). rewrite (Y k), ca_, !cs_ in Lb. cbn [coef wedge] in *.
    rewrite cs_. assert (X : coef (o ^^ (o << m)) k = c * coef (o ^^ wedge os) k) by (rewrite (op_c _ _ _ _ (reflexivity o) Q k), (op_scl_r _ _ _ k), cs_; reflexivity). rewrite X in Lb. apply (Rmult_eq_reg_l (ip o o)); [|exact NO]. field_simplify; [lra|exact NO].
Qed.
Theorem proportional us vs : Forall vec us -> Forall vec vs -> ~ meq (wedge us) [] -> ~ meq (wedge vs) [] -> (forall x, in_span us x <-> in_span vs x) -> exists w, w <> 0 /\ meq (wedge us) (scale w (wedge vs)).
Proof.
  intros Vu Vv NU NV S. assert (Su : Forall (in_span vs) us) by (apply Forall_forall; intros x Hx; apply S, span_in, Hx). assert (Sv : Forall (in_span us) vs) by (apply Forall_forall; intros x Hx; apply S, span_in, Hx).
  destruct (gram_schmidt n Hn vs Vv NV) as (os & Vo & O & W & S1 & S2). assert (NO : ~ meq (wedge os) []) by (intros Z; exact (NV (transitivity (symmetry W) Z))).
  assert (So : Forall (in_span us) os) by (eapply Forall_impl; [|exact S1]; intros x; apply S).
  assert (Sw : Forall (in_span os) us) by (eapply Forall_impl; [|exact Su]; intros x; apply span_trans, S2).
  assert (L : length os = length us). { apply Nat.le_antisymm; [exact (dimension os us Vo NO Vu So)|exact (dimension us os Vu NU Vo Sw)]. }
  destruct (gen_orth us os Vo O (wedge us)) as [c Q].
  - rewrite L. apply wedge_gen, Vu.
  - eapply Forall_impl; [|exact So]. intros x Hx. exact (span_wedge n Hn us x Vu Hx).
  - exists c. split.
    + intros ->. apply NU. refine (transitivity Q _). intros k. rewrite cs_. cbn [coef]. ring.
    + refine (transitivity Q (meq_scl c _ _ W)).
Qed.

(** ** Two blades and their common subspace *)
Lemma complement ms av : Forall vec ms -> Forall vec av -> ~ meq (wedge ms) [] -> ~ meq (wedge av) [] -> Forall (in_span av) ms ->
  exists es w w', w <> 0 /\ w' <> 0 /\ Forall vec es /\ ~ meq (wedge es) [] /\ meq (wedge av) (scale w (wedge (ms ++ es))) /\ meq (wedge ms << wedge av) (scale w' (wedge es)) /\ length av = (length ms + length es)%nat /\ (forall x, in_span es x <-> in_span av x /\ perp ms x) /\ (forall x, in_span (ms ++ es) x <-> in_span av x).
Proof.
  intros Vm Va NM NA S. destruct (contract n Hn ms av Va NA Vm NM S) as (es & w' & W0' & Ve & CE & NE & SE). exists es.
  assert (ND : ~ meq (wedge (ms ++ es)) []).
  { apply (disjoint_wedge n Hn); try assumption. intros x Vx H1 H2. apply (ip_zero n Hn x Vx). apply SE in H2. exact (perp_span ms x x (proj2 H2) H1). }
  assert (VV : Forall vec (ms ++ es)) by (apply Forall_app; split; assumption).
  assert (SS : forall x, in_span (ms ++ es) x <-> in_span av x).
  { assert (S1 : Forall (in_span av) (ms ++ es)) by (apply Forall_app; split; [exact S|]; apply Forall_forall; intros x Hx; apply SE, span_in, Hx).
    intros x. split; [apply span_trans, S1|]. apply span_trans. apply Forall_forall. intros a Ha. assert (Xa : vec a) by (rewrite Forall_forall in Va; auto).
    destruct (projection n Hn ms a Vm NM Xa) as (p & Vp & Sp & Pp). apply (span_meq _ (p ++ minus a p)); [intros k; unfold minus; rewrite !ca_, !cs_; ring|]. apply span_add; [apply span_app_l, Sp|]. apply span_app_r, SE. split; [|exact Pp].
    apply minus_span; [apply span_in, Ha|exact (span_trans av ms p S Sp)]. }
  destruct (proportional av (ms ++ es) Va VV NA ND) as (w & W0 & Q); [intros x; symmetry; apply SS|]. exists w, w'. split; [exact W0|]. split; [exact W0'|]. split; [exact Ve|]. split; [exact NE|]. split; [exact Q|]. split; [exact CE|]. split; [|split; [exact SE|exact SS]].
  rewrite <- app_length. apply Nat.le_antisymm; apply dimension; try assumption; apply Forall_forall; intros x Hx; apply SS, span_in, Hx.
Qed.
Theorem common av bv : Forall vec av -> Forall vec bv -> ~ meq (wedge av) [] -> ~ meq (wedge bv) [] -> exists ms, Forall vec ms /\ orth ms /\ ~ meq (wedge ms) [] /\ forall x, in_span ms x <-> in_span av x /\ in_span bv x.
Proof.
  intros Va Vb NA NB. destruct (independent_part (av ++ bv)) as (cs & Vc & _ & NC & SC); [apply Forall_app; split; assumption|].
  destruct (meet_blade n Hn av bv cs Va Vb Vc NA NB NC SC) as (ms & w & _ & Vm & _ & NM & SM). destruct (gram_schmidt n Hn ms Vm NM) as (os & Vo & O & W & S1 & S2). exists os. split; [exact Vo|]. split; [exact O|]. split; [intros Z; exact (NM (transitivity (symmetry W) Z))|].
  intros x. rewrite <- SM. split; [apply span_trans, S1|apply span_trans, S2].
Qed.

(** ** The delta product *)
Lemma gp_c a a' b b' : meq a a' -> meq b b' -> meq (a ** b) (a' ** b').
Proof. intros A B. exact (mgp_meq e1 a a' A b b' B). Qed.
Lemma gp_scl a b c d : meq (scale c a ** scale d b) (scale (c * d) (a ** b)).
Proof. refine (transitivity (Clifford.bilinear_scale_l (gp_blade e1) c a (scale d b)) _). intros k. rewrite !cs_, (Clifford.bilinear_scale_r (gp_blade e1) d a b k), cs_. unfold mgp. ring. Qed.
Lemma gp_pull_vec m X Y k : vec m -> ins X -> ins Y -> homog k X -> meq (m << X) [] -> meq (m << Y) [] -> meq ((m ^^ X) ** (m ^^ Y)) (scale (flip k * ip m m) (X ** Y)).
Proof.
  intros Vm IX IY HX LX LY. pose proof (diagonal_geometric e1 n ltac:(lia)) as HG. pose proof (vec_ins n m Vm) as Im.
  assert (N64 : (n <= 64)%N) by lia.
  assert (Q1 : meq (m ^^ X) (scale (flip k) (X ** m))).
  { pose proof (vec_right_homog n (diagonal_form e1) (gp_blade e1) ltac:(lia) HG form_sym m k X Vm IX HX) as Q. intros i. specialize (Q i). specialize (LX i). change (ggp (gp_blade e1) X m) with (X ** m) in Q. change (glc (gp_blade e1) m X) with (m << X) in Q. rewrite cs_, ca_, cs_, LX in Q. rewrite cs_, Q. cbn [coef]. pose proof (flip_sq k) as F. transitivity (flip k * flip k * coef (m ^^ X) i); [rewrite F; ring|ring]. }
  assert (Q2 : meq (m ^^ Y) (m ** Y)).
  { pose proof (vec_gp n (diagonal_form e1) (gp_blade e1) ltac:(lia) HG m Y Vm IY) as Q. intros i. specialize (Q i). specialize (LY i). change (ggp (gp_blade e1) m Y) with (m ** Y) in Q. change (glc (gp_blade e1) m Y) with (m << Y) in Q. rewrite ca_, LY in Q. rewrite Q. cbn [coef]. ring. }
  refine (transitivity (gp_c _ _ _ _ Q1 Q2) _). refine (transitivity (bilinear_scale_l (gp_blade e1) _ _ _) _). change (meq (scale (flip k) ((X ** m) ** (m ** Y))) (scale (flip k * ip m m) (X ** Y))).
  assert (A1 : meq ((X ** m) ** (m ** Y)) (scale (ip m m) (X ** Y))).
  { assert (IG : forall a b, ins a -> ins b -> ins (a ** b)) by (intros a b; apply (gin n (diagonal_form e1) (gp_blade e1) HG)).
    assert (B1 : meq ((X ** m) ** (m ** Y)) (((X ** m) ** m) ** Y)) by (symmetry; exact (gA n _ _ HG (X ** m) m Y (IG _ _ IX Im) Im IY)).
    assert (B2 : meq ((X ** m) ** m) (X ** (m ** m))) by exact (gA n _ _ HG X m m IX Im Im).
    assert (B3 : meq (m ** m) [(ip m m, 0%N)]) by exact (vec_square n _ _ N64 HG form_sym m Vm).
    assert (B4 : meq (X ** [(ip m m, 0%N)]) (scale (ip m m) X)) by exact (gsr n _ _ N64 HG _ X IX).
    assert (B5 : meq ((X ** m) ** m) (scale (ip m m) X)) by (exact (transitivity B2 (transitivity (gp_c _ _ _ _ (reflexivity X) B3) B4))).
    assert (B6 : meq (scale (ip m m) X ** Y) (scale (ip m m) (X ** Y))) by apply Clifford.bilinear_scale_l.
    exact (transitivity B1 (transitivity (gp_c _ _ _ _ B5 (reflexivity Y)) B6)). }
  intros i. rewrite !cs_, (A1 i), cs_. ring.
Qed.
Theorem delta_product ms es fs : Forall vec ms -> orth ms -> Forall vec es -> Forall vec fs -> Forall (perp ms) es -> Forall (perp ms) fs ->
  exists w, w <> 0 /\ meq (wedge (ms ++ es) ** wedge (ms ++ fs)) (scale w (wedge es ** wedge fs)).
Proof.
  intros V O Ve Vf. revert V. induction O as [|m ms NM P O IH]; intros V Pe Pf; [exists 1; split; [lra|]; intros k; rewrite cs_; cbn [app]; ring|].
  inversion V as [|? ? Vm Vs]; subst.
  assert (Pm : forall l, Forall (perp (m :: ms)) l -> Forall (perp ms) l /\ perp l m).
  { clear. intros l H. unfold MeetMath.perp in *. split; (eapply Forall_impl; [|exact H]); cbn; intros a Ha; inversion Ha; subst; [assumption|]. rewrite ip_s. assumption. }
  destruct (Pm es Pe) as [Pe1 Pe2]. destruct (Pm fs Pf) as [Pf1 Pf2]. destruct (IH Vs Pe1 Pf1) as (w & W0 & Q).
  assert (V1 : Forall vec (ms ++ es)) by (apply Forall_app; split; assumption). assert (V2 : Forall vec (ms ++ fs)) by (apply Forall_app; split; assumption).
  exists (flip (N.of_nat (length (ms ++ es))) * ip m m * w). split.
  - pose proof (flip_sq (N.of_nat (length (ms ++ es)))) as F. assert (flip (N.of_nat (length (ms ++ es))) <> 0) by (intros Z; rewrite Z in F; lra). repeat apply Rmult_integral_contrapositive_currified; assumption.
  - cbn [app wedge]. refine (transitivity (gp_pull_vec m _ _ _ Vm (wedge_in n _ V1) (wedge_in n _ V2) (wedge_homog n Hn _ V1) _ _) _).
    + apply (perp_wedge n Hn); [exact V1|exact Vm|]. apply Forall_app. split; assumption.
    + apply (perp_wedge n Hn); [exact V2|exact Vm|]. apply Forall_app. split; assumption.
    + intros k. rewrite !cs_, (Q k), cs_. ring.
Qed.
(** The largest grade of a product of homogeneous elements is that of their outer product. *)
Theorem top_part r s a b : ins a -> homog r a -> homog s b -> meq (a ^^ b) (grade_part (r + s) (a ** b)).
Proof.
  intros Ia Ha Hb. refine (transitivity _ (symmetry (grade_part_bilinear _ _ _ _))). apply bilinear_ext_in. intros p p' Hp Hp'. unfold homog, in_space in *. rewrite Forall_forall in Ia, Ha, Hb. specialize (Ia p Hp). specialize (Ha p Hp). specialize (Hb p' Hp'). revert Ia Ha Hb. generalize (snd p) (snd p'). clear - Hn. intros i j Ii <- <-.
  unfold op_blade, gp_blade. rewrite grade_part_1. pose proof (grade_lxor i j) as X.
  destruct (N.eqb_spec (N.land i j) 0) as [Z|Z].
  - rewrite Z in *. change (grade_of 0%N) with 0%N in X. rewrite squares_0. destruct (N.eqb_spec (grade_of (N.lxor i j)) (grade_of i + grade_of j)) as [_|C]; [|exfalso; lia]. rewrite (N.lxor_lor i j Z), Rmult_1_r. reflexivity.
  - destruct (N.eqb_spec (grade_of (N.lxor i j)) (grade_of i + grade_of j)) as [C|_]; [|reflexivity]. exfalso. assert (Y : grade_of (N.land i j) = 0%N) by lia. apply Z. apply GradeProofs.grade_0; [|exact Y].
    apply BitsBase.land_lt. apply N.lt_le_trans with (2 ^ n)%N; [exact Ii|]. apply N.pow_le_mono_r; [discriminate|lia].
Qed.
Lemma no_higher r s a b k : homog r a -> homog s b -> coef (a ** b) k <> 0 -> (grade_of k <= r + s)%N.
Proof.
  intros Ha Hb H. destruct (N.le_gt_cases (grade_of k) (r + s)) as [|L]; [assumption|]. exfalso. apply H. unfold mgp. rewrite coef_sumf, sumf_bilinear. 
  rewrite (sumf_ext_in a _ (fun _ => 0)); [apply sumf_0|]. intros p Hp. rewrite (sumf_ext_in b _ (fun _ => 0)); [apply sumf_0|]. intros p' Hp'.
  unfold homog in *. rewrite Forall_forall in Ha, Hb. specialize (Ha p Hp). specialize (Hb p' Hp'). unfold gp_blade. cbn [sumf]. pose proof (grade_lxor (snd p) (snd p')) as X.
  unfold delta. destruct (N.eqb_spec (N.lxor (snd p) (snd p')) k) as [<-|_]; [exfalso; lia|ring].
Qed.
End Space.
