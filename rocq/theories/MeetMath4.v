(** Meet and join of two blades from the delta product. *)
From Coq Require Import NArith ZArith List Bool Lia Reals Lra Setoid Morphisms RelationClasses Classical.
From Verif Require Import Bits SpecBits Expr Sem Wf BitsBase SpecMv SpecAlg SpecExtra MvBase GradeProofs OuterProofs Clifford Clifford2 Clifford3 Clifford4 Clifford5 AlgProofs SpecGeneral Wick GenSum Wick2 DetProofs SpecSpaces VecProofs GenMul GenApi SpecGeo GaProofs GaInverse GeoApi GaRound ExtraProofs SpecNorm SpecMeet JoinMath MeetMath MeetMath2 MeetMath3.
Import ListNotations.
Local Open Scope R_scope.
Local Opaque sign_of indices idx.

Section Space.
Variable n : N.
Hypothesis Hn : (n <= 63)%N.
Notation "a ^^ b" := (mop a b) (at level 40, left associativity).
Notation "a << b" := (mlcont e1 a b) (at level 40, left associativity).
Notation "a >> b" := (bilinear (rcont_blade e1) a b) (at level 40, left associativity).
Notation "a ** b" := (mgp e1 a b) (at level 40, left associativity).
Notation ins := (in_space n).
Notation vec := (GaProofs.vec n).
Notation form := (diagonal_form e1).
Notation ip := (GaProofs.ip form).
Notation perp := MeetMath.perp.

(** The common part [ms] of two subspaces, and what each has beyond it. *)
Record decomposed (av bv ms es fs : list mv) : Prop := {
  d_ms : Forall vec ms; d_es : Forall vec es; d_fs : Forall vec fs;
  d_orth : orth ms;
  d_nm : ~ meq (wedge ms) []; d_ne : ~ meq (wedge es) []; d_nf : ~ meq (wedge fs) [];
  d_sm : forall x, in_span ms x <-> in_span av x /\ in_span bv x;
  d_se : forall x, in_span es x <-> in_span av x /\ perp ms x;
  d_sf : forall x, in_span fs x <-> in_span bv x /\ perp ms x;
  d_sa : forall x, in_span (ms ++ es) x <-> in_span av x;
  d_sb : forall x, in_span (ms ++ fs) x <-> in_span bv x;
  d_la : length av = (length ms + length es)%nat; d_lb : length bv = (length ms + length fs)%nat;
  d_gp : exists w, w <> 0 /\ meq (wedge av ** wedge bv) (scale w (wedge es ** wedge fs));
  d_nd : ~ meq (wedge (es ++ fs)) [] }.
Lemma span_perp ms es : (forall x, in_span es x -> perp ms x) -> Forall (perp ms) es. Proof. intros H. apply Forall_forall. intros x Hx. apply H, span_in, Hx. Qed.
Theorem decompose av bv : Forall vec av -> Forall vec bv -> ~ meq (wedge av) [] -> ~ meq (wedge bv) [] -> exists ms es fs, decomposed av bv ms es fs.
Proof.
  intros Va Vb NA NB. destruct (common n Hn av bv Va Vb NA NB) as (ms & Vm & O & NM & SM).
  destruct (complement n Hn ms av Vm Va NM NA) as (es & wa & _ & Wa & _ & Ve & NE & QA & _ & LA & SE & SA); [apply Forall_forall; intros x Hx; apply SM, span_in, Hx|].
  destruct (complement n Hn ms bv Vm Vb NM NB) as (fs & wb & _ & Wb & _ & Vf & NF & QB & _ & LB & SF & SB); [apply Forall_forall; intros x Hx; apply SM, span_in, Hx|].
  exists ms, es, fs. split; try assumption.
  - destruct (delta_product n Hn ms es fs Vm O Ve Vf) as (w & W0 & Q); [apply span_perp; intros x H; apply SE, H|apply span_perp; intros x H; apply SF, H|].
    exists (wa * wb * w). split; [repeat apply Rmult_integral_contrapositive_currified; assumption|]. refine (transitivity (gp_c _ _ _ _ QA QB) _). refine (transitivity (gp_scl _ _ _ _) _). intros k. rewrite !cs_, (Q k), cs_. ring.
  - apply (disjoint_wedge n Hn); try assumption. intros x Vx H1 H2. apply SE in H1. apply SF in H2. apply (ip_zero n Hn x Vx). apply (perp_span ms x x); [tauto|]. apply SM. tauto.
Qed.

Section Parts.
Variables av bv ms es fs : list mv.
Hypothesis Va : Forall vec av.
Hypothesis Vb : Forall vec bv.
Hypothesis NA : ~ meq (wedge av) [].
Hypothesis NB : ~ meq (wedge bv) [].
Hypothesis D : decomposed av bv ms es fs.

Lemma perp_of l x y : Forall (in_span l) y -> perp l x -> perp y x.
Proof. intros S P. exact (perp_trans y l x P S). Qed.
Lemma perp_app l l' x : perp l x -> perp l' x -> perp (l ++ l') x.
Proof. intros H K. apply Forall_app. split; assumption. Qed.
Lemma a_in : Forall (in_span (ms ++ es)) av. Proof. apply Forall_forall. intros x Hx. apply (d_sa _ _ _ _ _ D), span_in, Hx. Qed.
Lemma b_in : Forall (in_span (ms ++ fs)) bv. Proof. apply Forall_forall. intros x Hx. apply (d_sb _ _ _ _ _ D), span_in, Hx. Qed.
Lemma ms_perp_es x : in_span ms x -> perp es x.
Proof. intros H. apply Forall_forall. intros e He. rewrite ip_s. refine (perp_span ms e x _ H). apply (d_se _ _ _ _ _ D), span_in, He. Qed.
Lemma ms_perp_fs x : in_span ms x -> perp fs x.
Proof. intros H. apply Forall_forall. intros e He. rewrite ip_s. refine (perp_span ms e x _ H). apply (d_sf _ _ _ _ _ D), span_in, He. Qed.
Lemma perp_sub l x y : perp l x -> perp l y -> perp l (minus x y).
Proof. unfold MeetMath.perp. rewrite !Forall_forall. intros H K v Hv. rewrite ip_minus, (H v Hv), (K v Hv). ring. Qed.
(** A vector orthogonal to the delta product: its projection is common, the rest is orthogonal to both. *)
Theorem outside d p : vec d -> perp es d -> perp fs d -> projected n av d p -> in_span ms p /\ perp av (minus d p) /\ perp bv (minus d p).
Proof.
  intros Vd Pe Pf (Vp & Sp & Pp).
  assert (Ee : Forall (in_span av) es) by (apply Forall_forall; intros x Hx; apply (d_se _ _ _ _ _ D), span_in, Hx).
  assert (Pe' : perp es p). { pose proof (perp_of av _ es Ee Pp) as Q. unfold MeetMath.perp in *. rewrite Forall_forall in *. intros v Hv. specialize (Q v Hv). rewrite ip_minus, (Pe v Hv) in Q. lra. }
  assert (Sm : in_span ms p).
  { destruct (projection n Hn ms p (d_ms _ _ _ _ _ D) (d_nm _ _ _ _ _ D) Vp) as (q & Vq & Sq & Pq). apply (span_meq ms q); [|exact Sq]. symmetry. apply minus_eq, (ip_zero n Hn); [apply minus_vec; assumption|].
    apply (perp_span es); [apply perp_sub; [exact Pe'|apply ms_perp_es, Sq]|]. apply (d_se _ _ _ _ _ D). split; [|exact Pq]. apply minus_span; [exact Sp|apply (d_sm _ _ _ _ _ D), Sq]. }
  split; [exact Sm|]. split; [exact Pp|]. apply (perp_of (ms ++ fs)); [exact b_in|]. apply perp_app.
  - apply (perp_of av); [|exact Pp]. apply Forall_forall. intros x Hx. apply (d_sm _ _ _ _ _ D), span_in, Hx.
  - apply perp_sub; [exact Pf|apply ms_perp_fs, Sm].
Qed.
(** The sum of the two subspaces. *)
Lemma sum_parts : Forall vec (ms ++ es ++ fs) /\ ~ meq (wedge (ms ++ es ++ fs)) [] /\ forall x, in_span (ms ++ es ++ fs) x <-> in_span (av ++ bv) x.
Proof.
  assert (V1 : Forall vec (es ++ fs)) by (apply Forall_app; split; [apply (d_es _ _ _ _ _ D)|apply (d_fs _ _ _ _ _ D)]).
  split; [apply Forall_app; split; [apply (d_ms _ _ _ _ _ D)|exact V1]|]. split.
  - apply (disjoint_wedge n Hn); [apply (d_ms _ _ _ _ _ D)|exact V1|apply (d_nm _ _ _ _ _ D)|apply (d_nd _ _ _ _ _ D)|]. intros x Vx H1 H2. apply (ip_zero n Hn x Vx). refine (perp_span (es ++ fs) x x _ H2). apply perp_app; [apply ms_perp_es, H1|apply ms_perp_fs, H1].
  - intros x. split; apply span_trans.
    + rewrite !Forall_app. split; [|split]; apply Forall_forall; intros y Hy; [apply span_app_l, (d_sm _ _ _ _ _ D), span_in, Hy|apply span_app_l, (d_se _ _ _ _ _ D), span_in, Hy|apply span_app_r, (d_sf _ _ _ _ _ D), span_in, Hy].
    + apply Forall_app. split; apply Forall_forall; intros y Hy.
      * pose proof a_in as H. rewrite Forall_forall in H. refine (span_trans _ _ y _ (H y Hy)). apply Forall_forall. intros z Hz. apply span_in. rewrite app_assoc. apply in_or_app. left. exact Hz.
      * pose proof b_in as H. rewrite Forall_forall in H. refine (span_trans _ _ y _ (H y Hy)). apply Forall_forall. intros z Hz. apply span_in. apply in_app_or in Hz. apply in_or_app. destruct Hz; [left; assumption|right; apply in_or_app; right; assumption].
Qed.
(** The projections of a spanning list of the complement of the delta product span the common part. *)
Theorem meet_covered ds qs ps : (forall x, vec x -> perp es x -> perp fs x -> in_span ds x) -> Forall vec qs -> Forall (in_span qs) ds -> Forall2 (projected n av) qs ps -> Forall (in_span ps) ms.
Proof.
  intros SD Vq Sq P. apply Forall_forall. intros m Hm. pose proof (d_ms _ _ _ _ _ D) as Vm. rewrite Forall_forall in Vm. specialize (Vm m Hm).
  assert (Im : in_span ms m) by (apply span_in, Hm). assert (Sd : in_span ds m) by (apply SD; [exact Vm|apply ms_perp_es, Im|apply ms_perp_fs, Im]).
  destruct (span_trans qs ds m Sq Sd) as [cs E]. exists cs. pose proof (comb_projected n av qs ps cs P) as Q. destruct (projected_vec n av qs ps P) as [Vp Sp].
  apply minus_eq, (ip_zero n Hn); [apply minus_vec; [exact Vm|apply (comb_vec n), Vp]|].
  apply (perp_span av).
  - unfold MeetMath.perp in *. rewrite Forall_forall in *. intros v Hv. specialize (Q v Hv). rewrite ip_minus in *. rewrite (ip_m m (combination cs qs) v v E (reflexivity v)). exact Q.
  - apply minus_span; [apply (d_sm _ _ _ _ _ D), Im|]. apply (span_comb av), Sp.
Qed.
Lemma ps_space ps : Forall vec ps -> Forall (in_span ms) ps -> ~ meq (wedge ps) [] -> length ps = length ms -> forall x, in_span ps x <-> in_span ms x.
Proof. intros Vp Sp NP L. apply (same_dimension n Hn); try assumption; [apply (d_ms _ _ _ _ _ D)|lia]. Qed.
End Parts.

(** ** Right contractions *)
Lemma part_scale k c a : meq (grade_part k (scale c a)) (scale c (grade_part k a)). Proof. rewrite grade_part_scale. reflexivity. Qed.
Lemma part_rev k m : grade_part k (mrev m) = mrev (grade_part k m).
Proof.
  unfold mrev, linear. induction m as [|[c b] m IH]; [reflexivity|]. cbn [flat_map]. rewrite grade_part_app, IH. unfold rev_blade. cbn [scale map fst snd]. rewrite grade_part_1. cbn [grade_part filter snd]. change (filter (fun p => N.eqb (grade_of (snd p)) k) m) with (grade_part k m).
  destruct (N.eqb (grade_of b) k); reflexivity.
Qed.
Lemma rcont_lcont r s a b : (s <= r)%N -> homog r a -> homog s b -> exists w, w <> 0 /\ meq (a >> b) (scale w (b << a)).
Proof.
  intros L Ha Hb. set (sg := fun k => (if N.odd (k * (k - 1) / 2) then -1 else 1)). assert (S0 : forall k, sg k <> 0) by (intros k; unfold sg; destruct N.odd; lra). assert (S2 : forall k, sg k * sg k = 1) by (intros k; unfold sg; destruct N.odd; lra).
  exists (sg (r - s)%N * sg r * sg s). split; [repeat apply Rmult_integral_contrapositive_currified; apply S0|].
  refine (transitivity (rcont_part e1 r s a b L Ha Hb) _). assert (QL : meq (b << a) (grade_part (r - s) (b ** a))) by exact (lcont_part e1 s r b a L Hb Ha).
  assert (QR : meq (mrev (b ** a)) (scale (sg r * sg s) (a ** b))).
  { refine (transitivity (rev_gp e1 b a) _). refine (transitivity (gp_c _ _ _ _ (rev_homog r a Ha) (rev_homog s b Hb)) _). apply gp_scl. }
  assert (QP : meq (grade_part (r - s) (mrev (b ** a))) (scale (sg (r - s)%N) (grade_part (r - s) (b ** a)))).
  { refine (transitivity _ (rev_homog (r - s) _ (homog_grade_part _ _))). rewrite part_rev. reflexivity. }
  assert (QQ : meq (grade_part (r - s) (mrev (b ** a))) (scale (sg r * sg s) (grade_part (r - s) (a ** b)))) by (refine (transitivity (grade_part_meq _ _ eq_refl _ _ QR) _); apply part_scale).
  intros k. rewrite cs_, (QL k). specialize (QP k). specialize (QQ k). rewrite QQ, !cs_ in QP. change (bilinear (gp_blade e1) a b) with (a ** b).
  transitivity (sg r * sg s * (sg r * sg s * coef (grade_part (r - s) (a ** b)) k)); [|rewrite QP; ring]. transitivity ((sg r * sg r) * (sg s * sg s) * coef (grade_part (r - s) (a ** b)) k); [rewrite !S2; ring|ring].
Qed.

(** ** The two ways to the meet and the join *)
Lemma mk_blade vs w m : Forall vec vs -> w <> 0 -> meq m (scale w (wedge vs)) -> ~ meq (wedge vs) [] -> blade_of n vs m.
Proof. intros V W Q NZ. split; [apply vectors_vec; [exact Hn|exact V]|]. split; [exists w; exact Q|]. intros Z. apply NZ, (scale_nz w); [exact W|]. exact (transitivity (symmetry Q) Z). Qed.
Lemma rc_c a a' b b' : meq a a' -> meq b b' -> meq (a >> b) (a' >> b'). Proof. intros X Y. apply bilinear_meq; assumption. Qed.
Lemma rc_scl a b c d : meq (scale c a >> scale d b) (scale (c * d) (a >> b)).
Proof. refine (transitivity (Clifford.bilinear_scale_l (rcont_blade e1) c a (scale d b)) _). intros k. rewrite !cs_, (Clifford.bilinear_scale_r (rcont_blade e1) d a b k), cs_. ring. Qed.
Theorem join_from_meet av bv ms es fs ps A B M : blade_of n av A -> blade_of n bv B -> decomposed av bv ms es fs -> Forall vec ps -> Forall (in_span ms) ps -> ~ meq M [] -> length ps = length ms -> meq M (wedge ps) ->
  norm2 e1 M <> 0 /\ exists js, blade_of n js ((A >> minv e1 M) ^^ B) /\ forall x, in_span js x <-> in_span (av ++ bv) x.
Proof.
  intros BA BB D Vp Sp NM L QM. destruct (blade_inv n Hn av A BA) as (Va & wa & Wa & QA & NA). destruct (blade_inv n Hn bv B BB) as (Vb & wb & Wb & QB & NB).
  assert (NP : ~ meq (wedge ps) []) by (intros Z; exact (NM (transitivity QM Z))). pose proof (ps_space av bv ms es fs D ps Vp Sp NP L) as SP.
  destruct (blade_inverse n Hn ps 1 Vp NP ltac:(lra)) as (N0 & s & S0 & QI). assert (Q1 : meq M (scale 1 (wedge ps))) by (refine (transitivity QM _); intros k; rewrite cs_; ring).
  split; [rewrite (norm2_meq e1 _ _ Q1); exact N0|].
  assert (Pa : Forall (in_span av) ps) by (eapply Forall_impl; [|exact Sp]; intros x Hx; apply (d_sm _ _ _ _ _ D), Hx). assert (Pb : Forall (in_span bv) ps) by (eapply Forall_impl; [|exact Sp]; intros x Hx; apply (d_sm _ _ _ _ _ D), Hx).
  destruct (complement n Hn ps av Vp Va NP NA Pa) as (gs & w & w' & W0 & W0' & Vg & NG & _ & QC & LC & SG & SS).
  destruct (rcont_lcont (N.of_nat (length av)) (N.of_nat (length ps)) (wedge av) (wedge ps) ltac:(lia) (wedge_homog n Hn av Va) (wedge_homog n Hn ps Vp)) as (t & T0 & QR).
  exists (gs ++ bv). split.
  - apply (mk_blade _ (wa * s * t * w' * wb)); [apply Forall_app; split; assumption|repeat apply Rmult_integral_contrapositive_currified; assumption| |].
    + assert (Q2 : meq (A >> minv e1 M) (scale (wa * s * t * w') (wedge gs))).
      { refine (transitivity (rc_c _ _ _ _ QA (transitivity (minv_meq e1 _ _ Q1) QI)) _). refine (transitivity (rc_scl _ _ _ _) _). intros k. rewrite !cs_, (QR k), cs_, (QC k), cs_. ring. }
      refine (transitivity (op_c _ _ _ _ Q2 QB) _). refine (transitivity (op_scl_l _ _ _) _). intros k. rewrite !cs_, (op_scl_r wb (wedge gs) (wedge bv) k), cs_, (wedge_app gs bv k). ring.
    + apply (disjoint_wedge n Hn); try assumption. intros x Vx H1 H2. apply (ip_zero n Hn x Vx). apply SG in H1. apply (perp_span ps x x); [tauto|]. apply SP, (d_sm _ _ _ _ _ D). tauto.
  - intros x. split; apply span_trans; apply Forall_app; split; apply Forall_forall; intros y Hy.
    + apply span_app_l, SG, span_in, Hy.
    + apply span_app_r, span_in, Hy.
    + assert (Y : in_span (ps ++ gs) y) by (apply SS, span_in, Hy). refine (span_trans _ _ y _ Y). apply Forall_app. split; [eapply Forall_impl; [|exact Pb]; intros z; apply span_app_r|apply Forall_forall; intros z Hz; apply span_app_l, span_in, Hz].
    + apply span_app_r, span_in, Hy.
Qed.

(** The basis of the whole space and the pseudoscalar. *)
Definition everything : list mv := map basis (indices (2 ^ n - 1)).
Definition whole : mv := [(1, (2 ^ n - 1)%N)].
Lemma whole_lt : (2 ^ n - 1 < 2 ^ n)%N. Proof. assert (2 ^ n <> 0)%N by (apply N.pow_nonzero; discriminate). lia. Qed.
Lemma every_vec : Forall vec everything.
Proof. unfold everything. rewrite Forall_map. apply Forall_forall. intros i Hi. apply basis_vec. exact (indices_below n _ i whole_lt Hi). Qed.
Lemma every_wedge : meq (wedge everything) whole.
Proof.
  unfold everything. refine (transitivity (wedge_basis n _ (indices_incr _) _) _); [intros y Hy; exact (indices_below n _ y whole_lt Hy)|]. rewrite (bits_indices _ (pow2_64 n _ (n64 n Hn) whole_lt)). reflexivity.
Qed.
Lemma every_nz : ~ meq (wedge everything) [].
Proof. intros Z. pose proof (transitivity (symmetry every_wedge) Z (2 ^ n - 1)%N) as H. unfold whole in H. cbn [coef] in H. rewrite N.eqb_refl in H. lra. Qed.
Lemma every_in x : vec x -> in_span everything x.
Proof.
  intros V. induction V as [|[c b] x (a & La & Eb) V IH]; [apply span_zero; reflexivity|]. cbn [snd] in Eb. subst b. apply (span_meq _ (scale c (basis a) ++ x)); [intros k; unfold basis; cbn [scale map fst snd app coef]; rewrite Rmult_1_r; reflexivity|].
  apply span_add; [apply span_scale, span_in|exact IH]. unfold everything. apply in_map, indices_spec. split; [lia|]. rewrite <- N.pred_sub, <- N.ones_equiv. apply N.ones_spec_low. exact La.
Qed.
Lemma every_length : N.of_nat (length everything) = n.
Proof. unfold everything. rewrite map_length. change (grade_of (2 ^ n - 1) = n). apply grade_mask. lia. Qed.
Lemma whole_inverse : norm2 e1 whole <> 0 /\ exists s, s <> 0 /\ meq (minv e1 whole) (scale s (wedge everything)).
Proof.
  destruct (blade_inverse n Hn everything 1 every_vec every_nz ltac:(lra)) as (N0 & s & S0 & Q). assert (Q1 : meq whole (scale 1 (wedge everything))) by (refine (transitivity (symmetry every_wedge) _); intros k; rewrite cs_; ring).
  split; [rewrite (norm2_meq e1 _ _ Q1); exact N0|]. exists s. split; [exact S0|]. exact (transitivity (minv_meq e1 _ _ Q1) Q).
Qed.
Theorem dual_delta gs c Dl : Forall vec gs -> ~ meq (wedge gs) [] -> c <> 0 -> meq Dl (scale c (wedge gs)) -> exists ds w, w <> 0 /\ Forall vec ds /\ ~ meq (wedge ds) [] /\ meq (Dl << minv e1 whole) (scale w (wedge ds)) /\ (forall x, vec x -> (in_span ds x <-> perp gs x)).
Proof.
  intros V NZ C0 Q. destruct whole_inverse as (_ & s & S0 & QI). destruct (contract n Hn gs everything every_vec every_nz V NZ) as (ds & w & W0 & Vd & QD & ND & SD); [eapply Forall_impl; [|exact V]; intros x; apply every_in|].
  exists ds, (c * s * w). split; [repeat apply Rmult_integral_contrapositive_currified; assumption|]. split; [exact Vd|]. split; [exact ND|]. split.
  - refine (transitivity (lc_c _ _ _ _ Q QI) _). refine (transitivity (lc_scl_l _ _ _) _). intros k. rewrite cs_, (lc_scl_r _ _ _ k), !cs_, (QD k), cs_. ring.
  - intros x X. rewrite SD. pose proof (every_in x X). tauto.
Qed.
Theorem meet_from_join av bv ms es fs rs A B J : blade_of n av A -> blade_of n bv B -> decomposed av bv ms es fs -> Forall vec rs -> Forall (perp av) rs -> Forall (perp bv) rs -> ~ meq J [] -> N.of_nat (length rs + length (ms ++ es ++ fs)) = n -> meq J (lcs rs whole) ->
  norm2 e1 J <> 0 /\ (exists cs, blade_of n cs J /\ forall x, in_span cs x <-> in_span (av ++ bv) x) /\ exists ms', blade_of n ms' ((B << minv e1 J) << A) /\ forall x, in_span ms' x <-> in_span av x /\ in_span bv x.
Proof.
  intros BA BB D Vr Pa Pb NJ L QJ. destruct (blade_inv n Hn av A BA) as (Va & wa & Wa & QA & NA). destruct (blade_inv n Hn bv B BB) as (Vb & wb & Wb & QB & NB).
  assert (Q1 : meq J (wedge rs << wedge everything)). { refine (transitivity QJ _). refine (transitivity (lcs_meq rs _ _ (symmetry every_wedge)) _). apply (lcs_wedge n Hn); [exact Vr|apply wedge_in, every_vec]. }
  assert (NR : ~ meq (wedge rs) []). { intros Z. apply NJ. refine (transitivity Q1 _). refine (transitivity (lc_c _ _ _ _ Z (reflexivity _)) _). reflexivity. }
  destruct (complement n Hn rs everything Vr every_vec NR every_nz) as (gs & w & w' & W0 & W0' & Vg & NG & _ & QC & LC & SG & SS); [eapply Forall_impl; [|exact Vr]; intros x; apply every_in|].
  destruct (sum_parts av bv ms es fs D) as (Vj & Nj & Sj).
  assert (Ij : Forall (in_span gs) (ms ++ es ++ fs)).
  { apply Forall_forall. intros x Hx. assert (X : vec x) by (rewrite Forall_forall in Vj; auto). apply SG. split; [apply every_in, X|]. assert (Y : in_span (av ++ bv) x) by (apply Sj, span_in, Hx).
    apply Forall_forall. intros r Hr. rewrite ip_s. refine (perp_span (av ++ bv) r x _ Y). rewrite Forall_forall in Pa, Pb. apply perp_app; auto. }
  assert (SJ : forall x, in_span gs x <-> in_span (av ++ bv) x).
  { intros x. rewrite <- Sj. symmetry. apply (same_dimension n Hn); try assumption. pose proof every_length. lia. }
  assert (Q2 : meq J (scale w' (wedge gs))) by exact (transitivity Q1 QC). destruct (blade_inverse n Hn gs w' Vg NG W0') as (N0 & s & S0 & QI).
  split; [rewrite (norm2_meq e1 _ _ Q2); exact N0|]. split; [exists gs; split; [exact (mk_blade gs w' J Vg W0' Q2 NG)|exact SJ]|].
  destruct (meet_blade n Hn av bv gs Va Vb Vg NA NB NG SJ) as (ms' & t & T0 & VM & QM & NM & SM). exists ms'. split; [|exact SM].
  apply (mk_blade _ (wa * (wb * s) * t)); [exact VM|repeat apply Rmult_integral_contrapositive_currified; assumption| |exact NM].
  assert (Q3 : meq (B << minv e1 J) (scale (wb * s) (wedge bv << wedge gs))). { refine (transitivity (lc_c _ _ _ _ QB (transitivity (minv_meq e1 _ _ Q2) QI)) _). refine (transitivity (lc_scl_l _ _ _) _). intros k. rewrite cs_, (lc_scl_r _ _ _ k), !cs_. ring. }
  refine (transitivity (lc_c _ _ _ _ Q3 QA) _). refine (transitivity (lc_scl_r _ _ _) _). intros k. rewrite cs_, (lc_scl_l _ _ _ k), !cs_, (QM k), cs_. ring.
Qed.
(** What is left of the whole space without vectors orthogonal to both contains both. *)
Theorem join_covers av bv rs J : Forall vec av -> Forall vec bv -> Forall vec rs -> Forall (perp av) rs -> Forall (perp bv) rs -> ~ meq J [] -> meq J (lcs rs whole) ->
  exists cs, blade_of n cs J /\ Forall (in_span cs) (av ++ bv).
Proof.
  intros Va Vb Vr Pa Pb NJ QJ.
  assert (Q1 : meq J (wedge rs << wedge everything)). { refine (transitivity QJ _). refine (transitivity (lcs_meq rs _ _ (symmetry every_wedge)) _). apply (lcs_wedge n Hn); [exact Vr|apply wedge_in, every_vec]. }
  assert (NR : ~ meq (wedge rs) []). { intros Z. apply NJ. refine (transitivity Q1 _). refine (transitivity (lc_c _ _ _ _ Z (reflexivity _)) _). reflexivity. }
  destruct (complement n Hn rs everything Vr every_vec NR every_nz) as (gs & w & w' & W0 & W0' & Vg & NG & _ & QC & LC & SG & SS); [eapply Forall_impl; [|exact Vr]; intros x; apply every_in|].
  exists gs. split; [exact (mk_blade gs w' J Vg W0' (transitivity Q1 QC) NG)|]. apply Forall_forall. intros x Hx. assert (X : vec x) by (apply in_app_or in Hx; rewrite Forall_forall in Va, Vb; destruct Hx; auto).
  apply SG. split; [apply every_in, X|]. apply Forall_forall. intros r Hr. rewrite ip_s. refine (perp_span (av ++ bv) r x _ (span_in _ _ Hx)). rewrite Forall_forall in Pa, Pb. apply perp_app; auto.
Qed.
End Space.
