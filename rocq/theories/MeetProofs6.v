(** Correctness of the meet and join of two blades from their delta product, continued. *)
From Coq Require Import NArith ZArith List Bool Lia Reals Lra Morphisms Setoid RelationClasses Classical_Prop.
From Verif Require Import Bits SpecBits BitsBase BitsOnes BitsProofs Visit VisitProofs Expr ExprBase Sem Wf SpecMv SpecAlg MvBase RPowProofs Simp SimpProofs SmartProofs Comp Mapping Ops CompProofs SpecOrder OrderProofs GradeProofs MappingProofs ProductProofs OuterProofs GumProofs AlgProofs AlgProofs2 Clifford Clifford2 Clifford3 Wick2 Clifford5 EvalC SpecEval Lazy SpecLazy LazyProofs LazyProofs2 CanonProofs PolyProofs Api Extra SpecApi SpecExtra ApiProofs ApiProofs2 ApiProofs3 ExtraProofs Grade SpecGrade General GenMul KeepProofs KeepProofs2 KeepProofs3 KeepProofs4 Norm SpecNorm NormProofs4 ForEach SpecUtil UtilProofs Copy CopyProofs Build BuildProofs UnitProofs SimpProofs2 PresProofs CompProofs2 NormProofs2 NormProofs5 SpecGeneral SpecSpaces GenApi SpecGeo GeoApi NormProofs7 PropApi PropGrade PropUtil SpecMeet Meet GaProofs JoinMath MeetMath MeetMath2 MeetMath3 MeetMath4 MeetProofs MeetProofs2 MeetProofs3 SpecMeet2 MeetProofs5.
Import ListNotations.
Local Open Scope R_scope.
Local Opaque sign_of indices.

(** ** The delta product *)
Lemma delta_value dim av bv ms es fs A B t mr : (dim <= 63)%N -> blade_of dim av A -> blade_of dim bv B -> decomposed dim av bv ms es fs -> 0 <= t -> top_above t A B -> largest_part t (mgp e1 A B) mr ->
  exists c, c <> 0 /\ meq mr (scale c (wedge (es ++ fs))) /\ meq (mgp e1 A B) (scale c (mgp e1 (wedge es) (wedge fs))) /\ forall s, top_above s A B -> exists k, s < Rabs (coef mr k).
Proof.
  intros Hd Ba Bb D T HT LP. destruct (blade_inv dim Hd av A Ba) as (VA & wa & Wa & QA & NA). destruct (blade_inv dim Hd bv B Bb) as (VB & wb & Wb & QB & NB).
  destruct (d_gp _ _ _ _ _ _ D) as (w & W0 & QG). set (c := wa * wb * w). assert (C0 : c <> 0) by (unfold c; repeat apply Rmult_integral_contrapositive_currified; assumption).
  assert (Q : meq (mgp e1 A B) (scale c (mgp e1 (wedge es) (wedge fs)))). { refine (transitivity (gp_c _ _ _ _ QA QB) _). refine (transitivity (gp_scl _ _ _ _) _). intros k. rewrite !cs_, (QG k), cs_. unfold c. ring. }
  pose proof (d_es _ _ _ _ _ _ D) as Ve. pose proof (d_fs _ _ _ _ _ _ D) as Vf. pose proof (wedge_homog dim Hd es Ve) as He. pose proof (wedge_homog dim Hd fs Vf) as Hf.
  set (g := (N.of_nat (length es) + N.of_nat (length fs))%N). pose proof (top_part dim Hd _ _ _ _ (wedge_in dim es Ve) He Hf) as TP. fold g in TP.
  assert (QW : meq (wedge (es ++ fs)) (grade_part g (mgp e1 (wedge es) (wedge fs)))) by exact (transitivity (wedge_app es fs) TP).
  assert (HI : forall k, coef (mgp e1 A B) k <> 0 -> (grade_of k <= g)%N). { intros k C. rewrite (Q k), cs_ in C. apply (no_higher dim Hd _ _ (wedge es) (wedge fs) k He Hf). intros Z. apply C. rewrite Z. ring. }
  assert (VEF : Forall (GaProofs.vec dim) (es ++ fs)) by (apply Forall_app; split; assumption).
  assert (BW : blade_of dim (es ++ fs) (wedge (es ++ fs))) by (apply (mk_blade dim Hd _ 1); [exact VEF|lra|intros k; rewrite cs_; ring|exact (d_nd _ _ _ _ _ _ D)]).
  assert (TG : forall s k, s < Rabs (coef (mgp e1 A B) k) /\ (forall k', coef (mgp e1 A B) k' <> 0 -> (grade_of k' <= grade_of k)%N) -> 0 <= s -> grade_of k = g).
  { intros s k [H1 H2] S0. destruct (blade_coef dim Hd _ _ BW) as (k0 & C0'). destruct (blade_homog dim Hd _ _ k0 BW C0') as [_ G0]. rewrite app_length, Nat2N.inj_add in G0. fold g in G0.
    assert (K0 : (grade_of k0 <= grade_of k)%N). { apply H2. rewrite (Q k0), cs_. rewrite (QW k0), Clifford5.coef_grade_part, G0, N.eqb_refl in C0'. apply Rmult_integral_contrapositive_currified; assumption. }
    assert (K1 : (grade_of k <= g)%N). { apply HI. intros Z. rewrite Z, Rabs_R0 in H1. lra. } rewrite G0 in K0. apply N.le_antisymm; assumption. }
  assert (QM : meq mr (grade_part g (mgp e1 A B))).
  { destruct HT as (k & H1 & H2). pose proof (TG t k (conj H1 H2) T) as Gk. destruct LP as [[No _]|(b & Sb & Mb & Qb)]; [exfalso; exact (No k H1)|]. pose proof (Mb k H1) as L1. rewrite Gk in L1. assert (L2 : (grade_of b <= g)%N). { apply HI. intros Z. unfold significant in Sb. rewrite Z, Rabs_R0 in Sb. lra. }
    replace g with (grade_of b) by (apply N.le_antisymm; assumption). exact Qb. }
  exists c. split; [exact C0|]. split.
  - refine (transitivity QM _). intros k. rewrite Clifford5.coef_grade_part, cs_, (QW k), Clifford5.coef_grade_part, (Q k), cs_. destruct (N.eqb _ _); ring.
  - split; [exact Q|]. intros s (k & H1 & H2). destruct (Rle_dec 0 s) as [S0|S0].
    + exists k. pose proof (TG s k (conj H1 H2) S0) as Gk. rewrite (QM k), Clifford5.coef_grade_part, Gk, N.eqb_refl. exact H1.
    + exists 0%N. pose proof (Rabs_pos (coef mr 0)). lra.
Qed.
Lemma rev_coef m j : exists s, s * s = 1 /\ coef (mrev m) j = s * coef m j.
Proof.
  set (sg := fun b : N => if N.odd (grade_of b * (grade_of b - 1) / 2) then -1 else 1). exists (sg j). split; [unfold sg; destruct N.odd; ring|].
  induction m as [|[c b] m IH]; [cbn [mrev linear flat_map coef]; ring|]. change (mrev ((c, b) :: m)) with (scale c (rev_blade b) ++ mrev m). rewrite ca_, IH, cs_. unfold rev_blade. fold (sg b). cbn [coef]. destruct (N.eqb_spec b j) as [->|Ne]; ring.
Qed.
Lemma top_swap dim av bv A B t : (dim <= 63)%N -> blade_of dim av A -> blade_of dim bv B -> top_above t A B -> top_above t B A.
Proof.
  intros Hd Ba Bb (k & H1 & H2).
  assert (HR : forall vs m, blade_of dim vs m -> exists s, s * s = 1 /\ meq (mrev m) (scale s m)).
  { intros vs m Bm0. destruct (blade_inv dim Hd vs m Bm0) as (Vv & w & W0 & Q & _). exists (if N.odd (N.of_nat (length vs) * (N.of_nat (length vs) - 1) / 2) then -1 else 1). split; [destruct N.odd; ring|].
    refine (transitivity (mrev_meq _ _ Q) _). pose proof (rev_homog (N.of_nat (length vs)) (wedge vs) (wedge_homog dim Hd vs Vv)) as R0. refine (transitivity (linear_scale rev_blade w (wedge vs)) _). intros j. change (linear rev_blade (wedge vs)) with (mrev (wedge vs)). rewrite !cs_, (R0 j), cs_, (Q j), cs_. ring. }
  destruct (HR av A Ba) as (sa & Sa & Qa). destruct (HR bv B Bb) as (sb & Sb & Qb).
  assert (QR : meq (mgp e1 B A) (scale (sa * sb) (mrev (mgp e1 A B)))).
  { intros j. pose proof (rev_gp e1 A B j) as R1. change (coef (mrev (mgp e1 A B)) j = coef (mgp e1 (mrev B) (mrev A)) j) in R1. rewrite cs_, R1, (gp_c _ _ _ _ Qb Qa j), (gp_scl _ _ _ _ j), cs_.
    transitivity ((sa * sa) * (sb * sb) * coef (mgp e1 B A) j); [rewrite Sa, Sb; ring|ring]. }
  assert (QC : forall j, exists s, s * s = 1 /\ coef (mgp e1 B A) j = s * coef (mgp e1 A B) j).
  { intros j. rewrite (QR j), cs_. destruct (rev_coef (mgp e1 A B) j) as (s & S1 & ->). exists (sa * sb * s). split; [|ring]. transitivity ((sa * sa) * (sb * sb) * (s * s)); [ring|rewrite Sa, Sb, S1; ring]. }
  exists k. split.
  - destruct (QC k) as (s & S1 & Ck). change (t < Rabs (coef (mgp e1 B A) k)). rewrite Ck, Rabs_mult. assert (As : Rabs s = 1). { assert (Z : Rabs s * Rabs s = 1) by (rewrite <- Rabs_mult, S1; apply Rabs_R1). pose proof (Rabs_pos s). nra. } rewrite As, Rmult_1_l. exact H1.
  - intros k' C. apply H2. destruct (QC k') as (s & S1 & Ck). change (coef (mgp e1 B A) k' <> 0) in C. rewrite Ck in C. intros Z. apply C. change (coef (mgp e1 A B) k' = 0) in Z. rewrite Z. ring.
Qed.

(** ** The function *)
Lemma done_inj {T} (x y : T) : Done x = Done y -> x = y. Proof. congruence. Qed.
Lemma fold_max_le (l : list N) d : Forall (fun x => (x <= d)%N) l -> (fold_right N.max 0 l <= d)%N.
Proof. induction 1 as [|x l H _ IH]; cbn [fold_right]; lia. Qed.
Lemma largest_le d a : (d <= 63)%N -> int_object d a -> (largest_grade_of (cexpr a) <= d)%N.
Proof.
  intros Hd (M & -> & CM & _ & BM). destruct M as [|p M]; [replace (largest_grade_of (mv_of [])) with 0%N by (vm_compute; reflexivity); apply N.le_0_l|]. assert (NM : p :: M <> []) by discriminate. revert CM BM NM. generalize (p :: M). clear p M. intros M CM BM NM.
  assert (HC : comps_of (mv_of M) = map entry M). { change (comps_of (mv_of M)) with (components (mv_of M)). rewrite entries_comps. destruct M; [contradiction|reflexivity]. }
  unfold largest_grade_of. rewrite HC, !map_map. apply fold_max_le, Forall_map, Forall_forall. intros [k c] I. rewrite Forall_forall in BM. pose proof (proj1 (BM _ I)) as L. cbn [fst] in L. cbn [entry fst snd].
  rewrite (GenMul.blade_grades k 63 (small_blade d k Hd L) ltac:(lia)). pose proof (grade_le k d ltac:(lia) L). rewrite high_grade by lia. lia.
Qed.
Section Impl.
Variables (F n fuel : nat) (dim : N) (a b : cliff) (av bv : list mv) (A B : mv) (tint : bool) (tol : R) (dint : bool) (dtol : R).
Hypothesis Hdim : (dim <= 63)%N.
Hypothesis Oa : int_object dim a.
Hypothesis Ob : int_object dim b.
Hypothesis Va : value a A.
Hypothesis Vb : value b B.
Hypothesis Ba : blade_of dim av A.
Hypothesis Bb : blade_of dim bv B.
Hypothesis Sa : (length av <= 7)%nat.
Hypothesis Sb : (length bv <= 7)%nat.
Hypothesis HI : (cint a && cint b)%bool = false.
Hypothesis Ti : tint = true -> isint tol.
Hypothesis Htol : 0 <= tol.
Hypothesis Di : dint = true -> isint dtol.
Hypothesis Hdtol : 0 <= dtol.
Hypothesis Top : top_above tol A B.
Hypothesis Dtop : top_above dtol A B.
Hypothesis Exact : inverses_exact F n fuel dim a b dint dtol.

Definition result_ok (r : cliff * cliff) : Prop := outcome dim av bv tol (fst r) (snd r).

Lemma negated m j : outcome dim av bv tol m j -> returns result_ok (m' <~ ran (neg F n m) ;; j' <~ ran (neg F n j) ;; Some (Ret (m', j'))).
Proof.
  assert (HN : forall x mx, int_object dim x -> value x mx -> returns (fun y => int_object dim y /\ value y (scale (-1) mx)) (ran (neg F n x))).
  { intros x mx Ox Vx. apply returns_ran. intros o Eo. exact (C24_neg dim F n x mx o Hdim Ox Vx Eo). }
  intros [[[O V]|[O V]]|(M & J & cs & gs & O1 & O2 & V1 & V2 & B1 & B2 & H)].
  - apply (returns_bind _ _ _ _ (HN m [] O V)). intros m' _ [O' V']. apply (returns_bind _ _ _ _ (returns_any _)). intros j' _ _. apply returns_ret. left. left. split; [exact O'|exact V'].
  - apply (returns_bind _ _ _ _ (returns_any _)). intros m' _ _. apply (returns_bind _ _ _ _ (HN j [] O V)). intros j' _ [O' V']. apply returns_ret. left. right. split; [exact O'|exact V'].
  - apply (returns_bind _ _ _ _ (HN m M O1 V1)). intros m' _ [O1' V1']. apply (returns_bind _ _ _ _ (HN j J O2 V2)). intros j' _ [O2' V2']. apply returns_ret. right. exists (scale (-1) M), (scale (-1) J), cs, gs.
    split; [exact O1'|]. split; [exact O2'|]. split; [exact V1'|]. split; [exact V2'|]. split; [apply blade_scale; [lra|exact B1]|]. split; [apply blade_scale; [lra|exact B2]|]. exact H.
Qed.
Lemma zeros_store l : slots l -> zeros (stored_type l) false = store l (repeat 0 (length l)).
Proof. intros [Ne _]. unfold zeros, store. destruct (count_stored l Ne) as [-> ->]. reflexivity. Qed.

Lemma impl_ok flip : returns result_ok (meet_and_join_impl F n fuel dim flip a (Z.of_nat (length av)) b (Z.of_nat (length bv)) tint tol (scalar_obj dint dtol)).
Proof.
  destruct Exact as (HD & Ha & Hdd & Hst). destruct (blade_inv dim Hdim av A Ba) as (VA & wa & Wa & QA & NA). destruct (blade_inv dim Hdim bv B Bb) as (VB & wb & Wb & QB & NB).
  destruct (decompose dim Hdim av bv VA VB NA NB) as (ms & es & fs & D). destruct (bounds dim a b av bv ms es fs A B Hdim Oa Ob Va Vb Ba Bb Sa Sb D) as (G1 & G2 & G3).
  unfold meet_and_join_impl. destruct (meet_type F n fuel dim (cexpr a) (cexpr b)) as [mt|] eqn:Em; [|intros r Er; discriminate Er]. cbn [typed obind].
  destruct (full_join_type F n fuel dim (cexpr a) (cexpr b)) as [jt|] eqn:Ej; [|intros r Er; discriminate Er]. cbn [typed obind].
  assert (Lg : (N.min (largest_grade_of (cexpr a)) (largest_grade_of (cexpr b)) <= dim)%N) by (pose proof (largest_le dim a Hdim Oa); lia).
  destruct (full_some F n fuel dim 0 _ mt (N.le_0_l _) Lg Hdim Em) as (lm & Bm & ->). destruct (full_some F n fuel dim _ dim jt (N.le_trans _ _ _ G2 G3) (N.le_refl dim) Hdim Ej) as (lj & Bj & ->).
  pose proof (m_slots dim a b lm Hdim Bm) as SM. pose proof (j_slots dim a b av bv ms es fs A B lj Hdim Oa Ob Va Vb Ba Bb Sa Sb Bj D) as SJ.
  rewrite HI, (zeros_store lm SM), (zeros_store lj SJ). assert (G : forall k, Z.eqb (Z.of_nat k) (-2) = false) by (intros k; apply Z.eqb_neq; lia). rewrite !G. cbn [orb].
  apply (returns_bind (fun dl => dp F n Real a b (scalar_obj dint dtol) = Some (Done dl) /\ int_object dim dl /\ exists mr, value dl mr /\ largest_part dtol (mgp e1 A B) mr)).
  { intros dl Edl. apply ran_done in Edl. split; [exact Edl|]. destruct (dp_ok F n dim Hdim Real a b A B dint dtol _ Logic.I Oa Ob Va Vb Di Hdtol HD Edl) as [X|(r & mr & X & Or & Vr & LP)]; [discriminate X|]. apply done_inj in X. subst r. split; [exact Or|]. exists mr. auto. }
  intros dl _ (Edl & Od & mr & Vd & LP). destruct (delta_value dim av bv ms es fs A B dtol mr Hdim Ba Bb D Hdtol Dtop LP) as (c & C0 & Qd & _ & Hs).
  pose proof (d_es _ _ _ _ _ _ D) as Ve. pose proof (d_fs _ _ _ _ _ _ D) as Vf. assert (VEF : Forall (GaProofs.vec dim) (es ++ fs)) by (apply Forall_app; split; assumption).
  pose proof (mk_blade dim Hdim (es ++ fs) c mr VEF C0 Qd (d_nd _ _ _ _ _ _ D)) as Bd.
  apply (returns_bind _ _ _ _ (holds_returns _ _ (grade_ok F n dim dl (es ++ fs) mr tint tol Hdim Od Vd Bd Ti Htol (Hs tol Top)))). intros gd _ ->.
  pose proof (d_la _ _ _ _ _ _ D) as La. pose proof (d_lb _ _ _ _ _ _ D) as Lb.
  assert (EM : Z.div2 (Z.of_nat (length av) + Z.of_nat (length bv) - Z.of_nat (length (es ++ fs))) = gmeet ms). { unfold gmeet. rewrite app_length, Z.div2_div. replace (Z.of_nat (length av) + Z.of_nat (length bv) - Z.of_nat (length es + length fs))%Z with (Z.of_nat (length ms) * 2)%Z by lia. apply Z.div_mul. discriminate. }
  assert (EJ : Z.div2 (Z.of_nat (length av) + Z.of_nat (length bv) + Z.of_nat (length (es ++ fs))) = gjoin ms es fs). { unfold gjoin. rewrite !app_length, Z.div2_div. replace (Z.of_nat (length av) + Z.of_nat (length bv) + Z.of_nat (length es + length fs))%Z with (Z.of_nat (length ms + (length es + length fs)) * 2)%Z by lia. apply Z.div_mul. discriminate. }
  rewrite EM, EJ. cbv zeta.
  assert (E0 : In 0%N lm) by (apply Bm; split; [apply N.neq_0_lt_0, N.pow_nonzero; discriminate|]; change (grade_of 0) with 0%N; split; apply N.le_0_l).
  apply (returns_bind result_ok).
  2:{ intros [m j] _ Ro. destruct (flip && _)%bool; [exact (negated m j Ro)|apply returns_ret; exact Ro]. }
  assert (Copy1 : returns (fun x => exists vs', x = store lm vs' /\ length vs' = length lm /\ value x [(1, 0%N)]) (copied_to (trivial_copy (c_obj 1) (store lm (repeat 0 (length lm)))))) by exact (copy_all lm _ (c_obj 1) _ SM (one_object 63) one_value).
  destruct (Z.eqb_spec (Z.of_nat (length (es ++ fs))) (Z.of_nat (length av) + Z.of_nat (length bv))) as [Eq|Ne]; cbn [negb].
  - (* nothing in common *)
    rewrite app_length in Eq. assert (M0 : ms = []) by (destruct ms; [reflexivity|cbn [length] in *; lia]). subst ms. destruct (sum_parts dim Hdim av bv [] es fs D) as (_ & _ & SP). cbn [app] in SP.
    apply (returns_bind _ _ _ _ Copy1). intros m _ (vs & -> & Lv & Vm).
    apply (returns_bind (fun x => exists vs', x = store lj vs' /\ length vs' = length lj /\ value x mr)).
    { apply holds_returns, (copy_join lj _ dl mr tol SJ (object_mono _ dim 63 dl Hdim Od) Vd Htol). intros k Ck. destruct (blade_homog dim Hdim _ _ k Bd Ck) as [Lk Gk]. apply (in_lj dim a b av bv lj Hdim Sa Sb Bj k Lk). rewrite Gk, app_length. cbn [length] in La, Lb. lia. }
    intros j _ (ws & -> & Lw & Vj). apply returns_ret. right. exists [(1, 0%N)], mr, [], (es ++ fs). cbn [fst snd].
    split; [exact (store_dim dim lm _ _ vs Bm SM)|]. split; [exact (store_dim dim lj _ _ ws Bj SJ)|]. split; [exact Vm|]. split; [exact Vj|].
    split; [apply (mk_blade dim Hdim [] 1); [constructor|lra|intros k; cbn [wedge]; rewrite cs_; unfold one; ring|cbn [wedge]; intros Z; specialize (Z 0%N); unfold one in Z; cbn in Z; lra]|]. split; [exact Bd|].
    split; [constructor|]. split; [constructor|]. split; [apply Forall_forall; intros x Hx; apply SP, span_in, Hx|]. intros _. split; [intros x X1 X2; apply (d_sm _ _ _ _ _ _ D); auto|apply Forall_forall; intros x Hx; apply SP, span_in, Hx].
  - apply (returns_bind _ _ _ _ Copy1). intros m _ (vs & -> & Lv & Vm). destruct (C40_pseudoscalar dim Hdim) as [Op Vp].
    apply (returns_bind _ _ _ _ (copy_all lj _ (pseudoscalar dim) _ SJ (object_mono _ dim 63 _ Hdim Op) Vp)). intros j _ (ws & -> & Lw & Vj).
    destruct (whole_inverse dim Hdim) as (NW & _). change [(1, (2 ^ dim - 1)%N)] with (whole dim) in *.
    destruct (dual_delta dim Hdim (es ++ fs) c mr VEF (d_nd _ _ _ _ _ _ D) C0 Qd) as (ds & wd & Wd & Vds & Nds & Qdd & Sds). destruct (Hdd dl Edl) as [Hdu Hid].
    apply (returns_bind (fun dd => dual F n Real dl (pseudoscalar dim) = Some (Done dd) /\ int_object 63 dd /\ value dd (scale wd (wedge ds)))).
    { intros dd Edd. apply ran_done in Edd. split; [exact Edd|]. destruct (dual_real_ok F n dl (pseudoscalar dim) _ _ _ (object_mono _ dim 63 dl Hdim Od) (object_mono _ dim 63 _ Hdim Op) Vd Vp NW Hdu Edd) as [X|(r & X & Or & Vr)]; [discriminate X|]. apply done_inj in X. subst r. split; [exact Or|]. exact (value_meq _ _ _ Vr Qdd). }
    intros dd _ (Edd & Odd & Vdd). destruct (blade_inverse dim Hdim ds wd Vds Nds Wd) as (ND & _).
    apply (returns_bind (fun x => int_object 63 x /\ value x (minv e1 (scale wd (wedge ds))))).
    { apply returns_ran. intros o Eo. exact (inv_ok F n dd _ o Odd Vdd ND (Hid dd Edd) Eo). }
    intros idd _ (Oidd & Vidd). destruct (blade_inverse dim Hdim av wa VA NA Wa) as (NA1 & _). rewrite <- (norm2_meq e1 _ _ QA) in NA1.
    apply (returns_bind (fun x => int_object 63 x /\ value x (minv e1 A))).
    { apply returns_ran. intros o Eo. exact (inv_ok F n a _ o (object_mono _ dim 63 a Hdim Oa) Va NA1 Ha Eo). }
    intros il _ (Oil & Vil). assert (Bdd : blade_of dim ds (scale wd (wedge ds))) by (apply (mk_blade dim Hdim ds wd); [exact Vds|exact Wd|reflexivity|exact Nds]).
    apply (returns_bind (fun p => (fst p < 2 ^ dim)%N /\ coef (wedge ds) (fst p) <> 0)).
    { intros p Ep. destruct (holds_returns _ _ (largest_ok 63 dd _ Odd Vdd (proj2 (proj2 Bdd))) p Ep) as (_ & Cp & _). split; [exact (proj1 (blade_homog dim Hdim _ _ _ Bdd Cp))|]. rewrite cs_ in Cp. intros Z. apply Cp. rewrite Z. ring. }
    intros [E jx] _ [LE CE]. cbn [fst] in LE, CE |- *.
    apply (returns_bind (ended dim av bv tol)).
    { assert (Hinv : forall l vs, l = lm \/ l = lj -> length vs = length l -> computed (body1 (inv F n Real)) [store l vs]).
      { intros l vs0 [->| ->] Lx; (apply Hst; [auto|]); [rewrite (proj1 (count_stored lm (proj1 SM)))|rewrite (proj1 (count_stored lj (proj1 SJ)))]; exact Lx. }
      apply (loop_stop _ (running dim av bv ms ds tol lm lj)); [apply (pow2_64 dim); [lia|exact LE]| | |].
      - exists [], []. split; [|constructor]. exists vs, ws. cbn [length wedge lcs fold_right]. rewrite app_length in Ne.
        repeat (split; [first [reflexivity|assumption|constructor|lia]|]). constructor.
      - intros done i rest s Ei Hr. exact (meet_step_ok F n fuel dim a b il dd idd av bv ms es fs ds A B wd tol lm lj Hdim Oa Ob Va Vb Ba Bb Sa Sb Htol Bm Bj D Vds Nds Wd Sds Odd Vdd Oidd Vidd Oil Vil Hinv E done i rest s LE Ei Hr).
      - intros s Hr. exact (loop_end dim a b av bv ms es fs ds A B tol lm lj Hdim Oa Ob Va Vb Ba Bb Sa Sb Bm Bj D Vds Nds Sds E s LE CE Hr). }
    intros [[[m g1] j] g2] _ HE. apply returns_ret. exact HE.
Qed.
End Impl.

Lemma outcome_swap dim av bv tol m j : outcome dim bv av tol m j -> outcome dim av bv tol m j.
Proof.
  intros [H|(M & J & cs & gs & O1 & O2 & V1 & V2 & B1 & B2 & C1 & C2 & C3 & H)]; [left; exact H|right]. exists M, J, cs, gs. do 6 (split; [assumption|]). split; [exact C2|]. split; [exact C1|].
  split; [apply Forall_app in C3; apply Forall_app; tauto|]. intros T. destruct (H T) as [H1 H2]. split; [intros x X1 X2; apply H1; assumption|]. eapply Forall_impl; [|exact H2]. intros x Hx. refine (span_trans _ _ x _ Hx). apply Forall_forall. intros y Hy. apply span_in, in_or_app. apply in_app_or in Hy. tauto.
Qed.
Theorem meet_and_join_ok F n fuel dim a b av bv A B tint tol dint dtol : (dim <= 63)%N -> int_object dim a -> int_object dim b -> value a A -> value b B -> blade_of dim av A -> blade_of dim bv B ->
  (length av <= 7)%nat -> (length bv <= 7)%nat -> (cint a && cint b)%bool = false -> (tint = true -> isint tol) -> 0 <= tol -> (dint = true -> isint dtol) -> 0 <= dtol ->
  (exists k, tol < Rabs (coef A k)) -> (exists k, tol < Rabs (coef B k)) -> top_above tol A B -> top_above dtol A B ->
  (if (length av <=? length bv)%nat then inverses_exact F n fuel dim a b dint dtol else inverses_exact F n fuel dim b a dint dtol) ->
  returns (fun r => outcome dim av bv tol (fst r) (snd r)) (meet_and_join F n fuel dim a b tint tol (scalar_obj dint dtol)).
Proof.
  intros Hd Oa Ob Va Vb Ba Bb Sa Sb HI Ti T Di Dt Ka Kb T1 T2 X. unfold meet_and_join.
  apply (returns_bind _ _ _ _ (holds_returns _ _ (grade_ok F n dim a av A tint tol Hd Oa Va Ba Ti T Ka))). intros gl _ ->.
  apply (returns_bind _ _ _ _ (holds_returns _ _ (grade_ok F n dim b bv B tint tol Hd Ob Vb Bb Ti T Kb))). intros gr _ ->.
  destruct (Nat.leb_spec (length av) (length bv)) as [L|L].
  - replace (Z.leb (Z.of_nat (length av)) (Z.of_nat (length bv))) with true by (symmetry; apply Z.leb_le; lia).
    exact (impl_ok F n fuel dim a b av bv A B tint tol dint dtol Hd Oa Ob Va Vb Ba Bb Sa Sb HI Ti T Di Dt T1 T2 X false).
  - replace (Z.leb (Z.of_nat (length av)) (Z.of_nat (length bv))) with false by (symmetry; apply Z.leb_gt; lia).
    intros r Er. apply outcome_swap. rewrite andb_comm in HI. exact (impl_ok F n fuel dim b a bv av B A tint tol dint dtol Hd Ob Oa Vb Va Bb Ba Sb Sa HI Ti T Di Dt (top_swap dim av bv A B tol Hd Ba Bb T1) (top_swap dim av bv A B dtol Hd Ba Bb T2) X true r Er).
Qed.
