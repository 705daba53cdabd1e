(** Rounds, tangents and flats of the conformal models. *)
From Coq Require Import NArith ZArith List Bool Lia Reals Lra Setoid Morphisms.
From Verif Require Import Bits SpecBits Expr Sem Wf BitsBase SpecMv SpecAlg SpecExtra MvBase GradeProofs OuterProofs Clifford Clifford2 Clifford4 AlgProofs AlgProofs2 SpecGeneral SpecSpaces VecProofs SpecGeo GaProofs GeoProofs.
Import ListNotations.
Local Open Scope R_scope.

Lemma nil_app (m : mv) : meq (m ++ []) m. Proof. rewrite app_nil_r. reflexivity. Qed.
Lemma mop_nil m : meq (mop m []) []. Proof. apply bilinear_0_r. reflexivity. Qed.
Lemma lc_app_l G u v m : meq (glc G (u ++ v) m) (glc G u m ++ glc G v m). Proof. apply bilinear_app_l. Qed.
Lemma lc_scale_l G c u m : meq (glc G (scale c u) m) (scale c (glc G u m)). Proof. apply bilinear_scale_l. Qed.
Lemma lc_app_r G u v m : meq (glc G m (u ++ v)) (glc G m u ++ glc G m v). Proof. apply bilinear_app_r. Qed.
Lemma lc_scale_r G c u m : meq (glc G m (scale c u)) (scale c (glc G m u)). Proof. apply bilinear_scale_r. Qed.
Lemma op_app_l u v m : meq (mop (u ++ v) m) (mop u m ++ mop v m). Proof. apply bilinear_app_l. Qed.
Lemma op_scale_l c u m : meq (mop (scale c u) m) (scale c (mop u m)). Proof. apply bilinear_scale_l. Qed.
Lemma op_scale_r c u m : meq (mop m (scale c u)) (scale c (mop m u)). Proof. apply bilinear_scale_r. Qed.
Lemma scale_app c u v : meq (scale c (u ++ v)) (scale c u ++ scale c v). Proof. intros j. rewrite coef_scale, !coef_app, !coef_scale. ring. Qed.
Lemma scalar_scale c d : meq (scale c [(d, 0%N)]) [(c * d, 0%N)]. Proof. reflexivity. Qed.
Lemma op_swap1 k v a : homog 1 v -> homog k a -> meq (mop a v) (scale (flip k) (mop v a)).
Proof. intros Hv Ha. pose proof (op_comm 1 k v a Hv Ha) as Q. rewrite N.mul_1_l in Q. exact Q. Qed.
Lemma homog_eq r x (f g : N -> N -> mv) s y : homog r x -> homog s y -> (forall i j, grade_of i = r -> grade_of j = s -> f i j = g i j) -> meq (bilinear f x y) (bilinear g x y).
Proof.
  intros Hx Hy H. apply meq_iff. intros h. rewrite !sumf_bilinear. apply sumf_ext_in. intros p Hp. apply sumf_ext_in. intros q Hq. rewrite (H _ _ (proj1 (Forall_forall _ _) Hx p Hp) (proj1 (Forall_forall _ _) Hy q Hq)). reflexivity.
Qed.
Lemma lc_part G r s x y : (r <= s)%N -> homog r x -> homog s y -> meq (glc G x y) (grade_part (s - r) (ggp G x y)).
Proof.
  intros L Hx Hy. unfold ggp. rewrite (grade_part_bilinear (s - r) G x y). apply (homog_eq r x _ _ s y Hx Hy). intros i j Gi Gj. unfold part_lcont. rewrite Gi, Gj, (proj2 (N.leb_le r s) L). reflexivity.
Qed.
Lemma rc_part G r s x y : (s <= r)%N -> homog r x -> homog s y -> meq (grc G x y) (grade_part (r - s) (ggp G x y)).
Proof.
  intros L Hx Hy. unfold ggp. rewrite (grade_part_bilinear (r - s) G x y). apply (homog_eq r x _ _ s y Hx Hy). intros i j Gi Gj. unfold part_rcont. rewrite Gi, Gj, (proj2 (N.leb_le s r) L). reflexivity.
Qed.
Lemma homog_part_id k m : homog k m -> grade_part k m = m.
Proof. induction 1 as [|x l Hx Hl IH]; [reflexivity|]. cbn [grade_part filter]. rewrite Hx, N.eqb_refl. f_equal. exact IH. Qed.
Local Opaque ggp glc gsp mop scale meq.

Section Round.
Variables (n : N) (B : N -> N -> R) (G : N -> N -> mv).
Hypothesis Hn : (n <= 64)%N.
Hypothesis HG : geometric n B G.
Hypothesis SB : forall i j, B i j = B j i.
Notation "a ** b" := (ggp G a b) (at level 40, left associativity).
Notation "a ^^ b" := (mop a b) (at level 40, left associativity).
Notation "a << b" := (glc G a b) (at level 40, left associativity).
Notation ins := (in_space n).
Notation vec := (vec n).
Notation ip := (ip B).
Let gA := gA n B G HG.
Let gin := gin n B G HG.
Let gsr := gsr n B G Hn HG.
Let gsl := gsl n B G HG.
Let vec_gp := vec_gp n B G Hn HG.

(** A vector orthogonal to a homogeneous multivector. *)
Lemma ortho_op v a : vec v -> ins a -> meq (v << a) [] -> meq (v ^^ a) (v ** a).
Proof. intros Hv Ha Z. rewrite (vec_gp v a Hv Ha), Z, app_nil_r. reflexivity. Qed.
Lemma ortho_swap v k a : vec v -> ins a -> homog k a -> meq (v << a) [] -> meq (a ** v) (scale (flip k) (v ** a)).
Proof. intros Hv Ha H Z. rewrite (vec_right_homog n B G Hn HG SB v k a Hv Ha H), (vec_gp v a Hv Ha), Z. rewrite !app_nil_r. reflexivity. Qed.
Lemma ortho_two u v k a : vec u -> vec v -> ins a -> homog k a -> meq (u << a) [] -> meq (v << a) [] -> meq (a ** u ** v) (u ** v ** a).
Proof.
  intros Hu Hv Ha H Zu Zv. pose proof (vec_in n u Hu) as Iu. pose proof (vec_in n v Hv) as Iv. rewrite (ortho_swap u k a Hu Ha H Zu), gSl, (gA u a v Iu Ha Iv), (ortho_swap v k a Hv Ha H Zv), gSr, scale_scale, flip_sq, scale_one.
  symmetry. apply gA; assumption.
Qed.

Variables (p ni a : mv) (k : N) (c : R).
Hypotheses (Vp : vec p) (Vi : vec ni).
Hypotheses (Ipp : ip p p = 0) (Iii : ip ni ni = 0) (Ipi : ip p ni = -1).
Hypotheses (Ia : ins a) (Ha : homog k a) (Pa : meq (p << a) []) (Na : meq (ni << a) []).
Hypotheses (Hc : c <> 0) (Sa : meq (a ** a) [(c, 0%N)]).
Let Ip := vec_in n p Vp.
Let Ii := vec_in n ni Vi.

Section Rho.
Variable rho : R.
Notation s := (p ++ scale (rho / 2) ni).
Let Vs : vec s. Proof. apply vec_app; [exact Vp|apply vec_scale, Vi]. Qed.
Let Is := vec_in n _ Vs.
Lemma s_square : ip s s = - rho.
Proof. rewrite !ip_app_l, !ip_scale_l, !(ip_app_r B SB), !(ip_scale_r B SB), Ipp, Iii, Ipi, (ip_sym B SB ni p), Ipi. field. Qed.
Lemma s_infinity : ip s ni = -1.
Proof. rewrite !ip_app_l, !ip_scale_l, Iii, Ipi. ring. Qed.
Lemma s_ortho : meq (s << a) [].
Proof. rewrite lc_app_l, lc_scale_l, Pa, Na. reflexivity. Qed.
Notation r := (round p ni rho a).
Lemma round_gp : meq r (s ** a). Proof. exact (ortho_op s a Vs Ia s_ortho). Qed.
Lemma round_in : ins r. Proof. apply oin; assumption. Qed.
Lemma round_homog : homog (1 + k) r. Proof. apply op_grades_add; [exact (vec_homog n Hn s Vs)|exact Ha]. Qed.
Lemma round_aux : meq (ni << r) (scale (-1) a).
Proof.
  unfold round. rewrite (vec_leibniz n B G Hn HG ni s a Vi Vs Ia), Na, mop_nil.
  rewrite (ip_sym B SB ni s), s_infinity. apply nil_app.
Qed.
Lemma round_aux_sp : meq (gsp G (ni << r) (ni << r)) [(c, 0%N)].
Proof.
  rewrite round_aux. rewrite (gsp_re n B G Hn HG _ _ (in_space_scale n _ _ Ia) (in_space_scale n _ _ Ia)). rewrite gSl, gSr, Sa, !scalar_scale, re_scalar.
  replace (-1 * (-1 * c)) with c by ring. reflexivity.
Qed.
Lemma round_square : meq (r ** r) [(- (flip k * rho * c), 0%N)].
Proof.
  rewrite round_gp. rewrite (gA s a (s ** a) Is Ia (gin _ _ Is Ia)), <- (gA a s a Ia Is Ia), (ortho_swap s k a Vs Ia Ha s_ortho), gSl, gSr, (gA s a a Is Ia Ia), Sa, (gsr c s Is), gSr.
  rewrite (vec_square n B G Hn HG SB s Vs), s_square, !scalar_scale. replace (flip k * (c * - rho)) with (- (flip k * rho * c)) by ring. reflexivity.
Qed.
Lemma round_sandwich : meq (r ** ni ** r) (scale (-2 * c) p).
Proof.
  rewrite round_gp. rewrite <- (gA (s ** a ** ni) s a (gin _ _ (gin _ _ Is Ia) Ii) Is Ia), (gA s a ni Is Ia Ii), (gA s (a ** ni) s Is (gin _ _ Ia Ii) Is), (ortho_two ni s k a Vi Vs Ia Ha Na s_ortho).
  rewrite <- (gA s (ni ** s) a Is (gin _ _ Ii Is) Ia), <- (gA s ni s Is Ii Is). rewrite (gA (s ** ni ** s) a a (gin _ _ (gin _ _ Is Ii) Is) Ia Ia), Sa, (gsr c _ (gin _ _ (gin _ _ Is Ii) Is)).
  rewrite (vec_sandwich n B G Hn HG SB s ni Vs Vi), s_square, s_infinity. Transparent meq scale. intros j. rewrite coef_scale, coef_app, !coef_scale, coef_app, coef_scale. field.
Qed.
Opaque meq scale.
Lemma round_loc : gnorm G ([(-2, 0%N)] ** gsp G (ni << r) (ni << r)) <> 0 /\ meq (mlocation G ni r) p.
Proof.
  assert (Q : meq ([(-2, 0%N)] ** gsp G (ni << r) (ni << r)) [(-2 * c, 0%N)]) by (rewrite round_aux_sp, (gsl (-2) _ (in_scalar n c)), scalar_scale; reflexivity).
  assert (Nz : -2 * c <> 0) by lra. destruct (scalar_inv n B G Hn HG (-2 * c) Nz) as [N0 V]. split; [rewrite (gnorm_meq G _ _ Q); exact N0|].
  unfold mlocation. rewrite (ginv_meq G _ _ Q), V, round_sandwich, gSl, (gsr _ _ Ip), scale_scale. replace (-2 * c * / (-2 * c)) with 1 by (field; exact Hc). apply scale_one.
Qed.
Lemma round_siz : gnorm G (gsp G (ni << r) (ni << r)) <> 0 /\ meq (msize G ni r) [(rho, 0%N)].
Proof.
  destruct (scalar_inv n B G Hn HG c Hc) as [N0 V]. split; [rewrite (gnorm_meq G _ _ round_aux_sp); exact N0|].
  unfold msize. rewrite (ginv_meq G _ _ round_aux_sp), V. rewrite (gsp_meq G r r (reflexivity _) _ _ (invol_homog (1 + k) r round_homog)).
  rewrite (gsp_re n B G Hn HG r _ round_in (in_space_scale n _ _ round_in)), gSr, round_square, scalar_scale, re_scalar. rewrite (gsp_re n B G Hn HG _ _ (in_scalar n _) (in_scalar n _)), (gsl _ _ (in_scalar n _)), scalar_scale, re_scalar.
  assert (F : flip (1 + k) = - flip k) by (unfold flip; rewrite N.odd_add; change (N.odd 1) with true; destruct (N.odd k); cbn [xorb]; ring). rewrite F.
  replace (- flip k * - (flip k * rho * c) * / c) with ((flip k * flip k) * rho) by (field; exact Hc). rewrite flip_sq, Rmult_1_l. reflexivity.
Qed.
Lemma round_dir : meq ((scale (-1) ni << r) ^^ ni) (a ^^ ni).
Proof. rewrite lc_scale_l, round_aux, scale_scale. replace (-1 * -1) with 1 by ring. rewrite scale_one. reflexivity. Qed.
End Rho.

(** Tangents. *)
Lemma tangent_gp : meq (tangent p a) (p ** a). Proof. exact (ortho_op p a Vp Ia Pa). Qed.
Lemma tangent_aux : meq (scale (-1) ni << tangent p a) a.
Proof.
  unfold tangent. rewrite lc_scale_l, (vec_leibniz n B G Hn HG ni p a Vi Vp Ia), Na, mop_nil, (ip_sym B SB ni p), Ipi. rewrite (nil_app (scale (-1) a) : meq (scale (-1) a ++ scale (-1) []) _), scale_scale. replace (-1 * -1) with 1 by ring. apply scale_one.
Qed.
Lemma a_inv : gnorm G a <> 0 /\ meq (ginv G a) (scale (/ c) a). Proof. exact (square_inv n B G Hn HG k a c Ia Ha Hc Sa). Qed.
Lemma times_inv v : ins v -> meq (v ** a ** scale (/ c) a) v.
Proof. intros Iv. rewrite gSr, (gA v a a Iv Ia Ia), Sa, (gsr c v Iv), scale_scale. rewrite Rinv_l by exact Hc. apply scale_one. Qed.
Lemma tangent_loc : gnorm G (scale (-1) ni << tangent p a) <> 0 /\ meq (tangent p a ** ginv G (scale (-1) ni << tangent p a)) p.
Proof.
  destruct a_inv as [N0 V]. split; [rewrite (gnorm_meq G _ _ tangent_aux); exact N0|]. rewrite (ginv_meq G _ _ tangent_aux), V, tangent_gp. apply times_inv, Ip.
Qed.
Lemma tangent_dir : meq ((scale (-1) ni << tangent p a) ^^ ni) (a ^^ ni). Proof. rewrite tangent_aux. reflexivity. Qed.

(** Flats. *)
Notation f := (flat p ni a).
Lemma a_ni : meq (a ^^ ni) (scale (flip k) (ni ^^ a)).
Proof. exact (op_swap1 k ni a (vec_homog n Hn ni Vi) Ha). Qed.
Lemma ni_a : meq (ni << (ni ^^ a)) [].
Proof. rewrite (vec_leibniz n B G Hn HG ni ni a Vi Vi Ia), Na, mop_nil, Iii. rewrite (nil_app (scale 0 a) : meq (scale 0 a ++ scale (-1) []) _). apply scale_0. Qed.
Lemma p_nia : meq (p << (ni ^^ a)) (scale (-1) a).
Proof. rewrite (vec_leibniz n B G Hn HG p ni a Vp Vi Ia), Pa, mop_nil, Ipi. exact (nil_app (scale (-1) a)). Qed.
Let Ioa := oin n ni a Ii Ia.
Lemma flat_form : meq f (scale (flip k) (p ^^ (ni ^^ a))). Proof. unfold flat. rewrite a_ni, op_scale_r. reflexivity. Qed.
Lemma flat_dir : meq (scale (-1) ni << f) (a ^^ ni).
Proof.
  rewrite lc_scale_l, flat_form, lc_scale_r, (vec_leibniz n B G Hn HG ni p _ Vi Vp Ioa), ni_a, mop_nil, (ip_sym B SB ni p), Ipi, a_ni. rewrite (nil_app (scale (-1) (ni ^^ a)) : meq (scale (-1) (ni ^^ a) ++ scale (-1) []) _), !scale_scale.
  replace (-1 * flip k * -1) with (flip k) by ring. reflexivity.
Qed.
Notation E := (p ** ni ++ one).
Let I1 : ins one. Proof. exact (in_scalar n 1). Qed.
Let Ipn := gin p ni Ip Ii.
Let IE : ins E. Proof. apply in_space_app. split; assumption. Qed.
Lemma flat_E : meq f (scale (flip k) (E ** a)).
Proof.
  rewrite flat_form. apply scale_meq; [reflexivity|]. pose proof (vec_gp p (ni ^^ a) Vp Ioa) as Q. rewrite p_nia in Q. rewrite gDl, (g1l n B G HG a Ia), (gA p ni a Ip Ii Ia), <- (ortho_op ni a Vi Ia Na).
  Transparent meq scale. intros j. specialize (Q j). rewrite coef_app, coef_scale in Q. rewrite coef_app, Q. ring.
Qed.
Opaque meq scale.
Lemma E_a : meq (a ** E) (E ** a).
Proof. rewrite gDl, gDr, (g1l n B G HG a Ia), (g1r n B G Hn HG a Ia), <- (gA a p ni Ia Ip Ii), (ortho_two p ni k a Vp Vi Ia Ha Pa Na). reflexivity. Qed.
Lemma pnp : meq (p ** ni ** p) (scale (-2) p).
Proof. rewrite (vec_sandwich n B G Hn HG SB p ni Vp Vi), Ipp, Ipi. Transparent meq scale. intros j. rewrite coef_app, !coef_scale. ring. Qed.
Opaque meq scale.
Lemma npn : meq (ni ** p ** ni) (scale (-2) ni).
Proof. rewrite (vec_sandwich n B G Hn HG SB ni p Vi Vp), (ip_sym B SB ni p), Iii, Ipi. Transparent meq scale. intros j. rewrite coef_app, !coef_scale. ring. Qed.
Opaque meq scale.
Lemma E_E : meq (E ** E) one.
Proof.
  rewrite gDr, (g1r n B G Hn HG E IE), !gDl, (g1l n B G HG _ Ipn), <- (gA _ p ni Ipn Ip Ii), pnp, gSl. Transparent meq scale. intros j. rewrite !coef_app, coef_scale. ring.
Qed.
Opaque meq scale.
Lemma flat_square : meq (f ** f) [(c, 0%N)].
Proof.
  rewrite flat_E, gSl, gSr, scale_scale, flip_sq, scale_one. rewrite (gA E a (E ** a) IE Ia (gin _ _ IE Ia)), <- (gA a E a Ia IE Ia), E_a, (gA E a a IE Ia Ia), Sa, (gsr c E IE), gSr, E_E. rewrite (scalar_scale c 1), Rmult_1_r. reflexivity.
Qed.
Lemma flat_in : ins f. Proof. apply oin; [exact Ip|apply oin; assumption]. Qed.
Lemma flat_homog : homog (k + 2) f. Proof. replace (k + 2)%N with (1 + (k + 1))%N by lia. apply op_grades_add; [exact (vec_homog n Hn p Vp)|]. apply op_grades_add; [exact Ha|exact (vec_homog n Hn ni Vi)]. Qed.
Lemma flat_inv : gnorm G f <> 0 /\ meq (ginv G f) (scale (/ c) f). Proof. exact (square_inv n B G Hn HG (k + 2) f c flat_in flat_homog Hc flat_square). Qed.

(** The point at the origin. *)
Section Origin.
Variables (o : mv) (q : R).
Hypotheses (Vo : vec o) (Ioi : ip o ni = -1) (Iop : ip o p = q).
Let Io := vec_in n o Vo.
Notation w := (p ++ scale q ni).
Let Vw : vec w. Proof. apply vec_app; [exact Vp|apply vec_scale, Vi]. Qed.
Let Iw := vec_in n _ Vw.
Lemma w_ortho : meq (w << a) []. Proof. rewrite lc_app_l, lc_scale_l, Pa, Na. reflexivity. Qed.
Hypothesis Oa : meq (o << a) [].
Lemma flat_origin : meq (o << f) (scale (flip k) (w ^^ a)).
Proof.
  rewrite flat_form, lc_scale_r, (vec_leibniz n B G Hn HG o p _ Vo Vp Ioa), (vec_leibniz n B G Hn HG o ni a Vo Vi Ia), Oa, mop_nil, Ioi, Iop. apply scale_meq; [reflexivity|].
  rewrite (nil_app (scale (-1) a) : meq (scale (-1) a ++ scale (-1) []) _), op_scale_r, scale_scale, op_app_l, op_scale_l. replace (-1 * -1) with 1 by ring. rewrite scale_one. apply meq_comm.
Qed.
Lemma wE : meq (w ** E) (p ++ scale (- q) ni).
Proof.
  rewrite gDl, !gSl, !gDr, !(g1r n B G Hn HG) by assumption. rewrite <- (gA p p ni Ip Ip Ii), (vec_square n B G Hn HG SB p Vp), Ipp, <- (gA ni p ni Ii Ip Ii), npn, (gsl 0 ni Ii), scale_0.
  Transparent meq scale. intros j. rewrite !coef_app, !coef_scale, coef_app, coef_scale. cbn [coef]. ring.
Qed.
Opaque meq scale.
Lemma flat_gp : meq ((o << f) ** ginv G f) (p ++ scale (- q) ni).
Proof.
  rewrite (proj2 flat_inv), flat_origin, flat_E, (ortho_op w a Vw Ia w_ortho), !gSl, !gSr, !scale_scale. rewrite (gA w a (E ** a) Iw Ia (gin _ _ IE Ia)), <- (gA a E a Ia IE Ia), E_a, (gA E a a IE Ia Ia), Sa, (gsr c E IE), gSr, wE, scale_scale.
  transitivity (scale (flip k * flip k) (p ++ scale (- q) ni)); [apply scale_meq; [field; exact Hc|reflexivity]|]. rewrite flip_sq. apply scale_one.
Qed.
Lemma flat_lc : meq ((o << f) << ginv G f) (p ++ scale (- q) ni).
Proof.
  assert (Hw : homog (1 + k) (scale (flip k) (w ^^ a))) by (apply homog_scale, op_grades_add; [exact (vec_homog n Hn w Vw)|exact Ha]).
  rewrite <- (homog_part_id 1 (p ++ scale (- q) ni)) by (apply homog_app; [exact (vec_homog n Hn p Vp)|apply homog_scale, (vec_homog n Hn ni Vi)]). rewrite <- flat_gp, (proj2 flat_inv), flat_origin.
  rewrite (lc_part G (1 + k) (k + 2) _ _ ltac:(lia) Hw (homog_scale _ _ _ flat_homog)). replace (k + 2 - (1 + k))%N with 1%N by lia. reflexivity.
Qed.
End Origin.
(** Dual flats: [a] is the dual of a flat through [p]; [p] is the point of it next to the origin, so that
    the difference of p - q ni and the origin lies in the dual. *)
Section Dual.
Variables (o : mv) (q : R).
Hypothesis (Vo : vec o).
Notation w := (p ++ scale (- q) ni).
Hypothesis Oa : meq (o ^^ a) (w ^^ a).
Let Vw : vec w. Proof. apply vec_app; [exact Vp|apply vec_scale, Vi]. Qed.
Lemma dual_flat_gp : meq ((o ^^ a) ** ginv G a) w.
Proof.
  assert (Z : meq (w << a) []) by (rewrite lc_app_l, lc_scale_l, Pa, Na; reflexivity). rewrite (proj2 a_inv), Oa, (ortho_op w a Vw Ia Z). apply times_inv, (vec_in n _ Vw).
Qed.
Lemma dual_flat_rc : meq (grc G (o ^^ a) (ginv G a)) w.
Proof.
  rewrite <- (homog_part_id 1 w) by (exact (vec_homog n Hn w Vw)). rewrite <- dual_flat_gp, (proj2 a_inv).
  rewrite (rc_part G (1 + k) k _ _ ltac:(lia) (op_grades_add 1 k _ _ (vec_homog n Hn o Vo) Ha) (homog_scale _ _ _ Ha)). replace (1 + k - k)%N with 1%N by lia. reflexivity.
Qed.
End Dual.
End Round.
