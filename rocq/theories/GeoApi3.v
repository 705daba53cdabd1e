(** The functions of the conformal and homogeneous models: values of the calls (continued). *)
From Coq Require Import NArith ZArith List Bool Lia Reals Lra Setoid Morphisms.
From Verif Require Import Bits SpecBits Expr Sem Wf BitsBase SpecMv SpecAlg SpecExtra MvBase Simp SimpProofs Comp Mapping Ops EvalC SpecEval Lazy SpecLazy Api Extra SpecApi SpecUtil GradeProofs OuterProofs MappingProofs GumProofs PresProofs CanonProofs PolyProofs ProductProofs Clifford Clifford2 Clifford4 AlgProofs ApiProofs ApiProofs2 ApiProofs3 ExtraProofs General SpecGeneral Wick Wick2 Spaces SpecSpaces VecProofs GenApi ModelProofs Geo SpecGeo GaProofs GeoProofs GaRound GeoApi GeoApi2.
Import ListNotations.
Local Open Scope R_scope.

(** An object without storage whose type has a value in every class of coefficients. *)
Lemma lazy_object F n e m : (forall P g, closed_class is_pos F P -> typed_value P n g e m) -> int_object n (lazy_obj e) /\ value (lazy_obj e) m.
Proof.
  intros H. pose proof (ipoly_class is_pos F exps_pos 1 0) as H0. set (g0 := {| ev := fun _ _ => None; eb := fun _ _ => None |}).
  assert (E : call F 0 (fun _ => Some e) [] = Some (Done (lazy_obj e))).
  { destruct (nested_args _ _ F n g0 H0 [] [] (Forall2_nil _)) as [E1 _]. unfold call. rewrite (E1 _ : arguments (base_id []) [] = Some []). apply (nested_eval _ _ F 0 n g0 H0 [] [] e m (Forall2_nil _)). apply H, H0. }
  destruct (int_call F 0 (fun _ => Some e) n [] [] m _ (fun P g args e' HP _ Ee => eq_ind e (fun z => typed_value P n g z m) (H P g HP) e' (Some_inj _ _ Ee)) (Forall_nil _) (Forall2_nil _) E) as [C|(r & C & Or & Vr)]; [discriminate C|].
  injection C as <-. auto.
Qed.

Lemma object_low n x : (n <= 7)%N -> int_object n x -> grades_upto 7 (cexpr x) = true.
Proof.
  intros Hn (M & E & _ & _ & H). rewrite E. destruct M as [|q M]; [reflexivity|]. rewrite upto_mv. apply forallb_forall. intros y I. rewrite Forall_forall in H. destruct (H y I) as [B _]. apply N.leb_le.
  transitivity n; [|exact Hn]. apply grade_le; [lia|exact B].
Qed.
Section FlatDirection.
Variables (F k d : nat) (m : cmodel) (G : N -> N -> mv) (xs : list R) (kk : N) (a : mv).
Hypothesis Hm : model_ok m.
Hypothesis Hx : model_coords m xs.
Hypothesis HG : geometric (model_dim m) (model_metric m) G.
Notation p := (model_point m xs).
Notation ni := (model_infinity m).
Notation n := (model_dim m).
Hypothesis HA : attitude n G p ni kk a.
Notation G0 := (gof m).
Notation H0 := (gof_geometric m Hm).
Let L := model_low m Hm.
Lemma lcont_call x y mx my o : int_object n x -> int_object n y -> value x mx -> value y my -> p_lcont (model_products F k d m) x y = Some o ->
  o = Ovf \/ exists r, o = Done r /\ int_object n r /\ value r (glc G0 mx my).
Proof.
  clear HA HG Hx. pose proof H0 as HG0. pose proof L as L1. clear L. revert HG0 L1. revert Hm. destruct m as [D|D]; cbn [model_ok model_dim model_metric gof model_products general_products signed_products p_lcont gdim gentry]; intros Hm HG0 L' Ox Oy Vx Vy E.
  - exact (general_call F k d (D + 2) (conformal_entry D) _ _ _ _ _ _ ltac:(lia) (conformal_int D) HG0 (lcont_valid_ok F) (lcont_bv F) (lcont_declares (D + 2)) lcont_keeps x y mx my o Ox Oy (fits_right _ _ (object_low (D + 2) y ltac:(lia) Oy)) Vx Vy E).
  - unfold glc. rewrite part_l. replace (D + 2)%N with (D + 1 + 1 + 0)%N in * by lia.
    exact (int_call F k _ _ [x; y] [mx; my] _ o (sound_mul is_pos F k _ _ _ _ mx my (lcont_map_ok (D + 1) 1 0 L' F) (N.le_refl _) (signed_const F (D + 1) 1 0 _ _ L' (lcont_bv F))) ltac:(auto) ltac:(auto) E).
Qed.
Lemma c_flat_direction r o : int_object n r -> value r (flat p ni a) -> flat_direction_in F k d m r = Some o ->
  o = Ovf \/ exists r', o = Done r' /\ int_object n r' /\ value r' (mop a ni).
Proof.
  intros Or Vr E. pose proof (ipoly_class is_pos F exps_pos 1 0) as C0. set (g0 := {| ev := fun _ _ => None; eb := fun _ _ => None |}).
  assert (Yn : forall P g, closed_class is_pos F P -> yields P n g (andthen (infinity_obj F k m) (neg F k)) (scale (-1) ni)).
  { intros P g HP. apply (yields_then P n g _ _ _ _ (Y_infinity is_pos F k m P g Hm HP)). intros e Te. exact (y_neg is_pos P F k n g HP L e ni Te). }
  unfold flat_direction_in, primal_flat_direction in E. assert (E' : andthen (andthen (infinity_obj F k m) (neg F k)) (fun x => p_lcont (model_products F k d m) x r) = Some o) by (destruct (infinity_obj F k m) as [[]|]; exact E).
  clear E. destruct (andthen (infinity_obj F k m) (neg F k)) as [oc|] eqn:Ec; [|discriminate E'].
  destruct (Yn _ g0 C0 oc eq_refl) as (e & -> & _). cbn [andthen] in E'.
  destruct (lazy_object F n e (scale (-1) ni)) as [Oe Ve]. { intros P g HP. destruct (Yn P g HP _ eq_refl) as (e' & Ee & Te). injection Ee as <-. exact Te. }
  pose proof (point_vec m Hm xs Hx) as Vp. pose proof (infinity_vec m Hm) as Vi.
  destruct (same_attitude n _ G G0 (m64 m Hm) HG H0 p ni kk a (vec_in n p Vp) (vec_in n ni Vi) HA) as (Ia & Ha & Pa & Na & _).
  destruct (lcont_call _ r _ _ o Oe Or Ve Vr E') as [->|(r' & -> & Or' & Vr')]; [left; reflexivity|]. right. exists r'. split; [reflexivity|]. split; [exact Or'|].
  exact (value_meq _ _ _ Vr' (flat_dir n _ G0 (m64 m Hm) H0 (model_sym m) p ni a kk Vp Vi (ip_infinity_2 m Hm) (ip_infinity m Hm xs Hx) Ia Ha Na)).
Qed.
End FlatDirection.

(** ** Flats of the homogeneous model *)
Section Flat.
Variables (n : N) (B : N -> N -> R) (G : N -> N -> mv).
Hypothesis Hn : (n <= 64)%N.
Hypothesis HG : geometric n B G.
Hypothesis SB : forall i j, B i j = B j i.
Variables (x e a : mv) (k : N) (c : R).
Hypotheses (Vx : vec n x) (Ve : vec n e) (Iee : ip B e e = 1) (Iex : ip B e x = 0).
Hypotheses (Ia : in_space n a) (Ha : homog k a) (Xa : meq (glc G x a) []) (Ea : meq (glc G e a) []).
Hypotheses (Hc : c <> 0) (Sa : meq (ggp G a a) [(c, 0%N)]).
Notation p := (x ++ e).
Let Vp := vec_app n x e Vx Ve.
Local Opaque ggp glc gsp mop scale meq.
Lemma h_direction : meq (glc G e (mop p a)) a.
Proof. rewrite (vec_leibniz n B G Hn HG e p a Ve Vp Ia), Ea, mop_nil, ip_app_r, Iee, Iex by exact SB. rewrite Rplus_0_l, scale_one. apply nil_app. Qed.
Lemma h_moment : meq (glc G e (mop e (mop p a))) (mop x a).
Proof.
  rewrite (vec_leibniz n B G Hn HG e e (mop p a) Ve Ve (oin n _ _ (vec_in n _ Vp) Ia)), h_direction, Iee, scale_one, op_app_l.
  Transparent meq. intros j. rewrite !coef_app, coef_scale. ring.
Qed.
Local Opaque meq.
Let Ai := square_inv n B G Hn HG k a c Ia Ha Hc Sa.
Lemma h_norm : gnorm G (glc G e (mop p a)) <> 0. Proof. rewrite (gnorm_meq G _ _ h_direction). exact (proj1 Ai). Qed.
Lemma h_times v : in_space n v -> meq (ggp G (ggp G v a) (ginv G a)) v.
Proof. intros Iv. rewrite (proj2 Ai), gSr, (gA n B G HG v a a Iv Ia Ia), Sa, (gsr n B G Hn HG c v Iv), scale_scale. rewrite Rinv_l by exact Hc. apply scale_one. Qed.
Lemma h_support : meq (ggp G (glc G e (mop e (mop p a))) (ginv G (glc G e (mop p a)))) x.
Proof. rewrite h_moment, h_direction, (ortho_op n B G Hn HG x a Vx Ia Xa). apply h_times, (vec_in n x Vx). Qed.
Lemma h_point : meq (ggp G (mop p a) (ginv G (glc G e (mop p a)))) p.
Proof.
  rewrite h_direction. assert (Z : meq (glc G p a) []) by (rewrite lc_app_l, Xa, Ea; reflexivity). rewrite (ortho_op n B G Hn HG p a Vp Ia Z). apply h_times, (vec_in n p Vp).
Qed.
End Flat.

Section FlatCalls.
Variables (F k : nat) (D : N) (xs : list R) (kk : N) (a : mv).
Hypothesis HD : (D <= 62)%N.
Hypothesis Hx : D = N.of_nat (length xs).
Notation G := (gp_blade (signature (D + 1) 0)).
Notation x := (coordinates 0 xs).
Notation e := [(1, (2 ^ D)%N)].
Hypothesis HA : attitude (D + 1) G x e kk a.
Notation A := (diagonal_form (signature (D + 1) 0)).
Notation n := (D + 1)%N.
Let L64 : (n <= 64)%N. Proof. lia. Qed.
Let L : (n <= 63)%N. Proof. lia. Qed.
Let HG : geometric n A G := diagonal_geometric _ n L64.
Let SA i j : A i j = A j i. Proof. unfold diagonal_form. rewrite (N.eqb_sym j i). destruct (N.eqb_spec i j) as [->|]; reflexivity. Qed.
Let Vx : vec n x. Proof. apply coords_vec. lia. Qed.
Let Ve : vec n e. Proof. constructor; [|constructor]. exists D. split; [lia|reflexivity]. Qed.
Let Iee : ip A e e = 1.
Proof. unfold ip. cbn [sumf]. rewrite log_pow. unfold diagonal_form. rewrite N.eqb_refl. unfold signature. destruct (N.ltb_spec D (D + 1)); [ring|lia]. Qed.
Let Iex : ip A e x = 0.
Proof.
  unfold ip. cbn [sumf]. rewrite log_pow. assert (Z : forall i, (i + N.of_nat (length xs) <= D)%N -> sumf (coordinates i xs) (fun r => A D (N.log2 r)) = 0).
  { clear. induction xs as [|y ys IH]; intros i H; cbn [coordinates sumf length] in *; [reflexivity|]. rewrite log_pow, IH by lia. unfold diagonal_form. destruct (N.eqb_spec D i); [lia|ring]. }
  rewrite Z by lia. ring.
Qed.
Let M := signed_products F k n 0 0.
Let K X : sound_products X F n M G. Proof. pose proof (signed_sound X F k n 0 0) as S. rewrite !N.add_0_r in S. exact (S L). Qed.
Let Te := fun X P g HP => T_basis X F P n g D L ltac:(lia) HP.
Ltac start := destruct HA as (Ia & Ha & Xa & Ea & c & Hc & Sa).
Lemma c_moment r o : rat_object n r -> value r (mop (x ++ e) a) -> exact (body1 (flat_moment_h F k D)) [r] -> flat_moment_h F k D r = Some o ->
  o = Ovf \/ exists r', o = Done r' /\ rat_object n r' /\ value r' (mop x a).
Proof.
  intros Or Vr X E. start. refine (rat1 F k (flat_moment_h F k D) n r _ _ o _ (fun x => eq_refl) _ Or Vr X E).
  intros P g y HP Ty. eapply yields_meq; [|exact (h_moment n A G L64 HG SA x e a Vx Ve Iee Iex Ia Ea)].
  exact (z_flat_moment is_int P F k n g M G HP (K is_int) _ e (Te is_int P g HP) y _ Ty).
Qed.
Lemma c_support_vector r o : rat_object n r -> value r (mop (x ++ e) a) -> exact (body1 (flat_support_vector_h F k D)) [r] -> flat_support_vector_h F k D r = Some o ->
  o = Ovf \/ exists r', o = Done r' /\ rat_object n r' /\ value r' x.
Proof.
  intros Or Vr X E. start. refine (rat1 F k (flat_support_vector_h F k D) n r _ _ o _ (fun x => eq_refl) _ Or Vr X E).
  intros P g y HP Ty. eapply yields_meq; [|exact (h_support n A G L64 HG SA x e a kk c Vx Ve Iee Iex Ia Ha Xa Ea Hc Sa)].
  exact (z_support_vector is_int P F k n g M G HP L (K is_int) eq_refl _ e (Te is_int P g HP) y _ (h_norm n A G L64 HG SA x e a kk c Vx Ve Iee Iex Ia Ha Ea Hc Sa) Ty).
Qed.
Lemma c_support_point r o : rat_object n r -> value r (mop (x ++ e) a) -> exact (body1 (flat_unit_support_point_h F k D)) [r] -> flat_unit_support_point_h F k D r = Some o ->
  o = Ovf \/ exists r', o = Done r' /\ rat_object n r' /\ value r' (x ++ e).
Proof.
  intros Or Vr X E. start. refine (rat1 F k (flat_unit_support_point_h F k D) n r _ _ o _ (fun x => eq_refl) _ Or Vr X E).
  intros P g y HP Ty. eapply yields_meq; [|exact (h_point n A G L64 HG SA x e a kk c Vx Ve Iee Iex Ia Ha Xa Ea Hc Sa)].
  exact (z_support_point is_int P F k n g M G HP L (K is_int) eq_refl _ e (Te is_int P g HP) y _ (h_norm n A G L64 HG SA x e a kk c Vx Ve Iee Iex Ia Ha Ea Hc Sa) Ty).
Qed.
Lemma c_direction_h r o : int_object n r -> value r (mop (x ++ e) a) -> flat_direction_h F k D r = Some o ->
  o = Ovf \/ exists r', o = Done r' /\ int_object n r' /\ value r' a.
Proof.
  intros Or Vr E. start. destruct (lazy_object F n _ e (fun P g HP => Te is_pos P g HP)) as [Oe Ve'].
  assert (L0 : (n + 0 + 0 <= 63)%N) by (rewrite !N.add_0_r; exact L).
  assert (Os : Forall (int_object (n + 0 + 0)) [basis_obj (D + 1); r]) by (rewrite !N.add_0_r; constructor; [exact Oe|constructor; [exact Or|constructor]]).
  destruct (int_call F k _ _ [basis_obj (D + 1); r] [e; _] _ o (sound_mul is_pos F k _ _ _ _ e _ (lcont_map_ok n 0 0 L0 F) (N.le_refl _) (signed_const F n 0 0 _ _ L0 (lcont_bv F))) Os (Forall2_cons _ _ Ve' (Forall2_cons _ _ Vr (Forall2_nil _))) E) as [->|(r' & -> & Or' & Vr')]; [left; reflexivity|].
  right. exists r'. rewrite !N.add_0_r in Or'. split; [reflexivity|]. split; [exact Or'|]. rewrite <- part_l in Vr'. exact (value_meq _ _ _ Vr' (h_direction n A G L64 HG SA x e a Vx Ve Iee Iex Ia Ea)).
Qed.
End FlatCalls.
