(** Composite functions in the space of any metric: values. *)
From Coq Require Import NArith ZArith List Bool Lia Reals Lra.
From Verif Require Import Bits SpecBits Expr ExprBase Sem Wf SpecMv SpecAlg MvBase Simp SimpProofs SimpProofs2 PresProofs Comp CompProofs EvalC SpecEval SpecOrder OrderProofs CompProofs2 Mapping Ops GradeProofs BitsBase MappingProofs ProductProofs OuterProofs GumProofs Clifford Clifford2 AlgProofs AlgProofs2 Lazy SpecLazy TagProofs LazyProofs LazyProofs2 CanonProofs PolyProofs Api Extra SpecApi SpecExtra ApiProofs ApiProofs2 ApiProofs3 ExtraProofs General SpecGeneral Spaces SpecSpaces GenApi Geo SpecGeo.
Import ListNotations.
Local Open Scope R_scope.

(** The products [M] compute, on the types of [dim]-dimensional multivectors, the products of [G]. *)
Definition sound_products (X : expr -> bool) (F : nat) (dim : N) (M : products) (G : N -> N -> mv) : Prop :=
  forall P g a b ma mb, closed_class X F P -> typed_value P dim g a ma -> typed_value P dim g b mb ->
  yields P dim g (p_gp M (lazy_obj a) (lazy_obj b)) (ggp G ma mb) /\
  yields P dim g (p_lcont M (lazy_obj a) (lazy_obj b)) (glc G ma mb) /\
  yields P dim g (p_rcont M (lazy_obj a) (lazy_obj b)) (grc G ma mb) /\
  yields P dim g (p_sp M (lazy_obj a) (lazy_obj b)) (gsp G ma mb) /\
  yields P dim g (p_op M (lazy_obj a) (lazy_obj b)) (mop ma mb).

Lemma part_l q : part_lcont (gp_blade q) = lcont_blade q. Proof. unfold part_lcont, lcont_blade. reflexivity. Qed.
Lemma part_r q : part_rcont (gp_blade q) = rcont_blade q. Proof. unfold part_rcont, rcont_blade. reflexivity. Qed.
Lemma part_s q : part_sp (gp_blade q) = sp_blade q. Proof. unfold part_sp, sp_blade. reflexivity. Qed.
Lemma signed_sound X F k P Q R : (P + Q + R <= 63)%N -> sound_products X F (P + Q + R) (signed_products F k P Q R) (gp_blade (signature P Q)).
Proof.
  intros H C g a b ma mb HC Ta Tb. set (L := Forall2_cons _ _ Ta (Forall2_cons _ _ Tb (Forall2_nil _))). cbn [signed_products p_gp p_lcont p_rcont p_sp p_op].
  unfold ggp, glc, grc, gsp, mop. rewrite part_l, part_r, part_s. split; [|split; [|split; [|split]]].
  - exact (yields_call X C F k _ g HC _ [a; b] [ma; mb] _ (sound_mul X F k _ _ _ _ ma mb (gp_map_ok P Q R H F) (N.le_refl _) (signed_const F P Q R _ _ H (gp_bv F))) L).
  - exact (yields_call X C F k _ g HC _ [a; b] [ma; mb] _ (sound_mul X F k _ _ _ _ ma mb (lcont_map_ok P Q R H F) (N.le_refl _) (signed_const F P Q R _ _ H (lcont_bv F))) L).
  - exact (yields_call X C F k _ g HC _ [a; b] [ma; mb] _ (sound_mul X F k _ _ _ _ ma mb (rcont_map_ok P Q R H F) (N.le_refl _) (signed_const F P Q R _ _ H (rcont_bv F))) L).
  - exact (yields_call X C F k _ g HC _ [a; b] [ma; mb] _ (sound_mul X F k _ _ _ _ ma mb (sp_map_ok P Q R H F) (N.le_refl _) (signed_const F P Q R _ _ H (sp_bv F))) L).
  - exact (yields_call X C F k _ g HC _ [a; b] [ma; mb] _ (sound_mul X F k _ _ _ _ ma mb (op_map_ok F _ H) (N.le_refl _) (op_const F _ H)) L).
Qed.

(** In spaces of at most 7 dimensions every blade has grade at most 7. *)
Lemma good_low P n e : (n <= 7)%N -> good P n e -> grades_upto 7 e = true.
Proof.
  intros Hn (M & -> & _ & H). destruct M as [|p M]; [reflexivity|]. rewrite upto_mv. apply forallb_forall. intros x I. rewrite Forall_forall in H. destruct (H x I) as [_ L]. apply N.leb_le.
  transitivity n; [|exact Hn]. apply grade_le; [lia|exact L].
Qed.

Lemma general_sound X F k d s G : (gdim s <= 7)%N -> symmetric_space s -> geometric (gdim s) (metric_of s) G -> sound_products X F (gdim s) (general_products F k d s) G.
Proof.
  intros H7 HS HG C g a b ma mb HC Ta Tb. set (L := Forall2_cons _ _ Ta (Forall2_cons _ _ Tb (Forall2_nil _))). cbn [general_products p_gp p_lcont p_rcont p_sp p_op].
  assert (Hn : (gdim s <= 63)%N) by lia. assert (HE : int_entries (gdim s) (gentry F s) (metric_of s)) by (destruct s as [D|n l]; [apply conformal_int|apply matrix_int, HS]).
  assert (GU : fits a b = true) by (apply fits_right, (good_low C _ b H7 (proj1 Tb))).
  assert (W : forall op res, sound_op X F (guard op) (gdim s) [ma; mb] res -> yields C (gdim s) g (call F k op (map lazy_obj [a; b])) res).
  { intros op res HS' o E. apply (yields_call X C F k _ g HC (guard op) [a; b] [ma; mb] res HS' L o). rewrite <- E. unfold call.
    destruct (nested_args X C F (gdim s) g HC [a; b] [ma; mb] L) as [E1 _]. rewrite E1. unfold guard. rewrite GU. reflexivity. }
  split; [|split; [|split; [|split]]].
  - exact (W _ _ (sound_general F k d (gdim s) (gentry F s) _ G _ _ _ _ Hn HE HG (gp_valid_ok F) (gp_bv F) (gp_declares (gdim s) Hn) gp_keeps X ma mb)).
  - exact (W _ _ (sound_general F k d (gdim s) (gentry F s) _ G _ _ _ _ Hn HE HG (lcont_valid_ok F) (lcont_bv F) (lcont_declares (gdim s)) lcont_keeps X ma mb)).
  - exact (W _ _ (sound_general F k d (gdim s) (gentry F s) _ G _ _ _ _ Hn HE HG (rcont_valid_ok F) (rcont_bv F) (rcont_declares (gdim s)) rcont_keeps X ma mb)).
  - exact (W _ _ (sound_general F k d (gdim s) (gentry F s) _ G _ _ _ _ Hn HE HG (sp_valid_ok F) (sp_bv F) (sp_declares (gdim s)) sp_keeps X ma mb)).
  - exact (yields_call X C F k _ g HC _ [a; b] [ma; mb] _ (sound_mul X F k _ _ _ _ ma mb (op_map_ok F _ Hn) (N.le_refl _) (op_const F _ Hn)) L).
Qed.

Section Values.
Variables (X P : expr -> bool) (F k : nat) (dim : N) (g : env) (M : products) (G : N -> N -> mv).
Hypothesis HP : closed_class X F P.
Hypothesis Hdim : (dim <= 63)%N.
Hypothesis HM : sound_products X F dim M G.
Hypothesis HX : X (CV (-1)) = true.
Notation T := (typed_value P dim g).
Notation Y := (yields P dim g).
Lemma z_gp a b ma mb : T a ma -> T b mb -> Y (p_gp M (lazy_obj a) (lazy_obj b)) (ggp G ma mb).
Proof. intros Ta Tb. apply (HM P g a b ma mb HP Ta Tb). Qed.
Lemma z_lc a b ma mb : T a ma -> T b mb -> Y (p_lcont M (lazy_obj a) (lazy_obj b)) (glc G ma mb).
Proof. intros Ta Tb. apply (HM P g a b ma mb HP Ta Tb). Qed.
Lemma z_rc a b ma mb : T a ma -> T b mb -> Y (p_rcont M (lazy_obj a) (lazy_obj b)) (grc G ma mb).
Proof. intros Ta Tb. apply (HM P g a b ma mb HP Ta Tb). Qed.
Lemma z_sp a b ma mb : T a ma -> T b mb -> Y (p_sp M (lazy_obj a) (lazy_obj b)) (gsp G ma mb).
Proof. intros Ta Tb. apply (HM P g a b ma mb HP Ta Tb). Qed.
Lemma z_op a b ma mb : T a ma -> T b mb -> Y (p_op M (lazy_obj a) (lazy_obj b)) (mop ma mb).
Proof. intros Ta Tb. apply (HM P g a b ma mb HP Ta Tb). Qed.
(** Contexts with one and two arguments. *)
Lemma z_ctx1 f x m res : T x m -> Y (f (lazy_obj x)) res -> Y (in_context F k [lazy_obj x] (body1 f)) res.
Proof. intros Tx Yf. exact (yields_context X P F k dim g HP [x] [m] _ _ (Forall2_cons _ _ Tx (Forall2_nil _)) Yf). Qed.
Lemma z_ctx2 f x y m m' res : T x m -> T y m' -> Y (f (lazy_obj x) (lazy_obj y)) res -> Y (in_context F k [lazy_obj x; lazy_obj y] (body2 f)) res.
Proof. intros Tx Ty Yf. exact (yields_context X P F k dim g HP [x; y] [m; m'] _ _ (Forall2_cons _ _ Tx (Forall2_cons _ _ Ty (Forall2_nil _))) Yf). Qed.
Lemma z_then r f m m' : Y r m -> (forall e, T e m -> Y (f (lazy_obj e)) m') -> Y (andthen r f) m'.
Proof. exact (yields_then P dim g r f m m'). Qed.
Let Yrev := y_rev X P F k dim g HP Hdim.
Let Yinvol := y_invol X P F k dim g HP Hdim.
Let Yneg := y_neg X P F k dim g HP Hdim.
Let Yscalar := y_gp_scalar X P F k dim g HP Hdim.
Lemma z_norm a m : T a m -> Y (norm_sqr_m F k M (lazy_obj a)) (gsp G m (mrev m)).
Proof. intros Ta. apply (z_ctx1 _ a m _ Ta). eapply z_then; [exact (Yrev a m Ta)|]. intros e Te. exact (z_sp a e _ _ Ta Te). Qed.
Lemma z_inv a m : gnorm G m <> 0 -> T a m -> Y (inv_m F k M (lazy_obj a)) (ginv G m).
Proof.
  intros Nz Ta. apply (z_ctx1 _ a m _ Ta). eapply z_then; [exact (Yrev a m Ta)|]. intros r Tr. eapply z_then; [exact (z_norm a m Ta)|]. intros s Ts.
  eapply z_then; [exact (y_inv_scalar X P F k dim g HP HX s _ Nz Ts)|]. intros i Ti. eapply yields_meq; [exact (Yscalar r i _ _ Tr Ti)|]. apply gp_scalar_r.
Qed.
Lemma z_igp a b ma mb : gnorm G mb <> 0 -> T a ma -> T b mb -> Y (igp_m F k M (lazy_obj a) (lazy_obj b)) (ggp G ma (ginv G mb)).
Proof. intros Nz Ta Tb. apply (z_ctx2 _ a b ma mb _ Ta Tb). eapply z_then; [exact (z_inv b mb Nz Tb)|]. intros i Ti. exact (z_gp a i _ _ Ta Ti). Qed.
Lemma z_dual a b ma mb : gnorm G mb <> 0 -> T a ma -> T b mb -> Y (dual_m F k M (lazy_obj a) (lazy_obj b)) (glc G ma (ginv G mb)).
Proof. intros Nz Ta Tb. apply (z_ctx2 _ a b ma mb _ Ta Tb). eapply z_then; [exact (z_inv b mb Nz Tb)|]. intros i Ti. exact (z_lc a i _ _ Ta Ti). Qed.
Lemma z_undual a b ma mb : T a ma -> T b mb -> Y (undual_m F k M (lazy_obj a) (lazy_obj b)) (glc G ma mb).
Proof. intros Ta Tb. apply (z_ctx2 _ a b ma mb _ Ta Tb). exact (z_lc a b _ _ Ta Tb). Qed.
Lemma z_even a b ma mb : gnorm G ma <> 0 -> T a ma -> T b mb -> Y (even_m F k M (lazy_obj a) (lazy_obj b)) (ggp G (ggp G ma mb) (ginv G ma)).
Proof. intros Nz Ta Tb. apply (z_ctx2 _ a b ma mb _ Ta Tb). eapply z_then; [exact (z_gp a b _ _ Ta Tb)|]. intros p Tp. eapply z_then; [exact (z_inv a ma Nz Ta)|]. intros i Ti. exact (z_gp p i _ _ Tp Ti). Qed.
Lemma z_odd a b ma mb : gnorm G ma <> 0 -> T a ma -> T b mb -> Y (odd_m F k M (lazy_obj a) (lazy_obj b)) (ggp G (ggp G ma (minvol mb)) (ginv G ma)).
Proof.
  intros Nz Ta Tb. apply (z_ctx2 _ a b ma mb _ Ta Tb). eapply z_then; [exact (Yinvol b mb Tb)|]. intros z Tz. eapply z_then; [exact (z_gp a z _ _ Ta Tz)|]. intros p Tp. eapply z_then; [exact (z_inv a ma Nz Ta)|]. intros i Ti. exact (z_gp p i _ _ Tp Ti).
Qed.
Lemma z_rotor a b ma mb : T a ma -> T b mb -> Y (rotor_m F k M (lazy_obj a) (lazy_obj b)) (ggp G (ggp G ma mb) (mrev ma)).
Proof. intros Ta Tb. apply (z_ctx2 _ a b ma mb _ Ta Tb). eapply z_then; [exact (z_gp a b _ _ Ta Tb)|]. intros p Tp. eapply z_then; [exact (Yrev a ma Ta)|]. intros i Ti. exact (z_gp p i _ _ Tp Ti). Qed.
Lemma z_project a b ma mb : gnorm G mb <> 0 -> T a ma -> T b mb -> Y (project F k M (lazy_obj a) (lazy_obj b)) (glc G (glc G ma (ginv G mb)) mb).
Proof. intros Nz Ta Tb. apply (z_ctx2 _ a b ma mb _ Ta Tb). eapply z_then; [exact (z_inv b mb Nz Tb)|]. intros i Ti. eapply z_then; [exact (z_lc a i _ _ Ta Ti)|]. intros c Tc. exact (z_lc c b _ _ Tc Tb). Qed.
Lemma z_reject a b ma mb : gnorm G mb <> 0 -> T a ma -> T b mb -> Y (reject F k M (lazy_obj a) (lazy_obj b)) (msub ma (glc G (glc G ma (ginv G mb)) mb)).
Proof. intros Nz Ta Tb. apply (z_ctx2 _ a b ma mb _ Ta Tb). eapply z_then; [exact (z_project a b ma mb Nz Ta Tb)|]. intros p Tp. exact (y_minus X P F k dim g HP Hdim a p _ _ Ta Tp). Qed.

(** Flats of the homogeneous model; [c] is the constant of value [m0]. *)
Section Homogeneous.
Variables (c : expr) (m0 : mv).
Hypothesis Tc : T c m0.
Lemma z_flat_moment a m : T a m -> Y (flat_moment F k M (lazy_obj c) (lazy_obj a)) (glc G m0 (mop m0 m)).
Proof. intros Ta. apply (z_ctx1 _ a m _ Ta). eapply z_then; [exact (z_op c a _ _ Tc Ta)|]. intros e Te. exact (z_lc c e _ _ Tc Te). Qed.
Lemma z_support_vector a m : gnorm G (glc G m0 m) <> 0 -> T a m -> Y (flat_support_vector F k M (lazy_obj c) (lazy_obj a)) (ggp G (glc G m0 (mop m0 m)) (ginv G (glc G m0 m))).
Proof.
  intros Nz Ta. apply (z_ctx1 _ a m _ Ta). eapply z_then; [exact (z_op c a _ _ Tc Ta)|]. intros o To. eapply z_then; [exact (z_lc c o _ _ Tc To)|]. intros e Te.
  eapply z_then; [exact (z_lc c a _ _ Tc Ta)|]. intros d Td. eapply z_then; [exact (z_inv d _ Nz Td)|]. intros i Ti. exact (z_gp e i _ _ Te Ti).
Qed.
Lemma z_support_point a m : gnorm G (glc G m0 m) <> 0 -> T a m -> Y (flat_unit_support_point F k M (lazy_obj c) (lazy_obj a)) (ggp G m (ginv G (glc G m0 m))).
Proof.
  intros Nz Ta. apply (z_ctx1 _ a m _ Ta). eapply z_then; [exact (z_lc c a _ _ Tc Ta)|]. intros d Td. eapply z_then; [exact (z_inv d _ Nz Td)|]. intros i Ti. exact (z_gp a i _ _ Ta Ti).
Qed.
(** Conformal models. *)
Lemma z_direction a m : T a m -> Y (primal_direction F k M (lazy_obj c) (lazy_obj a)) (mop (glc G (scale (-1) m0) m) m0).
Proof. intros Ta. apply (z_ctx1 _ a m _ Ta). eapply z_then; [exact (Yneg c m0 Tc)|]. intros e Te. eapply z_then; [exact (z_lc e a _ _ Te Ta)|]. intros d Td. exact (z_op d c _ _ Td Tc). Qed.
Definition mlocation (m : mv) : mv := ggp G (ggp G (ggp G m m0) m) (ginv G (ggp G [(-2, 0%N)] (gsp G (glc G m0 m) (glc G m0 m)))).
Lemma z_round_location a m : gnorm G (ggp G [(-2, 0%N)] (gsp G (glc G m0 m) (glc G m0 m))) <> 0 -> T a m -> Y (round_location F k M (lazy_obj c) (lazy_obj a)) (mlocation m).
Proof.
  intros Nz Ta. apply (z_ctx1 _ a m _ Ta). eapply z_then; [exact (z_lc c a _ _ Tc Ta)|]. intros x Tx. eapply z_then; [exact (z_gp a c _ _ Ta Tc)|]. intros p Tp. eapply z_then; [exact (z_gp p a _ _ Tp Ta)|]. intros q Tq.
  eapply (z_then _ _ [(-2, 0%N)]); [eapply yields_meq; [exact (Yneg (c_expr 2) _ (T_const X P F dim HP g 2))|]|].
  { intros j. cbn. destruct j; cbn; lra. }
  intros t Tt. eapply z_then; [exact (z_sp x x _ _ Tx Tx)|]. intros s Ts. eapply z_then; [exact (z_gp t s _ _ Tt Ts)|]. intros d Td. eapply z_then; [exact (z_inv d _ Nz Td)|]. intros i Ti. exact (z_gp q i _ _ Tq Ti).
Qed.
Definition msize (m : mv) : mv := gsp G (gsp G m (minvol m)) (ginv G (gsp G (glc G m0 m) (glc G m0 m))).
Lemma z_size_t a m : gnorm G (gsp G (glc G m0 m) (glc G m0 m)) <> 0 -> T a m -> Y (primal_size_sqr_t F k M (lazy_obj c) (lazy_obj a)) (msize m).
Proof.
  intros Nz Ta. unfold primal_size_sqr_t. eapply z_then; [exact (z_lc c a _ _ Tc Ta)|]. intros x Tx. eapply z_then; [exact (Yinvol a m Ta)|]. intros y Ty. eapply z_then; [exact (z_sp a y _ _ Ta Ty)|]. intros s Ts.
  eapply z_then; [exact (z_sp x x _ _ Tx Tx)|]. intros t Tt. eapply z_then; [exact (z_inv t _ Nz Tt)|]. intros i Ti. exact (z_sp s i _ _ Ts Ti).
Qed.
Lemma z_size a m : gnorm G (gsp G (glc G m0 m) (glc G m0 m)) <> 0 -> T a m -> Y (primal_round_size_sqr F k M (lazy_obj c) (lazy_obj a)) (msize m).
Proof. intros Nz Ta. apply (z_ctx1 _ a m _ Ta). exact (z_size_t a m Nz Ta). Qed.
Lemma z_dual_size a m : gnorm G (gsp G (glc G m0 m) (glc G m0 m)) <> 0 -> T a m -> Y (dual_round_size_sqr F k M (lazy_obj c) (lazy_obj a)) (scale (-1) (msize m)).
Proof. intros Nz Ta. apply (z_ctx1 _ a m _ Ta). eapply z_then; [exact (z_size_t a m Nz Ta)|]. intros e Te. exact (Yneg e _ Te). Qed.
Lemma z_tangent_location a m : gnorm G (glc G (scale (-1) m0) m) <> 0 -> T a m -> Y (tangent_location F k M (lazy_obj c) (lazy_obj a)) (ggp G m (ginv G (glc G (scale (-1) m0) m))).
Proof. intros Nz Ta. apply (z_ctx1 _ a m _ Ta). eapply z_then; [exact (Yneg c m0 Tc)|]. intros e Te. eapply z_then; [exact (z_lc e a _ _ Te Ta)|]. intros d Td. eapply z_then; [exact (z_inv d _ Nz Td)|]. intros i Ti. exact (z_gp a i _ _ Ta Ti). Qed.
Lemma z_dual_flat_c a m : gnorm G m <> 0 -> T a m -> Y (dual_flat_location_c F k M (lazy_obj c) (lazy_obj a)) (grc G (mop m0 m) (ginv G m)).
Proof. intros Nz Ta. apply (z_ctx1 _ a m _ Ta). eapply z_then; [exact (z_op c a _ _ Tc Ta)|]. intros e Te. eapply z_then; [exact (z_inv a _ Nz Ta)|]. intros i Ti. exact (z_rc e i _ _ Te Ti). Qed.
Lemma z_primal_flat_c a m : gnorm G m <> 0 -> T a m -> Y (primal_flat_location_c F k M (lazy_obj c) (lazy_obj a)) (glc G (glc G m0 m) (ginv G m)).
Proof. intros Nz Ta. apply (z_ctx1 _ a m _ Ta). eapply z_then; [exact (z_lc c a _ _ Tc Ta)|]. intros e Te. eapply z_then; [exact (z_inv a _ Nz Ta)|]. intros i Ti. exact (z_lc e i _ _ Te Ti). Qed.
Lemma z_dual_flat_m a m : gnorm G m <> 0 -> T a m -> Y (dual_flat_location_m F k M (lazy_obj c) (lazy_obj a)) (ggp G (mop m0 m) (ginv G m)).
Proof. intros Nz Ta. apply (z_ctx1 _ a m _ Ta). eapply z_then; [exact (z_op c a _ _ Tc Ta)|]. intros e Te. eapply z_then; [exact (z_inv a _ Nz Ta)|]. intros i Ti. exact (z_gp e i _ _ Te Ti). Qed.
Lemma z_primal_flat_m a m : gnorm G m <> 0 -> T a m -> Y (primal_flat_location_m F k M (lazy_obj c) (lazy_obj a)) (ggp G (glc G m0 m) (ginv G m)).
Proof. intros Nz Ta. apply (z_ctx1 _ a m _ Ta). eapply z_then; [exact (z_lc c a _ _ Tc Ta)|]. intros e Te. eapply z_then; [exact (z_inv a _ Nz Ta)|]. intros i Ti. exact (z_gp e i _ _ Te Ti). Qed.
End Homogeneous.
End Values.
