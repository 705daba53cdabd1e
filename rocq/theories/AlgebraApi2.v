(** The constants of the algebra definitions: their products. *)
From Coq Require Import NArith ZArith List Bool Lia Reals Lra Setoid Morphisms.
From Verif Require Import Bits SpecBits Expr Sem Wf BitsBase SpecMv SpecAlg SpecExtra MvBase Simp SimpProofs Comp Mapping Ops EvalC SpecEval Lazy SpecLazy LazyProofs LazyProofs2 ExprBase Api Extra SpecApi SpecOrder SpecUtil Build BuildProofs GradeProofs OuterProofs MappingProofs GumProofs PresProofs CanonProofs PolyProofs ProductProofs Clifford Clifford2 Clifford4 AlgProofs ApiProofs ApiProofs2 ApiProofs3 ExtraProofs General SpecGeneral Wick Wick2 Spaces SpecSpaces VecProofs GenMul GenApi ModelProofs Geo SpecGeo GaProofs GeoProofs GaRound GeoApi GeoApi2 Algebras AlgebraProofs AlgebraApi.
Import ListNotations.
Local Open Scope R_scope.
Local Opaque sign_of indices.

Section Dim.
Variable D : N.
Hypothesis HD : (D + 2 <= 63)%N.
Notation n := (D + 2)%N.
Let Hn : (n <= 63)%N := HD.
Let H64 : (n <= 64)%N. Proof. lia. Qed.
Lemma T_low F P g : closed_class is_int F P -> typed_value P n g (Comp (CV 1) (CBlade (bit (D + 1 - 1)))) [(1, (2 ^ D)%N)].
Proof. intros HP. exact (T_basis is_int F P n g D Hn ltac:(lia) HP). Qed.
Lemma T_high F P g : closed_class is_int F P -> typed_value P n g (Comp (CV 1) (CBlade (bit (D + 2 - 1)))) [(1, (2 ^ (D + 1))%N)].
Proof. intros HP. replace (D + 2)%N with (D + 1 + 1)%N at 2 by lia. exact (T_basis is_int F P n g (D + 1) Hn ltac:(lia) HP). Qed.

(** *** The conformal model *)
Notation half_ni := [(/ 2, (2 ^ (D + 1))%N)].
Definition v_ep : mv := [(/ 2, (2 ^ (D + 1))%N); (-1, (2 ^ D)%N)].
Definition v_em : mv := [(/ 2, (2 ^ (D + 1))%N); (1, (2 ^ D)%N)].
Lemma Y_half F k P g : closed_class is_int F P -> yields P n g (divide_by F k (basis_obj (D + 2)) (c_obj 2)) half_ni.
Proof.
  intros HP. eapply yields_meq; [exact (y_divide is_int P F k n g HP Hn eq_refl _ (c_expr 2) _ 2 ltac:(lra) (T_high F P g HP) (T_const is_int P F n HP g 2))|].
  apply meq_sumf. intros h. rewrite sumf_scale. cbn [sumf fst snd]. field.
Qed.
Lemma Y_ep F k P g : closed_class is_int F P -> yields P n g (conformal_ep F k D) v_ep.
Proof.
  intros HP. apply (yields_then P n g _ _ _ _ (Y_half F k P g HP)). intros e Te. eapply yields_meq; [exact (y_minus is_int P F k n g HP Hn e _ _ _ Te (T_low F P g HP))|].
  apply meq_sumf. intros h. unfold msub. rewrite sumf_app, sumf_scale. unfold v_ep. cbn [sumf fst snd]. ring.
Qed.
Lemma Y_em F k P g : closed_class is_int F P -> yields P n g (conformal_em F k D) v_em.
Proof.
  intros HP. apply (yields_then P n g _ _ _ _ (Y_half F k P g HP)). intros e Te. exact (y_plus is_int P F k n g HP e _ _ _ Te (T_low F P g HP)).
Qed.
Lemma T_ep g : typed_value P0 n g (axis_type (CV (-1)) half D) v_ep.
Proof. destruct (Y_ep (20 + 0) (20 + 0) P0 g (H0 _) _ (ep_type 0 0 D HD)) as (e & E & T). injection E as <-. exact T. Qed.
Lemma T_em g : typed_value P0 n g (axis_type (CV 1) half D) v_em.
Proof. destruct (Y_em (20 + 0) (20 + 0) P0 g (H0 _) _ (em_type 0 0 D HD)) as (e & E & T). injection E as <-. exact T. Qed.
(** The types are sums of vectors. *)
Lemma axis_fits x x' y y' : fits (axis_type x y D) (axis_type x' y' D) = true.
Proof.
  apply fits_right. change (axis_type x' y' D) with (mv_of [((2 ^ D)%N, x'); ((2 ^ (D + 1))%N, y')]). rewrite upto_mv. cbn [forallb fst]. unfold low. rewrite !grade_pow by lia. reflexivity.
Qed.
Definition wf_vec : vec n v_ep /\ vec n v_em.
Proof. split; repeat constructor; cbn [snd]; eexists; (split; [|reflexivity]); lia. Qed.
Lemma sp_vec (B : N -> N -> R) G u v : geometric n B G -> (forall i j, B i j = B j i) -> vec n u -> vec n v -> meq (bilinear (part_sp G) u v) [(ip B u v, 0%N)].
Proof.
  intros HG SB Vu Vv. pose proof (vec_in n u Vu) as Iu. pose proof (vec_in n v Vv) as Iv. change (meq (gsp G u v) [(ip B u v, 0%N)]). rewrite (gsp_re n B G H64 HG u v Iu Iv).
  assert (E : re (ggp G u v) = ip B u v); [|rewrite E; reflexivity].
  pose proof (vec_gp n B G H64 HG u v Vu Iv) as Q. rewrite (vec_scalar n B G H64 HG u v Vu Vv) in Q. unfold re. rewrite (Q 0%N), coef_app. cbn [coef]. rewrite N.eqb_refl.
  assert (Z : coef (mop u v) 0 = 0); [|rewrite Z; ring].
  assert (H2 : homog (1 + 1) (mop u v)) by (apply op_grades_add; apply (vec_homog n H64); assumption). revert H2. clear. intros H. induction H as [|p l Hp Hl IH]; [reflexivity|]. cbn [coef]. rewrite IH. destruct p as [x b]. cbn [snd] in Hp. destruct (N.eqb_spec b 0) as [->|]; [exfalso; rewrite grade_of_0 in Hp; discriminate Hp|ring].
Qed.
Lemma conformal_sp_axes F k d x x' u v o : (forall g, typed_value P0 n g (axis_type x half D) u) -> (forall g, typed_value P0 n g (axis_type x' half D) v) -> vec n u -> vec n v ->
  sp_g F k d n (gentry F (Conformal D)) (lazy_obj (axis_type x half D)) (lazy_obj (axis_type x' half D)) = Some o ->
  exists r, o = Done r /\ value r [(ip (conformal_metric D) u v, 0%N)].
Proof.
  intros Tu Tv Vu Vv. apply (yields_value n). intros g. assert (HG : geometric n (conformal_metric D) (wick (conformal_metric D))) by (apply wick_geometric; exact H64).
  eapply yields_meq; [exact (general_yields F k d n (conformal_entry D) (conformal_metric D) _ _ _ _ _ is_int P0 g _ _ u v Hn (conformal_int D) HG (sp_valid_ok F) (sp_bv F) (sp_declares n) sp_keeps (H0 F) (Tu g) (Tv g) (axis_fits _ _ _ _))|].
  exact (sp_vec _ _ u v HG (conformal_sym D) Vu Vv).
Qed.
Lemma pow_log j : N.log2 (2 ^ j) = j. Proof. apply N.log2_pow2, N.le_0_l. Qed.
Lemma ip_ep : ip (conformal_metric D) v_ep v_ep = 1 /\ ip (conformal_metric D) v_em v_em = -1 /\ ip (conformal_metric D) v_ep v_em = 0.
Proof. destruct (entries D) as (E1 & E2 & E3 & E4). unfold ip, v_ep, v_em. cbn [sumf fst snd]. rewrite !pow_log, E1, E2, E3, E4. repeat split; field. Qed.

(** *** The Minkowski model *)
Notation m := (MinkowskiModel D).
Lemma T_no g : typed_value P0 n g (axis_type (Fn NMul [CV (-1); half]) half D) (model_origin m).
Proof. destruct (Y_origin (20 + 0) (20 + 0) m P0 g ltac:(cbn; lia) (H0 _) _ (no_type 0 0 D HD)) as (e & E & T). injection E as <-. exact T. Qed.
Lemma T_ni g : typed_value P0 n g (axis_type (CV 1) (CV 1) D) (model_infinity m).
Proof. destruct (Y_infinity is_int (20 + 0) (20 + 0) m P0 g ltac:(cbn; lia) (H0 _) _ (ni_type 0 0 D HD)) as (e & E & T). injection E as <-. exact T. Qed.
Lemma minkowski_sp_axes F k a b u v o : (forall g, typed_value P0 n g a u) -> (forall g, typed_value P0 n g b v) -> vec n u -> vec n v ->
  sp F k (D + 1) 1 0 (lazy_obj a) (lazy_obj b) = Some o -> exists r, o = Done r /\ value r [(ip (diagonal_form (signature (D + 1) 1)) u v, 0%N)].
Proof.
  intros Tu Tv Vu Vv. apply (yields_value n). intros g. assert (HG : geometric n (diagonal_form (signature (D + 1) 1)) (gp_blade (signature (D + 1) 1))) by (apply diagonal_geometric; exact H64).
  eapply yields_meq; [|exact (sp_vec _ _ u v HG (model_sym m) Vu Vv)].
  rewrite part_s. assert (En : n = (D + 1 + 1 + 0)%N) by lia. pose proof (Tu g) as T1. pose proof (Tv g) as T2. rewrite En in T1, T2 |- *. pose proof Hn as L. rewrite En in L.
  exact (y_sp is_int P0 F k _ g (Signed (D + 1) 1 0) (H0 F) L eq_refl _ _ u v T1 T2).
Qed.
End Dim.
