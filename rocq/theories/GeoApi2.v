(** The functions of the conformal and homogeneous models: values of the calls. *)
From Coq Require Import NArith ZArith List Bool Lia Reals Lra Setoid Morphisms.
From Verif Require Import Bits SpecBits Expr Sem Wf BitsBase SpecMv SpecAlg SpecExtra MvBase Simp Comp Mapping Ops EvalC SpecEval Lazy SpecLazy Api Extra SpecApi SpecUtil GradeProofs OuterProofs MappingProofs GumProofs PresProofs CanonProofs PolyProofs ProductProofs Clifford Clifford2 Clifford4 AlgProofs ApiProofs ApiProofs2 ApiProofs3 ExtraProofs General SpecGeneral Wick Wick2 Spaces SpecSpaces VecProofs GenApi ModelProofs Geo SpecGeo GaProofs GeoProofs GaRound GeoApi SimpProofs.
Import ListNotations.
Local Open Scope R_scope.

(** ** The constants *)
Lemma T_basis X F P n g i : (n <= 63)%N -> (i < n)%N -> closed_class X F P -> typed_value P n g (Comp (CV 1) (CBlade (bit (i + 1 - 1)))) [(1, (2 ^ i)%N)].
Proof.
  intros Hn Hi HP. replace (i + 1 - 1)%N with i by lia. assert (Eb : bit i = (2 ^ i)%N) by (apply bit_pow; lia). rewrite Eb. pose proof HP as (Pc & _). split; [|split; [|exists [(1, (2 ^ i)%N)]; split; [|intros j; reflexivity]]].
  - apply (good_comp P n (CV 1) (2 ^ i)); [apply Pc| |]; apply N.pow_lt_mono_r; lia.
  - cbn [mv_ok wf]. apply N.ltb_lt. change 18446744073709551616%N with (2 ^ 64)%N. apply N.pow_lt_mono_r; lia.
  - cbn [den]. exists (1, (2 ^ i)%N). split; [|reflexivity]. split; [apply num_cv|]. split; reflexivity.
Qed.
Lemma Y_done P n g e m : typed_value P n g e m -> yields P n g (Some (Done (lazy_obj e))) m.
Proof. intros T o E. apply Some_inj in E. subst o. exists e. auto. Qed.
Lemma Y_infinity X F k m P g : model_ok m -> closed_class X F P -> yields P (model_dim m) g (infinity_obj F k m) (model_infinity m).
Proof.
  intros Hm HP. pose proof (model_low m Hm) as L. destruct m as [D|D]; cbn [model_dim infinity_obj model_infinity] in *.
  - replace (D + 2)%N with (D + 1 + 1)%N at 2 by lia. apply Y_done. exact (T_basis X F P (D + 2) g (D + 1) L ltac:(lia) HP).
  - replace (D + 2)%N with (D + 1 + 1)%N at 2 by lia. exact (y_plus X P F k (D + 2) g HP _ _ _ _ (T_basis X F P (D + 2) g D L ltac:(lia) HP) (T_basis X F P (D + 2) g (D + 1) L ltac:(lia) HP)).
Qed.
Lemma Y_origin F k m P g : model_ok m -> closed_class is_int F P -> yields P (model_dim m) g (origin_obj F k m) (model_origin m).
Proof.
  intros Hm HP. pose proof (model_low m Hm) as L. destruct m as [D|D]; cbn [model_dim origin_obj model_origin] in *.
  - apply Y_done. exact (T_basis is_int F P (D + 2) g D L ltac:(lia) HP).
  - replace (D + 2)%N with (D + 1 + 1)%N at 2 by lia.
    apply (yields_then P (D + 2) g _ _ _ _ (y_minus is_int P F k (D + 2) g HP L _ _ _ _ (T_basis is_int F P (D + 2) g (D + 1) L ltac:(lia) HP) (T_basis is_int F P (D + 2) g D L ltac:(lia) HP))).
    intros e Te. eapply yields_meq; [exact (y_divide is_int P F k (D + 2) g HP L eq_refl e (c_expr 2) _ 2 ltac:(lra) Te (T_const is_int P F (D + 2) HP g 2))|].
    apply meq_sumf. intros h. rewrite sumf_scale. unfold msub. rewrite sumf_app, sumf_scale. cbn [sumf fst snd]. field.
Qed.
(** A function that first computes a constant. *)
Lemma rat1c F k c f n m0 a ma res o :
  (forall P g, closed_class is_int F P -> yields P n g c m0) ->
  (forall e, exists body, forall x, f e x = in_context F k [x] body) ->
  (forall P g e x, closed_class is_int F P -> typed_value P n g e m0 -> typed_value P n g x ma -> yields P n g (f (lazy_obj e) (lazy_obj x)) res) ->
  rat_object n a -> value a ma -> exact (body1 (fun x => andthen c (fun e => f e x))) [a] -> andthen c (fun e => f e a) = Some o ->
  o = Ovf \/ exists r, o = Done r /\ rat_object n r /\ value r res.
Proof.
  intros Yc B Y Oa Va X E. pose proof (ipoly_class is_int F exps_int 1 0) as H0. set (g0 := {| ev := fun _ _ => None; eb := fun _ _ => None |}). destruct c as [oc|] eqn:Ec; [|discriminate E].
  destruct (Yc _ g0 H0 oc eq_refl) as (e & -> & _). cbn [andthen] in E. destruct (B (lazy_obj e)) as (body & Eb).
  refine (rat1 F k (f (lazy_obj e)) n a ma res o body Eb _ Oa Va X E).
  intros P g x HP Tx. apply (Y P g e x HP); [|exact Tx]. destruct (Yc P g HP _ eq_refl) as (e' & Ee & Te). injection Ee as <-. exact Te.
Qed.

(** ** Rounds, tangents and flats *)
Section Calls.
Variables (F k d : nat) (m : cmodel) (G : N -> N -> mv) (xs : list R) (kk : N) (a : mv).
Hypothesis Hm : model_ok m.
Hypothesis Hx : model_coords m xs.
Hypothesis HG : geometric (model_dim m) (model_metric m) G.
Notation p := (model_point m xs).
Notation ni := (model_infinity m).
Notation n := (model_dim m).
Hypothesis HA : attitude n G p ni kk a.
Notation G0 := (gof m).
Notation H0 := (gof_geometric m Hm).
Let Vp := point_vec m Hm xs Hx.
Let Vi := infinity_vec m Hm.
Let Vo := origin_vec m Hm.
Let A0 : attitude n G0 p ni kk a := same_attitude n _ G G0 (m64 m Hm) HG H0 p ni kk a (vec_in n p Vp) (vec_in n ni Vi) HA.
Let K := fun P F k => model_sound P F k d m Hm.
Let Yi := fun P g HP => Y_infinity is_int F k m P g Hm HP.
Let Yo := fun P g HP => Y_origin F k m P g Hm HP.
Let L := model_low m Hm.
Let L64 := m64 m Hm.

Lemma c_round_location rho r o : rat_object n r -> value r (round p ni rho a) -> exact (body1 (round_location_in F k d m)) [r] -> round_location_in F k d m r = Some o ->
  o = Ovf \/ exists r', o = Done r' /\ rat_object n r' /\ value r' p.
Proof.
  intros Or Vr X E. destruct A0 as (Ia & Ha & Pa & Na & c & Hc & Sa).
  destruct (round_loc n _ G0 L64 H0 (model_sym m) p ni a kk c Vp Vi (ip_self m Hm xs Hx) (ip_infinity_2 m Hm) (ip_infinity m Hm xs Hx) Ia Ha Pa Na Hc Sa rho) as [Nz Q].
  refine (rat1c F k (infinity_obj F k m) (round_location F k (model_products F k d m)) n ni r _ p o Yi ltac:(intros e; eexists; intros x; match goal with |- ?f _ _ _ _ _ = _ => unfold f end; reflexivity) _ Or Vr X E). intros P g e x HP Te Tx. eapply yields_meq; [|exact Q].
  exact (z_round_location is_int P F k n g _ G0 HP L (K is_int F k) eq_refl e ni Te x _ Nz Tx).
Qed.
Lemma c_round_size rho r o : rat_object n r -> value r (round p ni rho a) -> exact (body1 (round_size_sqr_in F k d m)) [r] -> round_size_sqr_in F k d m r = Some o ->
  o = Ovf \/ exists r', o = Done r' /\ rat_object n r' /\ value r' [(rho, 0%N)].
Proof.
  intros Or Vr X E. destruct A0 as (Ia & Ha & Pa & Na & c & Hc & Sa).
  destruct (round_siz n _ G0 L64 H0 (model_sym m) p ni a kk c Vp Vi (ip_self m Hm xs Hx) (ip_infinity_2 m Hm) (ip_infinity m Hm xs Hx) Ia Ha Pa Na Hc Sa rho) as [Nz Q].
  refine (rat1c F k (infinity_obj F k m) (primal_round_size_sqr F k (model_products F k d m)) n ni r _ _ o Yi ltac:(intros e; eexists; intros x; match goal with |- ?f _ _ _ _ _ = _ => unfold f end; reflexivity) _ Or Vr X E). intros P g e x HP Te Tx. eapply yields_meq; [|exact Q].
  exact (z_size is_int P F k n g _ G0 HP L (K is_int F k) eq_refl e ni Te x _ Nz Tx).
Qed.
(** A dual round with squared radius [rho] has the form of a round with squared radius [- rho]. *)
Lemma c_dual_round_size rho r o : rat_object n r -> value r (round p ni (- rho) a) -> exact (body1 (dual_round_size_sqr_in F k d m)) [r] -> dual_round_size_sqr_in F k d m r = Some o ->
  o = Ovf \/ exists r', o = Done r' /\ rat_object n r' /\ value r' [(rho, 0%N)].
Proof.
  intros Or Vr X E. destruct A0 as (Ia & Ha & Pa & Na & c & Hc & Sa).
  destruct (round_siz n _ G0 L64 H0 (model_sym m) p ni a kk c Vp Vi (ip_self m Hm xs Hx) (ip_infinity_2 m Hm) (ip_infinity m Hm xs Hx) Ia Ha Pa Na Hc Sa (- rho)) as [Nz Q].
  refine (rat1c F k (infinity_obj F k m) (dual_round_size_sqr F k (model_products F k d m)) n ni r _ _ o Yi ltac:(intros e; eexists; intros x; match goal with |- ?f _ _ _ _ _ = _ => unfold f end; reflexivity) _ Or Vr X E). intros P g e x HP Te Tx. eapply yields_meq; [exact (z_dual_size is_int P F k n g _ G0 HP L (K is_int F k) eq_refl e ni Te x _ Nz Tx)|].
  transitivity (scale (-1) [(- rho, 0%N)]); [apply scale_meq; [reflexivity|exact Q]|]. rewrite scalar_scale. replace (-1 * - rho) with rho by ring. reflexivity.
Qed.
Lemma c_round_direction rho r o : rat_object n r -> value r (round p ni rho a) -> exact (body1 (direction_in F k d m)) [r] -> direction_in F k d m r = Some o ->
  o = Ovf \/ exists r', o = Done r' /\ rat_object n r' /\ value r' (mop a ni).
Proof.
  intros Or Vr X E. destruct A0 as (Ia & Ha & Pa & Na & c & Hc & Sa).
  pose proof (round_dir n _ G0 L64 H0 (model_sym m) p ni a Vp Vi (ip_infinity_2 m Hm) (ip_infinity m Hm xs Hx) Ia Na rho) as Q.
  refine (rat1c F k (infinity_obj F k m) (primal_direction F k (model_products F k d m)) n ni r _ _ o Yi ltac:(intros e; eexists; intros x; match goal with |- ?f _ _ _ _ _ = _ => unfold f end; reflexivity) _ Or Vr X E). intros P g e x HP Te Tx. eapply yields_meq; [|exact Q].
  exact (z_direction is_int P F k n g _ G0 HP L (K is_int F k) e ni Te x _ Tx).
Qed.
Lemma c_tangent_direction r o : rat_object n r -> value r (tangent p a) -> exact (body1 (direction_in F k d m)) [r] -> direction_in F k d m r = Some o ->
  o = Ovf \/ exists r', o = Done r' /\ rat_object n r' /\ value r' (mop a ni).
Proof.
  intros Or Vr X E. destruct A0 as (Ia & Ha & Pa & Na & c & Hc & Sa).
  pose proof (tangent_dir n _ G0 L64 H0 (model_sym m) p ni a Vp Vi (ip_infinity m Hm xs Hx) Ia Na) as Q.
  refine (rat1c F k (infinity_obj F k m) (primal_direction F k (model_products F k d m)) n ni r _ _ o Yi ltac:(intros e; eexists; intros x; match goal with |- ?f _ _ _ _ _ = _ => unfold f end; reflexivity) _ Or Vr X E). intros P g e x HP Te Tx. eapply yields_meq; [|exact Q].
  exact (z_direction is_int P F k n g _ G0 HP L (K is_int F k) e ni Te x _ Tx).
Qed.
Lemma c_tangent_location r o : rat_object n r -> value r (tangent p a) -> exact (body1 (tangent_location_in F k d m)) [r] -> tangent_location_in F k d m r = Some o ->
  o = Ovf \/ exists r', o = Done r' /\ rat_object n r' /\ value r' p.
Proof.
  intros Or Vr X E. destruct A0 as (Ia & Ha & Pa & Na & c & Hc & Sa).
  destruct (tangent_loc n _ G0 L64 H0 (model_sym m) p ni a kk c Vp Vi (ip_infinity m Hm xs Hx) Ia Ha Pa Na Hc Sa) as [Nz Q].
  refine (rat1c F k (infinity_obj F k m) (tangent_location F k (model_products F k d m)) n ni r _ _ o Yi ltac:(intros e; eexists; intros x; match goal with |- ?f _ _ _ _ _ = _ => unfold f end; reflexivity) _ Or Vr X E). intros P g e x HP Te Tx. eapply yields_meq; [|exact Q].
  exact (z_tangent_location is_int P F k n g _ G0 HP L (K is_int F k) eq_refl e ni Te x _ Nz Tx).
Qed.
Let minus_q : p ++ scale (- (- dotp xs xs / 2)) ni = support_vector m xs.
Proof. unfold support_vector. replace (- (- dotp xs xs / 2)) with (dotp xs xs / 2) by field. reflexivity. Qed.
Lemma c_flat_location r o : meq (glc G (model_origin m) a) [] -> rat_object n r -> value r (flat p ni a) -> exact (body1 (flat_location_in F k d m)) [r] -> flat_location_in F k d m r = Some o ->
  o = Ovf \/ exists r', o = Done r' /\ rat_object n r' /\ value r' (support_vector m xs).
Proof.
  intros Oa Or Vr X E. destruct A0 as (Ia & Ha & Pa & Na & c & Hc & Sa).
  assert (Oa0 : meq (glc G0 (model_origin m) a) []) by (rewrite <- (same_lc n _ G G0 L64 HG H0 _ a (vec_in n _ Vo) Ia); exact Oa).
  pose proof (proj1 (flat_inv n _ G0 L64 H0 (model_sym m) p ni a kk c Vp Vi (ip_self m Hm xs Hx) (ip_infinity m Hm xs Hx) Ia Ha Pa Na Hc Sa)) as Nz.
  pose proof (flat_gp n _ G0 L64 H0 (model_sym m) p ni a kk c Vp Vi (ip_self m Hm xs Hx) (ip_infinity_2 m Hm) (ip_infinity m Hm xs Hx) Ia Ha Pa Na Hc Sa _ _ Vo (ip_origin_infinity m Hm) (ip_origin m Hm xs Hx) Oa0) as Q1.
  pose proof (flat_lc n _ G0 L64 H0 (model_sym m) p ni a kk c Vp Vi (ip_self m Hm xs Hx) (ip_infinity_2 m Hm) (ip_infinity m Hm xs Hx) Ia Ha Pa Na Hc Sa _ _ Vo (ip_origin_infinity m Hm) (ip_origin m Hm xs Hx) Oa0) as Q2.
  rewrite minus_q in Q1, Q2.
  refine (rat1c F k (origin_obj F k m) (fun e x => match m with ConformalModel _ => primal_flat_location_c F k (model_products F k d m) e x | MinkowskiModel _ => primal_flat_location_m F k (model_products F k d m) e x end) n (model_origin m) r _ _ o Yo ltac:(intros e; destruct m; eexists; intros x; match goal with |- ?f _ _ _ _ _ = _ => unfold f end; reflexivity) _ Or Vr X E).
  intros P g e x HP Te Tx.
  pose proof (fun N => yields_meq P n g _ _ _ (z_primal_flat_c is_int P F k n g _ G0 HP L (K is_int F k) eq_refl e _ Te x _ N Tx) Q2) as W2.
  pose proof (fun N => yields_meq P n g _ _ _ (z_primal_flat_m is_int P F k n g _ G0 HP L (K is_int F k) eq_refl e _ Te x _ N Tx) Q1) as W1.
  destruct m as [D|D]; [exact (W2 Nz)|exact (W1 Nz)].
Qed.
(** The vector x + |x|^2 ni is in the dual: [xs] is the point of the flat nearest to the origin. *)
Lemma c_dual_flat_location r o : meq (mop (model_origin m) a) (mop (support_vector m xs) a) -> rat_object n r -> value r a -> exact (body1 (dual_flat_location_in F k d m)) [r] -> dual_flat_location_in F k d m r = Some o ->
  o = Ovf \/ exists r', o = Done r' /\ rat_object n r' /\ value r' (support_vector m xs).
Proof.
  intros Oa Or Vr X E. destruct A0 as (Ia & Ha & Pa & Na & c & Hc & Sa). rewrite <- minus_q in Oa.
  pose proof (proj1 (a_inv n _ G0 L64 H0 a kk c Ia Ha Hc Sa)) as Nz.
  pose proof (dual_flat_gp n _ G0 L64 H0 p ni a kk c Vp Vi Ia Ha Pa Na Hc Sa _ _ Oa) as Q1.
  pose proof (dual_flat_rc n _ G0 L64 H0 p ni a kk c Vp Vi Ia Ha Pa Na Hc Sa _ _ Vo Oa) as Q2.
  rewrite minus_q in Q1, Q2.
  refine (rat1c F k (origin_obj F k m) (fun e x => match m with ConformalModel _ => dual_flat_location_c F k (model_products F k d m) e x | MinkowskiModel _ => dual_flat_location_m F k (model_products F k d m) e x end) n (model_origin m) r _ _ o Yo ltac:(intros e; destruct m; eexists; intros x; match goal with |- ?f _ _ _ _ _ = _ => unfold f end; reflexivity) _ Or Vr X E).
  intros P g e x HP Te Tx.
  pose proof (fun N => yields_meq P n g _ _ _ (z_dual_flat_c is_int P F k n g _ G0 HP L (K is_int F k) eq_refl e _ Te x _ N Tx) Q2) as W2.
  pose proof (fun N => yields_meq P n g _ _ _ (z_dual_flat_m is_int P F k n g _ G0 HP L (K is_int F k) eq_refl e _ Te x _ N Tx) Q1) as W1.
  destruct m as [D|D]; [exact (W2 Nz)|exact (W1 Nz)].
Qed.
End Calls.
