(** The constants of the algebra definitions: the pseudoscalars of the base spaces. *)
From Coq Require Import NArith ZArith List Bool Lia Reals Lra Setoid Morphisms.
From Verif Require Import Bits SpecBits Expr Sem Wf BitsBase SpecMv SpecAlg SpecExtra MvBase Simp SimpProofs Comp Mapping Ops EvalC SpecEval Lazy SpecLazy LazyProofs LazyProofs2 ExprBase Api Extra SpecApi SpecOrder SpecUtil Build BuildProofs GradeProofs OuterProofs MappingProofs GumProofs PresProofs CanonProofs PolyProofs ProductProofs Clifford Clifford2 Clifford4 AlgProofs ApiProofs ApiProofs2 ApiProofs3 ExtraProofs General SpecGeneral Wick Wick2 Spaces SpecSpaces VecProofs GenMul GenApi ModelProofs Geo SpecGeo GaProofs GeoProofs GaRound GeoApi GeoApi2 Algebras AlgebraProofs AlgebraApi AlgebraApi2.
Import ListNotations.
Local Open Scope R_scope.

Definition op_check (a b c : N) (neg : bool) : bool := N.eqb (N.land a b) 0 && eqb (Nat.odd (inversions a b)) neg && N.eqb (N.lor a b) c.
Lemma op_checked a b c neg : op_check a b c neg = true -> op_blade a b = [((if neg then -1 else 1), c)].
Proof.
  unfold op_check. intros H. apply andb_prop in H as [H H3]. apply andb_prop in H as [H1 H2]. apply eqb_prop in H2. apply N.eqb_eq in H3. unfold op_blade, sign_of. rewrite H1, H2, H3. reflexivity.
Qed.
Definition dims_check (D : N) : bool :=
  op_check (2 ^ D) (2 ^ (D + 1)) (3 * 2 ^ D) false && op_check (2 ^ (D + 1)) (2 ^ D) (3 * 2 ^ D) true &&
  op_check (2 ^ D - 1) (3 * 2 ^ D) (2 ^ (D + 2) - 1) false && op_check (2 ^ D - 1) (2 ^ D) (2 ^ (D + 1) - 1) false.
Lemma dims_ok D : (D + 2 <= 63)%N -> dims_check D = true.
Proof. revert D. apply every_dimension. cbn [map seq N.of_nat]. each_dimension. Qed.
Lemma last_ok D : (D + 1 <= 63)%N -> op_check (2 ^ D - 1) (2 ^ D) (2 ^ (D + 1) - 1) false = true.
Proof.
  intros H. destruct (N.eq_dec D 62) as [->|]; [vm_compute; reflexivity|]. pose proof (dims_ok D ltac:(lia)) as Q. unfold dims_check in Q. apply andb_prop in Q as [_ Q]. exact Q.
Qed.
Lemma wedge_type F k D : (D + 2 <= 63)%N -> outer (20 + F) (20 + k) (D + 2) (basis_obj (D + 1)) (basis_obj (D + 2)) = Some (Done (lazy_obj (Comp (CV 1) (CBlade (3 * 2 ^ D))))).
Proof. revert D. apply every_dimension. cbn [map seq N.of_nat]. each_dimension. Qed.
Local Opaque sign_of indices op_blade.

Section Dim.
Variable D : N.
Hypothesis HD : (D + 2 <= 63)%N.
Notation n := (D + 2)%N.
Let Hn : (n <= 63)%N := HD.
Let H64 : (n <= 64)%N. Proof. lia. Qed.
Notation A := [(1, (2 ^ D - 1)%N)].
Notation W := [(1, (3 * 2 ^ D)%N)].
Lemma blades : op_blade (2 ^ D) (2 ^ (D + 1)) = [(1, (3 * 2 ^ D)%N)] /\ op_blade (2 ^ (D + 1)) (2 ^ D) = [(-1, (3 * 2 ^ D)%N)] /\ op_blade (2 ^ D - 1) (3 * 2 ^ D) = [(1, (2 ^ n - 1)%N)].
Proof.
  pose proof (dims_ok D HD) as Q. unfold dims_check in Q. apply andb_prop in Q as [Q _]. apply andb_prop in Q as [Q Q3]. apply andb_prop in Q as [Q1 Q2].
  split; [exact (op_checked _ _ _ _ Q1)|split; [exact (op_checked _ _ _ _ Q2)|exact (op_checked _ _ _ _ Q3)]].
Qed.
Lemma same_blade i : op_blade (2 ^ i) (2 ^ i) = [].
Proof. Local Transparent op_blade. unfold op_blade. rewrite N.land_diag. destruct (N.eqb_spec (2 ^ i) 0) as [E|]; [exfalso; revert E; apply N.pow_nonzero; discriminate|reflexivity]. Qed.
Local Opaque op_blade.
Lemma W_lt : (3 * 2 ^ D < 2 ^ n)%N.
Proof. rewrite N.pow_add_r. change (2 ^ 2)%N with 4%N. pose proof (N.pow_nonzero 2 D ltac:(discriminate)). lia. Qed.
Lemma W_op : meq (mop [(1, (2 ^ D)%N)] [(1, (2 ^ (D + 1))%N)]) W.
Proof. destruct blades as (E & _). unfold mop, bilinear, linear. cbn [flat_map map fst snd app]. rewrite E. cbn [scale map fst snd app]. intros j. cbn [coef]. destruct (N.eqb (3 * 2 ^ D) j); ring. Qed.
Lemma I_op : meq (mop A W) [(1, (2 ^ n - 1)%N)].
Proof. destruct blades as (_ & _ & E). unfold mop, bilinear, linear. cbn [flat_map map fst snd app]. rewrite E. cbn [scale map fst snd app]. intros j. cbn [coef]. destruct (N.eqb (2 ^ n - 1) j); ring. Qed.
Lemma W_grade : grade_of (3 * 2 ^ D) = 2%N.
Proof.
  pose proof (op_grades_add 1 1 [(1, (2 ^ D)%N)] [(1, (2 ^ (D + 1))%N)] ltac:(constructor; [cbn [snd]; apply grade_pow; lia|constructor]) ltac:(constructor; [cbn [snd]; apply grade_pow; lia|constructor])) as Q.
  unfold mop, bilinear, linear in Q. cbn [flat_map map fst snd app] in Q. destruct blades as (E & _). rewrite E in Q. apply Forall_inv in Q. exact Q.
Qed.
Lemma W_fits a : fits a (Comp (CV 1) (CBlade (3 * 2 ^ D))) = true.
Proof.
  apply fits_right. change (Comp (CV 1) (CBlade (3 * 2 ^ D))) with (mv_of [((3 * 2 ^ D)%N, CV 1)]). rewrite upto_mv. cbn [forallb fst]. unfold low. rewrite W_grade. reflexivity.
Qed.
Lemma T_I g : typed_value P0 n g (Comp (CV 1) (CBlade (2 ^ n - 1))) [(1, (2 ^ n - 1)%N)].
Proof. apply (T_blade is_int 0 P0 n g _ Hn); [|exact (H0 0)]. pose proof (N.pow_nonzero 2 n ltac:(discriminate)). lia. Qed.
Lemma T_W g : typed_value P0 n g (Comp (CV 1) (CBlade (3 * 2 ^ D))) W.
Proof. exact (T_blade is_int 0 P0 n g _ Hn W_lt (H0 0)). Qed.
Lemma I_obj : pseudoscalar n = lazy_obj (Comp (CV 1) (CBlade (2 ^ n - 1))). Proof. exact (pseudoscalar_ok n Hn). Qed.

(** *** Conformal *)
Lemma conformal_low i j : (D <= i)%N -> (j < D)%N -> conformal_metric D i j = 0.
Proof. intros Hi Hj. rewrite conformal_sym, (conformal_euclid D) by (left; exact Hj). destruct (N.eqb_spec j i); [lia|reflexivity]. Qed.
Theorem conformal_Ie_ok F k d o : conformal_Ie (20 + F) (20 + k) d D = Some o -> exists r, o = Done r /\ value r A.
Proof.
  apply (yields_value n). intros g. unfold conformal_Ie. rewrite (wedge_type F k D HD). cbn [andthen]. rewrite I_obj.
  assert (HG : geometric n (conformal_metric D) (wick (conformal_metric D))) by (apply wick_geometric; exact H64).
  eapply yields_meq; [exact (general_yields (20 + F) (20 + k) d n (conformal_entry D) (conformal_metric D) _ _ _ _ _ is_int P0 g _ _ _ _ Hn (conformal_int D) HG (rcont_valid_ok _) (rcont_bv _) (rcont_declares n) rcont_keeps (H0 _) (T_I g) (T_W g) (W_fits _))|].
  assert (Vp : vec n [(1, (2 ^ D)%N)]) by (repeat constructor; cbn [snd]; eexists; (split; [|reflexivity]); lia).
  assert (Vi : vec n [(1, (2 ^ (D + 1))%N)]) by (repeat constructor; cbn [snd]; eexists; (split; [|reflexivity]); lia).
  assert (Hp : Forall (fun q : R * N => (D <= N.log2 (snd q))%N) [(1, (2 ^ D)%N)]) by (repeat constructor; cbn [snd]; rewrite pow_log; lia).
  assert (Hi : Forall (fun q : R * N => (D <= N.log2 (snd q))%N) [(1, (2 ^ (D + 1))%N)]) by (repeat constructor; cbn [snd]; rewrite pow_log; lia).
  destruct (entries D) as (E1 & E2 & E3 & E4).
  pose proof (null_contract n _ _ D H64 HG (conformal_sym D) ltac:(lia) conformal_low _ _ Vp Vi Hp Hi ltac:(unfold ip; cbn [sumf fst snd]; rewrite !pow_log, E1; ring) ltac:(unfold ip; cbn [sumf fst snd]; rewrite !pow_log, E3; ring)) as Q.
  rewrite W_op, I_op in Q. exact Q.
Qed.
(** *** Minkowski *)
Notation m := (MinkowskiModel D).
Lemma mW : meq (mop (model_origin m) (model_infinity m)) (scale (-1) W).
Proof.
  destruct blades as (E1 & E2 & _). unfold mop, bilinear, linear. cbn [model_origin model_infinity flat_map map fst snd app]. rewrite E1, E2, !same_blade. cbn [scale map fst snd app]. intros j. cbn [coef]. destruct (N.eqb (3 * 2 ^ D) j); field.
Qed.
Lemma minkowski_low i j : (D <= i)%N -> (j < D)%N -> diagonal_form (signature (D + 1) 1) i j = 0.
Proof. intros Hi Hj. unfold diagonal_form. destruct (N.eqb_spec i j); [lia|reflexivity]. Qed.
Theorem minkowski_Ie_ok F k o : minkowski_Ie (20 + F) (20 + k) D = Some o -> exists r, o = Done r /\ value r A.
Proof.
  apply (yields_value n). intros g. unfold minkowski_Ie. rewrite (wedge_type F k D HD). cbn [andthen]. rewrite I_obj.
  pose proof (T_I g) as T1. pose proof (T_W g) as T2. assert (En : n = (D + 1 + 1 + 0)%N) by lia. pose proof Hn as L. rewrite En in L. set (I := (2 ^ n - 1)%N) in *. 
  assert (Y : yields P0 (D + 1 + 1 + 0) g (rcont (20 + F) (20 + k) (D + 1) 1 0 (lazy_obj (Comp (CV 1) (CBlade I))) (lazy_obj (Comp (CV 1) (CBlade (3 * 2 ^ D))))) (grc (gp_blade (signature (D + 1) 1)) [(1, I)] W)).
  { rewrite En in T1, T2. destruct (signed_sound is_int (20 + F) (20 + k) (D + 1) 1 0 L P0 g _ _ _ _ (H0 _) T1 T2) as (_ & _ & Y & _). exact Y. }
  rewrite En. eapply yields_meq; [exact Y|]. clear Y T1 T2. unfold I.
  assert (HG : geometric n (diagonal_form (signature (D + 1) 1)) (gp_blade (signature (D + 1) 1))) by (apply diagonal_geometric; exact H64).
  assert (Ok : model_ok m) by (cbn; lia).
  assert (Hp : Forall (fun q : R * N => (D <= N.log2 (snd q))%N) (model_origin m)) by (repeat constructor; cbn [snd]; rewrite pow_log; lia).
  assert (Hi : Forall (fun q : R * N => (D <= N.log2 (snd q))%N) (model_infinity m)) by (repeat constructor; cbn [snd]; rewrite pow_log; lia).
  destruct (entries_m D) as (E1 & E2 & E3 & E4).
  pose proof (null_contract n _ _ D H64 HG (model_sym m) ltac:(lia) minkowski_low _ _ (origin_vec m Ok) (infinity_vec m Ok) Hp Hi ltac:(unfold ip; cbn [model_origin sumf fst snd]; rewrite !pow_log, E1, E2, E3, E4; field) ltac:(unfold ip; cbn [model_origin model_infinity sumf fst snd]; rewrite !pow_log, E1, E2, E3, E4; field)) as Q.
  rewrite mW, op_scale_r, I_op in Q. rewrite <- Q. symmetry. unfold grc. rewrite bilinear_scale_l, bilinear_scale_r, scale_scale. replace (-1 * -1) with 1 by ring. apply scale_one.
Qed.
End Dim.
(** *** Homogeneous *)
Theorem homogeneous_Ie_ok D F k o : (D + 1 <= 63)%N -> homogeneous_Ie F k D = Some o -> exists r, o = Done r /\ value r [(1, (2 ^ D - 1)%N)].
Proof.
  intros HD. apply (yields_value (D + 1)). intros g. unfold homogeneous_Ie. rewrite (pseudoscalar_ok (D + 1) HD).
  assert (H64 : (D + 1 <= 64)%N) by lia. assert (En : (D + 1)%N = (D + 1 + 0 + 0)%N) by lia.
  assert (T1 : typed_value P0 (D + 1) g (Comp (CV 1) (CBlade (2 ^ (D + 1) - 1))) [(1, (2 ^ (D + 1) - 1)%N)]).
  { apply (T_blade is_int 0 P0 _ g _ HD); [|exact (H0 0)]. pose proof (N.pow_nonzero 2 (D + 1) ltac:(discriminate)). lia. }
  pose proof (T_basis is_int F P0 (D + 1) g D HD ltac:(lia) (H0 F)) as T2.
  assert (Y : yields P0 (D + 1 + 0 + 0) g (rcont F k (D + 1) 0 0 (lazy_obj (Comp (CV 1) (CBlade (2 ^ (D + 1) - 1)))) (basis_obj (D + 1))) (grc (gp_blade (signature (D + 1) 0)) [(1, (2 ^ (D + 1) - 1)%N)] [(1, (2 ^ D)%N)])).
  { pose proof HD as L. rewrite En in L. set (x := (2 ^ (D + 1) - 1)%N) in *. set (y := bit (D + 1 - 1)) in *. rewrite En in T1, T2. destruct (signed_sound is_int F k (D + 1) 0 0 L P0 g _ _ _ _ (H0 _) T1 T2) as (_ & _ & Y & _). exact Y. }
  rewrite En at 1. eapply yields_meq; [exact Y|]. clear Y T1 T2.
  assert (HG : geometric (D + 1) (diagonal_form (signature (D + 1) 0)) (gp_blade (signature (D + 1) 0))) by (apply diagonal_geometric; exact H64).
  assert (Vp : vec (D + 1) [(1, (2 ^ D)%N)]) by (repeat constructor; cbn [snd]; eexists; (split; [|reflexivity]); lia).
  assert (Hp : Forall (fun q : R * N => (D <= N.log2 (snd q))%N) [(1, (2 ^ D)%N)]) by (repeat constructor; cbn [snd]; rewrite pow_log; lia).
  assert (SB : forall i j, diagonal_form (signature (D + 1) 0) i j = diagonal_form (signature (D + 1) 0) j i).
  { intros i j. unfold diagonal_form. rewrite (N.eqb_sym j i). destruct (N.eqb_spec i j) as [->|]; reflexivity. }
  assert (OB : forall i j, (D <= i)%N -> (j < D)%N -> diagonal_form (signature (D + 1) 0) i j = 0).
  { intros i j Hi Hj. unfold diagonal_form. destruct (N.eqb_spec i j); [lia|reflexivity]. }
  assert (Ip : ip (diagonal_form (signature (D + 1) 0)) [(1, (2 ^ D)%N)] [(1, (2 ^ D)%N)] = 1).
  { unfold ip. cbn [sumf fst snd]. rewrite !pow_log. unfold diagonal_form, signature. rewrite N.eqb_refl. destruct (N.ltb_spec D (D + 1)); [ring|lia]. }
  pose proof (unit_contract (D + 1) _ _ D H64 HG SB ltac:(lia) OB _ Vp Hp Ip) as Q. etransitivity; [|exact Q]. unfold grc. apply bilinear_meq; [|reflexivity].
  unfold mop, bilinear, linear. cbn [flat_map map fst snd app]. rewrite (op_checked _ _ _ _ (last_ok D HD)). cbn [scale map fst snd app]. intros j. cbn [coef]. destruct (N.eqb (2 ^ (D + 1) - 1) j); ring.
Qed.

(** *** The constants and their products compile *)
Definition ok (r : result) := match r with Some (Done c) => true | _ => false end.
Lemma ok_done r : ok r = true -> exists c, r = Some (Done c). Proof. destruct r as [[c| |]|]; intros H; try discriminate H. exists c. reflexivity. Qed.
Notation no_axis D := (lazy_obj (axis_type (Fn NMul [CV (-1); half]) half D)).
Notation ni_axis D := (lazy_obj (axis_type (CV 1) (CV 1) D)).
Notation ep_axis D := (lazy_obj (axis_type (CV (-1)) half D)).
Notation em_axis D := (lazy_obj (axis_type (CV 1) half D)).
Lemma minkowski_compiles F k D : (D + 2 <= 63)%N ->
  ok (sp (40 + F) (40 + k) (D + 1) 1 0 (no_axis D) (no_axis D)) && ok (sp (40 + F) (40 + k) (D + 1) 1 0 (ni_axis D) (ni_axis D)) &&
  ok (sp (40 + F) (40 + k) (D + 1) 1 0 (no_axis D) (ni_axis D)) && ok (minkowski_Ie (40 + F) (40 + k) D) = true.
Proof. revert D. apply every_dimension. cbn [map seq N.of_nat]. each_dimension. Qed.
Lemma homogeneous_compiles F k D : (D + 1 <= 63)%N -> ok (homogeneous_Ie (40 + F) (40 + k) D) = true.
Proof. intros H. destruct (N.eq_dec D 62) as [->|]; [vm_compute; reflexivity|]. assert (L : (D + 2 <= 63)%N) by lia. clear - L. revert D L. apply every_dimension. cbn [map seq N.of_nat]. each_dimension. Qed.
Lemma conformal_compiles F k d D : (1 <= D <= 5)%N ->
  ok (sp_g (40 + F) (40 + k) (100 + d) (D + 2) (gentry (40 + F) (Conformal D)) (ep_axis D) (ep_axis D)) && ok (sp_g (40 + F) (40 + k) (100 + d) (D + 2) (gentry (40 + F) (Conformal D)) (em_axis D) (em_axis D)) &&
  ok (sp_g (40 + F) (40 + k) (100 + d) (D + 2) (gentry (40 + F) (Conformal D)) (ep_axis D) (em_axis D)) && ok (conformal_Ie (40 + F) (40 + k) (100 + d) D) = true.
Proof. intros H. assert (C : D = 1%N \/ D = 2%N \/ D = 3%N \/ D = 4%N \/ D = 5%N) by lia. clear H. destruct C as [->|[->|[->|[->| ->]]]]; vm_compute; reflexivity. Qed.
(** *** Plane-based *)
Lemma e0_type F k D : (D + 1 <= 63)%N -> gp (40 + F) (40 + k) D 0 1 (basis_obj (D + 1)) (basis_obj (D + 1)) = Some (Done (lazy_obj (Comp (CV 0) (CBlade 0)))).
Proof. intros H. destruct (N.eq_dec D 62) as [->|]; [vm_compute; reflexivity|]. assert (L : (D + 2 <= 63)%N) by lia. clear - L. revert D L. apply every_dimension. cbn [map seq N.of_nat]. each_dimension. Qed.
