(** C55: the constants the algebra definitions declare. *)
From Coq Require Import NArith ZArith List Bool Reals Lra Lia.
From Verif Require Import Bits SpecBits Expr Sem Wf SpecMv SpecAlg Comp Mapping Lazy SpecLazy Api Extra SpecApi SpecExtra Build General SpecGeneral Spaces SpecSpaces Geo SpecGeo Algebras ForEach EvalC.
From Verif Require Import MvBase ApiProofs UtilProofs PropUtil GaProofs GeoProofs GeoApi GeoApi2 AlgebraApi AlgebraApi2 AlgebraApi3.
Import ListNotations.
Local Open Scope R_scope.

(** ** C55: ep and em of the conformal algebras, no and ni of the Minkowski algebras *)
(** In every conformal algebra, with D + 2 <= 63 basis vectors, the constants ep and em compile, they are
    ni / 2 - no and ni / 2 + no, and their scalar products, if they compile, are 1, -1 and 0. *)
Theorem C55_conformal_axes : forall D F k, (D + 2 <= 63)%N -> exists ep em,
  conformal_ep (20 + F) (20 + k) D = Some (Done ep) /\ value ep [(/ 2, (2 ^ (D + 1))%N); (-1, (2 ^ D)%N)] /\
  conformal_em (20 + F) (20 + k) D = Some (Done em) /\ value em [(/ 2, (2 ^ (D + 1))%N); (1, (2 ^ D)%N)] /\
  (forall F' k' d o, sp_g F' k' d (D + 2) (gentry F' (Conformal D)) ep ep = Some o -> exists r, o = Done r /\ value r [(1, 0%N)]) /\
  (forall F' k' d o, sp_g F' k' d (D + 2) (gentry F' (Conformal D)) em em = Some o -> exists r, o = Done r /\ value r [(-1, 0%N)]) /\
  (forall F' k' d o, sp_g F' k' d (D + 2) (gentry F' (Conformal D)) ep em = Some o -> exists r, o = Done r /\ value r [(0, 0%N)]).
Proof.
  intros D F k HD. destruct (ip_ep D) as (E1 & E2 & E3). destruct (wf_vec D HD) as (Vp & Vm). do 2 eexists.
  split; [exact (ep_type F k D HD)|]. split; [exact (T_value _ _ _ (T_ep D HD))|]. split; [exact (em_type F k D HD)|]. split; [exact (T_value _ _ _ (T_em D HD))|].
  split; [|split]; intros F' k' d o H.
  - rewrite <- E1. exact (conformal_sp_axes D HD F' k' d _ _ _ _ o (T_ep D HD) (T_ep D HD) Vp Vp H).
  - rewrite <- E2. exact (conformal_sp_axes D HD F' k' d _ _ _ _ o (T_em D HD) (T_em D HD) Vm Vm H).
  - rewrite <- E3. exact (conformal_sp_axes D HD F' k' d _ _ _ _ o (T_ep D HD) (T_em D HD) Vp Vm H).
Qed.
(** In every Minkowski algebra the constants no and ni compile, they are (em - ep) / 2 and ep + em, and they are
    null vectors whose scalar product is -1. *)
Theorem C55_minkowski_axes : forall D F k, (D + 2 <= 63)%N -> exists no ni,
  origin_obj (20 + F) (20 + k) (MinkowskiModel D) = Some (Done no) /\ value no [(/ 2, (2 ^ (D + 1))%N); (- / 2, (2 ^ D)%N)] /\
  infinity_obj (20 + F) (20 + k) (MinkowskiModel D) = Some (Done ni) /\ value ni [(1, (2 ^ (D + 1))%N); (1, (2 ^ D)%N)] /\
  (forall F' k' o, sp F' k' (D + 1) 1 0 no no = Some o -> exists r, o = Done r /\ value r [(0, 0%N)]) /\
  (forall F' k' o, sp F' k' (D + 1) 1 0 ni ni = Some o -> exists r, o = Done r /\ value r [(0, 0%N)]) /\
  (forall F' k' o, sp F' k' (D + 1) 1 0 no ni = Some o -> exists r, o = Done r /\ value r [(-1, 0%N)]).
Proof.
  intros D F k HD. assert (Ok : model_ok (MinkowskiModel D)) by (cbn; lia). pose proof (origin_vec _ Ok) as Vo. pose proof (infinity_vec _ Ok) as Vi. destruct (entries_m D) as (E1 & E2 & E3 & E4).
  do 2 eexists. split; [exact (no_type F k D HD)|].
  split; [apply (T_value (D + 2)); intros g; eapply ApiProofs.T_meq; [exact (T_no D HD g)|]; intros j; cbn [model_origin coef]; destruct (N.eqb (2 ^ (D + 1)) j), (N.eqb (2 ^ D) j); field|]. split; [exact (ni_type F k D HD)|].
  split; [apply (T_value (D + 2)); intros g; eapply ApiProofs.T_meq; [exact (T_ni D HD g)|]; intros j; cbn [model_infinity coef]; destruct (N.eqb (2 ^ (D + 1)) j), (N.eqb (2 ^ D) j); field|].
  split; [|split]; intros F' k' o H.
  - destruct (minkowski_sp_axes D HD F' k' _ _ _ _ o (T_no D HD) (T_no D HD) Vo Vo H) as (r & Hr & V). exists r. split; [exact Hr|]. revert V. replace (ip _ _ _) with 0; [exact (fun V => V)|]. unfold ip. cbn [model_origin sumf fst snd]. rewrite !pow_log, E1, E2, E3, E4. field.
  - destruct (minkowski_sp_axes D HD F' k' _ _ _ _ o (T_ni D HD) (T_ni D HD) Vi Vi H) as (r & Hr & V). exists r. split; [exact Hr|]. revert V. replace (ip _ _ _) with 0; [exact (fun V => V)|]. unfold ip. cbn [model_infinity sumf fst snd]. rewrite !pow_log, E1, E2, E3, E4. field.
  - destruct (minkowski_sp_axes D HD F' k' _ _ _ _ o (T_no D HD) (T_ni D HD) Vo Vi H) as (r & Hr & V). exists r. split; [exact Hr|]. revert V. replace (ip _ _ _) with (-1); [exact (fun V => V)|]. unfold ip. cbn [model_origin model_infinity sumf fst snd]. rewrite !pow_log, E1, E2, E3, E4. field.
Qed.

(** ** C55: the constant Ie *)
(** In the conformal, Minkowski and homogeneous algebras Ie, if it compiles, is e1 ^ ... ^ eD with the
    coefficient 1: the pseudoscalar of the base space, with its orientation. *)
Theorem C55_conformal_Ie : forall D F k d o, (D + 2 <= 63)%N -> conformal_Ie (20 + F) (20 + k) d D = Some o -> exists r, o = Done r /\ value r [(1, (2 ^ D - 1)%N)].
Proof. intros D F k d o HD. exact (conformal_Ie_ok D HD F k d o). Qed.
Theorem C55_minkowski_Ie : forall D F k o, (D + 2 <= 63)%N -> minkowski_Ie (20 + F) (20 + k) D = Some o -> exists r, o = Done r /\ value r [(1, (2 ^ D - 1)%N)].
Proof. intros D F k o HD. exact (minkowski_Ie_ok D HD F k o). Qed.
Theorem C55_homogeneous_Ie : forall D F k o, (D + 1 <= 63)%N -> homogeneous_Ie F k D = Some o -> exists r, o = Done r /\ value r [(1, (2 ^ D - 1)%N)].
Proof. intros D F k o HD. exact (homogeneous_Ie_ok D F k o HD). Qed.

(** The constants and products above compile in every Minkowski and homogeneous algebra of at most 63 dimensions,
    and in the conformal algebras of one to five base dimensions (the library defines one to three). *)
Theorem C55_compiles : forall D F k d,
  ((D + 2 <= 63)%N -> exists no ni r1 r2 r3 r4,
    origin_obj (40 + F) (40 + k) (MinkowskiModel D) = Some (Done no) /\ infinity_obj (40 + F) (40 + k) (MinkowskiModel D) = Some (Done ni) /\
    sp (40 + F) (40 + k) (D + 1) 1 0 no no = Some (Done r1) /\ sp (40 + F) (40 + k) (D + 1) 1 0 ni ni = Some (Done r2) /\ sp (40 + F) (40 + k) (D + 1) 1 0 no ni = Some (Done r3) /\
    minkowski_Ie (40 + F) (40 + k) D = Some (Done r4)) /\
  ((D + 1 <= 63)%N -> exists r, homogeneous_Ie (40 + F) (40 + k) D = Some (Done r)) /\
  ((1 <= D <= 5)%N -> exists ep em r1 r2 r3 r4,
    conformal_ep (40 + F) (40 + k) D = Some (Done ep) /\ conformal_em (40 + F) (40 + k) D = Some (Done em) /\
    sp_g (40 + F) (40 + k) (100 + d) (D + 2) (gentry (40 + F) (Conformal D)) ep ep = Some (Done r1) /\
    sp_g (40 + F) (40 + k) (100 + d) (D + 2) (gentry (40 + F) (Conformal D)) em em = Some (Done r2) /\
    sp_g (40 + F) (40 + k) (100 + d) (D + 2) (gentry (40 + F) (Conformal D)) ep em = Some (Done r3) /\
    conformal_Ie (40 + F) (40 + k) (100 + d) D = Some (Done r4)).
Proof.
  intros D F k d. split; [|split]; intros H.
  - pose proof (minkowski_compiles F k D H) as Q. apply andb_prop in Q as [Q Q4]. apply andb_prop in Q as [Q Q3]. apply andb_prop in Q as [Q1 Q2].
    apply ok_done in Q1 as (r1 & Q1). apply ok_done in Q2 as (r2 & Q2). apply ok_done in Q3 as (r3 & Q3). apply ok_done in Q4 as (r4 & Q4). do 2 eexists. exists r1, r2, r3, r4.
    split; [exact (no_type (20 + F) (20 + k) D H)|]. split; [exact (ni_type (20 + F) (20 + k) D H)|]. split; [exact Q1|]. split; [exact Q2|]. split; [exact Q3|exact Q4].
  - exact (ok_done _ (homogeneous_compiles F k D H)).
  - assert (HD : (D + 2 <= 63)%N) by lia. pose proof (conformal_compiles F k d D H) as Q. apply andb_prop in Q as [Q Q4]. apply andb_prop in Q as [Q Q3]. apply andb_prop in Q as [Q1 Q2].
    apply ok_done in Q1 as (r1 & Q1). apply ok_done in Q2 as (r2 & Q2). apply ok_done in Q3 as (r3 & Q3). apply ok_done in Q4 as (r4 & Q4). do 2 eexists. exists r1, r2, r3, r4.
    split; [exact (ep_type (20 + F) (20 + k) D HD)|]. split; [exact (em_type (20 + F) (20 + k) D HD)|]. split; [exact Q1|]. split; [exact Q2|]. split; [exact Q3|exact Q4].
Qed.

(** ** C55: e0 of the plane-based algebras *)
(** e0 is the last basis vector; its geometric product with itself compiles and is 0. *)
Theorem C55_plane_based : forall D F k, (D + 1 <= 63)%N -> value (plane_based_e0 D) [(1, (2 ^ D)%N)] /\
  exists r, gp (40 + F) (40 + k) D 0 1 (plane_based_e0 D) (plane_based_e0 D) = Some (Done r) /\ value r [].
Proof.
  intros D F k HD. split.
  - apply (T_value (D + 1)). intros g. exact (T_basis _ 0 P0 (D + 1) g D HD ltac:(lia) (H0 0)).
  - eexists. split; [exact (e0_type F k D HD)|]. intros g. exists [(0, 0%N)]. split; [|intros j; cbn [coef]; destruct (N.eqb 0 j); ring].
    exists ([], []). split; [|reflexivity]. exists ([], []). split; [reflexivity|]. split; [split; reflexivity|intros _; exact Logic.I].
Qed.
Print Assumptions C55_plane_based.

(** ** C35: the constant no *)
(** The coefficients 1/2 of no are constant fractions, which the visitor of components truncates (C31_refuted): in every
    Minkowski algebra is_zero(no, 0) is true, although no is not zero. *)
Theorem C35_origin_refuted : forall D F k, (D + 2 <= 63)%N -> exists no m, origin_obj (20 + F) (20 + k) (MinkowskiModel D) = Some (Done no) /\
  value no m /\ coef m (2 ^ (D + 1)) = / 2 /\ is_zero no 0 = Some (Done true).
Proof.
  intros D F k HD. eexists. exists (model_origin (MinkowskiModel D)). split; [exact (no_type F k D HD)|]. split; [exact (T_value _ _ _ (T_no D HD))|]. split.
  { cbn [model_origin coef]. rewrite N.eqb_refl. destruct (N.eqb_spec (2 ^ D) (2 ^ (D + 1))) as [E|_]; [|field]. apply N.pow_inj_r in E; lia. }
  unfold is_zero, for_each_component, axis_type. cbn [lazy_obj cexpr cint cvals cbits Comp.comps_of forallb visitable]. change (can_be_stored _) with true. cbn [andb for_each_list inner_iteration].
  change (forallb visitable _) with true. cbn [andb]. cbn [for_each_list inner_iteration].
  change (Fn NPow [CV 2; CV (-1)]) with AlgebraApi.half.
  assert (E1 : eval_const AlgebraApi.half = Done (1 / 2)) by exact half_const.
  assert (E2 : eval_const (Fn NMul [CV (-1); AlgebraApi.half]) = Done (- (1 / 2))).
  { change (to_value (lift1 (fun v => Val (VN (- v))) (if Req_EM_T 2 0 then Undef else Val (VN (1 / 2)))) = Done (- (1 / 2))). destruct (Req_EM_T 2 0) as [E|]; [exfalso; lra|reflexivity]. }
  assert (C1 : cast true (- (1 / 2)) = 0).
  { symmetry. apply stored_cast. split; [exists 0%Z; reflexivity|]. rewrite Rabs_R0, Rabs_left by lra. lra. }
  assert (C0 : cast true 0 = 0) by (apply cast_int; exists 0%Z; reflexivity).
  assert (L : Rabs 0 <= 0) by (rewrite Rabs_R0; lra).
  rewrite E2. cbn [dbind]. rewrite C1, C0. destruct (Rle_dec (Rabs 0) 0) as [_|N]; [|contradiction]. unfold AlgebraApi.half at 1. rewrite E1. cbn [dbind]. rewrite half_cast. destruct (Rle_dec (Rabs 0) 0) as [_|N]; [|contradiction]. reflexivity.
Qed.
Print Assumptions C35_origin_refuted.

(** In three base dimensions (ga3c.hpp, ga3m.hpp, ga3h.hpp) every constant and product above compiles. *)
Example C55_case : exists ep em no ni r1 r2 r3 r4 r5 r6,
  conformal_ep 20 20 3 = Some (Done ep) /\ conformal_em 20 20 3 = Some (Done em) /\
  sp_g 40 40 9 5 (gentry 40 (Conformal 3)) ep ep = Some (Done r1) /\ sp_g 40 40 9 5 (gentry 40 (Conformal 3)) em em = Some (Done r2) /\ sp_g 40 40 9 5 (gentry 40 (Conformal 3)) ep em = Some (Done r3) /\
  origin_obj 20 20 (MinkowskiModel 3) = Some (Done no) /\ infinity_obj 20 20 (MinkowskiModel 3) = Some (Done ni) /\
  sp 40 40 4 1 0 no no = Some (Done r4) /\ sp 40 40 4 1 0 ni ni = Some (Done r5) /\ sp 40 40 4 1 0 no ni = Some (Done r6).
Proof. do 10 eexists. do 9 (split; [vm_compute; reflexivity|]). vm_compute. reflexivity. Qed.
Example C55_Ie_case : exists r1 r2 r3, conformal_Ie 20 20 100 3 = Some (Done r1) /\ minkowski_Ie 20 20 3 = Some (Done r2) /\ homogeneous_Ie 20 20 3 = Some (Done r3) /\
  cexpr r1 = Comp (CV 1) (CBlade 7) /\ cexpr r2 = Comp (CV 1) (CBlade 7) /\ cexpr r3 = Comp (CV 1) (CBlade 7).
Proof. do 3 eexists. do 5 (split; [vm_compute; reflexivity|]). vm_compute. reflexivity. Qed.

Print Assumptions C55_conformal_axes.
Print Assumptions C55_minkowski_axes.
Print Assumptions C55_conformal_Ie.
Print Assumptions C55_minkowski_Ie.
Print Assumptions C55_homogeneous_Ie.
Print Assumptions C55_compiles.
