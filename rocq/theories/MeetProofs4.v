(** Correctness of the plunge of two blades. *)
From Coq Require Import NArith ZArith List Bool Lia Reals Lra Morphisms Setoid RelationClasses.
From Verif Require Import Bits SpecBits Expr Sem Wf SpecMv SpecAlg MvBase Simp SimpProofs SimpProofs2 SmartProofs PresProofs Comp Mapping Ops CompProofs CompProofs2 MappingProofs ProductProofs OuterProofs GumProofs AlgProofs AlgProofs2 Clifford Clifford3 Clifford5 EvalC SpecEval Lazy SpecLazy PolyProofs Api Extra SpecApi SpecExtra ApiProofs ApiProofs2 ApiProofs3 ExtraProofs Norm SpecNorm NormProofs2 NormProofs4 NormProofs5 PropApi SpecGeneral Wick2 SpecSpaces GenApi SpecGeo GeoApi SpecMeet Meet GaProofs JoinMath MeetMath MeetProofs MeetProofs2 MeetProofs3.
Import ListNotations.
Local Open Scope R_scope.
Local Opaque sign_of indices.

(** ** The dual, computed at run time *)
Theorem dual_ok F n P Q R a b ma mb o : (P + Q + R <= 63)%N -> int_object (P + Q + R) a -> int_object (P + Q + R) b -> value a ma -> value b mb -> norm2 (signature P Q) mb <> 0 ->
  computed (body2 (dual F n (Signed P Q R))) [a; b] -> dual F n (Signed P Q R) a b = Some o ->
  o = Ovf \/ exists r, o = Done r /\ int_object (P + Q + R) r /\ value r (mlcont (signature P Q) ma (minv (signature P Q) mb)).
Proof.
  intros Hd Oa Ob Va Vb Nz HC E. unfold dual in E.
  set (body := body2 (fun x y => andthen (inv F n (Signed P Q R) y) (fun i => lcont_in F n (Signed P Q R) x i))) in *.
  apply (computed_2 _ (fun l => in_context F n l body) a b ltac:(reflexivity)) in HC.
  refine (computed_context F n (P + Q + R) body [a; b] [ma; mb] _ o ltac:(auto) ltac:(auto) _ HC E). intros args Ea HA. inversion HA as [|x ? ? ? Tx HA1]; subst. inversion HA1 as [|y ? ? ? Ty HA2]; subst. inversion HA2; subst. clear HA HA1 HA2. cbn [map]. unfold body. cbn [body2].
  set (hi := N.of_nat _) in *. set (g := ctx_env _ _) in *. apply q_weaken in Tx, Ty. pose proof (q_class F hi) as HP.
  apply (yields_then (qclass hi) (P + Q + R) g _ _ _ _ (y_inv is_int _ F n _ g (Signed P Q R) HP Hd eq_refl eq_refl y mb Nz Ty)). intros i Ti.
  exact (y_lcont is_int _ F n _ g (Signed P Q R) HP Hd eq_refl x i ma _ ltac:(discriminate) Tx Ti).
Qed.

(** ** The Euclidean metric *)
Lemma euclid_one dim i : (i < dim)%N -> signature dim 0 i = 1.
Proof. intros H. unfold signature. rewrite (proj2 (N.ltb_lt i dim) H). reflexivity. Qed.
Lemma euclid_lc dim a b : (dim <= 63)%N -> in_space dim a -> meq (mlcont (signature dim 0) a b) (mlcont e1 a b).
Proof.
  intros Hd Ia k. unfold mlcont. rewrite !coef_sumf. unfold in_space in Ia. rewrite !sumf_bilinear. apply sumf_ext_in. intros p Hp. rewrite Forall_forall in Ia. specialize (Ia p Hp). apply sumf_ext. intros y.
  assert (L : (snd p < 2 ^ 64)%N) by (eapply N.lt_le_trans; [exact Ia|]; apply N.pow_le_mono_r; lia). rewrite !lcont_eq by exact L. rewrite (squares_pos (signature dim 0) dim (snd p) ltac:(lia) (euclid_one dim) Ia), (squares_pos e1 dim (snd p) ltac:(lia) (fun _ _ => eq_refl) Ia). reflexivity.
Qed.
Lemma euclid_norm dim a : (dim <= 63)%N -> in_space dim a -> norm2 (signature dim 0) a = norm2 e1 a.
Proof.
  intros Hd Ia. rewrite !norm2_sumf. apply sumf_ext_in. intros p Hp. unfold in_space in Ia. rewrite Forall_forall in Ia. specialize (Ia p Hp).
  rewrite (squares_pos (signature dim 0) dim (snd p) ltac:(lia) (euclid_one dim) Ia), (squares_pos e1 dim (snd p) ltac:(lia) (fun _ _ => eq_refl) Ia). reflexivity.
Qed.
Lemma blade_space_eq dim vs m : (dim <= 63)%N -> blade_of dim vs m -> exists m', in_space dim m' /\ meq m m'.
Proof.
  intros Hd B. destruct (blade_inv dim Hd vs m B) as (V & w & _ & Q & _). exists (scale w (wedge vs)). split; [unfold in_space, scale; rewrite Forall_map; exact (wedge_in dim vs V)|exact Q].
Qed.
Lemma euclid_dual dim av cs A J : (dim <= 63)%N -> blade_of dim av A -> blade_of dim cs J -> norm2 (signature dim 0) J = norm2 e1 J /\ meq (mlcont (signature dim 0) A (minv (signature dim 0) J)) (mlcont e1 A (minv e1 J)).
Proof.
  intros Hd BA BJ. destruct (blade_space_eq dim av A Hd BA) as (A' & IA & QA). destruct (blade_space_eq dim cs J Hd BJ) as (J' & IJ & QJ).
  assert (N : norm2 (signature dim 0) J = norm2 e1 J). { rewrite (norm2_same _ _ QJ), <- (euclid_norm dim J' Hd IJ). unfold norm2, re, msp. apply bilinear_meq; [exact QJ|apply mrev_meq, QJ]. }
  split; [exact N|]. unfold minv. rewrite N. refine (transitivity (mlcont_meq (signature dim 0) _ _ QA _ _ (reflexivity _)) _). refine (transitivity (euclid_lc dim A' _ Hd IA) _). apply mlcont_meq; [symmetry; exact QA|reflexivity].
Qed.
Lemma dot_ip dim x v : (dim <= 63)%N -> GaProofs.vec dim x -> GaProofs.vec dim v -> re (mlcont e1 x v) = GaProofs.ip (diagonal_form e1) x v.
Proof.
  intros Hd X V. assert (Q : meq v (mop v one)) by (symmetry; apply Clifford.op_one_r). unfold re. rewrite (lc_c _ _ _ _ (reflexivity x) Q 0%N), (leibniz dim Hd x v one X V (one_in dim) 0%N), ca_, !cs_, (op_zero_r v _ (lc_vec_one dim Hd x X) 0%N). cbn. ring.
Qed.
Lemma orthogonal_perp dim cs vs x : (dim <= 63)%N -> Forall (GaProofs.vec dim) cs -> Forall (GaProofs.vec dim) vs -> in_span cs x -> (orthogonal vs x <-> perp vs x).
Proof.
  intros Hd VC VV [ts E]. assert (H : forall v, GaProofs.vec dim v -> (re (mlcont e1 x v) = GaProofs.ip (diagonal_form e1) x v)).
  { intros v Vv. assert (X : GaProofs.vec dim (combination ts cs)) by (apply comb_vec, VC). rewrite (ip_m x _ v v E (reflexivity v)). rewrite <- (dot_ip dim _ v Hd X Vv). unfold re. apply (lc_c _ _ _ _ E (reflexivity v) 0%N). }
  unfold orthogonal, perp. rewrite !Forall_forall in *. split; intros Z v Iv; specialize (Z v Iv); [rewrite <- (H v (VV v Iv)); exact Z|exact (eq_trans (H v (VV v Iv)) Z)].
Qed.

(** ** fast_plunge *)
Lemma plunge_value dim av bv cs A B J : (dim <= 63)%N -> blade_of dim av A -> blade_of dim bv B -> blade_of dim cs J -> norm2 e1 J = 1 -> (forall x, in_span cs x <-> in_span (av ++ bv) x) ->
  exists ps, blade_of dim ps (mop (mlcont e1 B (minv e1 J)) (mlcont e1 A (minv e1 J))) /\
  forall x, in_span ps x <-> exists y z, meq x (y ++ z) /\ in_span (av ++ bv) y /\ orthogonal bv y /\ in_span (av ++ bv) z /\ orthogonal av z.
Proof.
  intros Hd BA BB BJ N1 S. destruct (blade_inv dim Hd av A BA) as (VA & wa & Wa & QA & NA). destruct (blade_inv dim Hd bv B BB) as (VB & wb & Wb & QB & NB). destruct (blade_inv dim Hd cs J BJ) as (VC & wc & Wc & QC & NC).
  destruct (unit_inverse dim cs J Hd BJ N1) as (s & Hs & QJ). destruct (plunge_blade dim Hd av bv cs VA VB VC NA NB NC S) as (ps & w & W0 & VM & QM & NM & SM). exists ps. split.
  - assert (D : forall x u vs, meq x (scale u (wedge vs)) -> meq (mlcont e1 x (minv e1 J)) (scale (u * s * wc) (mlcont e1 (wedge vs) (wedge cs)))).
    { intros x u vs Qx. refine (transitivity (lc_c _ _ _ _ Qx (transitivity QJ (meq_scl s _ _ QC))) _). refine (transitivity (lc_scl_l _ _ _) _). refine (transitivity (meq_scl u _ _ (transitivity (lc_scl_r _ _ _) (meq_scl s _ _ (lc_scl_r _ _ _)))) _). intros k. rewrite !cs_. ring. }
    assert (Q : meq (mop (mlcont e1 B (minv e1 J)) (mlcont e1 A (minv e1 J))) (scale (wb * s * wc * (wa * s * wc) * w) (wedge ps))).
    { refine (transitivity (op_c _ _ _ _ (D _ _ _ QB) (D _ _ _ QA)) _). refine (transitivity (op_scl_l _ _ _) _). refine (transitivity (meq_scl _ _ _ (transitivity (op_scl_r _ _ _) (meq_scl _ _ _ QM))) _). intros k. rewrite !cs_. ring. }
    split; [apply vectors_vec; [exact Hd|exact VM]|]. split; [eexists; exact Q|]. intros Z. apply NM. apply (scale_nz (wb * s * wc * (wa * s * wc) * w)); [|exact (transitivity (symmetry Q) Z)].
    assert (s <> 0) by (intros ->; lra). repeat apply Rmult_integral_contrapositive_currified; assumption.
  - assert (VAB : Forall (GaProofs.vec dim) (av ++ bv)) by (apply Forall_app; split; assumption). intros x. rewrite SM. split; intros (y & z & E & Sy & Py & Sz & Pz); exists y, z; split; try exact E.
    + apply S in Sy, Sz. split; [exact Sy|]. split; [apply (orthogonal_perp dim (av ++ bv)); assumption|]. split; [exact Sz|]. apply (orthogonal_perp dim (av ++ bv)); assumption.
    + split; [apply S, Sy|]. split; [apply (orthogonal_perp dim (av ++ bv)) in Py; assumption|]. split; [apply S, Sz|]. apply (orthogonal_perp dim (av ++ bv)) in Pz; assumption.
Qed.
Theorem fast_plunge_ok F n fuel dim a b av bv A B tint tol : (dim <= 63)%N -> int_object dim a -> int_object dim b -> value a A -> value b B -> blade_of dim av A -> blade_of dim bv B ->
  (length av <= 7)%nat -> (length bv <= 7)%nat -> (cint a && cint b)%bool = false -> (tint = true -> isint tol) -> 0 <= tol -> (exists k, tol < Rabs (coef A k)) -> (exists k, tol < Rabs (coef B k)) ->
  (if (length bv <=? length av)%nat then units_exact F n fuel dim a b else units_exact F n fuel dim b a) ->
  (forall r, fast_join F n fuel dim a b tint tol = Some (Ret r) -> computed (body2 (dual F n (Signed dim 0 0))) [a; r] /\ computed (body2 (dual F n (Signed dim 0 0))) [b; r]) ->
  holds (fun p => exists M J cs, value p M /\ blade_of dim cs J /\ norm2 (fun _ => 1) J = 1 /\ Forall (in_span (av ++ bv)) cs /\ meq M (mop (mlcont (fun _ => 1) B (minv (fun _ => 1) J)) (mlcont (fun _ => 1) A (minv (fun _ => 1) J))) /\
      (tol = 0 -> (forall x, in_span cs x <-> in_span (av ++ bv) x) /\ exists ps, blade_of dim ps M /\
         forall x, in_span ps x <-> exists y z, meq x (y ++ z) /\ in_span (av ++ bv) y /\ orthogonal bv y /\ in_span (av ++ bv) z /\ orthogonal av z))
    (fast_plunge F n fuel dim (Signed dim 0 0) a b tint tol).
Proof.
  intros Hd Oa Ob Va Vb Ba Bb Sa Sb HI Ti T Ka Kb U HC. unfold fast_plunge.
  apply (holds_bind _ _ _ _ (fast_join_ok F n fuel dim a b av bv A B tint tol Hd Oa Ob Va Vb Ba Bb Sa Sb HI Ti T Ka Kb U)). intros r Er (J & cs & Or & Vr & BJ & NJ & S1 & S2 & S3).
  assert (D : (dim + 0 + 0 = dim)%N) by lia. assert (Hd' : (dim + 0 + 0 <= 63)%N) by lia.
  assert (G : forall x X xv, int_object dim x -> value x X -> blade_of dim xv X -> computed (body2 (dual F n (Signed dim 0 0))) [x; r] -> holds (fun d => int_object dim d /\ value d (mlcont e1 X (minv e1 J))) (ran (dual F n (Signed dim 0 0) x r))).
  { intros x X xv Ox Vx Bx Cx. destruct (euclid_dual dim xv cs X J Hd Bx BJ) as [N Q]. apply holds_ran. intros o Eo. rewrite <- D in Ox, Or.
    destruct (dual_ok F n dim 0 0 x r X J o Hd' Ox Or Vx Vr) as [->|(d & -> & Od & Vd)]; [rewrite N; change (norm2 e1 J = 1) in NJ; rewrite NJ; lra|exact Cx|exact Eo|left; reflexivity|right]. exists d. rewrite D in Od. split; [reflexivity|]. split; [exact Od|]. exact (value_meq _ _ _ Vd Q). }
  destruct (HC r Er) as [Ca Cb]. apply (holds_bind _ _ _ _ (G b B bv Ob Vb Bb Cb)). intros x _ [Ox Vx]. apply (holds_bind _ _ _ _ (G a A av Oa Va Ba Ca)). intros y _ [Oy Vy].
  apply holds_ran. intros o Eo. destruct (C24_outer dim F n x y _ _ o Hd Ox Oy Vx Vy Eo) as [->|(p & -> & _ & Vp)]; [left; reflexivity|right]. exists p. split; [reflexivity|].
  exists (mop (mlcont e1 B (minv e1 J)) (mlcont e1 A (minv e1 J))), J, cs. split; [exact Vp|]. split; [exact BJ|]. split; [exact NJ|]. split; [exact S1|]. split; [reflexivity|]. intros T0.
  assert (S : forall x, in_span cs x <-> in_span (av ++ bv) x) by (intros q; split; apply span_trans; [exact S1|exact (S3 T0)]). split; [exact S|]. exact (plunge_value dim av bv cs A B J Hd Ba Bb BJ NJ S).
Qed.
