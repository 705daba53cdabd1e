(** Correctness of the plunge of two blades from their delta product. *)
From Coq Require Import NArith ZArith List Bool Lia Reals Lra Morphisms Setoid RelationClasses.
From Verif Require Import Bits SpecBits Expr Sem Wf SpecMv SpecAlg MvBase Simp SimpProofs SimpProofs2 SmartProofs PresProofs Comp Mapping Ops CompProofs CompProofs2 MappingProofs ProductProofs OuterProofs GumProofs AlgProofs AlgProofs2 Clifford Clifford3 Clifford5 EvalC SpecEval Lazy SpecLazy PolyProofs Api Extra SpecApi SpecExtra ApiProofs ApiProofs2 ApiProofs3 ExtraProofs Norm SpecNorm NormProofs2 NormProofs4 NormProofs5 PropApi SpecGeneral Wick2 SpecSpaces GenApi SpecGeo GeoApi SpecMeet SpecMeet2 Meet GaProofs JoinMath MeetMath MeetMath3 MeetProofs MeetProofs2 MeetProofs3 MeetProofs4 MeetProofs5 MeetProofs6.
Import ListNotations.
Local Open Scope R_scope.
Local Opaque sign_of indices.

Lemma minv_meq q a b : meq a b -> meq (minv q a) (minv q b).
Proof.
  intros E k. unfold minv. assert (N : norm2 q a = norm2 q b) by (unfold norm2, re, msp; apply bilinear_meq; [exact E|apply mrev_meq, E]). rewrite N, !cs_, (mrev_meq _ _ E k). reflexivity.
Qed.
Lemma any_inverse dim cs J : (dim <= 63)%N -> blade_of dim cs J -> norm2 e1 J <> 0 /\ exists s, s <> 0 /\ meq (minv e1 J) (scale s (wedge cs)).
Proof.
  intros Hd BJ. destruct (blade_inv dim Hd cs J BJ) as (VC & w & W0 & Q & NZ). destruct (blade_inverse dim Hd cs w VC NZ W0) as (N & s & S0 & QS). split.
  - intros Z. apply N. rewrite <- (norm2_same _ _ Q). exact Z.
  - exists s. split; [exact S0|]. exact (transitivity (minv_meq _ _ _ Q) QS).
Qed.
Lemma plunge_value2 dim av bv cs A B J : (dim <= 63)%N -> blade_of dim av A -> blade_of dim bv B -> blade_of dim cs J -> (forall x, in_span cs x <-> in_span (av ++ bv) x) ->
  exists ps, blade_of dim ps (mop (mlcont e1 B (minv e1 J)) (mlcont e1 A (minv e1 J))) /\
  forall x, in_span ps x <-> exists y z, meq x (y ++ z) /\ in_span (av ++ bv) y /\ orthogonal bv y /\ in_span (av ++ bv) z /\ orthogonal av z.
Proof.
  intros Hd BA BB BJ S. destruct (blade_inv dim Hd av A BA) as (VA & wa & Wa & QA & NA). destruct (blade_inv dim Hd bv B BB) as (VB & wb & Wb & QB & NB). destruct (blade_inv dim Hd cs J BJ) as (VC & wc & Wc & QC & NC).
  destruct (any_inverse dim cs J Hd BJ) as (_ & s & S0 & QJ). destruct (plunge_blade dim Hd av bv cs VA VB VC NA NB NC S) as (ps & w & W0 & VM & QM & NM & SM). exists ps. split.
  - assert (D : forall x u vs, meq x (scale u (wedge vs)) -> meq (mlcont e1 x (minv e1 J)) (scale (u * s) (mlcont e1 (wedge vs) (wedge cs)))).
    { intros x u vs Qx. refine (transitivity (lc_c _ _ _ _ Qx QJ) _). refine (transitivity (lc_scl_l _ _ _) _). refine (transitivity (meq_scl u _ _ (lc_scl_r _ _ _)) _). intros k. rewrite !cs_. ring. }
    assert (Q : meq (mop (mlcont e1 B (minv e1 J)) (mlcont e1 A (minv e1 J))) (scale (wb * s * (wa * s) * w) (wedge ps))).
    { refine (transitivity (op_c _ _ _ _ (D _ _ _ QB) (D _ _ _ QA)) _). refine (transitivity (op_scl_l _ _ _) _). refine (transitivity (meq_scl _ _ _ (transitivity (op_scl_r _ _ _) (meq_scl _ _ _ QM))) _). intros k. rewrite !cs_. ring. }
    split; [apply vectors_vec; [exact Hd|exact VM]|]. split; [eexists; exact Q|]. intros Z. apply NM. apply (scale_nz (wb * s * (wa * s) * w)); [|exact (transitivity (symmetry Q) Z)].
    repeat apply Rmult_integral_contrapositive_currified; assumption.
  - assert (VAB : Forall (GaProofs.vec dim) (av ++ bv)) by (apply Forall_app; split; assumption). intros x. rewrite SM. split; intros (y & z & E & Sy & Py & Sz & Pz); exists y, z; split; try exact E.
    + apply S in Sy, Sz. split; [exact Sy|]. split; [apply (orthogonal_perp dim (av ++ bv)); assumption|]. split; [exact Sz|]. apply (orthogonal_perp dim (av ++ bv)); assumption.
    + split; [apply S, Sy|]. split; [apply (orthogonal_perp dim (av ++ bv)) in Py; assumption|]. split; [apply S, Sz|]. apply (orthogonal_perp dim (av ++ bv)) in Pz; assumption.
Qed.
Lemma plunge_tail F n dim a b av bv A B j J gs : (dim <= 63)%N -> int_object dim a -> int_object dim b -> value a A -> value b B -> blade_of dim av A -> blade_of dim bv B ->
  int_object dim j -> value j J -> blade_of dim gs J -> computed (body2 (dual F n (Signed dim 0 0))) [a; j] -> computed (body2 (dual F n (Signed dim 0 0))) [b; j] ->
  holds (fun p => value p (mop (mlcont e1 B (minv e1 J)) (mlcont e1 A (minv e1 J)))) (x <~ ran (dual F n (Signed dim 0 0) b j) ;; y <~ ran (dual F n (Signed dim 0 0) a j) ;; ran (outer F n dim x y)).
Proof.
  intros Hd Oa Ob Va Vb Ba Bb Oj Vj BJ Ca Cb.
  assert (D : (dim + 0 + 0 = dim)%N) by lia. assert (Hd' : (dim + 0 + 0 <= 63)%N) by lia.
  assert (G : forall x X xv, int_object dim x -> value x X -> blade_of dim xv X -> computed (body2 (dual F n (Signed dim 0 0))) [x; j] -> holds (fun d => int_object dim d /\ value d (mlcont e1 X (minv e1 J))) (ran (dual F n (Signed dim 0 0) x j))).
  { intros x X xv Ox Vx Bx Cx. destruct (euclid_dual dim xv gs X J Hd Bx BJ) as [N Q]. apply holds_ran. intros o Eo. rewrite <- D in Ox. pose proof Oj as Or. rewrite <- D in Or.
    destruct (dual_ok F n dim 0 0 x j X J o Hd' Ox Or Vx Vj) as [->|(d & -> & Od & Vd)]; [rewrite N; exact (proj1 (any_inverse dim gs J Hd BJ))|exact Cx|exact Eo|left; reflexivity|right]. exists d. rewrite D in Od. split; [reflexivity|]. split; [exact Od|]. exact (value_meq _ _ _ Vd Q). }
  apply (holds_bind _ _ _ _ (G b B bv Ob Vb Bb Cb)). intros x _ [Ox Vx]. apply (holds_bind _ _ _ _ (G a A av Oa Va Ba Ca)). intros y _ [Oy Vy].
  apply holds_ran. intros o Eo. destruct (C24_outer dim F n x y _ _ o Hd Ox Oy Vx Vy Eo) as [->|(p & -> & _ & Vp)]; [left; reflexivity|right]. exists p. split; [reflexivity|exact Vp].
Qed.
Theorem plunge_ok F n fuel dim a b av bv A B tint tol dint dtol m j p : (dim <= 63)%N -> int_object dim a -> int_object dim b -> value a A -> value b B -> blade_of dim av A -> blade_of dim bv B ->
  (length av <= 7)%nat -> (length bv <= 7)%nat -> (cint a && cint b)%bool = false -> (tint = true -> isint tol) -> 0 <= tol -> (dint = true -> isint dtol) -> 0 <= dtol ->
  (exists k, tol < Rabs (coef A k)) -> (exists k, tol < Rabs (coef B k)) -> top_above tol A B -> top_above dtol A B ->
  (if (length av <=? length bv)%nat then inverses_exact F n fuel dim a b dint dtol else inverses_exact F n fuel dim b a dint dtol) ->
  meet_and_join F n fuel dim a b tint tol (scalar_obj dint dtol) = Some (Ret (m, j)) ->
  computed (body2 (dual F n (Signed dim 0 0))) [a; j] -> computed (body2 (dual F n (Signed dim 0 0))) [b; j] ->
  plunge F n fuel dim (Signed dim 0 0) a b tint tol (scalar_obj dint dtol) = Some (Ret p) ->
  value m [] \/ value j [] \/ exists P J js, value p P /\ value j J /\ blade_of dim js J /\ (forall x, in_span (av ++ bv) x -> in_span js x) /\
    meq P (mop (mlcont (fun _ => 1) B (minv (fun _ => 1) J)) (mlcont (fun _ => 1) A (minv (fun _ => 1) J))) /\
    (tol = 0 -> exists ps, blade_of dim ps P /\
       forall x, in_span ps x <-> exists y z, meq x (y ++ z) /\ in_span (av ++ bv) y /\ orthogonal bv y /\ in_span (av ++ bv) z /\ orthogonal av z).
Proof.
  intros Hd Oa Ob Va Vb Ba Bb Sa Sb HI Ti T Di Dt Ka Kb T1 T2 X E Ca Cb EP.
  destruct (meet_and_join_ok F n fuel dim a b av bv A B tint tol dint dtol Hd Oa Ob Va Vb Ba Bb Sa Sb HI Ti T Di Dt Ka Kb T1 T2 X (m, j) E) as [[[_ V]|[_ V]]|(M & J & cs & gs & _ & O2 & V1 & V2 & B1 & B2 & C1 & C2 & C3 & H)]; [auto|auto|right; right].
  cbn [fst snd] in *. unfold plunge in EP. rewrite E in EP. cbn [obind snd] in EP.
  destruct (plunge_tail F n dim a b av bv A B j J gs Hd Oa Ob Va Vb Ba Bb O2 V2 B2 Ca Cb _ EP) as [Q|(p' & Q & Vp)]; [discriminate Q|injection Q as <-].
  assert (S2 : forall x, in_span (av ++ bv) x -> in_span gs x) by (intros x Hx; exact (span_trans gs _ x C3 Hx)).
  exists (mop (mlcont e1 B (minv e1 J)) (mlcont e1 A (minv e1 J))), J, gs. split; [exact Vp|]. split; [exact V2|]. split; [exact B2|]. split; [exact S2|]. split; [reflexivity|]. intros T0. destruct (H T0) as [_ H2].
  apply (plunge_value2 dim av bv gs A B J Hd Ba Bb B2). intros x. split; [intros Hx; exact (span_trans _ gs x H2 Hx)|apply S2].
Qed.
