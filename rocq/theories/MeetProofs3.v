(** Correctness of the meet of two blades. *)
From Coq Require Import NArith ZArith List Bool Lia Reals Lra Morphisms Setoid RelationClasses.
From Verif Require Import Bits SpecBits Expr Sem Wf SpecMv SpecAlg MvBase Simp SimpProofs SimpProofs2 SmartProofs PresProofs Comp Mapping Ops CompProofs CompProofs2 MappingProofs ProductProofs OuterProofs GumProofs AlgProofs AlgProofs2 Clifford Clifford5 EvalC SpecEval Lazy SpecLazy PolyProofs Api Extra SpecApi SpecExtra ApiProofs ApiProofs2 ApiProofs3 ExtraProofs Norm SpecNorm NormProofs2 NormProofs4 PropApi SpecMeet Meet GaProofs JoinMath MeetMath MeetProofs MeetProofs2.
Import ListNotations.
Local Open Scope R_scope.
Local Opaque sign_of indices.

(** ** The inverse of an object, computed at run time *)
Theorem inv_ok F n a m o : int_object 63 a -> value a m -> norm2 e1 m <> 0 -> computed (body1 (inv F n Real)) [a] -> inv F n Real a = Some o ->
  o = Ovf \/ exists r, o = Done r /\ int_object 63 r /\ value r (minv e1 m).
Proof.
  intros Oa Va Nz HC E. unfold inv in E.
  set (body := body1 (fun x => andthen (reverse F n x) (fun r => andthen (rnorm_sqr F n Real x) (fun s => andthen (inv_scalar F n s) (fun i => gp_scalar F n r i))))) in *.
  apply (computed_1 _ (fun l => in_context F n l body) a ltac:(reflexivity)) in HC.
  refine (computed_context F n 63 body [a] [m] _ o ltac:(auto) ltac:(auto) _ HC E). intros args Ea HA. inversion HA as [|x ? ? ? Tx HA1]; subst. inversion HA1; subst. clear HA HA1. cbn [map]. unfold body. cbn [body1].
  set (hi := N.of_nat _) in *. set (g := ctx_env _ _) in *. apply q_weaken in Tx. pose proof (q_class F hi) as HP.
  apply (yields_then (qclass hi) 63 g _ _ (mrev m)); [exact (y_rev is_int _ F n 63 g HP ltac:(discriminate) x m Tx)|]. intros r Tr.
  apply (yields_then (qclass hi) 63 g _ _ _ _ (y_rnorm_sqr is_int _ F n 63 g Real HP ltac:(discriminate) Logic.I x m Tx)). intros s Ts.
  apply (yields_then (qclass hi) 63 g _ _ _ _ (y_inv_scalar is_int _ F n 63 g HP eq_refl s _ Nz Ts)). intros i Ti.
  eapply yields_meq; [exact (y_gp_scalar is_int _ F n 63 g HP ltac:(discriminate) r i _ _ Tr Ti)|]. apply gp_scalar_r.
Qed.
Lemma lcont_real_ok F n a b ma mb o : int_object 63 a -> int_object 63 b -> value a ma -> value b mb -> lcont_in F n Real a b = Some o ->
  o = Ovf \/ exists r, o = Done r /\ int_object 63 r /\ value r (mlcont e1 ma mb).
Proof.
  intros Oa Ob Va Vb E.
  exact (int_call F n _ 63 [a; b] [ma; mb] _ o (sound_mul is_pos F n 63 _ _ 63 ma mb (lcont_real_map_ok F) (N.le_refl 63) (lcont_real_const F)) ltac:(auto) ltac:(auto) E).
Qed.

(** ** fast_meet_and_join *)
Lemma unit_inverse dim cs J : (dim <= 63)%N -> blade_of dim cs J -> norm2 e1 J = 1 -> exists s, s * s = 1 /\ meq (minv e1 J) (scale s J).
Proof.
  intros Hd BJ N1. destruct (blade_inv dim Hd cs J BJ) as (VC & w & W0 & Q & NZ). set (s := if N.odd (N.of_nat (length cs) * (N.of_nat (length cs) - 1) / 2) then -1 else 1). exists s. split; [unfold s; destruct N.odd; lra|].
  unfold minv. rewrite N1. assert (E : meq (mrev J) (scale s J)).
  { refine (transitivity (mrev_meq _ _ Q) _). change (meq (mrev (scale w (wedge cs))) (scale s J)). intros k. 
    pose proof (rev_homog (N.of_nat (length cs)) (scale w (wedge cs))) as H. rewrite (H ltac:(unfold homog, scale; rewrite Forall_map; exact (wedge_homog dim Hd cs VC)) k). rewrite !cs_, (Q k), cs_. reflexivity. }
  intros k. rewrite !cs_, (E k), cs_. field.
Qed.
Lemma meet_value dim av bv cs A B J : (dim <= 63)%N -> blade_of dim av A -> blade_of dim bv B -> blade_of dim cs J -> norm2 e1 J = 1 -> (forall x, in_span cs x <-> in_span (av ++ bv) x) ->
  exists ms, blade_of dim ms (mlcont e1 (mlcont e1 B (minv e1 J)) A) /\ forall x, in_span ms x <-> in_span av x /\ in_span bv x.
Proof.
  intros Hd BA BB BJ N1 S. destruct (blade_inv dim Hd av A BA) as (VA & wa & Wa & QA & NA). destruct (blade_inv dim Hd bv B BB) as (VB & wb & Wb & QB & NB). destruct (blade_inv dim Hd cs J BJ) as (VC & wc & Wc & QC & NC).
  destruct (unit_inverse dim cs J Hd BJ N1) as (s & Hs & QJ). destruct (meet_blade dim Hd av bv cs VA VB VC NA NB NC S) as (ms & w & W0 & VM & QM & NM & SM). exists ms. split; [|exact SM].
  assert (Q : meq (mlcont e1 (mlcont e1 B (minv e1 J)) A) (scale (wb * s * wc * wa * w) (wedge ms))).
  { refine (transitivity (lc_c _ _ _ _ (lc_c _ _ _ _ QB (transitivity QJ (meq_scl s _ _ QC))) QA) _).
    refine (transitivity (lc_scl_r _ _ _) _). refine (transitivity (meq_scl wa _ _ (lc_c _ _ _ _ (transitivity (lc_scl_l _ _ _) (meq_scl wb _ _ (transitivity (lc_scl_r _ _ _) (meq_scl s _ _ (lc_scl_r _ _ _))))) (reflexivity (wedge av)))) _).
    refine (transitivity (meq_scl wa _ _ (transitivity (lc_scl_l _ _ _) (meq_scl wb _ _ (transitivity (lc_scl_l _ _ _) (meq_scl s _ _ (transitivity (lc_scl_l _ _ _) (meq_scl wc _ _ QM))))))) _). intros k. rewrite !cs_. ring. }
  split; [apply vectors_vec; [exact Hd|exact VM]|]. split; [exists (wb * s * wc * wa * w); exact Q|]. intros Z. apply NM. apply (scale_nz (wb * s * wc * wa * w)); [|exact (transitivity (symmetry Q) Z)].
  assert (s <> 0) by (intros ->; lra). repeat apply Rmult_integral_contrapositive_currified; assumption.
Qed.
Theorem fast_meet_ok F n fuel dim a b av bv A B tint tol : (dim <= 63)%N -> int_object dim a -> int_object dim b -> value a A -> value b B -> blade_of dim av A -> blade_of dim bv B ->
  (length av <= 7)%nat -> (length bv <= 7)%nat -> (cint a && cint b)%bool = false -> (tint = true -> isint tol) -> 0 <= tol -> (exists k, tol < Rabs (coef A k)) -> (exists k, tol < Rabs (coef B k)) ->
  (if (length bv <=? length av)%nat then units_exact F n fuel dim a b else units_exact F n fuel dim b a) ->
  (forall r, fast_join F n fuel dim a b tint tol = Some (Ret r) -> computed (body1 (inv F n Real)) [r]) ->
  holds (fun mj => exists M J cs, value (fst mj) M /\ value (snd mj) J /\ blade_of dim cs J /\ norm2 (fun _ => 1) J = 1 /\ meq M (mlcont (fun _ => 1) (mlcont (fun _ => 1) B (minv (fun _ => 1) J)) A) /\
      (tol = 0 -> (forall x, in_span cs x <-> in_span (av ++ bv) x) /\ exists ms, blade_of dim ms M /\ forall x, in_span ms x <-> in_span av x /\ in_span bv x))
    (fast_meet_and_join F n fuel dim a b tint tol).
Proof.
  intros Hd Oa Ob Va Vb Ba Bb Sa Sb HI Ti T Ka Kb U HC. unfold fast_meet_and_join.
  apply (holds_bind _ _ _ _ (fast_join_ok F n fuel dim a b av bv A B tint tol Hd Oa Ob Va Vb Ba Bb Sa Sb HI Ti T Ka Kb U)). intros r Er (J & cs & Or & Vr & BJ & NJ & S1 & S2 & S3).
  pose proof (object_mono _ dim 63 r Hd Or) as Or'. assert (N0 : norm2 e1 J <> 0) by (change (norm2 e1 J = 1) in NJ; rewrite NJ; lra).
  pose proof (object_mono _ dim 63 a Hd Oa) as Oa'. pose proof (object_mono _ dim 63 b Hd Ob) as Ob'.
  apply (holds_bind (fun i => int_object 63 i /\ value i (minv e1 J))). { apply holds_ran. intros o Eo. destruct (inv_ok F n r J o Or' Vr N0 (HC r Er) Eo) as [->|(i & -> & H)]; [left; reflexivity|right; exists i; auto]. }
  intros i _ [Oi Vi]. apply (holds_bind (fun d => int_object 63 d /\ value d (mlcont e1 B (minv e1 J)))). { apply holds_ran. intros o Eo. destruct (lcont_real_ok F n b i B _ o Ob' Oi Vb Vi Eo) as [->|(d & -> & H)]; [left; reflexivity|right; exists d; auto]. }
  intros d _ [Od Vd]. apply (holds_bind (fun m => value m (mlcont e1 (mlcont e1 B (minv e1 J)) A))). { apply holds_ran. intros o Eo. destruct (lcont_real_ok F n d a _ A o Od Oa' Vd Va Eo) as [->|(m & -> & _ & H)]; [left; reflexivity|right; exists m; auto]. }
  intros m _ Vm. apply holds_ret. cbn [fst snd]. exists (mlcont e1 (mlcont e1 B (minv e1 J)) A), J, cs. do 4 (split; [assumption|]). split; [reflexivity|]. intros T0.
  assert (S : forall x, in_span cs x <-> in_span (av ++ bv) x) by (intros x; split; apply span_trans; [exact S1|exact (S3 T0)]). split; [exact S|]. exact (meet_value dim av bv cs A B J Hd Ba Bb BJ NJ S).
Qed.
