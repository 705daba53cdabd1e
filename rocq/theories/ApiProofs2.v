(** Composite functions: nested calls on lazy arguments. *)
From Coq Require Import NArith ZArith List Bool Lia Reals Lra.
From Verif Require Import Bits SpecBits Expr ExprBase Sem Wf SpecMv SpecAlg MvBase Simp SimpProofs SimpProofs2 PresProofs Comp CompProofs EvalC SpecEval SpecOrder OrderProofs CompProofs2 Mapping Ops GradeProofs BitsBase ProductProofs OuterProofs GumProofs Clifford Clifford2 AlgProofs AlgProofs2 Lazy SpecLazy TagProofs LazyProofs LazyProofs2 CanonProofs PolyProofs Api Extra SpecApi SpecExtra ApiProofs.
Import ListNotations.

Section Nested.
Variables (X P : expr -> bool) (F k : nat) (dim : N) (g : env).
Hypothesis HP : closed_class X F P.
Notation T := (typed_value P dim g).
Definition yields (r : result) (m : mv) : Prop := forall o, r = Some o -> exists e, o = Done (lazy_obj e) /\ T e m.

Lemma T_stored e m : T e m -> has_stored e = false /\ count_vals e = 0%nat /\ count_bits e = 0%nat.
Proof. destruct HP as (_ & _ & _ & _ & H). intros (G & _). exact (good_stored P dim e H G). Qed.
Lemma nested_args args ms : Forall2 T args ms -> (forall b, arguments b (map lazy_obj args) = Some args) /\ stored_inputs (map lazy_obj args) = [].
Proof.
  induction 1 as [|e m args ms H HF [IH1 IH2]]; [split; reflexivity|]. destruct (T_stored e m H) as (S & _). split; [intros b; cbn [map arguments lazy_obj cexpr]; rewrite S, IH1; reflexivity|].
  cbn [map stored_inputs filter lazy_obj cexpr]. rewrite S. exact IH2.
Qed.
Lemma nested_eval args ms e m : Forall2 T args ms -> T e m -> lazy_eval F k (map lazy_obj args) e = Some (Done (lazy_obj e)).
Proof. intros HA He. unfold lazy_eval. destruct (nested_args args ms HA) as [_ ->]. destruct (T_stored e m He) as (_ & -> & ->). reflexivity. Qed.
Lemma yields_call op args ms res : sound_op X F op dim ms res -> Forall2 T args ms -> yields (call F k op (map lazy_obj args)) res.
Proof.
  intros HS HA o E. unfold call in E. destruct (nested_args args ms HA) as [EA _]. rewrite EA in E. destruct (op args) as [e|] eqn:Eo; [|discriminate]. pose proof (HS P g args e HP HA Eo) as Te.
  rewrite (nested_eval args ms e res HA Te) in E. injection E as <-. eauto.
Qed.
Lemma yields_then r f m m' : yields r m -> (forall e, T e m -> yields (f (lazy_obj e)) m') -> yields (andthen r f) m'.
Proof. intros H1 H2 o E. destruct r as [o1|]; [|discriminate E]. destruct (H1 o1 eq_refl) as (e & -> & Te). cbn [andthen] in E. exact (H2 e Te o E). Qed.
Lemma yields_context args ms body m : Forall2 T args ms -> yields (body (map lazy_obj args)) m -> yields (in_context F k (map lazy_obj args) body) m.
Proof.
  intros HA HB o E. unfold in_context in E. destruct (nested_args args ms HA) as [EA _]. rewrite EA in E. destruct (body (map lazy_obj args)) as [o1|]; [|discriminate E]. destruct (HB o1 eq_refl) as (e & -> & Te).
  cbn [andthen lazy_obj cexpr] in E. rewrite (nested_eval args ms e m HA Te) in E. injection E as <-. eauto.
Qed.
Lemma yields_meq r m m' : yields r m -> meq m m' -> yields r m'.
Proof. intros H Q o E. destruct (H o E) as (e & E' & Te). exists e. split; [exact E'|]. exact (T_meq P dim g e m m' Te Q). Qed.
End Nested.

(** ** The core operations *)
Section Sound.
Variables (X : expr -> bool) (F k : nat) (dim : N).
Lemma sound_mul mult f n ma mb : mult_ok mult f n -> (dim <= n)%N -> const_mult dim mult -> sound_op X F (op2 (cmul F k mult)) dim [ma; mb] (bilinear f ma mb).
Proof.
  intros HM Hn HC P g args e HP HA E. inversion HA as [|a ? ? ? Ta HA1]; subst. inversion HA1 as [|b ? ? ? Tb HA2]; subst. inversion HA2; subst. cbn [op2] in E.
  exact (T_mul X P F k dim HP mult f n g a b ma mb e HM Hn HC Ta Tb E).
Qed.
Lemma sound_add ma mb : sound_op X F (op2 (cadd F k)) dim [ma; mb] (ma ++ mb).
Proof.
  intros P g args e HP HA E. inversion HA as [|a ? ? ? Ta HA1]; subst. inversion HA1 as [|b ? ? ? Tb HA2]; subst. inversion HA2; subst. cbn [op2] in E.
  exact (T_add X P F k dim HP g a b ma mb e Ta Tb E).
Qed.
Lemma sound_gum pat l ma : unary_ok (gum F k pat) l -> (dim <= 63)%N -> sound_op X F (op1 (gum F k pat)) dim [ma] (linear l ma).
Proof.
  intros HU Hd P g args e HP HA E. inversion HA as [|a ? ? ? Ta HA1]; subst. inversion HA1; subst. cbn [op1] in E. exact (T_gum X P F k dim HP pat l g a ma e HU Hd Ta E).
Qed.
Lemma sound_pow z ma w : X (CV z) = true -> rpow (coef ma 0) (IZR z) = Some w -> sound_op X F (op1 (fun x => pow_t F x (c_expr z))) dim [ma] [(w, 0%N)].
Proof.
  intros HX HW P g args e HP HA E. inversion HA as [|a ? ? ? Ta HA1]; subst. inversion HA1; subst. cbn [op1] in E. destruct Ta as ((M & EM & _ & HM) & W & (m0 & D & Q)).
  destruct HP as (Pc & _ & _ & Pp & _).
  unfold pow_t in E. destruct a as [| | | | | | | | |c b|]; try discriminate E. destruct b as [| | | | | | |[|?]| | |]; try discriminate E. unfold c_expr in E. cbn [component_t] in E.
  assert (E' : exists r, eng F OPow c (CV z) = Some r /\ e = component_t r (CBlade 0)).
  { destruct z; cbn in E; (destruct (eng F OPow c _) as [r|] eqn:Er; [|discriminate E]); injection E as <-; eauto. }
  clear E. destruct E' as (r & Er & ->).
  assert (Wc : wf c = true). { cbn in W. rewrite !andb_true_r in W. exact W. }
  assert (Hc : P c = true). { destruct M as [|[i d] [|? ?]]; [injection EM as ->; apply Pc|injection EM as -> _; inversion HM as [|? ? [H _]]; exact H|discriminate EM]. }
  destruct (den_scalar g c m0 D) as [v ->]. destruct (s_pow _ (eng_ok F) c (CV z) r Wc eq_refl Er) as [Wr V].
  assert (Nc : num g c v). { cbn [den] in D. destruct D as (p & D & [= <-]). destruct D as (D & _). exact D. }
  assert (Ev : coef ma 0 = v). { rewrite <- (Q 0%N). cbn. lra. } rewrite Ev in HW.
  pose proof (V g v (IZR z) w Nc (num_cv g z) HW ltac:(right; left; exists z; reflexivity)) as Nr.
  split; [|split].
  - apply good_comp; [exact (Pp c (CV z) r Er Hc HX)|reflexivity|apply N.neq_0_lt_0, N.pow_nonzero; discriminate].
  - destruct (component_t_cases r (CBlade 0)) as [-> |[-> _]]; [|reflexivity]. cbn. rewrite Wr. reflexivity.
  - assert (H : has_value g (Comp r (CBlade 0)) [(w, 0%N)]). { exists [(w, 0%N)]. split; [|intros j; reflexivity]. cbn [den]. exists (w, 0%N). split; [|reflexivity]. split; [exact Nr|]. split; reflexivity. }
    destruct (component_t_cases r (CBlade 0)) as [->|[-> [->|[x [=]]]]]; exact H.
Qed.
End Sound.

(** ** The metric spaces *)
Definition sig_of (S : space) : N -> R := match S with Signed P Q R => signature P Q | Real => fun _ => 1%R end.
Definition space_ok (S : space) (dim : N) : Prop := match S with Signed P Q R => dim = (P + Q + R)%N | Real => True end.

Lemma signed_const F P Q R grades valid : (P + Q + R <= 63)%N -> bool_valid valid -> const_mult (P + Q + R) (orth F (P + Q + R) grades valid (signed_factor P Q R)).
Proof. intros H HV. apply orth_const; [exact H|exact HV|apply factor_const|left; reflexivity]. Qed.
Lemma sp_real_const F dim : (dim <= 63)%N -> const_mult dim (sp_real_map F).
Proof.
  intros Hd. apply orth_const; [discriminate|apply sp_bv|intros c; exists 1%Z; reflexivity|]. destruct (N.eq_dec dim 63) as [->|Ne]; [left; discriminate|right]. intros x y _ _.
  unfold sp_grades. apply N.eqb_neq. destruct (negb _); discriminate.
Qed.

Section Composite.
Variables (X P : expr -> bool) (F k : nat) (dim : N) (g : env) (S : space).
Hypothesis HP : closed_class X F P.
Hypothesis Hdim : (dim <= 63)%N.
Hypothesis HS : space_ok S dim.
Notation T := (typed_value P dim g).
Notation Y := (yields P dim g).
Notation q := (sig_of S).

Lemma list2 a b ma mb : T a ma -> T b mb -> Forall2 T [a; b] [ma; mb]. Proof. auto. Qed.
Lemma y_gp_scalar a b ma mb : T a ma -> T b mb -> Y (gp_scalar F k (lazy_obj a) (lazy_obj b)) (mgp (fun _ => 1%R) ma mb).
Proof. intros Ta Tb. refine (yields_call X P F k dim g HP _ [a; b] [ma; mb] _ (sound_mul X F k dim _ _ 63 ma mb (gp_real_map_ok F) Hdim (gp_real_const F dim Hdim)) (list2 _ _ _ _ Ta Tb)). Qed.
Lemma y_gp a b ma mb : T a ma -> T b mb -> Y (gp_in F k S (lazy_obj a) (lazy_obj b)) (mgp q ma mb).
Proof.
  intros Ta Tb. destruct S as [p q0 r|]; [|exact (y_gp_scalar a b ma mb Ta Tb)]. pose proof Hdim as Hd. cbn [space_ok] in HS. subst dim. cbn [gp_in sig_of].
  refine (yields_call X P F k _ g HP _ [a; b] [ma; mb] _ (sound_mul X F k _ _ _ _ ma mb (gp_map_ok p q0 r Hd F) (N.le_refl _) (signed_const F p q0 r _ _ Hd (gp_bv F))) (Forall2_cons _ _ Ta (Forall2_cons _ _ Tb (Forall2_nil _)))).
Qed.
Lemma y_sp a b ma mb : T a ma -> T b mb -> Y (sp_in F k S (lazy_obj a) (lazy_obj b)) (msp q ma mb).
Proof.
  intros Ta Tb. pose proof Hdim as Hd. destruct S as [p q0 r|]; cbn [space_ok] in HS; [subst dim|]; cbn [sp_in sig_of].
  - refine (yields_call X P F k _ g HP _ [a; b] [ma; mb] _ (sound_mul X F k _ _ _ _ ma mb (sp_map_ok p q0 r Hd F) (N.le_refl _) (signed_const F p q0 r _ _ Hd (sp_bv F))) (Forall2_cons _ _ Ta (Forall2_cons _ _ Tb (Forall2_nil _)))).
  - refine (yields_call X P F k dim g HP _ [a; b] [ma; mb] _ (sound_mul X F k dim _ _ 63 ma mb (sp_real_map_ok F) Hd (sp_real_const F dim Hd)) (list2 _ _ _ _ Ta Tb)).
Qed.
Lemma y_lcont a b ma mb : S <> Real -> T a ma -> T b mb -> Y (lcont_in F k S (lazy_obj a) (lazy_obj b)) (mlcont q ma mb).
Proof.
  intros NR Ta Tb. destruct S as [p q0 r|]; [|congruence]. pose proof Hdim as Hd. cbn [space_ok] in HS. subst dim; cbn [lcont_in sig_of].
  refine (yields_call X P F k _ g HP _ [a; b] [ma; mb] _ (sound_mul X F k _ _ _ _ ma mb (lcont_map_ok p q0 r Hd F) (N.le_refl _) (signed_const F p q0 r _ _ Hd (lcont_bv F))) (Forall2_cons _ _ Ta (Forall2_cons _ _ Tb (Forall2_nil _)))).
Qed.
Lemma y_plus a b ma mb : T a ma -> T b mb -> Y (plus F k (lazy_obj a) (lazy_obj b)) (ma ++ mb).
Proof. intros Ta Tb. refine (yields_call X P F k dim g HP _ [a; b] [ma; mb] _ (sound_add X F k dim ma mb) (list2 _ _ _ _ Ta Tb)). Qed.
Lemma y_rev a ma : T a ma -> Y (reverse F k (lazy_obj a)) (mrev ma).
Proof. intros Ta. refine (yields_call X P F k dim g HP _ [a] [ma] _ (sound_gum X F k dim _ _ ma (reverse_ok F k) Hdim) (Forall2_cons _ _ Ta (Forall2_nil _))). Qed.
Lemma y_invol a ma : T a ma -> Y (involute F k (lazy_obj a)) (minvol ma).
Proof. intros Ta. refine (yields_call X P F k dim g HP _ [a] [ma] _ (sound_gum X F k dim _ _ ma (involute_ok F k) Hdim) (Forall2_cons _ _ Ta (Forall2_nil _))). Qed.
Lemma y_neg a ma : T a ma -> Y (gp_scalar F k (c_obj (-1)) (lazy_obj a)) (scale (-1) ma).
Proof. intros Ta. eapply yields_meq; [exact (y_gp_scalar (c_expr (-1)) a _ ma (T_const X P F dim HP g (-1)) Ta)|]. apply scalar_gp. Qed.
Lemma y_minus a b ma mb : T a ma -> T b mb -> Y (minus F k (lazy_obj a) (lazy_obj b)) (msub ma mb).
Proof.
  intros Ta Tb. unfold minus. refine (yields_context X P F k dim g HP [a; b] [ma; mb] _ _ (list2 _ _ _ _ Ta Tb) _). cbn [map].
  apply (yields_then P dim g _ _ (scale (-1) mb)); [exact (y_neg b mb Tb)|]. intros e Te. exact (y_plus a e ma _ Ta Te).
Qed.
Lemma y_rnorm_sqr a ma : T a ma -> Y (rnorm_sqr F k S (lazy_obj a)) (msp q ma (mrev ma)).
Proof.
  intros Ta. unfold rnorm_sqr. refine (yields_context X P F k dim g HP [a] [ma] _ _ (Forall2_cons _ _ Ta (Forall2_nil _)) _). cbn [map body1].
  apply (yields_then P dim g _ _ (mrev ma)); [exact (y_rev a ma Ta)|]. intros e Te. exact (y_sp a e ma _ Ta Te).
Qed.
Hypothesis HX : X (CV (-1)) = true.
Lemma y_pow z a ma w : X (CV z) = true -> rpow (coef ma 0) (IZR z) = Some w -> T a ma -> Y (pow F k (lazy_obj a) (c_obj z)) [(w, 0%N)].
Proof.
  intros Xz HW Ta o E. apply (yields_call X P F k dim g HP _ [a] [ma] _ (sound_pow X F dim z ma w Xz HW) (Forall2_cons _ _ Ta (Forall2_nil _))). rewrite <- E. unfold pow, call.
  destruct (nested_args X P F dim g HP [a] [ma] (Forall2_cons _ _ Ta (Forall2_nil _))) as [E1 E2].
  destruct (nested_args X P F dim g HP [a; c_expr z] [ma; _] (list2 _ _ _ _ Ta (T_const X P F dim HP g z))) as [E3 E4].
  rewrite E1. change [lazy_obj a; c_obj z] with (map lazy_obj [a; c_expr z]). rewrite E3. cbn [op1 op2]. destruct (pow_t F a (c_expr z)); [|reflexivity]. unfold lazy_eval. rewrite E2, E4. reflexivity.
Qed.
Lemma y_inv_scalar a ma : coef ma 0 <> 0%R -> T a ma -> Y (inv_scalar F k (lazy_obj a)) [(/ coef ma 0, 0%N)]%R.
Proof. intros Nz Ta. exact (y_pow (-1) a ma _ HX (RPowProofs.rpow_m1' _ Nz) Ta). Qed.
Lemma y_inv a ma : norm2 q ma <> 0%R -> T a ma -> Y (inv F k S (lazy_obj a)) (minv q ma).
Proof.
  intros Nz Ta. unfold inv. refine (yields_context X P F k dim g HP [a] [ma] _ _ (Forall2_cons _ _ Ta (Forall2_nil _)) _). cbn [map body1].
  apply (yields_then P dim g _ _ (mrev ma)); [exact (y_rev a ma Ta)|]. intros r Tr.
  apply (yields_then P dim g _ _ _ _ (y_rnorm_sqr a ma Ta)). intros s Ts.
  apply (yields_then P dim g _ _ _ _ (y_inv_scalar s _ Nz Ts)). intros i Ti.
  eapply yields_meq; [exact (y_gp_scalar r i _ _ Tr Ti)|]. apply gp_scalar_r.
Qed.
Lemma y_igp a b ma mb : norm2 q mb <> 0%R -> T a ma -> T b mb -> Y (igp F k S (lazy_obj a) (lazy_obj b)) (mgp q ma (minv q mb)).
Proof.
  intros Nz Ta Tb. unfold igp. refine (yields_context X P F k dim g HP [a; b] [ma; mb] _ _ (list2 _ _ _ _ Ta Tb) _). cbn [map body2].
  apply (yields_then P dim g _ _ _ _ (y_inv b mb Nz Tb)). intros i Ti. exact (y_gp a i _ _ Ta Ti).
Qed.
Lemma y_dual a b ma mb : S <> Real -> norm2 q mb <> 0%R -> T a ma -> T b mb -> Y (dual F k S (lazy_obj a) (lazy_obj b)) (mlcont q ma (minv q mb)).
Proof.
  intros NR Nz Ta Tb. unfold dual. refine (yields_context X P F k dim g HP [a; b] [ma; mb] _ _ (list2 _ _ _ _ Ta Tb) _). cbn [map body2].
  apply (yields_then P dim g _ _ _ _ (y_inv b mb Nz Tb)). intros i Ti. exact (y_lcont a i _ _ NR Ta Ti).
Qed.
Lemma y_undual a b ma mb : S <> Real -> T a ma -> T b mb -> Y (undual F k S (lazy_obj a) (lazy_obj b)) (mlcont q ma mb).
Proof.
  intros NR Ta Tb. unfold undual. refine (yields_context X P F k dim g HP [a; b] [ma; mb] _ _ (list2 _ _ _ _ Ta Tb) _). cbn [map body2]. exact (y_lcont a b _ _ NR Ta Tb).
Qed.
Lemma y_even a b ma mb : norm2 q ma <> 0%R -> T a ma -> T b mb -> Y (apply_even_versor F k S (lazy_obj a) (lazy_obj b)) (mgp q (mgp q ma mb) (minv q ma)).
Proof.
  intros Nz Ta Tb. unfold apply_even_versor. refine (yields_context X P F k dim g HP [a; b] [ma; mb] _ _ (list2 _ _ _ _ Ta Tb) _). cbn [map body2].
  apply (yields_then P dim g _ _ _ _ (y_gp a b _ _ Ta Tb)). intros p Tp. apply (yields_then P dim g _ _ _ _ (y_inv a ma Nz Ta)). intros i Ti. exact (y_gp p i _ _ Tp Ti).
Qed.
Lemma y_odd a b ma mb : norm2 q ma <> 0%R -> T a ma -> T b mb -> Y (apply_odd_versor F k S (lazy_obj a) (lazy_obj b)) (mgp q (mgp q ma (minvol mb)) (minv q ma)).
Proof.
  intros Nz Ta Tb. unfold apply_odd_versor. refine (yields_context X P F k dim g HP [a; b] [ma; mb] _ _ (list2 _ _ _ _ Ta Tb) _). cbn [map body2].
  apply (yields_then P dim g _ _ _ _ (y_invol b _ Tb)). intros z Tz. apply (yields_then P dim g _ _ _ _ (y_gp a z _ _ Ta Tz)). intros p Tp. apply (yields_then P dim g _ _ _ _ (y_inv a ma Nz Ta)). intros i Ti. exact (y_gp p i _ _ Tp Ti).
Qed.
Lemma y_rotor a b ma mb : T a ma -> T b mb -> Y (apply_rotor F k S (lazy_obj a) (lazy_obj b)) (mgp q (mgp q ma mb) (mrev ma)).
Proof.
  intros Ta Tb. unfold apply_rotor. refine (yields_context X P F k dim g HP [a; b] [ma; mb] _ _ (list2 _ _ _ _ Ta Tb) _). cbn [map body2].
  apply (yields_then P dim g _ _ _ _ (y_gp a b _ _ Ta Tb)). intros p Tp. apply (yields_then P dim g _ _ _ _ (y_rev a ma Ta)). intros i Ti. exact (y_gp p i _ _ Tp Ti).
Qed.
End Composite.

Lemma norm2_scalar q v : norm2 q [(v, 0%N)] = (v * v)%R.
Proof. unfold norm2, re, msp, mrev, linear, bilinear. cbn [flat_map linear]. change (rev_blade 0) with [(1%R, 0%N)]. cbn [flat_map linear scale map fst snd app]. replace (sp_blade q 0 0) with [(1%R, 0%N)]; [cbn; ring|]. unfold sp_blade, gp_blade. cbn [N.land N.lxor]. rewrite squares_0, sign_0_l, Rmult_1_l. reflexivity. Qed.
Lemma minv_scalar q v : v <> 0%R -> meq (minv q [(v, 0%N)]) [(/ v, 0%N)]%R.
Proof. intros Nz. unfold minv. rewrite norm2_scalar. intros j. unfold mrev, linear. cbn [flat_map fst snd]. assert (E : rev_blade 0 = [(1%R, 0%N)]) by reflexivity. rewrite E. cbn [scale map app fst snd coef]. destruct (N.eqb 0 j); [field; exact Nz|ring]. Qed.
Section Composite2.
Variables (X P : expr -> bool) (F k : nat) (dim : N) (g : env) (S : space).
Hypothesis HP : closed_class X F P.
Hypothesis Hdim : (dim <= 63)%N.
Hypothesis HS : space_ok S dim.
Hypothesis HX : X (CV (-1)) = true.
Notation T := (typed_value P dim g).
Notation Y := (yields P dim g).
Notation q := (sig_of S).
Lemma y_divide a b ma v : v <> 0%R -> T a ma -> T b [(v, 0%N)] -> Y (divide_by F k (lazy_obj a) (lazy_obj b)) (scale (/ v) ma).
Proof.
  intros Nz Ta Tb. eapply yields_meq; [refine (y_igp X P F k dim g Real HP Hdim Logic.I HX a b ma _ _ Ta Tb); rewrite norm2_scalar; nra|]. cbn [sig_of].
  intros j. transitivity (coef (mgp (fun _ => 1%R) ma [(/ v, 0%N)]%R) j); [|apply gp_scalar_r]. unfold mgp. apply bilinear_meq; [intros i; reflexivity|apply minv_scalar; exact Nz].
Qed.
Lemma y_cp a b ma mb : T a ma -> T b mb -> Y (cp F k S (lazy_obj a) (lazy_obj b)) (mcp q ma mb).
Proof.
  intros Ta Tb. unfold cp. refine (yields_context X P F k dim g HP [a; b] [ma; mb] _ _ (Forall2_cons _ _ Ta (Forall2_cons _ _ Tb (Forall2_nil _))) _). cbn [map body2].
  apply (yields_then P dim g _ _ _ _ (y_gp X P F k dim g S HP Hdim HS a b _ _ Ta Tb)). intros p Tp. apply (yields_then P dim g _ _ _ _ (y_gp X P F k dim g S HP Hdim HS b a _ _ Tb Ta)). intros p' Tp'.
  apply (yields_then P dim g _ _ _ _ (y_minus X P F k dim g HP Hdim p p' _ _ Tp Tp')). intros d Td. exact (y_divide d (c_expr 2) _ 2 ltac:(lra) Td (T_const X P F dim HP g 2)).
Qed.
End Composite2.

(** ** Functions on objects *)
Section Top.
Variables (X K : expr -> bool) (F k : nat).
Hypothesis HX : exps X.
Hypothesis Kcv : forall z, K (CV z) = true.
Hypothesis Kadd : forall a b r, eng F OAdd a b = Some r -> K a = true -> K b = true -> K r = true.
Hypothesis Kmul : forall a b r, eng F OMul a b = Some r -> K a = true -> K b = true -> K r = true.
Hypothesis Kpow : forall a b r, eng F OPow a b = Some r -> K a = true -> X b = true -> K r = true.
Hypothesis Kpoly : forall a, K a = true -> ipoly X 1 0 a = true.
(** The type a function evaluates in its context. *)
Definition body_op (body : list cliff -> result) (args : list expr) : option expr :=
  match body (map lazy_obj args) with Some (Done r) => Some (cexpr r) | _ => None end.
Theorem context_ok body dim inputs ms res o :
  (forall P g args, closed_class X F P -> Forall2 (typed_value P dim g) args ms -> yields P dim g (in_context F k (map lazy_obj args) body) res) ->
  Forall (object K dim) inputs -> Forall2 value inputs ms ->
  (forall args A, arguments 0 inputs = Some args -> body_op body args = Some (mv_of A) -> canonical A -> Forall (fun p => ipoly X 1 (N.of_nat (length (stored_inputs inputs))) (snd p) = true) A ->
     Forall (fun p => exact_coef (ctx_int 0 (stored_inputs inputs)) (snd p) = true) A) ->
  in_context F k inputs body = Some o ->
  o = Ovf \/ exists r, o = Done r /\ object K dim r /\ value r res.
Proof.
  intros HY HO HV HD E.
  assert (HB : forall P g args r, closed_class X F P -> Forall2 (typed_value P dim g) args ms -> body (map lazy_obj args) = Some r -> exists c, r = Done c /\ typed_value P dim g (cexpr c) res).
  { intros P g args r HP HA EB. specialize (HY P g args HP HA). unfold yields, in_context in HY. destruct (nested_args X P F dim g HP args ms HA) as [E1 E2]. rewrite E1, EB in HY.
    destruct r as [c| |]; [|destruct (HY _ eq_refl) as (e & [=] & _)..]. exists c. split; [reflexivity|]. cbn [andthen] in HY. unfold lazy_eval in HY. rewrite E2 in HY. destruct (HY _ eq_refl) as (e & [= -> _ _] & Te). exact Te. }
  apply (call_ok X K F k HX Kcv Kadd Kmul Kpow Kpoly (body_op body) dim inputs ms res o); auto.
  - intros P g args e HP HA Eo. unfold body_op in Eo. destruct (body (map lazy_obj args)) as [r|] eqn:EB; [|discriminate]. destruct (HB P g args r HP HA EB) as (c & -> & Te). injection Eo as <-. exact Te.
  - unfold call. unfold in_context in E. destruct (arguments (base_id inputs) inputs) as [args|] eqn:Ea; [|discriminate]. destruct (args_typed X K HX Kpoly dim inputs ms args HO HV Ea) as [V _].
    unfold body_op. destruct (body (map lazy_obj args)) as [r|] eqn:EB; [|discriminate]. destruct (HB _ _ args r (ipoly_class X F HX _ _) V EB) as (c & -> & Te). exact E.
Qed.
End Top.
