(** Functions of scalars on objects; the tests for null and unit multivectors. *)
From Coq Require Import NArith ZArith List Bool Lia Reals Lra.
From Verif Require Import Bits SpecBits BitsBase BitsOnes BitsProofs Expr ExprBase Sem Wf SpecMv SpecAlg MvBase RPowProofs Simp SimpProofs SimpProofs2 SmartProofs PresProofs Comp Mapping Ops CompProofs CompProofs2 SpecOrder OrderProofs GradeProofs MappingProofs ProductProofs OuterProofs GumProofs AlgProofs AlgProofs2 EvalC EvalCProofs SpecEval Lazy SpecLazy TagProofs LazyProofs LazyProofs2 CanonProofs PolyProofs Api Extra SpecApi SpecExtra ApiProofs ApiProofs2 ApiProofs3 ExtraProofs KeepProofs2 KeepProofs3 KeepProofs4 SpecAbs AbsProofs SpecUtil ForEach UtilProofs Norm SpecNorm NormProofs NormProofs2 NormProofs3 NormProofs4 NormProofs5.
Import ListNotations.
Local Open Scope R_scope.

Section Fns.
Variables (F n : nat) (dim : N).
(** The type. *)
Lemma fn_type hi g f c e v w : ipoly is_pos 1 hi c = true -> wf c = true -> num g c v -> (f = NAbs -> settled c) -> real_function f v = Some w -> fn1_t F f c = Some e -> qclass hi e = true /\ num g e w.
Proof.
  intros P W V Ss R E. assert (Qc : qclass hi c = true) by (unfold qclass; rewrite (query_numeric _ _ _ (ipoly_numeric is_pos exps_pos _ _ _ P)), W; reflexivity).
  destruct f; try discriminate R; cbn [fn1_t real_function] in *.
  - apply Some_inj in R as <-. specialize (Ss eq_refl). assert (PC : pcoef hi c). { split; [exact P|]. split; [exact W|]. destruct Ss as [Ss|Ss]; [left; apply getter_open, Ss|right]. destruct c; try discriminate Ss. eauto. }
    destruct (abs_num hi (fun _ _ => true) g F c e _ PC E V) as [(A1 & A2 & _) Va]. unfold qclass. rewrite A1, A2. auto.
  - apply Some_inj in R as <-. apply Some_inj in E as <-. split; [|apply SmartProofs.exp_ok; unfold num in *; cbn [sem map]; rewrite V; reflexivity].
    unfold mk_exp. destruct c as [| | | | | | | | | |[] [|? [|? ?]]]; try discriminate P; apply q_fn; auto.
  - destruct (Rlt_dec 0 v) as [L|L]; [|discriminate R]. apply Some_inj in R as <-. apply Some_inj in E as <-. split; [|apply log_ok; unfold num in *; cbn [sem map]; rewrite V; cbn [fn_sem]; destruct (Rlt_dec 0 v); [reflexivity|contradiction]].
    unfold mk_log. destruct c as [| | | | | | | | | |[] [|? [|? ?]]]; try discriminate P; apply q_fn; auto.
  - apply Some_inj in R as <-. apply Some_inj in E as <-. split; [apply q_fn; auto|]. unfold num in *. cbn [sem map]. rewrite V. reflexivity.
  - apply Some_inj in R as <-. apply Some_inj in E as <-. split; [apply q_fn; auto|]. unfold num in *. cbn [sem map]. rewrite V. reflexivity.
  - destruct (Req_EM_T (cos v) 0) as [L|L]; [discriminate R|]. apply Some_inj in R as <-. apply Some_inj in E as <-. split; [apply q_fn; auto|]. unfold num in *. cbn [sem map]. rewrite V. cbn [fn_sem]. destruct (Req_EM_T (cos v) 0); [contradiction|reflexivity].
  - apply Some_inj in R as <-. apply Some_inj in E as <-. split; [apply q_fn; auto|]. unfold num in *. cbn [sem map]. rewrite V. reflexivity.
  - apply Some_inj in R as <-. apply Some_inj in E as <-. split; [apply q_fn; auto|]. unfold num in *. cbn [sem map]. rewrite V. reflexivity.
  - apply Some_inj in R as <-. apply Some_inj in E as <-. split; [apply q_fn; auto|]. unfold num in *. cbn [sem map]. rewrite V. reflexivity.
Qed.
(** An argument read from an object with integer constants has settled coefficients. *)
Lemma argument_settled a x : int_object dim a -> arguments 0 [a] = Some [x] -> forall c, x = Comp c (CBlade 0) -> (exists t j, c = GV t j) \/ exists z, c = CV z.
Proof.
  intros Oa Ea c ->. pose proof (args_shape is_integer int_const dim [a] (Forall_cons _ Oa (Forall_nil _)) 0 _ Ea) as SH. inversion SH as [|? ? (M & EM & C & HM) _]; subst.
  destruct M as [|[i d] [|? ?]]; [injection EM as ->; eauto| |discriminate EM]. injection EM as -> _. inversion HM as [|? ? H _]; subst. cbn [snd] in H. destruct H as [H|H]; [left; exact H|right]. destruct d; try discriminate H. eauto.
Qed.
Lemma stored_argument a args : cexpr a = Comp SV (CBlade 0) -> arguments 0 [a] = Some args -> exists t j, args = [Comp (GV t j) (CBlade 0)].
Proof. intros Ea E. cbn [arguments] in E. rewrite Ea in E. cbn in E. apply Some_inj in E as <-. eauto. Qed.
Definition evaluated (f : fname) (a : cliff) : Prop := f = NAbs \/ cexpr a = Comp SV (CBlade 0).
Theorem fn_ok f a m w o : int_object dim a -> value a m -> evaluated f a -> real_function f (re m) = Some w -> scalar_fn F n f a = Some o ->
  o = Ovf \/ exists r, o = Done r /\ int_object dim r /\ value r [(w, 0%N)].
Proof.
  intros Oa Va Ev R E. assert (HO : Forall (int_object dim) [a]) by auto. assert (HV : Forall2 value [a] [m]) by auto. refine (computed_call F n dim _ [a] [m] _ o HO HV _ E).
  set (hi := N.of_nat (length (stored_inputs [a]))). set (g := ctx_env 0 (stored_inputs [a])). intros args e Ea V4 Eo. destruct (args1 _ _ _ Ea) as [x ->]. inversion V4 as [|? ? ? ? Tx _]; subst. cbn [op1] in Eo.
  unfold scalar_fn_t in Eo. destruct x as [| | | | | | | | |c b|]; try discriminate Eo. destruct b as [| | | | | | |[|?]| | |]; try discriminate Eo. destruct (fn1_t F f c) as [d|] eqn:Ed; [|discriminate Eo]. apply Some_inj in Eo as <-.
  pose proof (argument_settled a _ Oa Ea c eq_refl) as Sc. destruct (T_scalar_inv dim g _ c m (poly_cv hi 1) Tx) as (P & W & V).
  assert (Ss : settled c) by (destruct Sc as [(t & j & ->)|[z ->]]; [left|right]; reflexivity).
  destruct (fn_type hi g f c d _ w P W V (fun _ => Ss) R Ed) as [Qd Vd]. split; [apply T_scalar; assumption|]. constructor; [|constructor].
  assert (K : (exists t j, c = GV t j) \/ (exists z, c = CV z) /\ f = NAbs). { destruct Ev as [->|Es]; [destruct Sc; auto|left]. destruct (stored_argument a _ Es Ea) as (t & j & Q). injection Q as ->. eauto. }
  destruct K as [(t & j & ->)|[[z ->] ->]].
  - destruct f; try discriminate R; cbn [fn1_t mk_exp mk_log] in Ed; try (apply Some_inj in Ed as <-; reflexivity). unfold mk_abs in Ed. destruct (eng F OMul (CV (-1)) (GV t j)); [|discriminate Ed]. apply Some_inj in Ed as <-. reflexivity.
  - cbn [fn1_t] in Ed. unfold mk_abs in Ed. destruct (eng F OMul (CV (-1)) (CV z)) as [y|] eqn:Ey; [|discriminate Ed]. apply Some_inj in Ed as <-. rewrite (eng_mul_cv _ _ _ _ Ey). destruct (is_non_negative (CV z)); [reflexivity|]. cbn [is_constant is_fn andb orb negb]. reflexivity.
Qed.

(** ** Roots *)
Definition nth_root (k : Z) : expr := Fn NPow [CV k; CV (-1)].
Lemma root_exp k h : k = 2%Z \/ k = 3%Z -> root_exponent F k = Some h -> h = nth_root k.
Proof. unfold root_exponent. intros K H. destruct F as [|F0]; [discriminate H|]. destruct K as [-> | ->]; [assert (E : eng (S F0) OPow (CV 2) (CV (-1)) = Some (nth_root 2)) by reflexivity|assert (E : eng (S F0) OPow (CV 3) (CV (-1)) = Some (nth_root 3)) by reflexivity]; rewrite E in H; apply Some_inj in H; auto. Qed.
Lemma root_call k a h : k = 2%Z \/ k = 3%Z -> root_exponent F k = Some h -> root F n k a = call F n (op1 (fun x => pow_t F x (Comp (nth_root k) (CBlade 0)))) [a].
Proof.
  intros K Eh. unfold root. rewrite Eh. apply (root_exp k h K) in Eh as ->. unfold pow, call. set (c := lazy_obj (Comp (nth_root k) (CBlade 0))).
  assert (E3 : base_id [a; c] = base_id [a]) by (unfold base_id, c; cbn [fold_right lazy_obj cexpr]; destruct K as [-> | ->]; reflexivity). rewrite E3.
  assert (Sc : has_stored (cexpr c) = false) by (destruct K as [-> | ->]; reflexivity). assert (E2 : stored_inputs [a; c] = stored_inputs [a]) by (unfold stored_inputs; cbn [filter]; rewrite Sc; reflexivity).
  cbn [arguments]. rewrite Sc. destruct (has_stored (cexpr a)).
  - destruct (tag_vars (base_id [a] + 1) (cexpr a) 0 0) as [x|]; [|reflexivity]. cbn [op1 op2]. change (cexpr c) with (Comp (nth_root k) (CBlade 0)). destruct (pow_t F x _); [|reflexivity]. unfold lazy_eval. rewrite E2, E3. reflexivity.
  - cbn [op1 op2]. change (cexpr c) with (Comp (nth_root k) (CBlade 0)). destruct (pow_t F (cexpr a) _); [|reflexivity]. unfold lazy_eval. rewrite E2, E3. reflexivity.
Qed.
Lemma getter_pow t j k r : eng F OPow (GV t j) (nth_root k) = Some r -> r = Fn NPow [GV t j; nth_root k].
Proof. destruct F as [|F0]; [discriminate|]. intros H. assert (E : eng (S F0) OPow (GV t j) (nth_root k) = Some (Fn NPow [GV t j; nth_root k])) by reflexivity. rewrite E in H. apply Some_inj in H. auto. Qed.
Lemma nth_num g k : (0 < k)%Z -> num g (nth_root k) (/ IZR k).
Proof. intros H. apply num_pow. exists (IZR k), (-1). split; [apply num_cv|]. split; [apply num_cv|]. apply rpow_m1'. intros Z. apply eq_IZR in Z. lia. Qed.
Theorem root_object k a m w o : k = 2%Z \/ k = 3%Z -> int_object dim a -> value a m -> cexpr a = Comp SV (CBlade 0) -> 0 <= w -> w ^ Z.to_nat k = re m -> root F n k a = Some o ->
  o = Ovf \/ exists r, o = Done r /\ int_object dim r /\ value r [(w, 0%N)].
Proof.
  intros K Oa Va Es Lw Ew E. destruct (root_exponent F k) as [h|] eqn:Eh; [|unfold root in E; rewrite Eh in E; discriminate E]. rewrite (root_call k a h K Eh) in E.
  assert (HO : Forall (int_object dim) [a]) by auto. assert (HV : Forall2 value [a] [m]) by auto. refine (computed_call F n dim _ [a] [m] _ o HO HV _ E).
  set (hi := N.of_nat (length (stored_inputs [a]))). set (g := ctx_env 0 (stored_inputs [a])). intros args e Ea V4 Eo. destruct (stored_argument a _ Es Ea) as (t & j & ->). inversion V4 as [|? ? ? ? Tx _]; subst. cbn [op1 pow_t] in Eo.
  destruct (eng F OPow (GV t j) (nth_root k)) as [r|] eqn:Er; [|discriminate Eo]. apply getter_pow in Er as ->. apply Some_inj in Eo as <-.
  destruct (T_scalar_inv dim g _ _ m (poly_cv hi 1) Tx) as (P & W & V). split; [apply T_scalar|].
  - unfold qclass. cbn in P |- *. rewrite P. reflexivity.
  - apply num_pow. exists (re m), (/ IZR k). split; [exact V|]. split; [apply nth_num; destruct K; lia|]. unfold rpow. rewrite <- Ew. destruct (Req_dec w 0) as [->|Nw].
    + rewrite pow_i by (destruct K as [-> | ->]; cbn; lia). destruct (Rlt_dec 0 0); [lra|]. destruct (Req_EM_T 0 0); [|contradiction]. destruct (Rlt_dec 0 (/ IZR k)) as [|N0]; [reflexivity|]. exfalso. apply N0, Rinv_0_lt_compat, IZR_lt. destruct K; lia.
    + assert (Pw : 0 < w) by lra. destruct (Rlt_dec 0 (w ^ Z.to_nat k)) as [_|N0]; [|exfalso; apply N0, Rfunctions.pow_lt, Pw]. f_equal. rewrite <- Rpower_pow by exact Pw. rewrite Rpower_mult. rewrite INR_IZR_INZ, Z2Nat.id by (destruct K; lia). rewrite Rinv_r by (apply not_0_IZR; destruct K; lia). apply Rpower_1, Pw.
  - constructor; [|constructor]. destruct K as [-> | ->]; reflexivity.
Qed.
End Fns.

(** ** Tests *)

Lemma one_object dim : int_object dim (c_obj 1).
Proof. exists [(0%N, CV 1)]. split; [reflexivity|]. split; [apply canonical_check; vm_compute; reflexivity|]. split; [split; constructor|]. constructor; [|constructor]. split; [apply N.neq_0_lt_0, N.pow_nonzero; discriminate|right; split; reflexivity]. Qed.
Lemma one_value : value (c_obj 1) [(1, 0%N)].
Proof. intros g. exists [(1, 0%N)]. split; [|intros j; reflexivity]. exists ([], []). split; [|reflexivity]. exists ([], []). split; [reflexivity|split; [split; reflexivity|intros _; exact Logic.I]]. Qed.
Lemma zero_test dim r s tol : int_object dim r -> value r [(s, 0%N)] -> 0 <= tol -> exists b, is_zero r tol = Some (Done b) /\ (b = true <-> Rabs s <= tol).
Proof.
  intros O V T. pose proof (int_exact dim r O) as X. assert (HF : Forall (fun e => exact_comp (cint r) e = true) (components (cexpr r))) by (eapply Forall_impl; [|exact X]; cbn; tauto).
  destruct (is_zero_ok is_integer dim r _ tol O HF V T) as (b0 & E & [[_ Y]|(b & -> & B)]).
  - apply existsb_exists in Y as (e & I & Q). rewrite Forall_forall in X. destruct (X e I) as [_ Y]. congruence.
  - exists b. split; [exact E|]. rewrite B. cbn [coef]. split; [intros H; specialize (H 0%N); cbn [N.eqb] in H; rewrite Rplus_0_r in H; exact H|]. intros H k. destruct (N.eqb 0 k); rewrite Rplus_0_r; [exact H|rewrite Rabs_R0; exact T].
Qed.
Section Tests.
Variables (F n : nat) (dim : N) (S : space).
Hypothesis Hdim : (dim <= 63)%N.
Hypothesis HS : space_ok S dim.
Notation q := (sig_of S).
Lemma norm2_eq m m' : meq m m' -> norm2 q m = norm2 q m'.
Proof. intros Q. unfold norm2, re, mrev. assert (E2 : meq (msp q m (linear rev_blade m)) (msp q m' (linear rev_blade m'))) by (rewrite Q; intros j; reflexivity). apply E2. Qed.
Lemma rnorm_value a m o : int_object dim a -> value a m -> rnorm_sqr F n S a = Some o -> o = Ovf \/ exists r, o = Done r /\ int_object dim r /\ value r [(norm2 q m, 0%N)].
Proof.
  intros Oa Va E. destruct (int_fn F n _ _ [a] [m] (msp q m (mrev m)) o
    ltac:(intros K g args HP HA; inversion HA as [|x ? ? ? Tx HA1]; subst; inversion HA1; subst; exact (y_rnorm_sqr is_pos K F n _ g S HP Hdim HS x m Tx)) ltac:(auto) ltac:(auto) E) as [->|(r & -> & Or & Vr)]; [auto|right].
  exists r. split; [reflexivity|]. split; [exact Or|]. destruct (object_space _ _ _ _ Oa Va) as (m' & I & Q). apply (value_meq _ _ _ Vr). rewrite (norm2_eq m m' Q). assert (E2 : meq (msp q m (mrev m)) (msp q m' (mrev m'))) by (unfold mrev; rewrite Q; intros j; reflexivity). intros j. rewrite (E2 j).
  rewrite (Clifford5.sp_scalar q dim m' (mrev m') ltac:(lia) I (Clifford5.in_rev dim m' I) j). rewrite <- (Clifford5.re_sp q m' (mrev m')). reflexivity.
Qed.
Theorem null_ok a m tol o : int_object dim a -> value a m -> 0 <= tol -> is_null F n S a tol = Some o ->
  o = Ovf \/ exists b, o = Done b /\ (b = true <-> Rabs (norm2 q m) <= tol).
Proof.
  intros Oa Va T E. unfold is_null in E. destruct (rnorm_sqr F n S a) as [o1|] eqn:E1; [|discriminate E]. destruct (rnorm_value a m o1 Oa Va E1) as [->|(r & -> & Or & Vr)]; [left; apply Some_inj in E; auto|right]. cbn [then_test] in E.
  destruct (zero_test dim r _ tol Or Vr T) as (b & Eb & B). rewrite Eb in E. apply Some_inj in E as <-. eauto.
Qed.
Theorem unit_test_ok a m tol o : int_object dim a -> value a m -> 0 <= tol -> is_unit F n S a tol = Some o ->
  o = Ovf \/ exists b, o = Done b /\ (b = true <-> Rabs (Rabs (norm2 q m) - 1) <= tol).
Proof.
  intros Oa Va T E. unfold is_unit in E. destruct (rnorm_sqr F n S a) as [o1|] eqn:E1; [|discriminate E]. destruct (rnorm_value a m o1 Oa Va E1) as [->|(r & -> & Or & Vr)]; [left; apply Some_inj in E; auto|]. cbn [andthen] in E.
  destruct (scalar_fn F n NAbs r) as [o2|] eqn:E2; [|discriminate E]. assert (R : real_function NAbs (re [(norm2 q m, 0%N)]) = Some (Rabs (norm2 q m))) by (unfold re; cbn [real_function coef N.eqb]; rewrite Rplus_0_r; reflexivity).
  destruct (fn_ok F n dim NAbs r _ _ o2 Or Vr (or_introl eq_refl) R E2) as [->|(x & -> & Ox & Vx)]; [left; apply Some_inj in E; auto|]. cbn [andthen] in E.
  destruct (minus F n x (c_obj 1)) as [o3|] eqn:E3; [|discriminate E].
  destruct (int_fn F n _ dim [x; c_obj 1] [_; [(1, 0%N)]] (msub [(Rabs (norm2 q m), 0%N)] [(1, 0%N)]) o3
    ltac:(intros K g args HP HA; inversion HA as [|y ? ? ? Ty HA1]; subst; inversion HA1 as [|z ? ? ? Tz HA2]; subst; inversion HA2; subst; exact (y_minus is_pos K F n dim g HP Hdim y z _ _ Ty Tz))
    ltac:(constructor; [exact Ox|constructor; [apply one_object|constructor]]) ltac:(constructor; [exact Vx|constructor; [apply one_value|constructor]]) E3) as [->|(d & -> & Od & Vd)]; [left; apply Some_inj in E; auto|right].
  cbn [then_test] in E. assert (Vd' : value d [(Rabs (norm2 q m) - 1, 0%N)]) by (apply (value_meq _ _ _ Vd); intros j; unfold msub; cbn [scale map app coef fst snd]; destruct (N.eqb 0 j); ring).
  destruct (zero_test dim d _ tol Od Vd' T) as (b & Eb & B). rewrite Eb in E. apply Some_inj in E as <-. eauto.
Qed.
End Tests.
