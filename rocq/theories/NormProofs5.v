(** The exponential of a blade. *)
From Coq Require Import NArith ZArith List Bool Lia Reals Lra.
From Verif Require Import Bits SpecBits BitsBase BitsOnes BitsProofs Expr ExprBase Sem Wf SpecMv SpecAlg MvBase RPowProofs Simp SimpProofs SimpProofs2 SmartProofs PresProofs Comp Mapping Ops CompProofs CompProofs2 SpecOrder OrderProofs GradeProofs MappingProofs ProductProofs OuterProofs GumProofs AlgProofs AlgProofs2 Clifford Clifford2 Clifford5 Wick EvalC EvalCProofs SpecEval Lazy SpecLazy TagProofs LazyProofs LazyProofs2 CanonProofs PolyProofs Api Extra SpecApi SpecExtra ApiProofs ApiProofs2 ApiProofs3 ExtraProofs KeepProofs2 KeepProofs3 KeepProofs4 SpecAbs AbsProofs Norm SpecNorm NormProofs NormProofs2 NormProofs3 NormProofs4.
Import ListNotations.
Local Open Scope R_scope.

(** ** Even functions *)
Lemma root_sign u s : u * u = Rabs s -> u = sqrt (Rabs s) \/ u = - sqrt (Rabs s).
Proof. intros H. pose proof (sqrt_sqrt _ (Rabs_pos s)) as Q. destruct (Req_dec u (sqrt (Rabs s))) as [E|E]; [left; exact E|right]. assert (Z : (u - sqrt (Rabs s)) * (u + sqrt (Rabs s)) = 0) by (transitivity (u * u - sqrt (Rabs s) * sqrt (Rabs s)); [ring|lra]). apply Rmult_integral in Z as [Z|Z]; lra. Qed.
Lemma cosh_opp x : cosh (- x) = cosh x. Proof. unfold cosh. rewrite Ropp_involutive. lra. Qed.
Lemma sinh_opp x : sinh (- x) = - sinh x. Proof. unfold sinh. rewrite Ropp_involutive. lra. Qed.
Lemma even_cos u s : u * u = Rabs s -> cos u = cos (sqrt (Rabs s)).
Proof. intros H. destruct (root_sign u s H) as [-> | ->]; [reflexivity|apply cos_neg]. Qed.
Lemma even_cosh u s : u * u = Rabs s -> cosh u = cosh (sqrt (Rabs s)).
Proof. intros H. destruct (root_sign u s H) as [-> | ->]; [reflexivity|apply cosh_opp]. Qed.
Lemma even_sin u s : u * u = Rabs s -> u <> 0 -> sin u * / u = sin (sqrt (Rabs s)) / sqrt (Rabs s).
Proof. intros H N. destruct (root_sign u s H) as [-> | ->]; [reflexivity|]. rewrite sin_neg. field. lra. Qed.
Lemma even_sinh u s : u * u = Rabs s -> u <> 0 -> sinh u * / u = sinh (sqrt (Rabs s)) / sqrt (Rabs s).
Proof. intros H N. destruct (root_sign u s H) as [-> | ->]; [reflexivity|]. rewrite sinh_opp. field. lra. Qed.

Section Type_.
Variables (F n : nat) (dim : N) (S : space) (hi : N) (g : env).
Hypothesis Hdim : (dim <= 63)%N.
Hypothesis HS : space_ok S dim.
Notation q := (sig_of S).
Notation TQ := (typed_value (qclass hi) dim g).
Notation TP := (typed_value (ipoly is_pos 1 hi) dim g).

Lemma q_fn f x : fun1 f = true -> qclass hi x = true -> qclass hi (Fn f [x]) = true.
Proof. intros Hf Q. apply andb_prop in Q as [Q1 Q2]. unfold qclass. destruct f; try discriminate Hf; cbn [query fun1 wf forallb]; rewrite Q1, Q2; reflexivity. Qed.
Lemma q_eng o a b r : qclass hi a = true -> qclass hi b = true -> o = OMul \/ o = OPow -> eng F o a b = Some r -> qclass hi r = true.
Proof.
  intros A B Ho E. apply andb_prop in A as [A1 A2]. apply andb_prop in B as [B1 B2]. unfold qclass. rewrite (query_eng _ _ _ _ _ _ _ E A1 B1). destruct Ho as [-> | ->]; [apply (s_mul _ (eng_ok F) _ _ _ A2 B2 E)|apply (s_pow _ (eng_ok F) a b r A2 B2 E)].
Qed.
Lemma q_le_if a b x y : qclass hi a = true -> qclass hi b = true -> (has_getter a || has_getter b)%bool = true \/ (exists u v, a = CV u /\ b = CV v) -> qclass hi x = true -> qclass hi y = true ->
  qclass hi (mk_if (mk_le a b) x y) = true.
Proof.
  intros A B G X Y. assert (Q : (exists c, mk_le a b = CBool c) \/ mk_le a b = Fn NLe [a; b] /\ (has_getter a || has_getter b)%bool = true).
  { destruct G as [G|(u & v & -> & ->)]; [|left; exists (Z.leb u v); reflexivity]. assert (K : (exists c, (if expr_eqb a b && negb (has_stored a) then CBool true else Fn NLe [a; b]) = CBool c) \/ (if expr_eqb a b && negb (has_stored a) then CBool true else Fn NLe [a; b]) = Fn NLe [a; b] /\ (has_getter a || has_getter b)%bool = true) by (destruct (_ && _)%bool; [left; eauto|right; auto]).
    destruct a; try exact K; destruct b; try exact K; discriminate G. }
  destruct Q as [[[|] ->]|[-> Gt]]; [exact X|exact Y|]. assert (E : mk_if (Fn NLe [a; b]) x y = if expr_eqb x y && negb (has_stored x) then x else Fn NIf [Fn NLe [a; b]; x; y]) by reflexivity. rewrite E. clear E.
  destruct (_ && _)%bool; [exact X|]. unfold qclass in *. apply andb_prop in A as [A1 A2]. apply andb_prop in B as [B1 B2]. apply andb_prop in X as [X1 X2]. apply andb_prop in Y as [Y1 Y2].
  assert (W : wf (Fn NLe [a; b]) = true) by (apply wf_fn2; congruence). cbn [query wf forallb] in *. rewrite Gt, A1, B1, X1, Y1, W, X2, Y2. reflexivity.
Qed.
Lemma if_le a b x y u v w : num g a u -> num g b v -> num g (if leR u v then x else y) w -> num g (mk_if (mk_le a b) x y) w.
Proof. intros A B H. exact (if_num _ _ _ _ _ _ (le_value g a b u v A B) H). Qed.
Lemma T_component c w : qclass hi c = true -> num g c w -> TQ (component_t c (CBlade 0)) [(w, 0%N)].
Proof.
  intros Q V. destruct (component_t_cases c (CBlade 0)) as [->|[-> [-> |[x [=]]]]]; apply T_scalar; auto.
Qed.
Lemma bilinear_op_scalar w m : meq (bilinear op_blade [(w, 0%N)] m) (scale w m).
Proof. apply meq_sumf. intros h. rewrite sumf_bilinear, sumf_scale. cbn [sumf]. rewrite Rplus_0_r. f_equal. apply sumf_ext. intros i. apply op_unit. Qed.
Lemma T_sp b m p : TP b m -> cmul F n (sp_mapping F S) b b = Some p -> TP p (msp q m m).
Proof.
  intros T E. pose proof (ipoly_class is_pos F exps_pos 1 hi) as HP. assert (Ec : sp_in F n S (lazy_obj b) (lazy_obj b) = Some (Done (plain p))).
  { assert (St : Forall (fun a => has_stored (cexpr a) = false) [lazy_obj b; lazy_obj b]) by (destruct (T_stored is_pos _ F dim g HP b m T) as (St & _); repeat constructor; exact St).
    destruct S as [P Q R|]; cbn [sp_in sp_mapping] in *; unfold sp; rewrite (plain_call F n _ _ St); cbn [map lazy_obj cexpr op2]; rewrite E; reflexivity. }
  destruct (y_sp is_pos _ F n dim g S HP Hdim HS b b m m T T _ Ec) as (p' & Ep & Tp). injection Ep as <- _ _. exact Tp.
Qed.
Lemma T_exp b m tol t e : TP b m -> qclass hi t = true -> has_getter t = true -> num g t tol -> 0 <= tol ->
  (forall s k, cmul F n (sp_mapping F S) b b = Some (Comp s k) -> settled s) ->
  exp_t F n S dim b (Comp t (CBlade 0)) = Some e -> TQ e (mexp tol (re (msp q m m)) m).
Proof.
  intros Tb Qt Gt Vt Ht HSe E. unfold exp_t in E. destruct (cmul F n (sp_mapping F S) b b) as [p|] eqn:Ep; [|discriminate E]. pose proof (T_sp b m p Tb Ep) as Tp.
  destruct p as [| | | | | | | | |s k|]; try discriminate E. pose proof (HSe s k eq_refl) as Ss.
  destruct (T_comp_inv dim g (ipoly is_pos 1 hi) s k _ (poly_cv hi 1) Tp) as (Ps & Ws & v & j & Vs & Qv & _ & Lj). set (sv := re (msp q m m)) in *.
  assert (Vs' : num g s sv).
  { assert (Lj64 : (j < 2 ^ 64)%N) by (apply (N.lt_le_trans _ _ _ Lj), N.pow_le_mono_r; [discriminate|lia]). unfold sv, re. rewrite <- (Qv 0%N). destruct (N.eq_dec j 0) as [->|Nj]; [cbn [coef N.eqb]; rewrite Rplus_0_r; exact Vs|].
    assert (Z : v = 0). { specialize (Qv j). unfold msp in Qv. rewrite (sp_part q m m j), coef_grade_part in Qv. cbn [coef] in Qv. rewrite N.eqb_refl in Qv. destruct (N.eqb_spec (grade_of j) 0) as [G|_]; [apply GradeProofs.grade_0 in G; [contradiction|exact Lj64]|lra]. }
    cbn [coef]. destruct (N.eqb_spec j 0); [contradiction|]. rewrite Rplus_0_r, <- Z. exact Vs. }
  clear Vs Qv Lj. assert (PC : pcoef hi s). { split; [exact Ps|]. split; [exact Ws|]. destruct Ss as [Ss|Ss]; [left; apply getter_open, Ss|right]. destruct s; try discriminate Ss. eauto. }
  assert (Qs : qclass hi s = true) by (unfold qclass; rewrite (query_numeric _ _ _ (ipoly_numeric is_pos exps_pos _ _ _ Ps)), Ws; reflexivity).
  destruct (mk_abs F s) as [a|] eqn:Ea; [|discriminate E]. destruct (abs_num hi (fun _ _ => true) g F s a _ PC Ea Vs') as [(A1 & A2 & _) Va]. assert (Qa : qclass hi a = true) by (unfold qclass; rewrite A1, A2; reflexivity).
  assert (Da : atomic a = true \/ sure_nonneg a = true).
  { clear -Ea Ps Ss. unfold mk_abs in Ea. destruct (eng F OMul (CV (-1)) s) as [s'|] eqn:Ec; [|discriminate Ea]. apply Some_inj in Ea as <-.
    destruct (is_non_negative s) eqn:Nn; [right; exact (pos_nonneg hi s Ps Nn)|]. destruct Ss as [Ss|Ss]; [rewrite (getter_open _ Ss); left; reflexivity|]. destruct s; try discriminate Ss. rewrite (eng_mul_cv _ _ _ _ Ec). left. destruct (_ && _)%bool; reflexivity. }
  destruct (root_exponent F 2) as [h|] eqn:Eh; [|discriminate E]. apply root_half in Eh as ->. destruct (eng F OPow a half) as [r|] eqn:Er; [|discriminate E].
  destruct (eng F OPow r (CV (-1))) as [i|] eqn:Ei; [|discriminate E]. destruct (eng F OMul (Fn NSin [r]) i) as [ws|] eqn:Ews; [|discriminate E]. destruct (eng F OMul (Fn NSinh [r]) i) as [wh|] eqn:Ewh; [|discriminate E].
  destruct (root_value F hi g a r _ Qa Da Er Va (Rabs_pos _)) as (u & Vu & Uu & _).
  assert (Qr : qclass hi r = true) by (apply (q_eng OPow a half r); auto). assert (Qi : qclass hi i = true) by (apply (q_eng OPow r (CV (-1)) i); auto).
  assert (Qws : qclass hi ws = true) by (apply (q_eng OMul (Fn NSin [r]) i ws); auto using q_fn). assert (Qwh : qclass hi wh = true) by (apply (q_eng OMul (Fn NSinh [r]) i wh); auto using q_fn).
  assert (Ga : (has_getter a || has_getter t)%bool = true) by (rewrite Gt; apply orb_true_r).
  assert (Gs : (has_getter s || has_getter (CV 0))%bool = true \/ exists u v, s = CV u /\ CV 0 = CV v). { destruct Ss as [Ss|Ss]; [left; rewrite Ss; reflexivity|right]. destruct s; try discriminate Ss. eauto. }
  set (c := mk_if (mk_le a t) (CV 1) (mk_if (mk_le s (CV 0)) (Fn NCos [r]) (Fn NCosh [r]))) in *. set (w := mk_if (mk_le a t) (CV 1) (mk_if (mk_le s (CV 0)) ws wh)) in *.
  assert (Qc : qclass hi c = true) by (apply q_le_if; auto; apply q_le_if; auto using q_fn). assert (Qw : qclass hi w = true) by (apply q_le_if; auto; apply q_le_if; auto).
  assert (Vi : u <> 0 -> num g i (/ u)).
  { intros Nu. apply andb_prop in Qr as [_ Wr]. destruct (s_pow _ (eng_ok F) r (CV (-1)) i Wr eq_refl Ei) as [_ V]. apply (V g u (IZR (-1)) (/ u) Vu (num_cv g (-1))); [apply rpow_m1'; exact Nu|right; left; exists (-1)%Z; reflexivity]. }
  assert (Vsin : u <> 0 -> num g ws (sin u * / u)).
  { intros Nu. pose proof Qr as Qr'. apply andb_prop in Qr as [_ Wr]. apply andb_prop in Qi as [_ Wi]. destruct (s_mul _ (eng_ok F) (Fn NSin [r]) i ws ltac:(cbn [wf forallb]; rewrite Wr; reflexivity) Wi Ews) as [_ V]. apply V; [|apply Vi, Nu]. unfold num in *. cbn [sem map]. rewrite Vu. reflexivity. }
  assert (Vsinh : u <> 0 -> num g wh (sinh u * / u)).
  { intros Nu. pose proof Qr as Qr'. apply andb_prop in Qr as [_ Wr]. apply andb_prop in Qi as [_ Wi]. destruct (s_mul _ (eng_ok F) (Fn NSinh [r]) i wh ltac:(cbn [wf forallb]; rewrite Wr; reflexivity) Wi Ewh) as [_ V]. apply V; [|apply Vi, Nu]. unfold num in *. cbn [sem map]. rewrite Vu. reflexivity. }
  assert (Vcos : num g (Fn NCos [r]) (cos u)) by (unfold num in *; cbn [sem map]; rewrite Vu; reflexivity).
  assert (Vcosh : num g (Fn NCosh [r]) (cosh u)) by (unfold num in *; cbn [sem map]; rewrite Vu; reflexivity).
  assert (HV : exists cv wv, num g c cv /\ num g w wv /\ meq ((cv, 0%N) :: scale wv m) (mexp tol sv m)).
  { unfold mexp. destruct (Rle_dec (Rabs sv) tol) as [L|L].
    - exists 1, 1. assert (Lt : leR (Rabs sv) tol = true) by (unfold leR; destruct (Rle_dec _ _); [reflexivity|contradiction]).
      split; [apply (if_le a t _ _ (Rabs sv) tol); auto; rewrite Lt; apply num_cv|]. split; [apply (if_le a t _ _ (Rabs sv) tol); auto; rewrite Lt; apply num_cv|]. intros x. cbn [coef]. rewrite coef_scale. lra.
    - assert (Lt : leR (Rabs sv) tol = false) by (unfold leR; destruct (Rle_dec _ _); [contradiction|reflexivity]). assert (Nu : u <> 0) by (intros ->; apply L; rewrite <- Uu; lra).
      destruct (Rle_dec sv 0) as [L0|L0].
      + assert (Lz : leR sv 0 = true) by (unfold leR; destruct (Rle_dec _ _); [reflexivity|contradiction]). exists (cos u), (sin u * / u).
        split; [apply (if_le a t _ _ (Rabs sv) tol); auto; rewrite Lt; apply (if_le s (CV 0) _ _ sv 0 _ Vs' (num_cv g 0)); rewrite Lz; exact Vcos|].
        split; [apply (if_le a t _ _ (Rabs sv) tol); auto; rewrite Lt; apply (if_le s (CV 0) _ _ sv 0 _ Vs' (num_cv g 0)); rewrite Lz; exact (Vsin Nu)|].
        rewrite (even_cos u sv Uu), (even_sin u sv Uu Nu). intros x. reflexivity.
      + assert (Lz : leR sv 0 = false) by (unfold leR; destruct (Rle_dec _ _); [contradiction|reflexivity]). exists (cosh u), (sinh u * / u).
        split; [apply (if_le a t _ _ (Rabs sv) tol); auto; rewrite Lt; apply (if_le s (CV 0) _ _ sv 0 _ Vs' (num_cv g 0)); rewrite Lz; exact Vcosh|].
        split; [apply (if_le a t _ _ (Rabs sv) tol); auto; rewrite Lt; apply (if_le s (CV 0) _ _ sv 0 _ Vs' (num_cv g 0)); rewrite Lz; exact (Vsinh Nu)|].
        rewrite (even_cosh u sv Uu), (even_sinh u sv Uu Nu). intros x. reflexivity. }
  destruct HV as (cv & wv & Vc & Vw & Qm). clearbody c w. destruct (cmul F n (op_map F dim) (component_t w (CBlade 0)) b) as [p|] eqn:Eq; [|discriminate E].
  pose proof (q_class F hi) as HQ. pose proof (sound_mul is_int F n dim _ _ dim _ m (op_map_ok F dim Hdim) (N.le_refl _) (op_const F dim Hdim) (qclass hi) g [component_t w (CBlade 0); b] p HQ (Forall2_cons _ _ (T_component w wv Qw Vw) (Forall2_cons _ _ (q_weaken _ _ _ _ _ Tb) (Forall2_nil _))) Eq) as Tpr.
  pose proof (sound_add is_int F n dim _ _ (qclass hi) g [component_t c (CBlade 0); p] e HQ (Forall2_cons _ _ (T_component c cv Qc Vc) (Forall2_cons _ _ Tpr (Forall2_nil _))) E) as Te.
  apply (T_meq _ _ _ _ _ _ Te). intros x. rewrite <- (Qm x). cbn [app coef]. rewrite (bilinear_op_scalar wv m x). reflexivity.
Qed.
End Type_.

(** ** On objects *)
Lemma computed_2 (f : cliff -> cliff -> result) (h : list cliff -> result) a b : (forall x y, h [x; y] = f x y) -> computed (body2 f) [a; b] -> computed h [a; b].
Proof. intros E H args r Ea Er. destruct (args2 _ _ _ _ Ea) as (x & y & ->). apply (H [x; y] r Ea). cbn [map body2] in *. rewrite <- E. exact Er. Qed.
Lemma first_arg a b x y : arguments 0 [a; b] = Some [x; y] -> arguments 0 [a] = Some [x].
Proof. cbn [arguments]. intros H. destruct (has_stored (cexpr a)); [destruct (tag_vars _ _ _ _); [|discriminate H]|]; (destruct (has_stored (cexpr b)); [destruct (tag_vars _ (cexpr b) _ _); [|discriminate H]|]); apply Some_inj in H; injection H as <- _; reflexivity. Qed.
Theorem exp_ok F n dim S a m int tol o : (dim <= 63)%N -> space_ok S dim -> int_object dim a -> value a m -> (int = true -> isint tol) -> 0 <= tol ->
  on_type (body1 (fun x => sp_in F n S x x)) [a] settled -> computed (body2 (blade_exp F n S dim)) [a; scalar_obj int tol] ->
  blade_exp F n S dim a (scalar_obj int tol) = Some o ->
  o = Ovf \/ exists r, o = Done r /\ int_object dim r /\ value r (mexp tol (re (msp (sig_of S) m m)) m).
Proof.
  intros Hdim HSp Oa Va Hx Ht HT HC E. pose proof (last_scalar [a] int tol) as LS. pose proof (last_num [a] int tol) as LN. pose proof (last_pos dim Hdim [a] int tol) as LP. cbn [app] in LS, LN, LP. unfold blade_exp in E.
  set (inputs := [a; scalar_obj int tol]) in *. assert (HO : Forall (int_object dim) inputs) by exact (Forall_cons _ Oa (Forall_cons _ (scalar_object _ dim int tol Hx) (Forall_nil _))).
  assert (HV : Forall2 value inputs [m; [(tol, 0%N)]]) by exact (Forall2_cons _ _ Va (Forall2_cons _ _ (scalar_value int tol) (Forall2_nil _))).
  refine (computed_call F n dim _ inputs _ _ o HO HV _ E). set (hi := N.of_nat (length (stored_inputs inputs))) in *. set (g := ctx_env 0 (stored_inputs inputs)) in *.
  intros args e Ea V4 Eo. destruct (LS 0%N args Ea) as (args' & -> & L). destruct args' as [|x [|]]; try discriminate L. rewrite N.add_0_l in *. fold hi in Ea, V4, Eo. cbn [app] in *. inversion V4 as [|? ? ? ? Tx _]; subst. cbn [op2] in Eo.
  pose proof (ipoly_class is_pos F exps_pos 1 hi) as HP. destruct (T_stored is_pos _ F dim g HP x m Tx) as (Stx & _).
  assert (Te : typed_value (qclass hi) dim g e (mexp tol (re (msp (sig_of S) m m)) m)).
  { refine (T_exp F n dim S hi g Hdim HSp x m tol (GV hi 0) e Tx _ eq_refl LN Ht _ Eo).
    - unfold qclass. cbn [query wf]. rewrite N.leb_refl. apply N.leb_le in LP. rewrite LP. reflexivity.
    - intros s k Es. pose proof (HT [x] (plain (Comp s k)) (first_arg _ _ _ _ Ea)) as HT'. cbn [map body1] in HT'.
      assert (Esp : sp_in F n S (lazy_obj x) (lazy_obj x) = Some (Done (plain (Comp s k)))).
      { assert (St : Forall (fun a => has_stored (cexpr a) = false) [lazy_obj x; lazy_obj x]) by (repeat constructor; exact Stx).
        destruct S as [P Q R|]; cbn [sp_in sp_mapping] in *; unfold sp; rewrite (plain_call F n _ _ St); cbn [map lazy_obj cexpr op2]; rewrite Es; reflexivity. }
      specialize (HT' Esp). cbn in HT'. inversion HT'; assumption. }
  split; [exact Te|]. refine (HC [x; Comp (GV hi 0) (CBlade 0)] (lazy_obj e) Ea _). cbn [map body2]. unfold blade_exp. rewrite plain_call; [|repeat constructor; exact Stx]. cbn [map lazy_obj cexpr op2]. rewrite Eo. f_equal. f_equal. exact (plain_lazy F dim hi g e _ Te).
Qed.
