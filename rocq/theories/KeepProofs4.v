(** Grade functions on multivector objects. *)
From Coq Require Import NArith ZArith List Bool Lia Reals Lra.
From Verif Require Import Bits SpecBits BitsBase BitsOnes BitsProofs Expr ExprBase Sem Wf SpecMv SpecAlg MvBase RPowProofs Simp SimpProofs SimpProofs2 SmartProofs PresProofs Comp Mapping Ops CompProofs CompProofs2 SpecOrder OrderProofs GradeProofs MappingProofs GumProofs AlgProofs EvalC EvalCProofs SpecEval Lazy SpecLazy TagProofs LazyProofs LazyProofs2 CanonProofs PolyProofs Api Extra SpecApi SpecExtra ApiProofs ApiProofs2 ApiProofs3 Grade SpecGrade KeepProofs KeepProofs2 KeepProofs3.
Import ListNotations.
Local Open Scope R_scope.

Lemma filter_incl {A} f (l : list A) : incl (filter f l) l. Proof. intros x H. apply filter_In in H as [H _]. exact H. Qed.
(** keep_grade with a grade that is a query result. *)
Lemma keep_query hi i F k M d r : canonical M -> Forall (fun p => ipoly is_pos 1 hi (snd p) = true /\ wf (snd p) = true) M -> qexp hi i d ->
  keep_grade F k (mv_of M) (Comp d (CBlade 0)) = Some r ->
  exists A, r = mv_of A /\ canonical A /\ incl (map fst A) (map fst M) /\
    Forall (fun p => (ipoly is_pos 1 hi (snd p) = true \/ query 1 hi (snd p) = true /\ has_getter (snd p) = true) /\ exact_coef i (snd p) = true) A.
Proof.
  intros C HM Qd E. pose proof Qd as [Nd [G|[z ->]]].
  - assert (Od : is_constant d = false) by (apply getter_open; exact G). destruct M as [|p M].
    + exists []. split; [|split; [apply canonical_nil|split; [intros x []|constructor]]]. cbn [keep_grade mv_of comps_of keep_list] in E.
      assert (K : forall t, mk_if t (CV 0) (CV 0) = CV 0) by (intros t; destruct t as [| | | | | |[|]| | | |]; reflexivity).
      destruct d; try discriminate Od; cbn [keep_comp basis_vectors] in E; rewrite K in E; apply Some_inj in E as <-; reflexivity.
    + unfold keep_grade in E. rewrite comps_mv in E. set (f := fun p : N * expr => mk_if (mk_equal (CV (Z.of_N (ones (fst p)))) d) (snd p) (CV 0)).
      destruct (keep_canon F k (Comp d (CBlade 0)) f (p :: M) r ltac:(discriminate) C) with (2 := E) as [R1 R2].
      { apply Forall_forall. intros [j c] _. unfold entry, f. cbn [fst snd]. destruct d; try discriminate Od; reflexivity. }
      eexists. split; [exact R1|]. split; [exact R2|]. revert R2. generalize (p :: M) C HM. clear p M C HM E R1. intros M C HM R2. destruct C as [_ C]. split.
      * intros x H. apply in_map_iff in H as ([j c] & <- & H). apply filter_In in H as [H _]. apply in_map_iff in H as (p & Q & H). apply in_map_iff. exists p. split; [|exact H]. exact (f_equal fst Q).
      * apply Forall_forall. intros [j c] H. apply filter_In in H as [H _]. apply in_map_iff in H as ([j' c'] & Q & H). pose proof (f_equal snd Q) as Qc. cbn [snd] in Qc. rewrite <- Qc. cbn [snd]. clear Q Qc j c.
        rewrite Forall_forall in C, HM. destruct (C _ H) as [Nz _]. destruct (HM _ H) as [Hp Hw]. cbn [snd] in *. unfold f. cbn [fst snd].
        assert (Et : mk_equal (CV (Z.of_N (ones j'))) d = Fn NEqual [CV (Z.of_N (ones j')); d]).
        { unfold mk_equal. assert (Nq : expr_eqb (CV (Z.of_N (ones j'))) d = false) by (destruct d; try discriminate Od; reflexivity). rewrite Nq, Od. cbn [andb negb is_constant]. reflexivity. }
        rewrite Et. assert (Ei : mk_if (Fn NEqual [CV (Z.of_N (ones j')); d]) c' (CV 0) = Fn NIf [Fn NEqual [CV (Z.of_N (ones j')); d]; c'; CV 0]).
        { cbn [mk_if]. destruct (expr_eqb c' (CV 0)) eqn:Q; [apply expr_eqb_eq in Q; contradiction|reflexivity]. }
        rewrite Ei. destruct Nd as (D1 & D2 & D3). split.
        -- right. split; [|cbn [has_getter existsb]; rewrite G; reflexivity]. cbn [query has_getter]. rewrite G, D1, (query_numeric _ _ _ (ipoly_numeric is_pos exps_pos _ _ _ Hp)). reflexivity.
        -- unfold exact_coef. cbn [no_int_div forallb]. rewrite D3, (pos_no_int_div i _ _ _ Hp). apply orb_true_r.
  - rewrite <- c_expr_eq in E. destruct (keep_const F k z M r C E) as (R1 & R2 & R3). eexists. split; [exact R1|]. split; [exact R2|]. split; [intros x H; apply in_map_iff in H as (p & <- & H); apply in_map, R3, H|].
    apply Forall_forall. intros p H. rewrite Forall_forall in HM. destruct (HM p (R3 p H)) as [Hp _]. split; [auto|]. unfold exact_coef. rewrite (pos_no_int_div i _ _ _ Hp). apply orb_true_r.
Qed.
Lemma qexp_cexp hi i d : qexp hi i d -> cexp d.
Proof. intros [_ [G|H]]; [left; apply getter_open; exact G|right; exact H]. Qed.

Section Obj.
Variables (F n : nat) (dim : N).
Hypothesis Hdim : (dim <= 63)%N.
Notation open_call := (open_ok is_pos is_integer F n exps_pos (fun z => eq_refl) (int_add F) (int_mul F) (int_pow' F) int_poly).
Lemma getter_q hi i : (1 <= hi)%N -> qexp hi i (GV hi 0).
Proof. intros H. split; [|left; reflexivity]. split; [|split; reflexivity]. cbn. apply andb_true_iff. split; apply N.leb_le; lia. Qed.
Lemma M_wf M : mv_ok (mv_of M) = true -> Forall (fun p => wf (snd p) = true) M.
Proof.
  intros W. destruct (mv_ok_comps _ W) as [Wc _]. clear -Wc. destruct M as [|p A]; [constructor|]. rewrite comps_mv in Wc. revert Wc. generalize (p :: A). intros l. induction l as [|[j c] l IH]; intros H; [constructor|]. cbn [map forallb] in H. apply andb_prop in H as [H1 H2]. constructor; [|auto]. unfold entry in H1. cbn [comp_ok fst snd] in *. apply andb_prop in H1 as [H1 _]. exact H1.
Qed.
Lemma class_wf hi M : Forall (fun p => ipoly is_pos 1 hi (snd p) = true /\ (fst p < 2 ^ dim)%N) M -> mv_ok (mv_of M) = true -> Forall (fun p => ipoly is_pos 1 hi (snd p) = true /\ wf (snd p) = true) M.
Proof. intros H W. apply M_wf in W. induction H as [|p M [H1 _] HM IH]; [constructor|]. inversion W; subst. constructor; auto. Qed.
(** A kept type as result of a call. *)
Lemma keep_result hi i g M m d w r : typed_value (ipoly is_pos 1 hi) dim g (mv_of M) m -> canonical M -> Forall (fun p => ipoly is_pos 1 hi (snd p) = true /\ (fst p < 2 ^ dim)%N) M ->
  qexp hi i d -> num g d w -> keep_grade F n (mv_of M) (Comp d (CBlade 0)) = Some r ->
  exists A, r = mv_of A /\ canonical A /\ has_value g r (keepR w m) /\ mv_ok r = true /\ Forall (fun p => (fst p < 2 ^ dim)%N) A /\
    Forall (fun p => (ipoly is_pos 1 hi (snd p) = true \/ query 1 hi (snd p) = true /\ has_getter (snd p) = true) /\ exact_coef i (snd p) = true) A.
Proof.
  intros Ta C HM Qd Vd E. pose proof (T_dim _ dim g _ m Ta) as Da. destruct Ta as (_ & W & V).
  destruct (keep_query hi i F n M d r C (class_wf hi M HM W) Qd E) as (A & R1 & R2 & R3 & R4). pose proof Qd as [(_ & Wd & _) _].
  destruct (keep_value F n (mv_of M) d r w W (qexp_cexp _ _ _ Qd) Wd E) as (W' & V' & _). exists A. split; [exact R1|]. split; [exact R2|]. split; [apply V'; [exact Vd|apply (in_dim_mono dim); [lia|exact Da]|exact V]|]. split; [exact W'|]. split; [|exact R4].
  apply Forall_forall. intros p Hp. specialize (R3 (fst p) (in_map fst A p Hp)). apply in_map_iff in R3 as (q & <- & Hq). rewrite Forall_forall in HM. apply (HM q Hq).
Qed.
Lemma last_ne l int x : stored_inputs (l ++ [scalar_obj int x]) <> []. Proof. rewrite stored_last. destruct (stored_inputs l); discriminate. Qed.
Lemma last_pos l int x : (1 <= N.of_nat (length (stored_inputs (l ++ [scalar_obj int x]))))%N. Proof. rewrite stored_last, app_length. cbn. lia. Qed.

(** take_grade with a run-time grade. *)
Theorem take_runtime a m int x o : int_object dim a -> value a m -> (int = true -> isint x) -> take_grade F n a (scalar_obj int x) = Some o ->
  o = Ovf \/ exists r, o = Done r /\ int_object dim r /\ value r (keepR x m).
Proof.
  intros Oa Va Hx E. unfold take_grade in E. pose proof (last_scalar [a] int x) as LS. pose proof (last_num [a] int x) as LN. pose proof (last_pos [a] int x) as LP. cbn [app] in LS, LN, LP.
  refine (open_call _ dim [a; scalar_obj int x] [m; [(x, 0%N)]] _ o (last_ne [a] int x) (Forall_cons _ Oa (Forall_cons _ (scalar_object _ dim int x Hx) (Forall_nil _))) (Forall2_cons _ _ Va (Forall2_cons _ _ (scalar_value int x) (Forall2_nil _))) _ E).
  set (hi := N.of_nat (length (stored_inputs [a; scalar_obj int x]))) in *. set (g := ctx_env 0 (stored_inputs [a; scalar_obj int x])) in *. intros args e Ea HV Eo.
  destruct (LS 0%N args Ea) as (args' & -> & L). destruct args' as [|y [|]]; try discriminate L. cbn [app op2] in Eo, HV. inversion HV as [|? ? ? ? Ty _]; subst. pose proof Ty as ((M & -> & C & HM) & _). rewrite N.add_0_l in Eo. fold hi in Eo.
  exact (keep_result hi _ g M m (GV hi 0) x e Ty C HM (getter_q hi _ LP) LN Eo).
Qed.

(** The scalar type of a query. *)
Lemma query_result hi i g d z : qexp hi i d -> num g d (IZR z) ->
  exists A, Comp d (CBlade 0) = mv_of A /\ canonical A /\ has_value g (Comp d (CBlade 0)) [(IZR z, 0%N)] /\ mv_ok (Comp d (CBlade 0)) = true /\ Forall (fun p => (fst p < 2 ^ dim)%N) A /\
    Forall (fun p => (ipoly is_pos 1 hi (snd p) = true \/ query 1 hi (snd p) = true /\ has_getter (snd p) = true) /\ exact_coef i (snd p) = true) A.
Proof.
  intros [(Q1 & Q2 & Q3) G] V. assert (HV : has_value g (Comp d (CBlade 0)) [(IZR z, 0%N)]).
  { exists [(IZR z, 0%N)]. split; [|intros j; reflexivity]. exists (IZR z, 0%N). split; [|reflexivity]. split; [exact V|]. split; [reflexivity|intros _; exact I]. }
  assert (W : mv_ok (Comp d (CBlade 0)) = true) by (cbn; rewrite Q2; reflexivity).
  destruct (expr_eqb d (CV 0)) eqn:Z.
  - apply expr_eqb_eq in Z as ->. exists []. split; [reflexivity|]. split; [apply canonical_nil|]. auto.
  - assert (Nz : d <> CV 0) by (intros ->; discriminate Z). exists [(0%N, d)]. split; [reflexivity|]. split; [apply canonical_one; [exact Nz|reflexivity]|]. split; [exact HV|]. split; [exact W|]. split; [constructor; [cbn; apply N.neq_0_lt_0, N.pow_nonzero; discriminate|constructor]|].
    constructor; [|constructor]. cbn [snd]. split; [destruct G as [G|[y ->]]; [auto|left; reflexivity]|]. unfold exact_coef. rewrite Q3. apply orb_true_r.
Qed.
Lemma shape_pcoef hi M : Forall (fun p => (exists t j, snd p = GV t j) \/ is_integer (snd p) = true) M -> Forall (fun p => ipoly is_pos 1 hi (snd p) = true /\ (fst p < 2 ^ dim)%N) M -> mv_ok (mv_of M) = true ->
  Forall (fun p => pcoef hi (snd p)) M.
Proof.
  intros H1 H2 W. pose proof (class_wf hi M H2 W) as H3. clear H2 W. induction H1 as [|p M H HM IH]; [constructor|]. inversion H3 as [|? ? [P Q] H3']; subst. constructor; [|auto]. split; [exact P|]. split; [exact Q|].
  destruct H as [(t & j & ->)|H]; [left; reflexivity|right]. destruct (snd p); try discriminate H. eauto.
Qed.
Section Grades.
Variables (join : expr -> expr -> expr) (zj : Z -> Z -> Z) (S : R -> mv -> Z -> Prop).
Hypothesis HJ : forall hi i g, joins hi i g join zj.
Hypothesis HS : forall tol m m', 0 <= tol -> NoDup (map snd m) -> meq m m' -> S tol m' (fold_grade tol zj m).
Theorem query_ok a m int tol o : int_object dim a -> value a m -> (int = true -> isint tol) -> 0 <= tol ->
  call F n (op2 (deduce_t F join)) [a; scalar_obj int tol] = Some o ->
  o = Ovf \/ exists r z, o = Done r /\ int_object dim r /\ value r [(IZR z, 0%N)] /\ S tol m z.
Proof.
  intros Oa Va Hx Ht E. pose proof (last_scalar [a] int tol) as LS. pose proof (last_num [a] int tol) as LN. pose proof (last_pos [a] int tol) as LP. cbn [app] in LS, LN, LP.
  set (inputs := [a; scalar_obj int tol]) in *. assert (HO : Forall (int_object dim) inputs) by exact (Forall_cons _ Oa (Forall_cons _ (scalar_object _ dim int tol Hx) (Forall_nil _))).
  assert (HV : Forall2 value inputs [m; [(tol, 0%N)]]) by exact (Forall2_cons _ _ Va (Forall2_cons _ _ (scalar_value int tol) (Forall2_nil _))).
  pose proof (inputs_base is_pos is_integer exps_pos int_poly dim inputs HO) as B0.
  set (hi := N.of_nat (length (stored_inputs inputs))) in *. set (g := ctx_env 0 (stored_inputs inputs)) in *.
  assert (Ex : exists args, arguments 0 inputs = Some args). { unfold call in E. rewrite B0 in E. destruct (arguments 0 inputs) as [args|]; [eauto|discriminate E]. }
  destruct Ex as [args Ea]. pose proof Ea as Ea'. rewrite <- B0 in Ea'. destruct (args_typed is_pos is_integer exps_pos int_poly dim inputs _ args HO HV Ea') as [V4 _]. rewrite B0 in V4. fold g hi in V4. clear Ea'.
  pose proof (args_shape is_integer int_const dim inputs HO 0 args Ea) as SH. destruct (LS 0%N args Ea) as (args' & -> & L). destruct args' as [|y [|]]; try discriminate L. rewrite N.add_0_l in *. cbn [app] in *.
  inversion V4 as [|? ? ? ? Ty _]; subst. inversion SH as [|? ? (M & -> & C & HM) _]; subst. pose proof Ty as ((M' & EM & C' & HM') & W & (m0 & Dm & Qm)). apply mv_of_inj in EM; auto. subst M'.
  pose proof (HS tol m0 m Ht (den_nodup g M m0 C Dm) Qm) as SZ. set (z := fold_grade tol zj m0) in *.
  assert (R : o = Ovf \/ exists r, o = Done r /\ int_object dim r /\ value r [(IZR z, 0%N)]); [|destruct R as [->|(r & -> & R1 & R2)]; [left; reflexivity|right; exists r, z; auto]].
  refine (open_call _ dim inputs _ _ o (last_ne [a] int tol) HO HV _ E). intros args e Ea' _ Eo. rewrite Ea in Ea'. apply Some_inj in Ea' as <-. fold hi g. cbn [op2 deduce_t] in Eo.
  destruct (deduce F join (GV hi 0) (comps_of (mv_of M))) as [d|] eqn:Ed; [|discriminate Eo]. apply Some_inj in Eo as <-.
  destruct (deduce_mv hi (ctx_int 0 (stored_inputs inputs)) g F (GV hi 0) tol (proj1 (getter_q hi _ LP)) eq_refl LN join zj M m0 d (HJ _ _ _) C (shape_pcoef hi M HM HM' W) Dm Ed) as [Qd Vd].
  exact (query_result hi _ g d z Qd Vd).
Qed.
End Grades.

(** ** The part of largest grade *)
Definition op_top (x t : expr) : option expr := d <- deduce_t F largest_join x t ;; keep_grade F n x d.
Lemma largest_keep tol m z : has_largest tol m z -> largest_part tol m (keepR (IZR z) m).
Proof.
  intros [[-> H]|(b & S & -> & H)].
  - left. split; [exact H|]. intros j. unfold keepR. rewrite (coef_filter (fun i => eqR (IZR (Z.of_N (grade_of i))) (IZR (-2)))). rewrite eqR_Z. replace (Z.eqb _ _) with false by (symmetry; apply Z.eqb_neq; lia). reflexivity.
  - right. exists b. split; [exact S|]. split; [exact H|]. rewrite keepR_grade. intros j. reflexivity.
Qed.
Lemma deduce_top hi i g M m0 tol d : (1 <= hi)%N -> num g (GV hi 0) tol -> canonical M -> Forall (fun p => pcoef hi (snd p)) M -> den g (mv_of M) m0 ->
  deduce_t F largest_join (mv_of M) (Comp (GV hi 0) (CBlade 0)) = Some d ->
  exists d', d = Comp d' (CBlade 0) /\ qexp hi i d' /\ num g d' (IZR (fold_grade tol ljoin m0)).
Proof.
  intros LP LN C HC Dm E. cbn [deduce_t] in E. destruct (deduce F largest_join (GV hi 0) (comps_of (mv_of M))) as [d'|] eqn:Ed; [|discriminate E]. apply Some_inj in E as <-. exists d'. split; [reflexivity|].
  exact (deduce_mv hi i g F (GV hi 0) tol (proj1 (getter_q hi i LP)) eq_refl LN largest_join ljoin M m0 d' (largest_joins hi i g) C HC Dm Ed).
Qed.
Lemma query_stored lo hi e : query lo hi e = true -> wf e = true -> has_stored e = false.
Proof.
  remember (esize e) as s eqn:Es. revert e Es. induction s as [s IH] using lt_wf_ind. intros e -> Q W. destruct e as [z|t0 i| |z|t0 i| |z|z|pg x|c0 x|f l]; try discriminate Q; try reflexivity.
  assert (IH' : forall x, In x l -> query lo hi x = true -> wf x = true -> has_stored x = false) by (intros x I; exact (IH _ (esize_in f l x I) x eq_refl)).
  destruct (query_inv lo hi f l Q W) as [(Ff & x & -> & Qx & Wx)|[(Hf & Ql & Wl & Len)|[(-> & x & y & -> & Qx & Qy & Wx & Wy)|(-> & f' & a & b & x & y & -> & Hf & G & Qa & Qb & Qx & Qy & Wa & Wb & Wx & Wy)]]]; cbn [has_stored].
  - cbn [existsb]. rewrite (IH' x); cbn; auto.
  - rewrite forallb_forall in Ql, Wl. destruct (existsb has_stored l) eqn:E; [|reflexivity]. apply existsb_exists in E as (x & I & E). rewrite (IH' x I (Ql x I) (Wl x I)) in E. discriminate E.
  - cbn [existsb]. rewrite (IH' x), (IH' y); cbn; auto.
  - assert (Lt : (esize (Fn f' [a; b]) < esize (Fn NIf [Fn f' [a; b]; x; y]))%nat) by (apply esize_in; cbn; auto).
    assert (La : (esize a < esize (Fn NIf [Fn f' [a; b]; x; y]))%nat) by (eapply Nat.lt_trans; [|exact Lt]; apply esize_in; cbn; auto).
    assert (Lb : (esize b < esize (Fn NIf [Fn f' [a; b]; x; y]))%nat) by (eapply Nat.lt_trans; [|exact Lt]; apply esize_in; cbn; auto).
    cbn [has_stored existsb]. rewrite (IH _ La a eq_refl Qa Wa), (IH _ Lb b eq_refl Qb Wb), (IH' x), (IH' y); cbn; auto.
Qed.
(** Calls on arguments without storage. *)
Definition plain (e : expr) : cliff := {| cexpr := e; cint := true; cvals := repeat 0 (count_vals e); cbits := repeat 0%N (count_bits e) |}.
Lemma plain_args l : Forall (fun a => has_stored (cexpr a) = false) l -> (forall b, arguments b l = Some (map cexpr l)) /\ stored_inputs l = [].
Proof.
  induction 1 as [|a l H HL [IH1 IH2]]; [split; reflexivity|]. split; [intros b; cbn [arguments map]; rewrite H, IH1; reflexivity|]. cbn [stored_inputs filter]. rewrite H. exact IH2.
Qed.
Lemma plain_call op l : Forall (fun a => has_stored (cexpr a) = false) l -> call F n op l = (e <- op (map cexpr l) ;; Some (Done (plain e))).
Proof. intros H. destruct (plain_args l H) as [H1 H2]. unfold call. rewrite H1. destruct (op (map cexpr l)); [|reflexivity]. unfold lazy_eval. rewrite H2. reflexivity. Qed.
Lemma top_body x t : has_stored x = false -> has_stored t = false -> (forall d, deduce_t F largest_join x t = Some d -> has_stored d = false) ->
  body2 (fun x t => andthen (largest_grade F n x t) (fun g => take_grade F n x g)) (map lazy_obj [x; t]) = (e <- op_top x t ;; Some (Done (plain e))).
Proof.
  intros Hx Ht Hd. cbn [map body2]. unfold largest_grade. rewrite plain_call by (constructor; [exact Hx|constructor; [exact Ht|constructor]]). cbn [map lazy_obj cexpr op2]. unfold op_top.
  destruct (deduce_t F largest_join x t) as [d|] eqn:Ed; [|reflexivity]. cbn [andthen]. unfold take_grade. rewrite plain_call by (constructor; [exact Hx|constructor; [exact (Hd d eq_refl)|constructor]]). reflexivity.
Qed.
Lemma top_plain a b x t : cexpr a = x -> cexpr b = t -> has_stored x = false -> has_stored t = false -> (forall d, deduce_t F largest_join x t = Some d -> has_stored d = false) ->
  take_largest_grade F n a b = (e <- op_top x t ;; Some (Done (plain e))).
Proof.
  intros Ea Eb Hx Ht Hd. assert (HP : Forall (fun a => has_stored (cexpr a) = false) [a; b]) by (constructor; [congruence|constructor; [congruence|constructor]]). destruct (plain_args _ HP) as [H1 H2].
  unfold take_largest_grade, in_context. rewrite H1. change (map cexpr [a; b]) with [cexpr a; cexpr b]. rewrite Ea, Eb. rewrite (top_body x t Hx Ht Hd). destruct (op_top x t) as [e|]; [|reflexivity]. cbn [andthen plain cexpr]. unfold lazy_eval. rewrite H2. reflexivity.
Qed.
(** The type of the part of largest grade. *)
Lemma top_result hi i g M m m0 tol e : 0 <= tol -> (1 <= hi)%N -> num g (GV hi 0) tol -> typed_value (ipoly is_pos 1 hi) dim g (mv_of M) m -> canonical M ->
  Forall (fun p => ipoly is_pos 1 hi (snd p) = true /\ (fst p < 2 ^ dim)%N) M -> Forall (fun p => pcoef hi (snd p)) M -> den g (mv_of M) m0 -> op_top (mv_of M) (Comp (GV hi 0) (CBlade 0)) = Some e ->
  exists A, e = mv_of A /\ canonical A /\ has_value g e (keepR (IZR (fold_grade tol ljoin m0)) m) /\ mv_ok e = true /\ Forall (fun p => (fst p < 2 ^ dim)%N) A /\
    Forall (fun p => (ipoly is_pos 1 hi (snd p) = true \/ query 1 hi (snd p) = true /\ has_getter (snd p) = true) /\ exact_coef i (snd p) = true) A.
Proof.
  intros Ht LP LN Ty C HM HC Dm E. unfold op_top in E. destruct (deduce_t F largest_join (mv_of M) (Comp (GV hi 0) (CBlade 0))) as [d|] eqn:Ed; [|discriminate E].
  destruct (deduce_top hi i g M m0 tol d LP LN C HC Dm Ed) as (d' & -> & Qd & Vd). exact (keep_result hi i g M m d' _ e Ty C HM Qd Vd E).
Qed.
Lemma top_no_store hi g M m0 tol d : (1 <= hi)%N -> num g (GV hi 0) tol -> canonical M -> Forall (fun p => pcoef hi (snd p)) M -> den g (mv_of M) m0 ->
  deduce_t F largest_join (mv_of M) (Comp (GV hi 0) (CBlade 0)) = Some d -> has_stored d = false.
Proof.
  intros LP LN C HC Dm E. destruct (deduce_top hi (fun _ _ => true) g M m0 tol d LP LN C HC Dm E) as (d' & -> & [(Q & Wd & _) _] & _). cbn [has_stored]. rewrite (query_stored _ _ _ Q Wd). reflexivity.
Qed.
Theorem take_largest_ok a m int tol o : int_object dim a -> value a m -> (int = true -> isint tol) -> 0 <= tol -> take_largest_grade F n a (scalar_obj int tol) = Some o ->
  o = Ovf \/ exists r mr, o = Done r /\ int_object dim r /\ value r mr /\ largest_part tol m mr.
Proof.
  intros Oa Va Hx Ht E. pose proof (last_scalar [a] int tol) as LS. pose proof (last_num [a] int tol) as LN. pose proof (last_pos [a] int tol) as LP. cbn [app] in LS, LN, LP. unfold take_largest_grade in E.
  set (inputs := [a; scalar_obj int tol]) in *. assert (HO : Forall (int_object dim) inputs) by exact (Forall_cons _ Oa (Forall_cons _ (scalar_object _ dim int tol Hx) (Forall_nil _))).
  assert (HV : Forall2 value inputs [m; [(tol, 0%N)]]) by exact (Forall2_cons _ _ Va (Forall2_cons _ _ (scalar_value int tol) (Forall2_nil _))).
  pose proof (inputs_base is_pos is_integer exps_pos int_poly dim inputs HO) as B0.
  set (hi := N.of_nat (length (stored_inputs inputs))) in *. set (g := ctx_env 0 (stored_inputs inputs)) in *.
  assert (Ex : exists args, arguments 0 inputs = Some args). { unfold in_context in E. rewrite B0 in E. destruct (arguments 0 inputs) as [args|]; [eauto|discriminate E]. }
  destruct Ex as [args Ea]. pose proof Ea as Ea'. rewrite <- B0 in Ea'. destruct (args_typed is_pos is_integer exps_pos int_poly dim inputs _ args HO HV Ea') as [V4 _]. rewrite B0 in V4. fold g hi in V4. clear Ea'.
  pose proof (args_shape is_integer int_const dim inputs HO 0 args Ea) as SH. destruct (LS 0%N args Ea) as (args' & -> & L). destruct args' as [|y [|]]; try discriminate L. rewrite N.add_0_l in *. cbn [app] in *.
  inversion V4 as [|? ? ? ? Ty _]; subst. inversion SH as [|? ? (M & -> & C & HM) _]; subst. pose proof Ty as ((M' & EM & C' & HM') & W & (m0 & Dm & Qm)). apply mv_of_inj in EM; auto. subst M'.
  pose proof (shape_pcoef hi M HM HM' W) as HC. set (z := fold_grade tol ljoin m0).
  assert (SZ : has_largest tol m z) by exact (lspec_largest tol m0 m z Ht (den_nodup g M m0 C Dm) Qm (fold_largest tol m0)).
  assert (R : o = Ovf \/ exists r, o = Done r /\ int_object dim r /\ value r (keepR (IZR z) m)); [|destruct R as [->|(r & -> & R1 & R2)]; [left; reflexivity|right; exists r, (keepR (IZR z) m); auto using largest_keep]].
  assert (E' : call F n (op2 op_top) inputs = Some o).
  { unfold call. unfold in_context in E. rewrite B0, Ea in *. rewrite (top_body (mv_of M) (Comp (GV hi 0) (CBlade 0))) in E; [| |reflexivity|].
    - cbn [op2]. destruct (op_top _ _) as [e|]; [exact E|discriminate E].
    - destruct (T_stored is_pos _ F dim g (ipoly_class is_pos F exps_pos 1 hi) _ m Ty) as (St & _). exact St.
    - intros d Ed. exact (top_no_store hi g M m0 tol d LP LN C HC Dm Ed). }
  refine (open_call _ dim inputs _ _ o (last_ne [a] int tol) HO HV _ E'). intros args e Ea' _ Eo. rewrite Ea in Ea'. apply Some_inj in Ea' as <-. fold hi g. cbn [op2] in Eo.
  exact (top_result hi _ g M m m0 tol e Ht LP LN Ty C HM' HC Dm Eo).
Qed.

(** ** The delta product *)
Definition gp_type (S : space) (x y : expr) : option expr := match gp_in F n S (lazy_obj x) (lazy_obj y) with Some (Done p) => Some (cexpr p) | _ => None end.
Definition op_dp (S : space) (l : list expr) : option expr := match l with [x; y; t] => p <- gp_type S x y ;; op_top p t | _ => None end.
Theorem dp_ok S a b ma mb int tol o : space_ok S dim -> int_object dim a -> int_object dim b -> value a ma -> value b mb -> (int = true -> isint tol) -> 0 <= tol ->
  (forall x y t p, arguments 0 [a; b; scalar_obj int tol] = Some [x; y; t] -> gp_in F n S (lazy_obj x) (lazy_obj y) = Some (Done p) ->
     Forall (fun c => is_constant c = false \/ is_integer c = true) (coefficients (cexpr p))) ->
  dp F n S a b (scalar_obj int tol) = Some o ->
  o = Ovf \/ exists r mr, o = Done r /\ int_object dim r /\ value r mr /\ largest_part tol (mgp (sig_of S) ma mb) mr.
Proof.
  intros HSp Oa Ob Va Vb Hx Ht HD E. pose proof (last_scalar [a; b] int tol) as LS. pose proof (last_num [a; b] int tol) as LN. pose proof (last_pos [a; b] int tol) as LP. cbn [app] in LS, LN, LP. unfold dp in E.
  set (inputs := [a; b; scalar_obj int tol]) in *. assert (HO : Forall (int_object dim) inputs) by exact (Forall_cons _ Oa (Forall_cons _ Ob (Forall_cons _ (scalar_object _ dim int tol Hx) (Forall_nil _)))).
  assert (HV : Forall2 value inputs [ma; mb; [(tol, 0%N)]]) by exact (Forall2_cons _ _ Va (Forall2_cons _ _ Vb (Forall2_cons _ _ (scalar_value int tol) (Forall2_nil _)))).
  pose proof (inputs_base is_pos is_integer exps_pos int_poly dim inputs HO) as B0.
  set (hi := N.of_nat (length (stored_inputs inputs))) in *. set (g := ctx_env 0 (stored_inputs inputs)) in *.
  assert (Ex : exists args, arguments 0 inputs = Some args). { unfold in_context in E. rewrite B0 in E. destruct (arguments 0 inputs) as [args|]; [eauto|discriminate E]. }
  destruct Ex as [args Ea]. pose proof Ea as Ea'. rewrite <- B0 in Ea'. destruct (args_typed is_pos is_integer exps_pos int_poly dim inputs _ args HO HV Ea') as [V4 _]. rewrite B0 in V4. fold g hi in V4. clear Ea'.
  destruct (LS 0%N args Ea) as (args' & -> & L). destruct args' as [|x [|y [|]]]; try discriminate L. rewrite N.add_0_l in *. cbn [app] in *.
  inversion V4 as [|? ? ? ? Tx V4']; subst. inversion V4' as [|? ? ? ? Ty _]; subst. pose proof (ipoly_class is_pos F exps_pos 1 hi) as HP.
  unfold in_context in E. rewrite B0, Ea in E. cbn [map] in E. destruct (gp_in F n S (lazy_obj x) (lazy_obj y)) as [o1|] eqn:Eg; [|discriminate E].
  destruct (y_gp is_pos _ F n dim g S HP Hdim HSp x y ma mb Tx Ty o1 Eg) as (p & -> & Tp). cbn [andthen] in E.
  pose proof Tp as ((M & EM & C & HM) & W & (m0 & Dm & Qm)). subst p. pose proof (HD x y _ _ Ea Eg) as HI. cbn [lazy_obj cexpr] in HI.
  assert (HC : Forall (fun p => pcoef hi (snd p)) M).
  { pose proof (class_wf hi M HM W) as HW. clear -HI HW. destruct M as [|p M]; [constructor|]. rewrite components_coef in HI. revert HI HW. generalize (p :: M). intros l HI HW. induction HW as [|q l [H1 H2] HW IH]; [constructor|]. cbn [map] in HI. inversion HI as [|? ? D HI']; subst. constructor; [|auto]. split; [exact H1|]. split; [exact H2|].
    destruct D as [D|D]; [left; exact D|right]. destruct (snd q); try discriminate D. eauto. }
  set (z := fold_grade tol ljoin m0). set (m := mgp (sig_of S) ma mb) in *.
  assert (SZ : has_largest tol m z) by exact (lspec_largest tol m0 m z Ht (den_nodup g M m0 C Dm) Qm (fold_largest tol m0)).
  assert (R : o = Ovf \/ exists r, o = Done r /\ int_object dim r /\ value r (keepR (IZR z) m)); [|destruct R as [->|(r & -> & R1 & R2)]; [left; reflexivity|right; exists r, (keepR (IZR z) m); auto using largest_keep]].
  assert (E' : call F n (op_dp S) inputs = Some o).
  { unfold call. rewrite B0, Ea. cbn [op_dp]. unfold gp_type. rewrite Eg. cbn [lazy_obj cexpr]. rewrite (top_plain (lazy_obj (mv_of M)) _ (mv_of M) (Comp (GV hi 0) (CBlade 0))) in E; [|reflexivity|reflexivity| |reflexivity|].
    - destruct (op_top _ _) as [e|]; [exact E|discriminate E].
    - destruct (T_stored is_pos _ F dim g HP _ m Tp) as (St & _). exact St.
    - intros d Ed. exact (top_no_store hi g M m0 tol d LP LN C HC Dm Ed). }
  refine (open_call _ dim inputs _ _ o (last_ne [a; b] int tol) HO HV _ E'). intros args e Ea' _ Eo. rewrite Ea in Ea'. apply Some_inj in Ea' as <-. fold hi g. cbn [op_dp] in Eo. unfold gp_type in Eo. rewrite Eg in Eo. cbn [lazy_obj cexpr] in Eo.
  exact (top_result hi _ g M m m0 tol e Ht LP LN Tp C HM HC Dm Eo).
Qed.
End Obj.
