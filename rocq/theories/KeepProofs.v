(** Selection of a grade. *)
From Coq Require Import NArith ZArith List Bool Lia Reals Lra.
From Verif Require Import Bits SpecBits BitsBase BitsOnes BitsProofs Expr ExprBase Sem Wf SpecMv SpecAlg MvBase Simp SimpProofs SmartProofs Comp Mapping CompProofs CompProofs2 SpecOrder OrderProofs GradeProofs MappingProofs GumProofs AlgProofs LazyProofs2 CanonProofs Grade.
Import ListNotations.
Local Open Scope R_scope.

Definition keepR (w : R) (m : mv) : mv := filter (fun p => eqR (IZR (Z.of_N (grade_of (snd p)))) w) m.
Lemma keepR_grade k m : keepR (IZR (Z.of_N k)) m = grade_part k m.
Proof.
  unfold keepR, grade_part. apply filter_ext. intros p. rewrite eqR_Z. destruct (Z.eqb_spec (Z.of_N (grade_of (snd p))) (Z.of_N k)), (N.eqb_spec (grade_of (snd p)) k); auto; lia.
Qed.
Lemma coef_filter chi (m : mv) b : coef (filter (fun p => chi (snd p)) m) b = if chi b then coef m b else 0.
Proof.
  induction m as [|[c i] m IH]; [cbn; destruct (chi b); reflexivity|]. cbn [filter snd]. destruct (chi i) eqn:Ci; cbn [coef]; rewrite IH; destruct (N.eqb_spec i b) as [->|]; rewrite ?Ci; destruct (chi b); try lra; congruence.
Qed.
Lemma keepR_meq w a b : meq a b -> meq (keepR w a) (keepR w b).
Proof. intros H k. unfold keepR. rewrite !(coef_filter (fun i => eqR (IZR (Z.of_N (grade_of i))) w)). rewrite (H k). reflexivity. Qed.
Lemma keepR_app w a b : keepR w (a ++ b) = keepR w a ++ keepR w b.
Proof. apply filter_app. Qed.

(** The grade argument: a constant integer or an expression that is not constant. *)
Lemma keep_general c x bs t w : wf c = true -> blade_ok x = true -> basis_vectors x = Some bs -> cexp t -> wf t = true ->
  let r := component_t (mk_if (mk_equal (mk_count bs) t) c (CV 0)) x in
  mv_ok r = true /\ forall g p, num g t w -> dcomp g (Comp c x) p -> (snd p < 2 ^ 64)%N -> exists m, den g r m /\ meq m (keepR w [p]) /\ (forall n, in_space n [p] -> in_space n m).
Proof.
  intros Wc Wx Eb Ct Wt r. destruct (blade_bits x Wx) as (l & El & Wl & Bl & _ & Vl & _). rewrite Eb in El. injection El as ->.
  destruct (mk_count_cexp l Bl Wl) as [Cc Wn].
  assert (Wi : wf (mk_if (mk_equal (mk_count l) t) c (CV 0)) = true) by (apply mk_if_wf; [apply mk_equal_wf; auto|exact Wc|reflexivity]).
  destruct (component_t_den _ x _ Wi Wx (eq_refl r)) as [K1 K2]. split; [exact K1|]. intros g [v i] Nt (D1 & D2 & D3) L64. cbn [fst snd] in *.
  assert (E : istrue g (mk_equal (mk_count l) t) (eqR (IZR (Z.of_N (grade_of i))) w)).
  { apply equal_num; [right; right; split; apply cexp_plain; assumption| |exact Nt]. apply count_bits; [exact Wl|apply Vl; exact D2]. }
  destruct (K2 g (if eqR (IZR (Z.of_N (grade_of i))) w then v else 0, i)) as (m & M1 & M2 & M3).
  - split; [|split; [exact D2|]]; cbn [fst snd].
    + apply (if_num _ _ _ _ _ _ E). destruct (eqR _ w); [exact D1|apply num_cv].
    + intros Nz. apply D3. intros ->. apply Nz. destruct (eqR _ w); reflexivity.
  - exists m. split; [exact M1|]. split; [|intros n I; apply M3; inversion I; subst; constructor; auto]. rewrite M2. unfold keepR. cbn [filter snd]. destruct (eqR _ w); [reflexivity|apply meq_zero].
Qed.
Lemma zero_den g m : meq m [] -> exists m', den g (Comp (CV 0) (CBlade 0)) m' /\ meq m' m /\ (forall n, in_space n m').
Proof.
  intros H. exists [(0, 0%N)]. split; [exists (0, 0%N); split; [|reflexivity]; split; [apply num_cv|split; [reflexivity|intros _; exact I]]|].
  split; [|intros n; constructor; [cbn; apply N.neq_0_lt_0, N.pow_nonzero; discriminate|constructor]]. rewrite H. apply meq_zero.
Qed.
Lemma keep_comp_ok x t r w : comp_ok x = true -> cexp t -> wf t = true -> keep_comp x (Comp t (CBlade 0)) = Some r ->
  mv_ok r = true /\ forall g p, num g t w -> dcomp g x p -> (snd p < 2 ^ 64)%N -> exists m, den g r m /\ meq m (keepR w [p]) /\ (forall n, in_space n [p] -> in_space n m).
Proof.
  intros Ok Ct Wt. apply comp_ok_iff in Ok as (c & b & -> & Wc & Wb).
  assert (Gen : (bs <- basis_vectors b ;; Some (component_t (mk_if (mk_equal (mk_count bs) t) c (CV 0)) b)) = Some r ->
     mv_ok r = true /\ forall g p, num g t w -> dcomp g (Comp c b) p -> (snd p < 2 ^ 64)%N -> exists m, den g r m /\ meq m (keepR w [p]) /\ (forall n, in_space n [p] -> in_space n m)).
  { destruct (basis_vectors b) as [bs|] eqn:Eb; [|discriminate]. intros E. apply Some_inj in E as <-. apply keep_general; auto. }
  destruct Ct as [Ct|[z ->]].
  - intros E. apply Gen. rewrite <- E. destruct b as [| | | | | | |b|pg x| |]; try discriminate Wb; destruct t; try discriminate Ct; reflexivity.
  - clear Gen. destruct b as [| | | | | | |b|pg x| |]; try discriminate Wb.
    + cbn [keep_comp]. intros E. apply Some_inj in E as <-. assert (On : ones b = grade_of b) by (apply ones_correct; cbn [blade_ok] in Wb; apply N.ltb_lt; exact Wb). rewrite On. split.
      * destruct (Z.eqb _ z); [apply mv_ok_comp; auto|reflexivity].
      * intros g [v i] Nt D L64. apply num_cv_inv in Nt as ->. pose proof D as (_ & D2 & _). cbn [dblade snd] in D2. subst i. unfold keepR. cbn [filter snd]. rewrite eqR_Z. destruct (Z.eqb _ z).
        -- exists [(v, b)]. split; [exists (v, b); auto|]. split; [reflexivity|auto].
        -- destruct (zero_den g [] ltac:(reflexivity)) as (m & A & B & C). exists m. auto.
    + cbn [keep_comp]. destruct (Z.leb 0 z && Z.leb z 63)%bool eqn:Rz; [|discriminate]. apply andb_prop in Rz as [R1 R2]. apply Z.leb_le in R1, R2.
      destruct (dyn_blade_t (bit (Z.to_N z)) x) as [y|] eqn:Ey; [|discriminate]. intros E. apply Some_inj in E as <-.
      set (n0 := Z.to_N z) in *. assert (Hn0 : (n0 < 64)%N) by lia. assert (Ez : z = Z.of_N n0) by lia.
      assert (Wb' := Wb). cbn [blade_ok] in Wb'. apply andb_true_iff in Wb' as [W1 W2]. apply andb_true_iff in W1 as [Wx Nx]. apply negb_true_iff in Nx.
      destruct (N.eqb (N.land pg (bit n0)) 0) eqn:T.
      * split; [reflexivity|]. intros g [v i] Nt (D1 & D2 & D3) L64. apply num_cv_inv in Nt as ->. cbn [fst snd grade_declared] in D3.
        assert (Z0 : meq (keepR (IZR z) [(v, i)]) []).
        { unfold keepR. cbn [filter snd]. rewrite eqR_Z. destruct (Z.eqb_spec (Z.of_N (grade_of i)) z) as [Q|]; [|reflexivity]. assert (Gi : grade_of i = n0) by lia.
          destruct (Req_EM_T v 0) as [->|Nz]; [apply meq_zero|]. specialize (D3 Nz). rewrite Gi in D3. unfold bit in T. rewrite land_bit in T by exact Hn0. rewrite D3 in T. discriminate T. }
        destruct (zero_den g _ Z0) as (m & A & B & C). exists m. auto.
      * assert (Bx : bexp x) by (left; exact Nx).
        assert (Yc : y = CBlade 0 /\ n0 = 0%N \/ y = DBlade (bit n0) x).
        { unfold dyn_blade_t in Ey. assert (B1 : bit n0 = 1%N -> n0 = 0%N) by (unfold bit; rewrite wrap_shift by exact Hn0; intros Q; destruct n0; [reflexivity|]; exfalso; assert (2 ^ 1 <= 2 ^ N.pos p)%N by (apply N.pow_le_mono_r; lia); rewrite Q in H; cbn in H; lia).
          destruct (N.eqb_spec (bit n0) 1) as [B|B]; [left; split; [destruct x; try discriminate Nx; congruence|auto]|]. destruct x; try discriminate Nx; right; congruence. }
        assert (Wy : blade_ok y = true).
        { destruct Yc as [[-> _]| ->]; [reflexivity|]. cbn [blade_ok]. rewrite Wx, Nx. cbn [andb negb]. apply N.ltb_lt. unfold bit. rewrite wrap_shift by exact Hn0. apply N.pow_lt_mono_r; [reflexivity|exact Hn0]. }
        destruct (mk_count_cexp x Bx Wx) as [Cc Wn].
        assert (Wi : wf (mk_if (mk_equal (mk_count x) (CV z)) c (CV 0)) = true) by (apply mk_if_wf; [apply mk_equal_wf; auto|exact Wc|reflexivity]).
        destruct (component_t_den _ y _ Wi Wy eq_refl) as [K1 K2]. split; [exact K1|]. intros g [v i] Nt (D1 & D2 & D3) L64. apply num_cv_inv in Nt as ->. cbn [fst snd dblade] in *.
        assert (E : istrue g (mk_equal (mk_count x) (CV z)) (eqR (IZR (Z.of_N (grade_of i))) (IZR z))).
        { apply equal_num; [right; right; split; apply cexp_plain; [exact Cc|right; eauto]| |apply num_cv]. apply count_bits; [exact Wx|exact D2]. }
        rewrite eqR_Z in E. unfold keepR. cbn [filter snd]. rewrite eqR_Z. destruct (Z.eqb_spec (Z.of_N (grade_of i)) z) as [Gi|Gi].
        -- assert (Gn : grade_of i = n0) by lia. destruct (K2 g (v, i)) as (m & M1 & M2 & M3); [|exists m; auto].
           split; [exact (if_num _ _ _ _ _ _ E D1)|]. cbn [fst snd]. destruct Yc as [[-> Z0]| ->]; cbn [dblade grade_declared].
           ++ split; [|auto]. rewrite Z0 in Gn. apply grade_0; [exact L64|exact Gn].
           ++ split; [exact D2|]. intros _. rewrite Gn. unfold bit. rewrite wrap_shift by exact Hn0. apply N.pow2_bits_true.
        -- destruct Yc as [[-> Z0]| ->].
           ++ destruct (K2 g (0, 0%N)) as (m & M1 & M2 & M3); [split; [exact (if_num _ _ _ _ _ _ E (num_cv g 0))|split; [reflexivity|intros _; exact I]]|]. exists m. split; [exact M1|]. split; [rewrite M2; apply meq_zero|]. intros n _. apply M3. constructor; [cbn; apply N.neq_0_lt_0, N.pow_nonzero; discriminate|constructor].
           ++ destruct (K2 g (0, i)) as (m & M1 & M2 & M3); [split; [exact (if_num _ _ _ _ _ _ E (num_cv g 0))|split; [exact D2|intros Q; destruct (Q eq_refl)]]|]. exists m. split; [exact M1|]. split; [rewrite M2; apply meq_zero|]. intros n J. apply M3. inversion J as [|? ? J1 J2]. constructor; [exact J1|constructor].
Qed.
Lemma keep_list_ok F k t w : cexp t -> wf t = true -> forall l r, forallb comp_ok l = true -> keep_list F k (Comp t (CBlade 0)) l = Some r ->
  mv_ok r = true /\ forall g m, num g t w -> in_space 64 m -> Forall2 (dcomp g) l m -> exists mr, den g r mr /\ meq mr (keepR w m) /\ (forall n, in_space n m -> in_space n mr).
Proof.
  intros Ct Wt. induction l as [|e l IH]; intros r Ok H; [discriminate|]. cbn [forallb] in Ok. apply andb_true_iff in Ok as [Oe Ol]. destruct l as [|e' l'].
  - cbn [keep_list] in H. destruct (keep_comp_ok e t r w Oe Ct Wt H) as [K1 K2]. split; [exact K1|]. intros g m Nt I D. inversion D as [|? q ? ? Dq D']; subst. inversion D'; subst. inversion I; subst. apply (K2 g q); auto.
  - remember (e' :: l') as l eqn:El. assert (H' : (h <- keep_comp e (Comp t (CBlade 0)) ;; s <- keep_list F k (Comp t (CBlade 0)) l ;; cadd F k h s) = Some r) by (rewrite El in H |- *; exact H). clear H.
    destruct (keep_comp e (Comp t (CBlade 0))) as [h|] eqn:Eh; [|discriminate]. destruct (keep_list F k (Comp t (CBlade 0)) l) as [s|] eqn:Es; [|discriminate].
    destruct (keep_comp_ok e t h w Oe Ct Wt Eh) as [K1 K2]. destruct (IH s Ol eq_refl) as [T1 T2]. destruct (cadd_ok F k _ _ _ K1 T1 H') as [R1 R2].
    split; [exact R1|]. intros g m Nt I D. inversion D as [|? q ? m' Dq D']; subst. inversion I as [|? ? I1 I2]; subst. destruct (K2 g q Nt Dq I1) as (ma & A1 & A2 & A3). destruct (T2 g m' Nt I2 D') as (mb & B1 & B2 & B3).
    destruct (R2 g ma mb A1 B1) as (mr & C1 & C2 & C3). exists mr. split; [exact C1|]. split.
    + rewrite C2, A2, B2. rewrite <- keepR_app. reflexivity.
    + intros n J. inversion J; subst. apply C3; [apply A3; constructor; auto|apply B3; assumption].
Qed.
(** keep_grade, for every multivector expression (run-time blades included). *)
Theorem keep_value F k e t r w : mv_ok e = true -> cexp t -> wf t = true -> keep_grade F k e (Comp t (CBlade 0)) = Some r ->
  mv_ok r = true /\ (forall g m, num g t w -> in_dim 64 g e -> has_value g e m -> has_value g r (keepR w m)) /\ (forall g n, (n <= 64)%N -> num g t w -> in_dim n g e -> in_dim n g r).
Proof.
  intros Ok Ct Wt H. destruct (keep_list_ok F k t w Ct Wt _ _ (proj1 (mv_ok_comps _ Ok)) H) as [A B]. split; [exact A|]. split.
  - intros g m Nt (m1 & D1 & I) (m0 & D & Q). pose proof (den_fun _ _ _ _ D D1) as ->. apply den_iff in D. destruct (B g m1 Nt I D) as (mr & R1 & R2 & _). exists mr. split; [exact R1|]. intros j. rewrite (R2 j). apply keepR_meq. exact Q.
  - intros g n Ln Nt (m & D & I). assert (I64 : in_space 64 m) by (eapply Forall_impl; [|exact I]; intros p Hp; apply (N.lt_le_trans _ _ _ Hp), N.pow_le_mono_r; [discriminate|exact Ln]).
    apply den_iff in D. destruct (B g m Nt I64 D) as (mr & R1 & _ & R3). exists mr. auto.
Qed.

(** ** Canonical types *)
Definition nonzero (p : N * expr) : bool := match snd p with CV 0 => false | _ => true end.
Lemma nonzero_true p : nonzero p = true <-> snd p <> CV 0.
Proof. unfold nonzero. destruct p as [i [[]| | | | | | | | | |]]; cbn; split; congruence. Qed.
Lemma keep_canon F k t (f : N * expr -> expr) : forall M r, M <> [] -> canonical M ->
  Forall (fun p => keep_comp (entry p) t = Some (component_t (f p) (CBlade (fst p)))) M -> keep_list F k t (map entry M) = Some r ->
  let A := filter nonzero (map (fun p => (fst p, f p)) M) in r = mv_of A /\ canonical A.
Proof.
  assert (One : forall p, (fst p < 2 ^ 63)%N -> exists A1, component_t (f p) (CBlade (fst p)) = mv_of A1 /\ canonical A1 /\ (map fst A1 = [fst p] \/ A1 = []) /\ A1 = filter nonzero [(fst p, f p)]).
  { intros p Hp. cbn [filter]. destruct (nonzero (fst p, f p)) eqn:Nz.
    - apply nonzero_true in Nz. cbn [snd] in Nz. exists [(fst p, f p)]. split; [|split; [apply canonical_one; auto|auto]]. destruct (f p) as [[]| | | | | | | | | |]; try reflexivity; congruence.
    - exists []. split; [|split; [apply canonical_nil|auto]]. unfold nonzero in Nz. cbn [snd] in Nz. destruct (f p) as [[]| | | | | | | | | |]; try discriminate Nz. reflexivity. }
  induction M as [|p M IH]; intros r Ne C H E A; [congruence|]. destruct (canonical_tail _ _ C) as (C' & Ab & Z & L). inversion H as [|? ? Hp H']; subst.
  destruct (One p L) as (A1 & E1 & C1 & S1 & Q1). destruct M as [|q M].
  - cbn [map keep_list] in E. rewrite Hp in E. apply Some_inj in E as <-. unfold A. cbn [map]. rewrite <- Q1. auto.
  - assert (E' : (a <- keep_comp (entry p) t ;; b <- keep_list F k t (map entry (q :: M)) ;; cadd F k a b) = Some r) by exact E. clear E.
    rewrite Hp in E'. destruct (keep_list F k t (map entry (q :: M))) as [s|] eqn:Es; [|discriminate].
    destruct (IH s ltac:(discriminate) C' H' eq_refl) as [S2 C2]. rewrite S2, E1 in E'.
    destruct (cadd_first F k A1 _ r (fst p) C1 C2 S1) with (2 := E') as [R1 R2].
    { clear -Ab. revert Ab. generalize (q :: M). intros l Ab. induction l as [|x l IHl]; [constructor|]. inversion Ab; subst. cbn [map filter]. destruct (nonzero _); [constructor; auto|auto]. }
    assert (EA : A = A1 ++ filter nonzero (map (fun p => (fst p, f p)) (q :: M))).
    { unfold A. rewrite Q1. cbn [map filter]. destruct (nonzero (fst p, f p)); reflexivity. }
    rewrite EA. auto.
Qed.
