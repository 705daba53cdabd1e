(** Sign changes by grade: reversion, involution, conjugation. *)
From Coq Require Import NArith ZArith List Bool Reals Lra Lia Setoid Morphisms.
From Verif Require Import Bits SpecBits BitsBase BitsOnes BitsProofs Expr ExprBase Sem Wf SpecMv MvBase RPowProofs Simp SimpProofs SimpProofs2 SmartProofs.
From Verif Require Import Comp CompProofs CompProofs2 GradeProofs MappingProofs.
Import ListNotations.
Local Open Scope R_scope.

Definition flip (p : N) (a : N) : mv := [(if N.testbit p (grade_of a) then -1 else 1, a)].

Lemma land_bit p k : (k < 64)%N -> N.eqb (N.land p (wrap (N.shiftl 1 k))) 0 = negb (N.testbit p k).
Proof.
  intros H. replace (wrap (N.shiftl 1 k)) with (2 ^ k)%N by (symmetry; apply (bit_pow k H)).
  destruct (N.testbit p k) eqn:T; cbn [negb].
  - apply N.eqb_neq. intros E. assert (Q : N.testbit (N.land p (2 ^ k)) k = true) by (rewrite N.land_spec, T, N.pow2_bits_true; reflexivity).
    rewrite E, N.bits_0 in Q. discriminate.
  - apply N.eqb_eq. apply N.bits_inj. intros i. rewrite N.land_spec, N.pow2_bits_eqb, N.bits_0. destruct (N.eqb_spec k i) as [<-|]; [rewrite T|]; auto using andb_false_r.
Qed.
Lemma meq_flip v i p : meq [(if N.testbit p (grade_of i) then -1 * v else v, i)] (linear (flip p) [(v, i)]).
Proof.
  unfold linear, flip. cbn [flat_map fst snd scale map app]. apply meq_sumf. intros h. cbn [sumf]. destruct (N.testbit p (grade_of i)); lra.
Qed.
Lemma Some_inj {A} (x y : A) : Some x = Some y -> x = y. Proof. congruence. Qed.
Definition gum_spec (p : N) (e r : expr) : Prop :=
  mv_ok r = true /\
  forall g m n, den g e m -> (n <= 63)%N -> in_space n m -> exists mr, den g r mr /\ meq mr (linear (flip p) m) /\ in_space n mr.

Lemma gum1_ok F p e r : (p < 2 ^ 64)%N -> comp_ok e = true -> gum1 F p e = Some r -> gum_spec p e r.
Proof.
  intros Hp Ok. apply comp_ok_iff in Ok as (c & b & -> & Wc & Wb). unfold gum1.
  assert (Gr : forall i n, (n <= 63)%N -> (i < 2 ^ n)%N -> (grade_of i < 64)%N).
  { intros i n Hn Hi. pose proof (grade_le i n ltac:(lia) Hi). lia. }
  assert (Same : (forall g v i n, dcomp g (Comp c b) (v, i) -> (n <= 63)%N -> (i < 2 ^ n)%N -> v <> 0 -> N.testbit p (grade_of i) = false) -> gum_spec p (Comp c b) (Comp c b)).
  { intros H. split; [apply mv_ok_comp; auto|]. intros g m n (q & Q1 & Q2) Hn I. subst m. destruct q as [v i]. exists [(v, i)]. split; [exists (v, i); auto|]. split; [|exact I].
    rewrite <- meq_flip. destruct (Req_EM_T v 0) as [->|Nz].
    - apply meq_sumf. intros h. cbn [sumf]. destruct (N.testbit p (grade_of i)); lra.
    - inversion I; subst. rewrite (H g v i n Q1 Hn H2 Nz). reflexivity. }
  destruct (eng F OMul (CV (-1)) c) as [m|] eqn:Em; [|destruct b; discriminate].
  destruct (s_mul _ (eng_ok F) (CV (-1)) c m eq_refl Wc Em) as [Wm Vm].
  destruct b as [| | | | | | |b|pg x| |]; try discriminate.
  - intros E. apply Some_inj in E as <-. assert (Ones : ones b = grade_of b) by (apply ones_correct; cbn [blade_ok] in Wb; apply N.ltb_lt; exact Wb).
    rewrite Ones. destruct (N.eqb (N.land p (wrap (N.shiftl 1 (grade_of b)))) 0) eqn:T.
    + apply Same. intros g v i n (D1 & D2 & _) Hn Hi _. cbn in D2. subst i. rewrite land_bit in T by (eapply Gr; eauto). destruct (N.testbit p (grade_of b)); [discriminate|reflexivity].
    + destruct (component_t_den m (CBlade b) _ Wm Wb eq_refl) as [K1 K2]. split; [exact K1|].
      intros g ml n (q & Q1 & Q2) Hn I. subst ml. destruct q as [v i]. destruct Q1 as (D1 & D2 & D3). cbn [fst snd] in *.
      destruct (K2 g (-1 * v, i)) as (mr & R1 & R2 & R3).
      { split; [apply Vm; [apply num_cv|exact D1]|]. split; [exact D2|]. intros _. exact Logic.I. }
      exists mr. split; [exact R1|]. split; [|apply R3; inversion I; subst; constructor; auto].
      rewrite R2, <- meq_flip. cbn in D2. inversion I; subst. rewrite land_bit in T by (eapply Gr; eauto). destruct (N.testbit p (grade_of b)); [reflexivity|discriminate].
  - destruct (mk_shl (CBits 1) (mk_count x)) as [s|] eqn:Es; [|discriminate]. intros E. apply Some_inj in E as <-.
    destruct (N.eqb (N.land pg p) 0) eqn:T.
    + apply Same. intros g v i n (D1 & D2 & D3) Hn Hi Nz. cbn [fst snd grade_declared] in D3. specialize (D3 Nz).
      apply N.eqb_eq in T. assert (Q : N.testbit (N.land pg p) (grade_of i) = false) by (rewrite T; apply N.bits_0). rewrite N.land_spec, D3 in Q. exact Q.
    + assert (Wb' := Wb). cbn [blade_ok] in Wb'. apply andb_true_iff in Wb' as [W1 W2]. apply andb_true_iff in W1 as [Wx Nx]. apply negb_true_iff in Nx.
      assert (Bx : bexp x) by (left; exact Nx).
      destruct (mk_count_shape x Bx) as [(b & -> & _)|[Ec Nc]]; [discriminate|]. rewrite Ec in Es. cbn [mk_shl] in Es. injection Es as <-.
      set (s := Fn NShl [CBits 1; Fn NCount [x]]). assert (Bs : bexp s) by (left; cbn; rewrite Nx; reflexivity).
      assert (Ws : wf s = true) by (apply wf_fn2; [discriminate|discriminate|discriminate|reflexivity|cbn; rewrite Wx; reflexivity]).
      assert (Wp : wf (CBits p) = true) by (apply N.ltb_lt; exact Hp). assert (Bp : bexp (CBits p)) by (right; eauto).
      destruct (mk_and_bexp (CBits p) s Bp Bs Wp Ws) as [Ba Wa].
      pose proof (mk_if_wf _ c m (mk_equal_wf _ (CBits 0) Wa eq_refl) Wc Wm) as Wi.
      destruct (component_t_den _ (DBlade pg x) _ Wi Wb eq_refl) as [K1 K2]. split; [exact K1|].
      intros g ml n (q & Q1 & Q2) Hn I. subst ml. destruct q as [v i]. destruct Q1 as (D1 & D2 & D3). cbn [fst snd] in *.
      inversion I as [|? ? Hi _]; subst. cbn [snd] in Hi. pose proof (Gr _ _ Hn Hi) as G64.
      assert (Ss : isbits g s (wrap (N.shiftl 1 (grade_of i)))).
      { unfold isbits, s. cbn [sem map fn_sem]. cbn [dblade] in D2. rewrite D2. rewrite Zof_IZR.
        replace (_ && _)%bool with true; [rewrite N2Z.id; reflexivity|]. symmetry. apply andb_true_iff. split; [apply Z.leb_le|apply Z.ltb_lt]; lia. }
      assert (Sp : isbits g (CBits p) p) by reflexivity.
      pose proof (equal_bits g _ (CBits 0) _ _ Ba (or_intror (ex_intro _ 0%N eq_refl)) (and_bits _ _ _ _ _ Sp Ss) eq_refl) as E. rewrite land_bit in E by exact G64.
      destruct (K2 g (if N.testbit p (grade_of i) then -1 * v else v, i)) as (mr & R1 & R2 & R3).
      { split; [|split; [exact D2|]]; cbn [fst snd].
        - apply (if_num _ _ _ _ _ _ E). destruct (N.testbit p (grade_of i)); cbn [negb]; [apply Vm; [apply num_cv|exact D1]|exact D1].
        - intros Nz. apply D3. intros ->. apply Nz. destruct (N.testbit p (grade_of i)); lra. }
      exists mr. split; [exact R1|]. split; [rewrite R2; apply meq_flip|apply R3; constructor; auto].
Qed.
Lemma gum_list_ok F k p : (p < 2 ^ 64)%N -> forall l r, forallb comp_ok l = true -> gum_list F k p l = Some r ->
  mv_ok r = true /\
  forall g m n, Forall2 (dcomp g) l m -> (n <= 63)%N -> in_space n m -> exists mr, den g r mr /\ meq mr (linear (flip p) m) /\ in_space n mr.
Proof.
  intros Hp. induction l as [|e l IH]; intros r Ok H; [discriminate|]. cbn [forallb] in Ok. apply andb_true_iff in Ok as [Oe Ol].
  assert (Ce : exists c b, e = Comp c b) by (apply comp_ok_iff in Oe as (c & b & -> & _); eauto). destruct Ce as (c & b & ->).
  destruct l as [|e' l'].
  - cbn [gum_list] in H. destruct (gum1_ok F p _ r Hp Oe H) as [K1 K2]. split; [exact K1|]. intros g m n D Hn I.
    inversion D as [|? q ? ? Dq D']; subst. inversion D'; subst. apply (K2 g [q] n); auto. exists q. auto.
  - remember (e' :: l') as l eqn:El. assert (H' : (h <- gum1 F p (Comp c b) ;; t <- gum_list F k p l ;; cadd F k h t) = Some r) by (rewrite El in H |- *; exact H).
    clear H. destruct (gum1 F p (Comp c b)) as [h|] eqn:Eh; [|discriminate]. destruct (gum_list F k p l) as [t|] eqn:Et; [|discriminate].
    destruct (gum1_ok F p _ h Hp Oe Eh) as [K1 K2]. destruct (IH t Ol eq_refl) as [T1 T2]. destruct (cadd_ok F k _ _ _ K1 T1 H') as [R1 R2].
    split; [exact R1|]. intros g m n D Hn I. inversion D as [|? q ? m' Dq D']; subst. apply in_space_cons in I as [I1 I2].
    destruct (K2 g [q] n) as (ma & A1 & A2 & A3); auto. { exists q. auto. }
    destruct (T2 g m' n D' Hn I2) as (mb & B1 & B2 & B3). destruct (R2 g ma mb A1 B1) as (mr & C1 & C2 & C3). exists mr. split; [exact C1|]. split; [|auto].
    rewrite C2, A2, B2. rewrite <- linear_app. apply linear_meq; [reflexivity|]. symmetry. apply meq_cons_app.
Qed.
Theorem gum_ok F k p e r : (p < 2 ^ 64)%N -> mv_ok e = true -> gum F k p e = Some r -> gum_spec p e r.
Proof.
  intros Hp Ok H. destruct (gum_list_ok F k p Hp _ _ (proj1 (mv_ok_comps _ Ok)) H) as [A B]. split; [exact A|].
  intros g m n D. apply B. apply den_iff. exact D.
Qed.

Definition below64 (f : N -> bool) : bool := forallb f (map N.of_nat (seq 0 64)).
Lemma below64_ok f k : below64 f = true -> (k < 64)%N -> f k = true.
Proof.
  intros H Hk. unfold below64 in H. rewrite forallb_forall in H. apply H. apply in_map_iff. exists (N.to_nat k). split; [lia|apply in_seq; lia].
Qed.
Lemma flip_inv a : (grade_of a < 64)%N -> flip involute_pattern a = inv_blade a.
Proof.
  intros H. unfold flip, inv_blade. pose proof (below64_ok (fun k => Bool.eqb (N.testbit involute_pattern k) (N.odd k)) _ eq_refl H) as E.
  apply eqb_prop in E. rewrite E. reflexivity.
Qed.
Lemma flip_rev a : (grade_of a < 64)%N -> flip reverse_pattern a = rev_blade a.
Proof.
  intros H. unfold flip, rev_blade. pose proof (below64_ok (fun k => Bool.eqb (N.testbit reverse_pattern k) (N.odd (k * (k - 1) / 2))) _ eq_refl H) as E.
  apply eqb_prop in E. rewrite E. reflexivity.
Qed.
Lemma flip_conj a : (grade_of a < 64)%N -> flip conjugate_pattern a = conj_blade a.
Proof.
  intros H. unfold flip, conj_blade. pose proof (below64_ok (fun k => Bool.eqb (N.testbit conjugate_pattern k) (N.odd (k * (k + 1) / 2))) _ eq_refl H) as E.
  apply eqb_prop in E. rewrite E. reflexivity.
Qed.
Lemma linear_ext_in f f' m : (forall i, In i (map snd m) -> f i = f' i) -> linear f m = linear f' m.
Proof.
  induction m as [|p m IH]; intros H; [reflexivity|]. unfold linear in *. cbn [flat_map]. rewrite (H (snd p)) by (left; reflexivity).
  rewrite IH; [reflexivity|]. intros i Hi. apply H. right. exact Hi.
Qed.
(** The unary operation [f] of a multivector expression computes the linear map [l]. *)
Definition unary_ok (f : expr -> option expr) (l : N -> mv) : Prop :=
  forall e r, mv_ok e = true -> f e = Some r ->
  mv_ok r = true /\
  forall g m n, den g e m -> (n <= 63)%N -> in_space n m -> exists mr, den g r mr /\ meq mr (linear l m) /\ in_space n mr.
Lemma gum_unary F k p l : (p < 2 ^ 64)%N -> (forall a, (grade_of a < 64)%N -> flip p a = l a) -> unary_ok (gum F k p) l.
Proof.
  intros Hp H e r Ok E. destruct (gum_ok F k p e r Hp Ok E) as [A B]. split; [exact A|]. intros g m n D Hn I.
  destruct (B g m n D Hn I) as (mr & R1 & R2 & R3). exists mr. split; [exact R1|]. split; [|exact R3]. rewrite R2.
  rewrite (linear_ext_in (flip p) l m); [reflexivity|]. intros i Hi. apply H. apply in_map_iff in Hi as (q & <- & Hq).
  unfold in_space in I. rewrite Forall_forall in I. specialize (I q Hq). pose proof (grade_le _ n ltac:(lia) I). lia.
Qed.
Theorem involute_ok F k : unary_ok (gum F k involute_pattern) inv_blade. Proof. apply gum_unary; [reflexivity|exact flip_inv]. Qed.
Theorem reverse_ok F k : unary_ok (gum F k reverse_pattern) rev_blade. Proof. apply gum_unary; [reflexivity|exact flip_rev]. Qed.
Theorem conjugate_ok F k : unary_ok (gum F k conjugate_pattern) conj_blade. Proof. apply gum_unary; [reflexivity|exact flip_conj]. Qed.
