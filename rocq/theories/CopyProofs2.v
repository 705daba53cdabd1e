(** Proofs about trivial copies between objects with run-time blades. *)
From Coq Require Import NArith ZArith List Bool Reals Lra Lia.
From Verif Require Import Bits Expr ExprBase Sem Wf SpecBits SpecMv MvBase Simp SpecOrder
  GumProofs EvalC SpecEval EvalCProofs Comp Lazy SpecLazy Api SpecApi ForEach SpecUtil UtilProofs Copy CopyProofs SpecCopy.
Import ListNotations.
Local Open Scope R_scope.

Section Exec.
Variables (check rint : bool) (tol : R) (g : env).
Hypothesis (T0 : 0 <= tol).
Definition prepend (va : list R) (ba : list N) (o : copied) : copied :=
  match o with Copied vs bs => Copied (va ++ vs) (ba ++ bs) | o => o end.
Lemma stored_nonzero v v' : stored_as rint v v' -> v' <> 0 -> v <> 0.
Proof. unfold stored_as. destruct rint; [|intros ->; auto]. intros (_ & [L _] & _) N ->. rewrite Rabs_R0 in L. pose proof (Rabs_pos_lt v' N). lra. Qed.
Lemma land_declared p q k : N.land p q = p -> N.testbit p k = true -> N.testbit q k = true.
Proof. intros H Hk. rewrite <- H, N.land_spec in Hk. apply andb_prop in Hk. tauto. Qed.
Lemma assign_ok x y h vs bs p vs1 bs1 : plain_comp x = true -> plain_comp y = true -> assign_steps x y = Some h -> scomp g x (vs, bs) p (vs1, bs1) ->
  exists va ba v', stored_as rint (fst p) v' /\ (forall t, execute rint tol (h ++ t) vs bs = prepend va ba (execute rint tol t vs1 bs1)) /\
    forall vs' bs', scomp g y (va ++ vs', ba ++ bs') (v', snd p) (vs', bs').
Proof.
  intros Px Py H D. destruct x as [| | | | | | | | |c bx|]; try discriminate Px. destruct y as [| | | | | | | | |d by_|]; try discriminate Py. destruct p as [v k]. destruct D as ([vs2 bs2] & Rc & Rb & G). cbn [fst snd] in *.
  assert (Z : forall z : Z, stored_as rint (IZR z) (IZR z)) by (intros z; pose proof (cast_stored rint (IZR z)) as S; rewrite cast_int in S by (exists z; reflexivity); exact S).
  destruct bx as [| | | | | | |b|pg x| |]; try discriminate Px; [|destruct x; try discriminate Px]; (destruct by_ as [| | | | | | |b'|qg y| |]; try discriminate Py; [|destruct y; try discriminate Py]).
  - destruct Rb as [-> E]. injection E as <- <-.
    assert (F : forall w, stored_as rint v w -> scomp g (Comp SV (CBlade b')) ([w], []) (w, b') ([], [])) by (intros w Hw; exists ([], []); split; [reflexivity|split; [split; reflexivity|intros _; exact I]]).
    destruct c; try discriminate Px; destruct d; try discriminate Py; cbn [assign_steps is_constant andb expr_eqb] in H; destruct (N.eqb b b') eqn:Eb; cbn [andb] in H; try discriminate H; apply N.eqb_eq in Eb; subst b'; cbn [sread] in Rc.
    + destruct (Z.eqb z z0) eqn:Ez; cbn [andb] in H; [|discriminate H]. apply Some_inj in H. subst h. apply Z.eqb_eq in Ez. subst z0. injection Rc as <- <- <-. exists [], [], (IZR z). split; [apply Z|]. split; [intros t; cbn [app]; destruct (execute _ _ _ _ _); reflexivity|].
      intros vs' bs'. exists (vs', bs'). split; [reflexivity|]. split; [split; reflexivity|intros _; exact I].
    + apply Some_inj in H. subst h. injection Rc as <- <- <-. exists [cast rint (IZR z)], [], (cast rint (IZR z)). split; [apply cast_stored|]. split; [intros t; reflexivity|]. intros vs' bs'. exists (vs', bs'). split; [reflexivity|]. split; [split; reflexivity|intros _; exact I].
    + apply Some_inj in H. subst h. cbn [fst] in Rc. destruct vs as [|w vs]; [discriminate Rc|]. injection Rc as <- <- <-. exists [cast rint w], [], (cast rint w). split; [apply cast_stored|]. split; [intros t; reflexivity|]. intros vs' bs'. exists (vs', bs'). split; [reflexivity|]. split; [split; reflexivity|intros _; exact I].
  - exfalso. destruct c; try discriminate Px; destruct d; discriminate H || discriminate Py.
  - exfalso. destruct c; try discriminate Px; destruct d; discriminate H || discriminate Py.
  - destruct Rb as [Rb Lk]. cbn [sread snd fst] in Rb. destruct bs2 as [|b bs2]; [discriminate Rb|]. injection Rb as <- <- <-. cbn [grade_declared] in G.
    assert (L : N.land pg qg = pg) by (destruct c; try discriminate Px; destruct d; try discriminate Py; cbn [assign_steps] in H; destruct (N.eqb (N.land pg qg) pg) eqn:E; try discriminate H; apply N.eqb_eq; exact E).
    assert (GD : forall w, stored_as rint v w -> w <> 0 -> grade_declared (DBlade qg SBits) b) by (intros w Hw Nw; cbn [grade_declared]; exact (land_declared pg qg _ L (G (stored_nonzero v w Hw Nw)))).
    destruct c; try discriminate Px; destruct d; try discriminate Py; cbn [assign_steps is_constant andb expr_eqb] in H; rewrite L, N.eqb_refl in H; cbn [andb] in H; try discriminate H; cbn [sread] in Rc.
    + destruct (Z.eqb z z0) eqn:Ez; cbn [andb] in H; [|discriminate H]. apply Some_inj in H. subst h. apply Z.eqb_eq in Ez. subst z0. injection Rc as <- <- Eb; subst bs. exists [], [b], (IZR z). split; [apply Z|]. split; [intros t; reflexivity|].
      intros vs' bs'. exists (vs', b :: bs'). split; [reflexivity|]. split; [split; [reflexivity|exact Lk]|]. apply GD, Z.
    + apply Some_inj in H. subst h. injection Rc as <- <- Eb; subst bs. exists [cast rint (IZR z)], [b], (cast rint (IZR z)). split; [apply cast_stored|]. split; [intros t; cbn [app execute eval_const]; cbn; destruct (execute _ _ _ _ _); reflexivity|].
      intros vs' bs'. exists (vs', b :: bs'). split; [reflexivity|]. split; [split; [reflexivity|exact Lk]|]. apply GD, cast_stored.
    + apply Some_inj in H. subst h. cbn [fst] in Rc. destruct vs as [|w vs]; [discriminate Rc|]. injection Rc as <- <- Eb; subst bs. exists [cast rint w], [b], (cast rint w). split; [apply cast_stored|]. split; [intros t; cbn [app execute]; destruct (execute _ _ _ _ _); reflexivity|].
      intros vs' bs'. exists (vs', b :: bs'). split; [reflexivity|]. split; [split; [reflexivity|exact Lk]|]. apply GD, cast_stored.
Qed.
Lemma zero_ok y h : plain_comp y = true -> zero_steps y = Some h ->
  exists va ba k, (forall t vs bs, execute rint tol (h ++ t) vs bs = prepend va ba (execute rint tol t vs bs)) /\ forall vs' bs', scomp g y (va ++ vs', ba ++ bs') (0, k) (vs', bs').
Proof.
  intros Py H. destruct y as [| | | | | | | | |d by_|]; try discriminate Py. destruct by_ as [| | | | | | |b'|qg y| |]; try discriminate Py; [|destruct y; try discriminate Py]; destruct d; try discriminate H; apply Some_inj in H; subst h.
  - exists [0], [], b'. split; [reflexivity|]. intros vs' bs'. exists (vs', bs'). split; [reflexivity|]. split; [split; reflexivity|intros _; exact I].
  - exists [0], [0%N], 0%N. split; [intros t vs bs; cbn [app execute]; destruct (execute _ _ _ _ _); reflexivity|]. intros vs' bs'. exists (vs', 0%N :: bs'). split; [reflexivity|]. split; [split; reflexivity|]. intros Q. cbn [fst] in Q. congruence.
Qed.
Lemma check_ok x h vs bs p vs1 bs1 : plain_comp x = true -> check_steps x = Some h -> scomp g x (vs, bs) p (vs1, bs1) ->
  forall t, execute rint tol (h ++ t) vs bs = if Rlt_dec tol (Rabs (fst p)) then Throws else execute rint tol t vs1 bs1.
Proof.
  intros Px H D t. destruct x as [| | | | | | | | |c bx|]; try discriminate Px. destruct p as [v k]. destruct D as ([vs2 bs2] & Rc & Rb & G). cbn [fst snd] in *.
  destruct bx as [| | | | | | |b|pg x| |]; try discriminate Px; [|destruct x; try discriminate Px]; destruct c; try discriminate H; apply Some_inj in H; subst h; cbn [sread fst] in Rc; (destruct vs as [|w vs]; [discriminate Rc|]); injection Rc as <- <- <-.
  - destruct Rb as [_ E]. injection E as <- <-. reflexivity.
  - destruct Rb as [Rb _]. cbn [sread snd fst] in Rb. destruct bs as [|b bs]; [discriminate Rb|]. injection Rb as _ <- <-. reflexivity.
Qed.
Notation carry := (carried check rint tol).
Lemma carried_zero k m1 : carry [(0, k)] m1 -> meq m1 [].
Proof.
  intros H. inversion H as [|? v' ? ? m2 S C|? ? ? ? _ _ C]; subst; inversion C; subst; [|intros j; reflexivity]. intros j. cbn [coef]. assert (E : v' = 0).
  { unfold stored_as in S. destruct rint; [|exact S]. destruct S as (_ & [L _] & _). rewrite Rabs_R0 in L. destruct (Req_dec v' 0) as [|N]; [auto|]. pose proof (Rabs_pos_lt v' N). lra. }
  rewrite E. destruct (N.eqb k j); lra.
Qed.
Lemma next_source xs s m s' : scomps g xs s m s' -> exists m2, scomps g (next_components xs) s m2 s' /\
  (forall m1, carry m2 m1 -> exists m1', carry m m1' /\ meq m1 m1') /\ (forall p, In p m2 -> tol < Rabs (fst p) -> In p m).
Proof.
  intros D. destruct xs as [|x xs]; [|exists m; split; [exact D|split; [intros m1 C; exists m1; split; [exact C|intros k; reflexivity]|auto]]].
  destruct m as [|]; [|destruct D]. cbn [scomps] in D. subst s'. exists [(0, 0%N)]. split; [exists s; split; [exists s; split; [reflexivity|split; [split; reflexivity|intros _; exact I]]|reflexivity]|]. split.
  - intros m1 C. exists []. split; [constructor|exact (carried_zero 0 m1 C)].
  - intros p [<-|[]] L. cbn [fst] in L. rewrite Rabs_R0 in L. lra.
Qed.
Lemma next_target ys s m s' : scomps g (next_components ys) s m s' -> exists m0, scomps g ys s m0 s' /\ meq m0 m.
Proof.
  intros D. destruct ys as [|y ys]; [|exists m; split; [exact D|intros k; reflexivity]]. cbn [next_components] in D. destruct m as [|[v k] [|]]; try (destruct D as (? & ? & []); fail); try destruct D.
  destruct H as [(s1 & Rc & Rb & _) E]. cbn [scomps] in E. subst x. cbn [no_component sread fst snd sblade] in *. injection Rc as <- <-. destruct Rb as [-> ->]. exists []. split; [reflexivity|]. intros j. cbn [coef]. destruct (N.eqb 0 j); lra.
Qed.
Lemma plain_next l : Forall (fun e => plain_comp e = true) l -> Forall (fun e => plain_comp e = true) (next_components l).
Proof. destruct l; intros H; [repeat constructor|exact H]. Qed.
(** What a copy of components does. *)
Definition done (ys : list expr) (m : mv) (o : copied) : Prop :=
  match o with
  | Copied vs bs => exists m1 m', carry m m1 /\ scomps g ys (vs, bs) m' ([], []) /\ meq m' m1
  | Throws => check = true /\ exists p, In p m /\ tol < Rabs (fst p)
  | NoCopy => False
  end.
Lemma done_zero y ys m o va ba k : done (next_components ys) m o -> (forall vs' bs', scomp g y (va ++ vs', ba ++ bs') (0, k) (vs', bs')) -> done (y :: ys) m (prepend va ba o).
Proof.
  intros H Z. destruct o as [vs bs| |]; [|exact H|exact H]. destruct H as (m1 & m' & C & D & Q). apply next_target in D. destruct D as (m0 & D & Q0). exists m1, ((0, k) :: m0). split; [exact C|]. split; [exists (vs, bs); split; [apply Z|exact D]|].
  intros j. cbn [coef]. rewrite (Q0 j), (Q j). destruct (N.eqb k j); lra.
Qed.
Lemma plan_keeps : forall fuel xs ys steps vs bs m, Forall (fun e => plain_comp e = true) xs -> Forall (fun e => plain_comp e = true) ys ->
  scomps g xs (vs, bs) m ([], []) -> plan fuel check xs ys = Some steps -> done ys m (execute rint tol steps vs bs).
Proof.
  induction fuel as [|fuel IH]; [intros xs ys steps vs bs m _ _ _ H; discriminate H|]. intros xs ys steps vs bs m HX HY D H.
  destruct xs as [|x xs]; [discriminate H|]. destruct ys as [|y ys]; [destruct x; discriminate H|]. inversion HX as [|? ? Px HX']; subst. inversion HY as [|? ? Py HY']; subst.
  destruct m as [|p m]; [destruct D|]. pose proof D as D0. destruct D as ([vs1 bs1] & Dx & Dl).
  assert (KC : forall h, check = true -> check_steps x = Some h -> forall t, plan fuel check (next_components xs) (y :: ys) = Some t -> done (y :: ys) (p :: m) (execute rint tol (h ++ t) vs bs)).
  { intros h Ch Hh t Ht. rewrite (check_ok x h vs bs p vs1 bs1 Px Hh Dx t). destruct (next_source _ _ _ _ Dl) as (m2 & D2 & C2 & T2). pose proof (IH _ _ t vs1 bs1 m2 (plain_next xs HX') HY D2 Ht) as G.
    destruct (Rlt_dec tol (Rabs (fst p))) as [L|L]; [split; [exact Ch|exists p; split; [left; reflexivity|exact L]]|]. destruct (execute rint tol t vs1 bs1) as [vs' bs'| |]; [|destruct G as (G1 & q & G2 & G3); split; [exact G1|exists q; split; [right; exact (T2 q G2 G3)|exact G3]]|exact G].
    destruct G as (m1 & m' & C & D' & Q). destruct (C2 m1 C) as (m3 & C3 & Q3). exists m3, m'. split; [destruct p; apply c_drop; [exact Ch|cbn [fst] in L; lra|exact C3]|]. split; [exact D'|]. intros j. rewrite (Q j). apply Q3. }
  assert (KZ : forall h, zero_steps y = Some h -> forall t, plan fuel check (x :: xs) (next_components ys) = Some t -> done (y :: ys) (p :: m) (execute rint tol (h ++ t) vs bs)).
  { intros h Hh t Ht. destruct (zero_ok y h Py Hh) as (va & ba & k & E & Z). rewrite E. apply (done_zero y ys (p :: m) _ va ba k); [|exact Z]. exact (IH _ _ t vs bs (p :: m) HX (plain_next ys HY') D0 Ht). }
  destruct x as [| | | | | | | | |c bx|]; try discriminate Px. destruct y as [| | | | | | | | |d by_|]; try discriminate Py. cbn [plan] in H.
  destruct (eq_blade bx by_).
  - destruct (assign_steps _ _) as [h|] eqn:A; [|discriminate H]. destruct (assign_ok _ _ h vs bs p vs1 bs1 Px Py A Dx) as (va & ba & v' & S & E & Z).
    assert (G : exists t, steps = h ++ t /\ done ys m (execute rint tol t vs1 bs1)).
    { destruct (last_one xs && last_one ys)%bool eqn:L.
      - apply Some_inj in H. exists []. split; [rewrite app_nil_r; auto|]. apply andb_prop in L. destruct L as [L1 L2]. destruct xs; [|discriminate L1]. destruct ys; [|discriminate L2]. destruct m; [|destruct Dl]. cbn [scomps] in Dl. injection Dl as <- <-. exists [], []. split; [constructor|]. split; [reflexivity|intros k; reflexivity].
      - destruct (plan fuel _ _ _) as [t|] eqn:T; [|discriminate H]. apply Some_inj in H. exists t. split; [auto|]. destruct (next_source _ _ _ _ Dl) as (m2 & D2 & C2 & T2).
        pose proof (IH _ _ t vs1 bs1 m2 (plain_next xs HX') (plain_next ys HY') D2 T) as G. destruct (execute rint tol t vs1 bs1) as [vs' bs'| |]; [|destruct G as (G1 & q & G2 & G3); split; [exact G1|exists q; split; [exact (T2 q G2 G3)|exact G3]]|exact G].
        destruct G as (m1 & m' & C & D' & Q). destruct (C2 m1 C) as (m3 & C3 & Q3). apply next_target in D'. destruct D' as (m0 & D' & Q0). exists m3, m0. split; [exact C3|]. split; [exact D'|]. intros j. rewrite (Q0 j), (Q j). apply Q3. }
    destruct G as (t & -> & G). rewrite E. destruct (execute rint tol t vs1 bs1) as [vs' bs'| |]; [|destruct G as (G1 & q & G2 & G3); split; [exact G1|exists q; split; [right; exact G2|exact G3]]|exact G].
    destruct G as (m1 & m' & C & D' & Q). destruct p as [v k]. exists ((v', k) :: m1), ((v', k) :: m'). split; [apply c_keep; [exact S|exact C]|]. split; [exists (vs', bs'); split; [exact (Z vs' bs')|exact D']|]. intros j. cbn [coef]. rewrite (Q j). reflexivity.
  - destruct (lt by_ bx); [|destruct (lt bx by_); [|discriminate H]].
    + destruct (last_one ys && is_zero_coef (Comp d by_))%bool.
      * destruct check eqn:Ch; [|discriminate H]. destruct (check_steps _) as [h|] eqn:Hh; [|discriminate H]. destruct (plan fuel _ _ _) as [t|] eqn:T; [|discriminate H]. apply Some_inj in H. subst steps. first [exact (KC h eq_refl eq_refl t T)|exact (KC h eq_refl eq_refl t eq_refl)].
      * destruct (zero_steps _) as [h|] eqn:Hh; [|discriminate H]. destruct (plan fuel _ _ _) as [t|] eqn:T; [|discriminate H]. apply Some_inj in H. subst steps. first [exact (KZ h eq_refl t T)|exact (KZ h eq_refl t eq_refl)].
    + destruct (last_one xs && is_zero_coef (Comp c bx))%bool.
      * destruct (zero_steps _) as [h|] eqn:Hh; [|discriminate H]. destruct (plan fuel _ _ _) as [t|] eqn:T; [|discriminate H]. apply Some_inj in H. subst steps. first [exact (KZ h eq_refl t T)|exact (KZ h eq_refl t eq_refl)].
      * destruct check eqn:Ch; [|discriminate H]. destruct (check_steps _) as [h|] eqn:Hh; [|discriminate H]. destruct (plan fuel _ _ _) as [t|] eqn:T; [|discriminate H]. apply Some_inj in H. subst steps. first [exact (KC h eq_refl eq_refl t T)|exact (KC h eq_refl eq_refl t eq_refl)].
Qed.
End Exec.

Lemma plain_exact int e : plain_comp e = true -> exact_comp int e = true.
Proof. destruct e as [| | | | | | | | |c b|]; try discriminate. destruct b as [| | | | | | |b|pg x| |]; try discriminate; [|destruct x; try discriminate]; destruct c; try discriminate; reflexivity. Qed.
Lemma carried_tol check int t t' m m1 : (forall p, In p m -> Rabs (fst p) <= t -> Rabs (fst p) <= t') -> carried check int t m m1 -> carried check int t' m m1.
Proof.
  intros H C. revert H. induction C as [|v v' k m m1 S C IH|v k m m1 Ch L C IH]; intros H; [constructor|apply c_keep; [exact S|apply IH; intros p I; apply H; right; exact I]|apply c_drop; [exact Ch|exact (H (v, k) (or_introl eq_refl) L)|apply IH; intros p I; apply H; right; exact I]].
Qed.
Theorem runtime_copy check tol a r m o : plain_object a -> plain_object r -> component_values a m -> 0 <= tol -> copy_into check tol a r = Some o ->
  (check = true /\ o = CopyThrows /\ exists p, In p m /\ tol < Rabs (fst p)) \/
  (exists r' m1, o = CopyDone r' /\ cexpr r' = cexpr r /\ cint r' = cint r /\ carried check (cint r) tol m m1 /\ value r' m1).
Proof.
  intros [Pa Ia] [Pr Ir] V T H. assert (FA : Forall (fun e => plain_comp e = true) (components (cexpr a))) by (apply Forall_forall; intros e I; rewrite forallb_forall in Pa; exact (Pa e I)). assert (FR : Forall (fun e => plain_comp e = true) (components (cexpr r))) by (apply Forall_forall; intros e I; rewrite forallb_forall in Pr; exact (Pr e I)).
  assert (XA : Forall (fun e => exact_comp (cint a) e = true) (components (cexpr a))) by (eapply Forall_impl; [|exact FA]; intros e; apply plain_exact). assert (XR : Forall (fun e => exact_comp (cint r) e = true) (components (cexpr r))) by (eapply Forall_impl; [|exact FR]; intros e; apply plain_exact).
  assert (IV : cint a = true -> Forall (fun p => isint (fst p)) m) by (intros E; exact (value_ints no_env (cint a) _ (cvals a, cbits a) _ _ E XA (Ia E) (V no_env))).
  unfold copy_into in H. destruct (expr_eqb (cexpr a) (cexpr r) && Bool.eqb (cint a) (cint r))%bool eqn:S.
  - apply Some_inj in H. subst o. right. apply andb_prop in S. destruct S as [S1 S2]. apply expr_eqb_eq in S1. apply eqb_prop in S2. exists a, m. split; [reflexivity|]. split; [exact S1|]. split; [exact S2|]. split; [|intros g; exists m; split; [apply V|intros k; reflexivity]].
    rewrite <- S2. clear - IV. induction m as [|[v k] m IH]; [constructor|]. apply c_keep; [|apply IH; intros E; specialize (IV E); inversion IV; assumption]. destruct (cint a) eqn:E; [|reflexivity]. specialize (IV eq_refl). inversion IV as [|? ? I _]; subst. pose proof (cast_stored true v) as C. rewrite cast_int in C by exact I. exact C.
  - change (comps_of (cexpr a)) with (components (cexpr a)) in H. change (comps_of (cexpr r)) with (components (cexpr r)) in H. destruct (plan _ check _ _) as [steps|] eqn:P; [|discriminate H]. apply Some_inj in H.
    assert (CT : forall p, In p m -> (Rabs (fst p) <= cast (cint a) tol <-> Rabs (fst p) <= tol)).
    { intros p I. destruct (cint a) eqn:Ei; [|reflexivity]. cbn [cast]. apply le_truncate; [|exact T]. specialize (IV eq_refl). rewrite Forall_forall in IV. exact (IV p I). }
    assert (CP : 0 <= cast (cint a) tol). { destruct (cint a); [|exact T]. cbn [cast]. rewrite <- Rabs_R0. apply le_truncate; [exists 0%Z; reflexivity|exact T|rewrite Rabs_R0; exact T]. }
    pose proof (plan_keeps check (cint r) (cast (cint a) tol) no_env CP _ _ _ steps (cvals a) (cbits a) m FA FR (V no_env) P) as G. destruct (execute _ _ _ _ _) as [vs bs| |]; cbn [done] in G.
    + right. subst o. destruct G as (m1 & m' & C & D & Q). eexists. exists m1. split; [reflexivity|]. cbn [cexpr cint]. split; [reflexivity|]. split; [reflexivity|]. split; [exact (carried_tol _ _ _ _ _ _ (fun p I L => proj1 (CT p I) L) C)|].
      intros g. exists m'. split; [exact (scomps_any no_env g (cint r) _ _ _ _ XR D)|exact Q].
    + left. subst o. destruct G as (C & p & I & L). split; [exact C|]. split; [reflexivity|]. exists p. split; [exact I|]. apply Rnot_le_lt. intros X. apply (CT p I) in X. lra.
    + destruct G.
Qed.
