(** Proofs about trivial copies between objects with compile-time blades. *)
From Coq Require Import NArith ZArith List Bool Reals Lra Lia Sorting.Sorted.
From Verif Require Import Bits Expr ExprBase Sem Wf SpecBits SpecMv MvBase Simp SimpProofs PresProofs SpecOrder OrderProofs
  GumProofs EvalC SpecEval EvalCProofs Comp Lazy SpecLazy LazyProofs LazyProofs2 Api SpecApi ApiProofs ForEach SpecUtil UtilProofs Copy.
Import ListNotations.
Local Open Scope R_scope.

(** The values of a list of entries. *)
Inductive reads : entries -> list R -> mv -> Prop :=
| r_nil : reads [] [] []
| r_sv k v M vs m : reads M vs m -> reads ((k, SV) :: M) (v :: vs) ((v, k) :: m)
| r_c k c v M vs m : c <> SV -> num no_env c v -> reads M vs m -> reads ((k, c) :: M) vs ((v, k) :: m).
Definition exact_entries (int : bool) (M : entries) : Prop := Forall (fun p => exact_const int (snd p) = true) M.
Lemma reads_blades M vs m : reads M vs m -> map snd m = map fst M.
Proof. induction 1; cbn [map fst snd]; congruence. Qed.
Lemma reads_scomps g int M vs m : exact_entries int M -> reads M vs m -> forall bs, scomps g (map entry M) (vs, bs) m ([], bs).
Proof.
  intros X H. induction H as [|k v M vs m H IH|k c v M vs m N Nu H IH]; intros bs; cbn [map scomps]; [reflexivity| |]; inversion X as [|? ? Xc X']; subst; cbn [snd] in Xc.
  - exists (vs, bs). split; [|auto]. exists (vs, bs). cbn [entry fst snd sread]. split; [reflexivity|]. split; [split; reflexivity|]. intros _. exact I.
  - exists (vs, bs). split; [|auto]. exists (vs, bs). cbn [entry fst snd]. split; [|split; [split; reflexivity|intros _; exact I]]. destruct (exact_shape _ _ Xc N) as [C W].
    rewrite sread_const; [|apply const_shape; exact C|apply const_no_blade; exact C]. f_equal. rewrite (const_sem g no_env c C). exact Nu.
Qed.
Lemma scomps_reads g int M : exact_entries int M -> forall vs bs m, scomps g (map entry M) (vs, bs) m ([], []) -> reads M vs m /\ bs = [].
Proof.
  induction M as [|[k c] M IH]; intros X vs bs [|[v j] m] D; try (destruct D; fail).
  - injection D as <- <-. split; [constructor|reflexivity].
  - destruct D as (s & (s1 & Rc & Rb & _) & Dl). inversion X as [|? ? Xc X']; subst. cbn [entry fst snd sblade] in *. destruct Rb as [-> ->]. destruct (sv_dec c) as [->|N].
    + cbn [sread fst snd] in Rc. destruct vs as [|w vs]; [discriminate|]. injection Rc as -> <-. destruct (IH X' _ _ _ Dl) as [R B]. split; [constructor; exact R|exact B].
    + destruct (exact_read g int c _ v s1 Xc N Rc) as [-> Nu]. destruct (IH X' _ _ _ Dl) as [R B]. split; [constructor; auto|exact B].
Qed.

Lemma eq_blade_ok x y : (x < 2 ^ 63)%N -> (y < 2 ^ 63)%N -> eq_blade (CBlade x) (CBlade y) = true <-> x = y.
Proof.
  intros X Y. unfold eq_blade. rewrite andb_true_iff, !negb_true_iff. rewrite <- !not_true_iff_false, !lt_blade by assumption. split.
  - intros [A B]. destruct (N.eq_dec x y) as [|N]; [auto|]. destruct (blade_total x y N); tauto.
  - intros ->. split; apply blade_lt_irrefl.
Qed.
Lemma blade_cases x y : (x < 2 ^ 63)%N -> (y < 2 ^ 63)%N ->
  (eq_blade (CBlade x) (CBlade y) = true /\ x = y) \/
  (eq_blade (CBlade x) (CBlade y) = false /\ lt (CBlade y) (CBlade x) = true /\ blade_lt y x) \/
  (eq_blade (CBlade x) (CBlade y) = false /\ lt (CBlade y) (CBlade x) = false /\ lt (CBlade x) (CBlade y) = true /\ blade_lt x y).
Proof.
  intros X Y. destruct (N.eq_dec x y) as [E|N].
  - left. split; [apply eq_blade_ok; auto|auto].
  - right. assert (E : eq_blade (CBlade x) (CBlade y) = false) by (apply not_true_iff_false; rewrite eq_blade_ok; auto). destruct (blade_total x y N) as [L|L].
    + right. split; [exact E|]. split; [|split; [apply lt_blade; auto|exact L]]. apply not_true_iff_false. rewrite lt_blade by assumption. intros L'. exact (blade_lt_irrefl _ (blade_lt_trans _ _ _ L L')).
    + left. split; [exact E|]. split; [apply lt_blade; auto|exact L].
Qed.
Notation comps M := (next_components (map entry M)).
Lemma zero_coef_ne k c M : c <> CV 0 -> (last_one (map entry M) && is_zero_coef (Comp c (CBlade k)))%bool = false.
Proof. intros H. rewrite andb_false_iff. right. destruct c as [[]| | | | | | | | | |]; try reflexivity. congruence. Qed.
Lemma assign_cases k c d h : assign_steps (Comp c (CBlade k)) (Comp d (CBlade k)) = Some h ->
  (c = SV /\ d = SV /\ h = [MoveV]) \/ (c <> SV /\ is_constant c = true /\ d = SV /\ h = [ConstV c]) \/ (c <> SV /\ d = c /\ h = []).
Proof.
  intros H. destruct (sv_dec c) as [->|N].
  - destruct d; cbn [assign_steps is_constant andb] in H; rewrite ?N.eqb_refl in H; cbn [andb expr_eqb] in H; try (discriminate H); try (rewrite ?andb_false_r in H; discriminate H). injection H as <-. auto.
  - right. destruct (sv_dec d) as [->|N'].
    + left. assert (E : assign_steps (Comp c (CBlade k)) (Comp SV (CBlade k)) = if N.eqb k k && is_constant c then Some [ConstV c] else None) by (destruct c; try reflexivity; congruence).
      rewrite E, N.eqb_refl in H. cbn [andb] in H. destruct (is_constant c); [|discriminate]. injection H as <-. auto.
    + right. assert (E : assign_steps (Comp c (CBlade k)) (Comp d (CBlade k)) = if N.eqb k k && expr_eqb c d && is_constant c then Some [] else None) by (destruct d; try (destruct c; reflexivity || congruence); congruence).
      rewrite E, N.eqb_refl in H. cbn [andb] in H. destruct (expr_eqb c d) eqn:Q; [|discriminate]. cbn [andb] in H. destruct (is_constant c); [|discriminate]. injection H as <-. apply expr_eqb_eq in Q. auto.
Qed.
Lemma zero_cases y h : zero_steps y = Some h -> forall d k, y = Comp d (CBlade k) -> d = SV /\ h = [ZeroV].
Proof. intros H d k ->. destruct d; try discriminate H. injection H as <-. auto. Qed.
Lemma check_cases y h : check_steps y = Some h -> forall d k, y = Comp d (CBlade k) -> d = SV /\ h = [CheckV].
Proof. intros H d k ->. destruct d; try discriminate H. injection H as <-. auto. Qed.

(** What one execution does. *)
Section Exec.
Variables (check : bool) (ia rint : bool) (tol : R).
Definition good_copy (M' : entries) (m : mv) (M : entries) (o : copied) : Prop :=
  match o with
  | NoCopy => existsb const_comp (map entry M) = true
  | Throws => check = true /\ exists p, In p m /\ ~ In (snd p) (map fst M') /\ tol < Rabs (fst p)
  | Copied vs' bs' => bs' = [] /\ exists m', reads M' vs' m' /\ (forall k, In k (map fst M') -> stored_as rint (coef m k) (coef m' k)) /\
      (forall p, In p m -> ~ In (snd p) (map fst M') -> check = true /\ Rabs (fst p) <= tol)
  end.
Lemma stored_zero : stored_as rint 0 0.
Proof. destruct rint; [|reflexivity]. split; [exists 0%Z; reflexivity|]. rewrite Rabs_R0. split; lra. Qed.
Lemma coef_head v k m : ~ In k (map snd m) -> coef ((v, k) :: m) k = v.
Proof. intros H. cbn [coef]. rewrite N.eqb_refl, coef_out by exact H. ring. Qed.
Lemma coef_other v k m j : k <> j -> coef ((v, k) :: m) j = coef m j.
Proof. intros H. cbn [coef]. destruct (N.eqb_spec k j); [congruence|]. ring. Qed.
Lemma above_out k (M : entries) : Forall (blade_lt k) (map fst M) -> ~ In k (map fst M).
Proof. intros H I. rewrite Forall_forall in H. exact (blade_lt_irrefl _ (H _ I)). Qed.
Lemma above_trans k l (M : entries) : blade_lt k l -> Forall (blade_lt l) (map fst M) -> Forall (blade_lt k) (map fst M).
Proof. intros L H. eapply Forall_impl; [|exact H]. intros j J. exact (blade_lt_trans _ _ _ L J). Qed.
Lemma good_zero l M' m M o : good_copy M' m M o -> ~ In l (map fst M') -> ~ In l (map snd m) -> good_copy ((l, SV) :: M') m M (put_v 0 o).
Proof.
  intros G N N2. destruct o as [vs bs| |]; cbn [put_v good_copy] in *.
  - destruct G as (-> & m' & R & E & U). split; [reflexivity|]. exists ((0, l) :: m'). split; [constructor; exact R|]. assert (N' : ~ In l (map snd m')) by (rewrite (reads_blades _ _ _ R); exact N). split.
    + intros k [<-|I]; cbn [fst] in *.
      * rewrite coef_head by exact N'. rewrite (coef_out m) by exact N2. exact stored_zero.
      * rewrite coef_other by (intros ->; contradiction). exact (E k I).
    + intros p I J. apply U; [exact I|]. intros K. apply J. right. exact K.
  - destruct G as (C & p & I & J & L). split; [exact C|]. exists p. split; [exact I|]. split; [|exact L]. intros [Q|K]; [|exact (J K)]. apply N2. cbn [fst] in Q. rewrite Q. apply in_map. exact I.
  - exact G.
Qed.
Lemma good_check k v M' m M o : good_copy M' m M o -> ~ In k (map fst M') -> check = true -> Rabs v <= tol -> good_copy M' ((v, k) :: m) ((k, SV) :: M) o.
Proof.
  intros G N Ch L. destruct o as [vs bs| |]; cbn [good_copy] in *.
  - destruct G as (-> & m' & R & E & U). split; [reflexivity|]. exists m'. split; [exact R|]. split.
    + intros j I. rewrite coef_other by (intros ->; contradiction). exact (E j I).
    + intros p [<-|I] J; [auto|]. exact (U p I J).
  - destruct G as (C & p & I & J & Lp). split; [exact C|]. exists p. split; [right; exact I|]. auto.
  - cbn [map existsb]. rewrite G. apply orb_true_r.
Qed.
Lemma good_both k c d v v' M' m M o o' : good_copy M' m M o -> ~ In k (map fst M') -> ~ In k (map snd m) -> stored_as rint v v' ->
  (forall vs m', reads M' vs m' -> exists vs', o' = match o with Copied _ bs => Copied vs' bs | _ => o end /\ (o = Copied vs [] -> reads ((k, d) :: M') vs' ((v', k) :: m'))) ->
  (match o with Copied _ _ => True | _ => o' = o end) ->
  good_copy ((k, d) :: M') ((v, k) :: m) ((k, c) :: M) o'.
Proof.
  intros G N N2 St P Q. destruct o as [vs bs| |]; cbn [good_copy] in G.
  - destruct G as (-> & m' & R & E & U). destruct (P _ _ R) as (vs' & -> & R'). specialize (R' eq_refl). cbn [good_copy]. split; [reflexivity|]. exists ((v', k) :: m'). split; [exact R'|]. assert (N' : ~ In k (map snd m')) by (rewrite (reads_blades _ _ _ R); exact N). split.
    + intros j [<-|I]; cbn [fst] in *.
      * rewrite !coef_head by assumption. exact St.
      * rewrite !coef_other by (intros ->; contradiction). exact (E j I).
    + intros p [<-|I] J; [exfalso; apply J; left; reflexivity|]. apply U; [exact I|]. intros K. apply J. right. exact K.
  - subst o'. destruct G as (C & p & I & J & L). split; [exact C|]. exists p. split; [right; exact I|]. split; [|exact L]. intros [X|K]; [|exact (J K)]. apply N2. cbn [fst] in X. rewrite X. apply in_map. exact I.
  - subst o'. cbn [good_copy map existsb]. rewrite G. apply orb_true_r.
Qed.
Lemma good_put k c v v' M' m M o : good_copy M' m M o -> ~ In k (map fst M') -> ~ In k (map snd m) -> stored_as rint v v' ->
  good_copy ((k, SV) :: M') ((v, k) :: m) ((k, c) :: M) (put_v v' o).
Proof.
  intros G N N2 St. destruct o as [vs0 bs0| |]; eapply good_both; try exact G; try exact N; try exact N2; try exact St; try exact I; try reflexivity.
  - intros vs m' R. exists (v' :: vs0). split; [reflexivity|]. intros [= -> ->]. constructor. exact R.
  - intros vs m' R. exists []. split; [reflexivity|discriminate].
  - intros vs m' R. exists []. split; [reflexivity|discriminate].
Qed.
Lemma good_const k d v M' m M o : good_copy M' m M o -> ~ In k (map fst M') -> ~ In k (map snd m) -> d <> SV -> num no_env d v -> stored_as rint v v ->
  good_copy ((k, d) :: M') ((v, k) :: m) ((k, d) :: M) o.
Proof.
  intros G N N2 Nd Nu St. destruct o as [vs0 bs0| |]; eapply good_both; try exact G; try exact N; try exact N2; try exact St; try exact I; try reflexivity.
  - intros vs m' R. exists vs0. split; [reflexivity|]. intros [= -> ->]. constructor; assumption.
  - intros vs m' R. exists []. split; [reflexivity|discriminate].
  - intros vs m' R. exists []. split; [reflexivity|discriminate].
Qed.
Lemma exact_same c v : exact_const rint c = true -> c <> SV -> num no_env c v -> stored_as rint v v.
Proof.
  intros X N Nu. destruct rint; [|reflexivity]. destruct c; try discriminate X; [|congruence]. injection Nu as <-.
  pose proof (cast_stored true (IZR z)) as H. rewrite (cast_int true (IZR z)) in H by (exists z; reflexivity). exact H.
Qed.
Lemma plan_step fuel c k xs d l ys : plan (S fuel) check (Comp c (CBlade k) :: xs) (Comp d (CBlade l) :: ys) =
    if eq_blade (CBlade k) (CBlade l) then
      h <- assign_steps (Comp c (CBlade k)) (Comp d (CBlade l)) ;;
      if last_one xs && last_one ys then Some h
      else t <- plan fuel check (next_components xs) (next_components ys) ;; Some (h ++ t)
    else if lt (CBlade l) (CBlade k) then
      if last_one ys && is_zero_coef (Comp d (CBlade l)) then
        if check then h <- check_steps (Comp c (CBlade k)) ;; t <- plan fuel check (next_components xs) (Comp d (CBlade l) :: ys) ;; Some (h ++ t) else None
      else h <- zero_steps (Comp d (CBlade l)) ;; t <- plan fuel check (Comp c (CBlade k) :: xs) (next_components ys) ;; Some (h ++ t)
    else if lt (CBlade k) (CBlade l) then
      if last_one xs && is_zero_coef (Comp c (CBlade k)) then
        h <- zero_steps (Comp d (CBlade l)) ;; t <- plan fuel check (Comp c (CBlade k) :: xs) (next_components ys) ;; Some (h ++ t)
      else if check then h <- check_steps (Comp c (CBlade k)) ;; t <- plan fuel check (next_components xs) (Comp d (CBlade l) :: ys) ;; Some (h ++ t) else None
    else None.
Proof. reflexivity. Qed.
Lemma good_nil : good_copy [] [] [] (Copied [] []).
Proof. split; [reflexivity|]. exists []. split; [constructor|]. split; [intros k []|intros p []]. Qed.
Lemma exec_one s t vs bs : execute rint tol ([s] ++ t) vs bs = execute rint tol (s :: t) vs bs.
Proof. reflexivity. Qed.

Lemma plan_ok : forall fuel M M' steps vs m, canonical M -> canonical M' -> exact_entries ia M -> exact_entries rint M' -> reads M vs m ->
  plan fuel check (comps M) (comps M') = Some steps -> good_copy M' m M (execute rint tol steps vs []).
Proof.
  induction fuel as [|fuel IH]; [intros M M' steps vs m _ _ _ _ _ H; discriminate H|]. intros M M' steps vs m CM CM' XM XM' R H. destruct M as [|[k c] M], M' as [|[l d] M'].
  - inversion R; subst. assert (E : plan (S fuel) check (comps []) (comps []) = Some []) by reflexivity. rewrite E in H. apply Some_inj in H. subst steps. exact good_nil.
  - inversion R; subst. destruct (canonical_tail _ _ CM') as (CT & AB & Nd & Ll). cbn [fst snd] in *. inversion XM' as [|? ? Xd XT]; subst.
    change (comps []) with ([Comp (CV 0) (CBlade 0)]) in H. change (comps ((l, d) :: M')) with (Comp d (CBlade l) :: map entry M') in H. rewrite plan_step in H.
    assert (IH' : forall t, plan fuel check (comps []) (comps M') = Some t -> good_copy M' [] [] (execute rint tol t [] [])) by (intros t Ht; apply (IH [] M' t [] []); auto).
    destruct (blade_cases 0 l) as [[B1 E]|[(B1 & B2 & E)|(B1 & B2 & B3 & E)]]; [reflexivity|exact Ll|rewrite B1 in H|rewrite B1, B2 in H|rewrite B1, B2, B3 in H].
    + subst l. destruct (assign_steps _ _) as [h|] eqn:A; [|discriminate]. destruct (assign_cases _ _ _ _ A) as [(Q & _)|[(_ & _ & -> & ->)|(_ & -> & _)]]; [discriminate| |congruence].
      assert (G : forall o, good_copy M' [] [] o -> good_copy ((0%N, SV) :: M') [] [] (put_v (cast rint 0) o)).
      { intros o G. rewrite cast_int by (exists 0%Z; reflexivity). apply good_zero; [exact G|apply above_out; exact AB|intros []]. }
      cbn [last_one andb] in H. destruct (last_one (map entry M')) eqn:L.
      * apply Some_inj in H. subst steps. destruct M'; [|discriminate L]. apply (G _ good_nil).
      * destruct (plan fuel _ _ _) as [t|] eqn:T; [|discriminate]. apply Some_inj in H. subst steps. rewrite exec_one. cbn [execute]. apply G. first [exact (IH' t T)|exact (IH' t eq_refl)].
    + rewrite (zero_coef_ne l d M' Nd) in H. destruct (zero_steps _) as [h|] eqn:Z; [|discriminate]. destruct (zero_cases _ _ Z _ _ eq_refl) as [-> ->].
      destruct (plan fuel _ _ _) as [t|] eqn:T; [|discriminate]. apply Some_inj in H. subst steps. rewrite exec_one. cbn [execute]. apply good_zero; [first [exact (IH' t T)|exact (IH' t eq_refl)]|apply above_out; exact AB|intros []].
    + cbn [last_one is_zero_coef andb] in H. destruct (zero_steps _) as [h|] eqn:Z; [|discriminate]. destruct (zero_cases _ _ Z _ _ eq_refl) as [-> ->].
      destruct (plan fuel _ _ _) as [t|] eqn:T; [|discriminate]. apply Some_inj in H. subst steps. rewrite exec_one. cbn [execute]. apply good_zero; [first [exact (IH' t T)|exact (IH' t eq_refl)]|apply above_out; exact AB|intros []].
  - destruct (canonical_tail _ _ CM) as (CT & AA & Nc & Lk). cbn [fst snd] in *. inversion XM as [|? ? Xc XT]; subst.
    change (comps []) with ([Comp (CV 0) (CBlade 0)]) in H. change (comps ((k, c) :: M)) with (Comp c (CBlade k) :: map entry M) in H. rewrite plan_step in H.
    assert (F : forall h, check_steps (Comp c (CBlade k)) = Some h -> (if check then t <- plan fuel check (comps M) [Comp (CV 0) (CBlade 0)] ;; Some (h ++ t) else None) = Some steps -> good_copy [] m ((k, c) :: M) (execute rint tol steps vs [])).
    { intros h Hh Q. destruct (check_cases _ _ Hh _ _ eq_refl) as [-> ->]. destruct check eqn:Ch; [|discriminate]. destruct (plan fuel _ _ _) as [t|] eqn:T; [|discriminate]. apply Some_inj in Q. subst steps. inversion R as [|? v ? vs1 m1 R1|]; subst; [|congruence].
      rewrite exec_one. cbn [execute]. destruct (Rlt_dec tol (Rabs v)) as [L|L].
      - split; [exact Ch|]. exists (v, k). split; [left; reflexivity|]. split; [intros []|exact L].
      - apply good_check; [apply (IH M [] t vs1 m1); auto|intros []|exact Ch|lra]. }
    destruct (blade_cases k 0) as [[B1 E]|[(B1 & B2 & E)|(B1 & B2 & B3 & E)]]; [exact Lk|reflexivity|rewrite B1 in H|rewrite B1, B2 in H|rewrite B1, B2, B3 in H].
    + subst k. destruct (assign_steps _ _) as [h|] eqn:A; [|discriminate]. destruct (assign_cases _ _ _ _ A) as [(_ & Q & _)|[(_ & _ & Q & _)|(_ & Q & _)]]; try discriminate Q. congruence.
    + cbn [last_one is_zero_coef andb] in H. destruct check eqn:Ch; [|discriminate]. destruct (check_steps _) as [h|] eqn:K; [|discriminate]. exact (F h eq_refl H).
    + rewrite (zero_coef_ne k c M Nc) in H. destruct check eqn:Ch; [|discriminate]. destruct (check_steps _) as [h|] eqn:K; [|discriminate]. exact (F h eq_refl H).
  - destruct (canonical_tail _ _ CM) as (CT & AA & Nc & Lk). destruct (canonical_tail _ _ CM') as (CT' & AB & Nd & Ll). cbn [fst snd] in *. inversion XM as [|? ? Xc XT]; subst. inversion XM' as [|? ? Xd XT']; subst. cbn [snd] in *.
    change (comps ((k, c) :: M)) with (Comp c (CBlade k) :: map entry M) in H. change (comps ((l, d) :: M')) with (Comp d (CBlade l) :: map entry M') in H. rewrite plan_step in H.
    destruct (blade_cases k l) as [[B1 E]|[(B1 & B2 & E)|(B1 & B2 & B3 & E)]]; [exact Lk|exact Ll|rewrite B1 in H|rewrite B1, B2 in H|rewrite B1, B2, B3 in H].
    + subst l. destruct (assign_steps _ _) as [h|] eqn:A; [|discriminate].
      assert (T : exists t, steps = h ++ t /\ forall vs1 m1, reads M vs1 m1 -> good_copy M' m1 M (execute rint tol t vs1 [])).
      { destruct (last_one (map entry M) && last_one (map entry M'))%bool eqn:L.
        - apply Some_inj in H. exists []. split; [rewrite app_nil_r; auto|]. apply andb_prop in L. destruct L as [L1 L2]. destruct M; [|discriminate L1]. destruct M'; [|discriminate L2]. intros vs1 m1 R1. inversion R1; subst. exact good_nil.
        - destruct (plan fuel _ _ _) as [t|] eqn:T; [|discriminate]. apply Some_inj in H. exists t. split; [auto|]. intros vs1 m1 R1. apply (IH M M' t vs1 m1); auto. }
      destruct T as (t & -> & T). clear H. pose proof (above_out _ _ AA) as NA. pose proof (above_out _ _ AB) as NB.
      destruct (assign_cases _ _ _ _ A) as [(-> & -> & ->)|[(Nsv & _ & -> & ->)|(Nsv & -> & ->)]].
      * inversion R as [|? v ? vs1 m1 R1|]; subst; [|congruence]. rewrite exec_one. cbn [execute]. apply good_put; [exact (T vs1 m1 R1)|exact NB|rewrite (reads_blades _ _ _ R1); exact NA|apply cast_stored].
      * inversion R as [|? v ? vs1 m1 R1|? ? v ? ? m1 Nc' Nu R1]; subst; [congruence|]. rewrite exec_one. cbn [execute]. destruct (exact_eval ia c v Xc Nsv Nu) as [[-> Q]|[-> _]].
        -- cbn [good_copy map existsb]. apply orb_true_iff. left. cbn [entry fst snd const_comp]. rewrite Q. destruct c; try reflexivity; congruence.
        -- apply good_put; [exact (T vs m1 R1)|exact NB|rewrite (reads_blades _ _ _ R1); exact NA|apply cast_stored].
      * inversion R as [|? v ? vs1 m1 R1|? ? v ? ? m1 Nc' Nu R1]; subst; [congruence|]. cbn [app]. apply good_const; [exact (T vs m1 R1)|exact NB|rewrite (reads_blades _ _ _ R1); exact NA|exact Nsv|exact Nu|]. exact (exact_same c v Xd Nsv Nu).
    + rewrite (zero_coef_ne l d M' Nd) in H. destruct (zero_steps _) as [h|] eqn:Z; [|discriminate]. destruct (zero_cases _ _ Z _ _ eq_refl) as [-> ->].
      destruct (plan fuel _ _ _) as [t|] eqn:T; [|discriminate]. apply Some_inj in H. subst steps. rewrite exec_one. cbn [execute]. apply good_zero; [apply (IH ((k, c) :: M) M' t vs m); auto|apply above_out; exact AB|].
      rewrite (reads_blades _ _ _ R). cbn [map fst]. intros [Q|Q]; [subst; exact (blade_lt_irrefl _ E)|]. apply (above_out l M); [exact (above_trans _ _ _ E AA)|exact Q].
    + rewrite (zero_coef_ne k c M Nc) in H. destruct check eqn:Ch; [|discriminate]. destruct (check_steps _) as [h|] eqn:K; [|discriminate]. destruct (check_cases _ _ K _ _ eq_refl) as [-> ->].
      destruct (plan fuel _ _ _) as [t|] eqn:T; [|discriminate]. apply Some_inj in H. subst steps. inversion R as [|? v ? vs1 m1 R1|]; subst; [|congruence].
      assert (NK : ~ In k (map fst ((l, d) :: M'))). { cbn [map fst]. intros [Q|Q]; [subst; exact (blade_lt_irrefl _ E)|]. apply (above_out k M'); [exact (above_trans _ _ _ E AB)|exact Q]. }
      rewrite exec_one. cbn [execute]. destruct (Rlt_dec tol (Rabs v)) as [L|L].
      * split; [exact Ch|]. exists (v, k). split; [left; reflexivity|]. split; [exact NK|exact L].
      * apply good_check; [apply (IH M ((l, d) :: M') t vs1 m1); auto|exact NK|exact Ch|lra].
Qed.
End Exec.

(** *** Copies between objects *)
Lemma entries_comps M : components (mv_of M) = comps M.
Proof. destruct M as [|p M]; [reflexivity|]. rewrite components_mv. reflexivity. Qed.
Lemma exact_of int M : Forall (fun e => exact_comp int e = true) (components (mv_of M)) -> exact_entries int M.
Proof. rewrite entries_comps. destruct M as [|p M]; [constructor|]. intros H. apply Forall_map in H. eapply Forall_impl; [|exact H]. intros [k c] Hc. exact Hc. Qed.
Lemma names_mv M k : names_blade (mv_of M) k <-> In k (map fst M) \/ M = [] /\ k = 0%N.
Proof.
  unfold names_blade. rewrite entries_comps. destruct M as [|p M].
  - split; [intros [c [[= _ <-]|[]]]; right; auto|intros [[]|[_ ->]]; exists (CV 0); left; reflexivity].
  - split.
    + intros [c I]. left. cbn [next_components] in I. apply in_map_iff in I. destruct I as ([j d] & X & I). injection X as <- <-. change j with (fst (j, d)). apply in_map. exact I.
    + intros [I|[Q _]]; [|discriminate]. apply in_map_iff in I. destruct I as ([j d] & <- & I). exists d. apply in_map_iff. exists (j, d). auto.
Qed.
Lemma value_reads K n a m M : object K n a -> cexpr a = mv_of M -> Forall (fun e => exact_comp (cint a) e = true) (components (cexpr a)) -> value a m ->
  exists m0, reads M (cvals a) m0 /\ cbits a = [] /\ meq m0 m /\ NoDup (map snd m0) /\ (cint a = true -> Forall (fun p => isint (fst p)) m0).
Proof.
  intros O E HF V. destruct (object_parts n K a m O HF V) as (m1 & CV & Q & ND). assert (IV : cint a = true -> Forall (fun p => isint (fst p)) m1).
  { intros I. destruct O as (? & _ & _ & [WS _] & _). apply (value_ints no_env (cint a) (components (cexpr a)) (cvals a, cbits a) m1 ([], [])); [exact I|exact HF|exact (WS I)|exact (CV no_env)]. }
  specialize (CV no_env). rewrite E in *. rewrite entries_comps in CV. destruct M as [|p M].
  - destruct m1 as [|[v j] [|]]; [destruct CV| |destruct CV as (? & _ & [])]. destruct CV as (s1 & (s & Rc & [Rb1 Rb2] & _) & D). change (([], []) = s1) in D. subst s1. cbn [fst snd] in *. change ((Some (VN 0), (cvals a, cbits a)) = (Some (VN v), s)) in Rc. injection Rc as <- <-. injection D as Hs1 Hs2. symmetry in Hs1, Hs2.
    exists []. rewrite Hs1, Hs2. split; [constructor|]. split; [reflexivity|]. split; [|split; [constructor|constructor]]. intros k. rewrite <- (Q k). cbn [coef]. destruct (_ =? _)%N; ring.
  - apply exact_of in HF. destruct (scomps_reads no_env (cint a) (p :: M) HF _ _ _ CV) as [R B]. exists m1. auto.
Qed.
Lemma reads_value int M vs m : exact_entries int M -> reads M vs m -> value {| cexpr := mv_of M; cint := int; cvals := vs; cbits := [] |} m.
Proof.
  intros X R g. cbn [value_in]. unfold value_in. cbn [cexpr cvals cbits]. rewrite entries_comps. destruct M as [|p M].
  - inversion R; subst. exists [(0, 0%N)]. split; [|intros k; cbn [coef]; destruct (_ =? _)%N; ring]. exists ([], []). split; [|reflexivity]. exists ([], []). split; [reflexivity|]. split; [split; reflexivity|]. intros _. exact I.
  - exists m. split; [|intros k; reflexivity]. apply (reads_scomps g int (p :: M) vs m X R).
Qed.
Lemma stored_refl a m k : (cint a = true -> Forall (fun p => isint (fst p)) m) -> NoDup (map snd m) -> stored_as (cint a) (coef m k) (coef m k).
Proof.
  intros H ND. destruct (cint a); [|reflexivity]. assert (I : isint (coef m k)).
  { destruct (in_dec N.eq_dec k (map snd m)) as [I|I]; [|rewrite coef_out by exact I; exists 0%Z; reflexivity]. apply in_map_iff in I. destruct I as (p & <- & I). rewrite coef_in by assumption. specialize (H eq_refl). rewrite Forall_forall in H. exact (H p I). }
  pose proof (cast_stored true (coef m k)) as C. rewrite (cast_int true _ I) in C. exact C.
Qed.
Lemma blade_zero j : ~ blade_lt j 0.
Proof. intros [H|[_ H]]; [|lia]. change (grade_of 0) with 0%N in H. lia. Qed.
Lemma no_scalar check fuel M steps : canonical M -> plan fuel check (comps M) (comps []) = Some steps -> ~ In 0%N (map fst M).
Proof.
  intros CM P I. destruct M as [|[j c] M]; [destruct I|]. apply canonical_tail in CM. destruct CM as (_ & A & Nc & _). cbn [fst snd] in *. cbn [map fst] in I. destruct I as [->|I].
  - change (comps ((0%N, c) :: M)) with (Comp c (CBlade 0) :: map entry M) in P. change (comps []) with ([Comp (CV 0) (CBlade 0)]) in P.
    destruct fuel; [discriminate|]. rewrite plan_step in P. assert (B : eq_blade (CBlade 0) (CBlade 0) = true) by reflexivity. rewrite B in P. destruct (assign_steps _ _) as [h|] eqn:E; [|discriminate].
    destruct (assign_cases _ _ _ _ E) as [(_ & X & _)|[(_ & _ & X & _)|(_ & X & _)]]; try discriminate X. congruence.
  - rewrite Forall_forall in A. exact (blade_zero _ (A _ I)).
Qed.
Theorem copy_ok K K' n n' check tol a r m o : object K n a -> object K' n' r ->
  Forall (fun e => exact_comp (cint a) e = true) (components (cexpr a)) -> Forall (fun e => exact_comp (cint r) e = true) (components (cexpr r)) ->
  value a m -> 0 <= tol -> copy_into check tol a r = Some o ->
  (o = CopyBad /\ existsb const_comp (components (cexpr a)) = true) \/
  (o = CopyThrows /\ check = true /\ exists k, ~ names_blade (cexpr r) k /\ tol < Rabs (coef m k)) \/
  (exists r', o = CopyDone r' /\ cexpr r' = cexpr r /\ cint r' = cint r /\ exists m', value r' m' /\
     (forall k, names_blade (cexpr r) k -> stored_as (cint r) (coef m k) (coef m' k)) /\
     (forall k, ~ names_blade (cexpr r) k -> coef m' k = 0 /\ (coef m k = 0 \/ check = true /\ Rabs (coef m k) <= tol))).
Proof.
  intros Oa Or Xa Xr V T H. destruct Oa as (M & EM & CM & WS & HM). destruct Or as (M' & EM' & CM' & WS' & HM').
  assert (Oa : object K n a) by (exists M; auto). destruct (value_reads K n a m M Oa EM Xa V) as (m0 & R & EB & Q & ND & IV).
  unfold copy_into in H. destruct (expr_eqb (cexpr a) (cexpr r) && Bool.eqb (cint a) (cint r))%bool eqn:S.
  - apply Some_inj in H. subst o. right. right. apply andb_prop in S. destruct S as [S1 S2]. apply expr_eqb_eq in S1. apply eqb_prop in S2. exists a. split; [reflexivity|]. split; [exact S1|]. split; [exact S2|]. exists m. split; [exact V|]. split.
    + intros k _. rewrite <- S2, <- (Q k). apply stored_refl; assumption.
    + intros k Nk. assert (Z : coef m k = 0); [|auto]. rewrite <- (Q k). apply coef_out. rewrite (reads_blades _ _ _ R). intros I. apply Nk. rewrite <- S1, EM. apply names_mv. left. exact I.
  - change (comps_of (cexpr a)) with (components (cexpr a)) in H. change (comps_of (cexpr r)) with (components (cexpr r)) in H. rewrite EM, EM', EB in *. pose proof Xa as Xa1. pose proof Xr as Xr1. apply exact_of in Xa. apply exact_of in Xr. rewrite !entries_comps in H.
    destruct (plan _ check _ _) as [steps|] eqn:P; [|discriminate]. apply Some_inj in H.
    pose proof (plan_ok check (cint a) (cint r) (cast (cint a) tol) _ M M' steps (cvals a) m0 CM CM' Xa Xr R P) as G.
    assert (CT : forall p, In p m0 -> (Rabs (fst p) <= cast (cint a) tol <-> Rabs (fst p) <= tol)).
    { intros p I. destruct (cint a) eqn:Ei; [|reflexivity]. cbn [cast]. apply le_truncate; [|exact T]. specialize (IV eq_refl). rewrite Forall_forall in IV. exact (IV p I). }
    destruct (execute _ _ _ _ _) as [vs bs| |]; cbn [good_copy] in G.
    + right. right. destruct G as (-> & m' & R' & E & U). subst o. eexists. split; [reflexivity|]. cbn [cexpr cint]. split; [reflexivity|]. split; [reflexivity|]. exists m'. split; [apply reads_value; assumption|]. split.
      * intros k [I|[-> ->]]%names_mv; [rewrite <- (Q k); exact (E k I)|]. inversion R'; subst. rewrite <- (Q 0%N). rewrite coef_out; [apply stored_zero|]. rewrite (reads_blades _ _ _ R). exact (no_scalar _ _ M _ CM P).
      * intros k Nk. assert (Nk' : ~ In k (map fst M')) by (intros I; apply Nk, names_mv; left; exact I). split; [apply coef_out; rewrite (reads_blades _ _ _ R'); exact Nk'|]. rewrite <- (Q k).
        destruct (in_dec N.eq_dec k (map snd m0)) as [I|I]; [right|left; apply coef_out; exact I]. apply in_map_iff in I. destruct I as (p & <- & I). rewrite (coef_in m0 p ND I). destruct (U p I Nk') as [C L]. split; [exact C|]. apply CT; assumption.
    + right. left. subst o. split; [reflexivity|]. destruct G as (C & p & I & J & L). split; [exact C|]. exists (snd p). rewrite <- (Q (snd p)), (coef_in m0 p ND I). assert (L' : tol < Rabs (fst p)) by (apply Rnot_le_lt; intros X; apply (CT p I) in X; lra). split; [|exact L'].
      intros [X|[X1 X2]]%names_mv; [exact (J X)|]. subst M'. apply (no_scalar _ _ M _ CM P). rewrite <- X2, <- (reads_blades _ _ _ R). apply in_map. exact I.
    + left. subst o. split; [reflexivity|]. rewrite entries_comps. destruct M; exact G || discriminate G.
Qed.

(** *** Which copies compile *)
Lemma plan_some check : forall fuel M M', (length M + length M' < fuel)%nat -> canonical M -> canonical M' -> Forall (fun p => snd p = SV) M' ->
  Forall (fun p => snd p = SV \/ is_constant (snd p) = true) M -> (forall p, In p M -> ~ In (fst p) (map fst M') -> snd p = SV /\ check = true) ->
  (M' = [] -> ~ In 0%N (map fst M)) -> exists steps, plan fuel check (comps M) (comps M') = Some steps.
Proof.
  induction fuel as [|fuel IH]; [lia|]. intros M M' L CM CM' S' S U Z. destruct M as [|[k c] M], M' as [|[l d] M'].
  - exists []. reflexivity.
  - destruct (canonical_tail _ _ CM') as (CT & AB & Nd & Ll). cbn [fst snd] in *. inversion S' as [|? ? Sd ST]; subst. cbn [snd] in Sd. subst d. cbn [length] in L.
    destruct (IH [] M') as [t Ht]; [cbn [length]; lia|exact CM|exact CT|exact ST|constructor|intros p []|intros _ []|].
    change (comps []) with ([Comp (CV 0) (CBlade 0)]) in *. change (comps ((l, SV) :: M')) with (Comp SV (CBlade l) :: map entry M'). rewrite plan_step.
    destruct (blade_cases 0 l) as [[B1 E]|[(B1 & B2 & E)|(B1 & B2 & B3 & E)]]; [reflexivity|exact Ll|rewrite B1|destruct (blade_zero _ E)|rewrite B1, B2, B3].
    + subst l. change (assign_steps (Comp (CV 0) (CBlade 0)) (Comp SV (CBlade 0))) with (Some [ConstV (CV 0)]). cbn [last_one andb]. destruct (last_one (map entry M')); [eexists; reflexivity|]. change (next_components []) with ([Comp (CV 0) (CBlade 0)]). rewrite Ht. eexists. reflexivity.
    + cbn [last_one is_zero_coef andb zero_steps]. rewrite Ht. eexists. reflexivity.
  - destruct (canonical_tail _ _ CM) as (CT & AA & Nc & Lk). cbn [fst snd] in *. inversion S as [|? ? Sc ST]; subst. destruct (U (k, c) (or_introl eq_refl)) as [Sv Ch]; [intros []|]. cbn [snd] in Sv. subst c check. cbn [length] in L.
    destruct (IH M []) as [t Ht]; [cbn [length]; lia|exact CT|exact CM'|constructor|exact ST|intros p I; apply U; right; exact I|intros _ I; apply (Z eq_refl); right; exact I|].
    change (comps []) with ([Comp (CV 0) (CBlade 0)]) in *. change (comps ((k, SV) :: M)) with (Comp SV (CBlade k) :: map entry M). rewrite plan_step.
    destruct (blade_cases k 0) as [[B1 E]|[(B1 & B2 & E)|(B1 & B2 & B3 & E)]]; [exact Lk|reflexivity|subst k; exfalso; apply (Z eq_refl); left; reflexivity|rewrite B1, B2|destruct (blade_zero _ E)].
    cbn [last_one is_zero_coef andb check_steps]. rewrite Ht. eexists. reflexivity.
  - destruct (canonical_tail _ _ CM) as (CT & AA & Nc & Lk). destruct (canonical_tail _ _ CM') as (CT' & AB & Nd & Ll). cbn [fst snd] in *. inversion S as [|? ? Sc ST]; subst. inversion S' as [|? ? Sd ST']; subst. cbn [snd] in *. subst d. cbn [length] in L.
    pose proof (above_out _ _ AA) as NA. pose proof (above_out _ _ AB) as NB.
    change (comps ((k, c) :: M)) with (Comp c (CBlade k) :: map entry M). change (comps ((l, SV) :: M')) with (Comp SV (CBlade l) :: map entry M'). rewrite plan_step.
    assert (NZ : forall j, Forall (blade_lt j) (map fst M) -> ~ In 0%N (map fst M)) by (intros j A I; rewrite Forall_forall in A; exact (blade_zero _ (A _ I))).
    destruct (blade_cases k l) as [[B1 E]|[(B1 & B2 & E)|(B1 & B2 & B3 & E)]]; [exact Lk|exact Ll|rewrite B1|rewrite B1, B2|rewrite B1, B2, B3].
    + subst l. assert (A : exists h, assign_steps (Comp c (CBlade k)) (Comp SV (CBlade k)) = Some h).
      { destruct (sv_dec c) as [->|Ns]; [cbn [assign_steps]; rewrite N.eqb_refl; eexists; reflexivity|]. destruct Sc as [Sc|Sc]; [congruence|]. destruct c; try congruence; cbn [assign_steps]; rewrite N.eqb_refl, Sc; eexists; reflexivity. }
      destruct A as [h ->]. destruct (last_one (map entry M) && last_one (map entry M'))%bool; [eexists; reflexivity|].
      destruct (IH M M') as [t Ht]; [lia|exact CT|exact CT'|exact ST'|exact ST| |intros _; exact (NZ k AA)|rewrite Ht; eexists; reflexivity].
      intros p I J. apply U; [right; exact I|]. cbn [map fst]. intros [X|X]; [|exact (J X)]. apply NA. rewrite X. apply in_map. exact I.
    + rewrite (zero_coef_ne l SV M') by discriminate. cbn [zero_steps]. destruct (IH ((k, c) :: M) M') as [t Ht]; [cbn [length]; lia|exact CM|exact CT'|exact ST'|exact S| | |change (comps ((k, c) :: M)) with (Comp c (CBlade k) :: map entry M) in Ht; rewrite Ht; eexists; reflexivity].
      * intros p I J. apply U; [exact I|]. cbn [map fst]. intros [X|X]; [|exact (J X)]. destruct I as [<-|I]; cbn [fst] in X; [subst; exact (blade_lt_irrefl _ E)|]. apply (above_out l M); [exact (above_trans _ _ _ E AA)|]. rewrite X. apply in_map. exact I.
      * intros _ [X|X]; cbn [fst] in X; [subst k; exact (blade_zero _ E)|exact (NZ k AA X)].
    + rewrite (zero_coef_ne k c M Nc). destruct (U (k, c) (or_introl eq_refl)) as [Sv ->].
      { cbn [map fst]. intros [X|X]; [subst; exact (blade_lt_irrefl _ E)|]. apply (above_out k M'); [exact (above_trans _ _ _ E AB)|exact X]. }
      cbn [snd] in Sv. subst c. cbn [check_steps]. destruct (IH M ((l, SV) :: M')) as [t Ht]; [cbn [length]; lia|exact CT|exact CM'|exact S'|exact ST|intros p I; apply U; right; exact I|discriminate|].
      change (comps ((l, SV) :: M')) with (Comp SV (CBlade l) :: map entry M') in Ht. rewrite Ht. eexists. reflexivity.
Qed.
Theorem copy_compiles K K' n n' check tol a r : object K n a -> object K' n' r -> (forall c, K c = true -> is_constant c = true) ->
  all_stored (cexpr r) -> (check = true -> all_stored (cexpr a)) -> (check = false -> forall k, names_blade (cexpr a) k -> names_blade (cexpr r) k) ->
  exists o, copy_into check tol a r = Some o.
Proof.
  intros (M & EM & CM & _ & HM) (M' & EM' & CM' & _ & HM') HK Sr Sa Sub. unfold copy_into. destruct (_ && _)%bool; [eexists; reflexivity|].
  assert (NE : M' <> []). { intros ->. rewrite EM' in Sr. destruct (Sr _ (or_introl eq_refl)) as [b Hb]. discriminate Hb. }
  change (comps_of (cexpr a)) with (components (cexpr a)). change (comps_of (cexpr r)) with (components (cexpr r)). rewrite EM, EM', !entries_comps in *.
  assert (L : forall A, (length A <= length (comps A))%nat) by (intros [|p A]; cbn [map next_components length]; rewrite ?map_length; lia).
  assert (AS : forall A, A <> [] -> all_stored (mv_of A) -> Forall (fun p => snd p = SV) A).
  { intros A NA H. apply Forall_forall. intros [k c] I. destruct (H (Comp c (CBlade k))) as [b Hb]; [|injection Hb as -> _; reflexivity]. rewrite entries_comps. destruct A; [congruence|]. apply in_map_iff. exists (k, c). auto. }
  destruct (plan_some check (2 * (length (comps M) + length (comps M'))) M M') as [t Ht]; [ |exact CM|exact CM'|exact (AS _ NE Sr)| | |intros X; congruence|rewrite Ht; eexists; reflexivity].
  - pose proof (L M). pose proof (L M'). destruct M'; [congruence|]. cbn [length] in *. lia.
  - eapply Forall_impl; [|exact HM]. intros p [_ [H|[H _]]]; [left; exact H|right; exact (HK _ H)].
  - intros p I J. destruct check eqn:Ch.
    + split; [|reflexivity]. assert (F : M <> []) by (intros ->; destruct I). specialize (AS M F (Sa eq_refl)). rewrite Forall_forall in AS. exact (AS p I).
    + exfalso. specialize (Sub eq_refl (fst p)). rewrite !names_mv in Sub. destruct Sub as [X|[X _]]; [left; apply in_map; exact I|exact (J X)|congruence].
Qed.
