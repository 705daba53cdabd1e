(** Soundness of the addition and product of multivector expressions. *)
From Coq Require Import NArith ZArith List Bool Reals Lra Lia Setoid Morphisms.
From Verif Require Import Bits SpecBits Expr ExprBase Sem Wf SpecMv MvBase Simp SimpProofs SimpProofs2 Comp.
Import ListNotations.
Local Open Scope R_scope.

Definition blade_ok (b : expr) : bool :=
  match b with
  | CBlade b => N.ltb b (2 ^ 64)
  | DBlade pg x => wf x && negb (is_constant x) && N.ltb pg (2 ^ 64)
  | _ => false
  end.
Lemma comp_ok_iff e : comp_ok e = true <-> exists c b, e = Comp c b /\ wf c = true /\ blade_ok b = true.
Proof.
  split.
  - intros H. destruct e as [| | | | | | | | |c b|]; try discriminate. exists c, b. split; [reflexivity|].
    destruct b; try discriminate; cbn [comp_ok blade_ok] in *; rewrite !andb_true_iff in *; tauto.
  - intros (c & b & -> & Hc & Hb). destruct b; try discriminate; cbn [comp_ok blade_ok] in *; rewrite !andb_true_iff in *; tauto.
Qed.
Lemma comp_ok_comp c b : comp_ok (Comp c b) = true <-> wf c = true /\ blade_ok b = true.
Proof.
  rewrite comp_ok_iff. split; [intros (c' & b' & [= <- <-] & H); exact H|]. intros H. exists c, b. tauto.
Qed.

Lemma den_iff g e m : den g e m <-> Forall2 (dcomp g) (comps_of e) m.
Proof.
  assert (K : forall x, (exists p, dcomp g x p /\ m = [p]) <-> Forall2 (dcomp g) [x] m).
  { intros x. split; [intros (p & H & ->); repeat constructor; auto|]. intros H. inversion H as [|? p ? l Hp Hl]; subst. inversion Hl; subst. eauto. }
  destruct e as [| | | | | | | | | |f l]; try apply K. destruct f; try apply K. reflexivity.
Qed.
Lemma mv_ok_comps e : mv_ok e = true -> forallb comp_ok (comps_of e) = true /\ comps_of e <> [].
Proof.
  assert (K : comp_ok e = true -> forallb comp_ok [e] = true /\ [e] <> []) by (intros H; cbn; rewrite H; split; [reflexivity|discriminate]).
  destruct e as [| | | | | | | | | |f l]; try exact K. destruct f; try exact K. cbn [mv_ok comps_of]. intros H. apply andb_true_iff in H as [L H].
  split; [exact H|]. intros ->. discriminate.
Qed.
Lemma mk_add_comps l : forallb comp_ok l = true -> l <> [] ->
  exists e, mk_add l = Some e /\ mv_ok e = true /\ comps_of e = l.
Proof.
  intros H N. destruct l as [|x [|y l]]; [congruence| |].
  - exists x. cbn in H. rewrite andb_true_r in H. destruct x; try discriminate. cbn [mk_add comps_of mv_ok]. auto.
  - exists (Fn NAdd (x :: y :: l)). cbn [mk_add comps_of mv_ok length]. rewrite H.
    assert (E : existsb (is_cv 0) (x :: y :: l) = false).
    { clear N. revert H. generalize (x :: y :: l). induction l0 as [|z l0 IH]; [reflexivity|]. cbn [forallb existsb]. intros H. apply andb_true_iff in H as [H1 H2].
      rewrite (IH H2). destruct z; try discriminate. reflexivity. }
    rewrite E, andb_false_r. auto.
Qed.
Lemma csplit_comps a c x xs : csplit a = Some (c, x, xs) ->
  comps_of a = Comp c x :: match xs with None => [] | Some l => l end /\ (xs = None -> a = Comp c x).
Proof.
  destruct a as [| | | | | | | | | |f l]; try discriminate; cbn [csplit].
  - intros [= <- <- <-]. cbn. auto.
  - destruct f; try discriminate. destruct l as [|[] l]; try discriminate. intros [= <- <- <-]. cbn. split; [reflexivity|discriminate].
Qed.
Lemma mv_ok_tail a c x l : csplit a = Some (c, x, Some l) -> mv_ok a = true ->
  wf c = true /\ blade_ok x = true /\ forallb comp_ok l = true /\ l <> [].
Proof.
  destruct a as [| | | | | | | | | |f la]; try discriminate; cbn [csplit].
  destruct f; try discriminate. destruct la as [|[] la]; try discriminate. intros [= <- <- <-].
  cbn [mv_ok length]. intros H. apply andb_true_iff in H as [L H]. cbn [forallb] in H. apply andb_true_iff in H as [H1 H2].
  apply comp_ok_comp in H1 as [H1 H3]. repeat split; auto. intros ->. discriminate.
Qed.
Lemma mv_ok_head a c x xs : csplit a = Some (c, x, xs) -> mv_ok a = true -> wf c = true /\ blade_ok x = true.
Proof.
  intros S H. destruct (csplit_comps _ _ _ _ S) as [E _]. apply mv_ok_comps in H as [H _]. rewrite E in H.
  cbn [forallb] in H. apply andb_true_iff in H as [H _]. apply comp_ok_comp in H. exact H.
Qed.
Lemma mv_ok_comp c b : wf c = true -> blade_ok b = true -> mv_ok (Comp c b) = true.
Proof. intros H H'. cbn [mv_ok]. apply comp_ok_comp. auto. Qed.

Lemma dblade_fun g b n n' : dblade g b n -> dblade g b n' -> n = n'.
Proof. destruct b; cbn; try tauto; congruence. Qed.

(** component_t *)
Lemma component_t_cases c b : component_t c b = Comp c b \/
  (component_t c b = Comp (CV 0) (CBlade 0) /\ (c = CV 0 \/ exists x, b = DBlade 0 x)).
Proof.
  destruct c as [[]| | | | | | | | | |], b as [| | | | | | | |[]| |]; cbn [component_t]; eauto.
Qed.
Definition same_in (n : N) (a b : mv) := in_space n a -> in_space n b.
Lemma component_t_ok c b : wf c = true -> blade_ok b = true ->
  comp_ok (component_t c b) = true /\
  (forall g p, dcomp g (Comp c b) p -> exists p', dcomp g (component_t c b) p' /\ meq [p'] [p] /\ (forall n, in_space n [p] -> in_space n [p'])).
Proof.
  intros Hc Hb. destruct (component_t_cases c b) as [->|[-> D]].
  - split; [apply comp_ok_comp; auto|]. intros g p H. exists p. split; [exact H|]. split; [reflexivity|auto].
  - split; [reflexivity|]. intros g [v n] H. exists (0, 0%N). split; [|split].
    + cbn. split; [reflexivity|]. split; [reflexivity|]. lra.
    + assert (v = 0).
      { destruct D as [->|[x ->]].
        - destruct H as [H _]. apply num_cv_inv in H. exact H.
        - destruct H as (_ & _ & H). cbn [fst snd grade_declared] in H. destruct (Req_EM_T v 0); auto.
          specialize (H n0). rewrite N.bits_0 in H. discriminate. }
      subst v. rewrite (meq_zero n), meq_zero. reflexivity.
    + intros k _. repeat constructor. cbn. apply N.neq_0_lt_0, N.pow_nonzero. discriminate.
Qed.
Lemma component_t_den c b e : wf c = true -> blade_ok b = true -> e = component_t c b ->
  mv_ok e = true /\
  (forall g p, dcomp g (Comp c b) p -> exists m, den g e m /\ meq m [p] /\ (forall n, in_space n [p] -> in_space n m)).
Proof.
  intros Hc Hb ->. destruct (component_t_ok c b Hc Hb) as [K1 K2].
  assert (E : comps_of (component_t c b) = [component_t c b]) by (destruct (component_t_cases c b) as [->|[-> _]]; reflexivity).
  split; [destruct (component_t_cases c b) as [->|[-> _]]; cbn [mv_ok]; [apply comp_ok_comp; auto|reflexivity]|].
  intros g p H. destruct (K2 g p H) as (p' & A & B & C). exists [p']. split; [apply den_iff; rewrite E; constructor; auto|auto].
Qed.

(** Addition *)
Definition add_spec (a b r : expr) : Prop :=
  mv_ok r = true /\
  forall g ma mb, den g a ma -> den g b mb ->
    exists mr, den g r mr /\ meq mr (ma ++ mb) /\ (forall n, in_space n ma -> in_space n mb -> in_space n mr).
Definition add_sound (k : expr -> expr -> option expr) : Prop :=
  forall a b r, mv_ok a = true -> mv_ok b = true -> k a b = Some r -> add_spec a b r.

Lemma mk_add_spec l e g m : forallb comp_ok l = true -> l <> [] -> mk_add l = Some e ->
  mv_ok e = true /\ (den g e m <-> Forall2 (dcomp g) l m).
Proof.
  intros H N M. destruct (mk_add_comps l H N) as (e' & E & O & C). rewrite E in M. injection M as <-.
  split; [exact O|]. rewrite den_iff, C. reflexivity.
Qed.
Lemma den_split a c x xs g m : csplit a = Some (c, x, xs) -> den g a m ->
  exists p m', m = p :: m' /\ dcomp g (Comp c x) p /\ Forall2 (dcomp g) (match xs with None => [] | Some l => l end) m'.
Proof.
  intros S D. apply den_iff in D. rewrite (proj1 (csplit_comps _ _ _ _ S)) in D. inversion D; subst. eauto.
Qed.
Lemma den_comp g c b p : dcomp g (Comp c b) p -> den g (Comp c b) [p].
Proof. intros H. apply den_iff. cbn. constructor; auto. Qed.
Lemma is_zero_comp_den a g m : is_zero_comp a = true -> den g a m -> meq m [].
Proof.
  destruct a as [| | | | | | | | |[[]| | | | | | | | | |] b|]; try discriminate. intros _ D. apply den_iff in D. inversion D as [|? [v n] ? l Hp0 Hl]; subst. destruct Hp0 as [Hp _]. inversion Hl; subst.
  apply num_cv_inv in Hp. cbn in Hp. subst. apply meq_zero.
Qed.
Lemma cadd_zero_ok a b r : mv_ok a = true -> mv_ok b = true -> cadd_zero a b = Some r -> add_spec a b r.
Proof.
  intros Wa Wb. unfold cadd_zero. destruct (is_zero_comp a) eqn:Za, (is_zero_comp b) eqn:Zb; cbn [andb]; intros [= <-]; (split; [assumption|]); intros g ma mb Ha Hb.
  - exists ma. split; [exact Ha|]. rewrite (is_zero_comp_den _ _ _ Zb Hb), app_nil_r. split; [reflexivity|auto].
  - exists mb. split; [exact Hb|]. rewrite (is_zero_comp_den _ _ _ Za Ha). split; [reflexivity|auto].
  - exists ma. split; [exact Ha|]. rewrite (is_zero_comp_den _ _ _ Zb Hb), app_nil_r. split; [reflexivity|auto].
Qed.

Lemma in_space_cons n p m : in_space n (p :: m) <-> in_space n [p] /\ in_space n m.
Proof. apply (Forall_app _ [p] m). Qed.

Lemma cadd_step_ok F rec : add_sound rec -> add_sound (cadd_step F rec).
Proof.
  intros IH a b r Wa Wb. unfold cadd_step.
  destruct (csplit a) as [[[c x] xs]|] eqn:Sa; [|discriminate].
  destruct (csplit b) as [[[d y] ys]|] eqn:Sb; [|discriminate].
  destruct (cadd_zero a b) as [r0|] eqn:Z. { intros [= <-]. apply cadd_zero_ok; auto. } clear Z.
  destruct (mv_ok_head _ _ _ _ Sa Wa) as [Wc Wx]. destruct (mv_ok_head _ _ _ _ Sb Wb) as [Wd Wy].
  assert (Ta : forall l, xs = Some l -> forallb comp_ok l = true /\ l <> []).
  { intros l ->. destruct (mv_ok_tail _ _ _ _ Sa Wa) as (_ & _ & H). exact H. }
  assert (Tb : forall l, ys = Some l -> forallb comp_ok l = true /\ l <> []).
  { intros l ->. destruct (mv_ok_tail _ _ _ _ Sb Wb) as (_ & _ & H). exact H. }
  destruct (expr_eqb x y) eqn:E.
  - apply expr_eqb_eq in E. subst y.
    destruct (eng F OAdd c d) as [s|] eqn:Es; [|discriminate].
    destruct (s_add _ (eng_ok F) _ _ _ Wc Wd Es) as [Ws Vs].
    destruct (component_t_den s x _ Ws Wx eq_refl) as [Wh Dh].
    assert (Hh : forall g p q, dcomp g (Comp c x) p -> dcomp g (Comp d x) q ->
      exists m, den g (component_t s x) m /\ meq m [p; q] /\ (forall n, in_space n [p] -> in_space n [q] -> in_space n m)).
    { intros g [v i] [w j] (A1 & A2 & A3) (B1 & B2 & B3). cbn [fst snd] in *. pose proof (dblade_fun _ _ _ _ A2 B2) as <-.
      destruct (Dh g (v + w, i)) as (m & M1 & M2 & M3).
      - cbn [fst snd]. split; [apply Vs; auto|]. split; [exact A2|]. cbn [fst snd]. intros Nz. destruct (Req_EM_T v 0) as [->|]; auto. apply B3. intros ->. apply Nz. lra.
      - exists m. split; [exact M1|]. split; [rewrite M2; apply meq_add1|]. intros n I _. apply M3. inversion I; subst. constructor; [assumption|constructor]. }
    destruct xs as [xs|], ys as [ys|].
    + destruct (Ta _ eq_refl) as [Tx Nx]. destruct (Tb _ eq_refl) as [Ty Ny].
      destruct (mk_add xs) as [t|] eqn:Mt; [|discriminate]. destruct (mk_add ys) as [u|] eqn:Mu; [|discriminate].
      destruct (rec t u) as [v|] eqn:Rv; [|discriminate]. intros Rr.
      pose proof (fun g m => mk_add_spec xs t g m Tx Nx Mt) as Pt. pose proof (fun g m => mk_add_spec ys u g m Ty Ny Mu) as Pu.
      assert (G0 : env) by (constructor; intros; exact None).
      destruct (IH t u v (proj1 (Pt G0 [])) (proj1 (Pu G0 [])) Rv) as [Wv Dv].
      destruct (IH _ _ _ Wh Wv Rr) as [Wr Dr]. split; [exact Wr|]. intros g ma mb Ha Hb.
      destruct (den_split _ _ _ _ _ _ Sa Ha) as (p & ma' & -> & Ha1 & Ha2). destruct (den_split _ _ _ _ _ _ Sb Hb) as (q & mb' & -> & Hb1 & Hb2).
      destruct (Hh g p q Ha1 Hb1) as (mh & H1 & H2 & H3).
      destruct (Dv g ma' mb' (proj2 (proj2 (Pt g ma')) Ha2) (proj2 (proj2 (Pu g mb')) Hb2)) as (mv' & V1 & V2 & V3).
      destruct (Dr g mh mv' H1 V1) as (mr & R1 & R2 & R3). exists mr. split; [exact R1|]. split.
      * rewrite R2, H2, V2. rewrite (meq_cons_app p ma'), (meq_cons_app q mb'). apply meq_sumf. intros h. rewrite !sumf_app. destruct p, q. cbn [sumf]. lra.
      * intros n I J. apply in_space_cons in I as [I1 I2]. apply in_space_cons in J as [J1 J2]. apply R3; [apply H3; auto|apply V3; auto].
    + destruct (Ta _ eq_refl) as [Tx Nx].
      destruct (mk_add xs) as [t|] eqn:Mt; [|discriminate]. intros Rr.
      pose proof (fun g m => mk_add_spec xs t g m Tx Nx Mt) as Pt.
      assert (G0 : env) by (constructor; intros; exact None).
      destruct (IH _ _ _ Wh (proj1 (Pt G0 [])) Rr) as [Wr Dr]. split; [exact Wr|]. intros g ma mb Ha Hb.
      destruct (den_split _ _ _ _ _ _ Sa Ha) as (p & ma' & -> & Ha1 & Ha2). destruct (den_split _ _ _ _ _ _ Sb Hb) as (q & mb' & -> & Hb1 & Hb2).
      inversion Hb2; subst.
      destruct (Hh g p q Ha1 Hb1) as (mh & H1 & H2 & H3).
      destruct (Dr g mh ma' H1 (proj2 (proj2 (Pt g ma')) Ha2)) as (mr & R1 & R2 & R3). exists mr. split; [exact R1|]. split.
      * rewrite R2, H2. rewrite (meq_cons_app p ma'). apply meq_sumf. intros h. rewrite !sumf_app. destruct p, q. cbn [sumf]. lra.
      * intros n I J. apply in_space_cons in I as [I1 I2]. apply R3; [apply H3; auto|auto].
    + destruct (Tb _ eq_refl) as [Ty Ny].
      destruct (mk_add ys) as [u|] eqn:Mu; [|discriminate]. intros Rr.
      pose proof (fun g m => mk_add_spec ys u g m Ty Ny Mu) as Pu.
      assert (G0 : env) by (constructor; intros; exact None).
      destruct (IH _ _ _ Wh (proj1 (Pu G0 [])) Rr) as [Wr Dr]. split; [exact Wr|]. intros g ma mb Ha Hb.
      destruct (den_split _ _ _ _ _ _ Sa Ha) as (p & ma' & -> & Ha1 & Ha2). destruct (den_split _ _ _ _ _ _ Sb Hb) as (q & mb' & -> & Hb1 & Hb2).
      inversion Ha2; subst.
      destruct (Hh g p q Ha1 Hb1) as (mh & H1 & H2 & H3).
      destruct (Dr g mh mb' H1 (proj2 (proj2 (Pu g mb')) Hb2)) as (mr & R1 & R2 & R3). exists mr. split; [exact R1|]. split.
      * rewrite R2, H2. rewrite (meq_cons_app q mb'). apply meq_sumf. intros h. rewrite !sumf_app. destruct p, q. cbn [sumf]. lra.
      * intros n I J. apply in_space_cons in J as [J1 J2]. apply R3; [apply H3; auto|auto].
    + intros [= <-]. split; [exact Wh|]. intros g ma mb Ha Hb.
      destruct (den_split _ _ _ _ _ _ Sa Ha) as (p & ma' & -> & Ha1 & Ha2). destruct (den_split _ _ _ _ _ _ Sb Hb) as (q & mb' & -> & Hb1 & Hb2).
      inversion Ha2; subst. inversion Hb2; subst. destruct (Hh g p q Ha1 Hb1) as (mh & H1 & H2 & H3). exists mh. split; [exact H1|]. split; [exact H2|auto].
  - clear E.
    assert (Ca : xs = None -> a = Comp c x) by (apply (csplit_comps _ _ _ _ Sa)).
    assert (Cb : ys = None -> b = Comp d y) by (apply (csplit_comps _ _ _ _ Sb)).
    assert (Okc : comp_ok (Comp c x) = true) by (apply comp_ok_comp; auto).
    assert (Okd : comp_ok (Comp d y) = true) by (apply comp_ok_comp; auto).
    (* A :: rest: prepend a component to a list *)
    assert (K1 : forall l e, forallb comp_ok l = true -> l <> [] -> mk_add l = Some e ->
        (forall g ma mb, den g a ma -> den g b mb -> exists m, Forall2 (dcomp g) l m /\ meq m (ma ++ mb) /\ (forall n, in_space n ma -> in_space n mb -> in_space n m)) ->
        add_spec a b e).
    { intros l e Hl Nl Me Hm. assert (G0 : env) by (constructor; intros; exact None). split; [apply (mk_add_spec l e G0 [] Hl Nl Me)|].
      intros g ma mb Ha Hb. destruct (Hm g ma mb Ha Hb) as (m & M1 & M2 & M3). exists m. split; [apply (mk_add_spec l e g m Hl Nl Me); exact M1|auto]. }
    destruct (lt x y).
    + destruct xs as [xs|].
      * destruct (Ta _ eq_refl) as [Tx Nx].
        destruct (mk_add xs) as [t|] eqn:Mt; [|discriminate]. destruct (rec t b) as [u|] eqn:Ru; [|discriminate]. intros Rr.
        pose proof (fun g m => mk_add_spec xs t g m Tx Nx Mt) as Pt. assert (G0 : env) by (constructor; intros; exact None).
        destruct (IH _ _ _ (proj1 (Pt G0 [])) Wb Ru) as [Wu Du].
        destruct (IH _ _ _ (mv_ok_comp _ _ Wc Wx) Wu Rr) as [Wr Dr]. split; [exact Wr|]. intros g ma mb Ha Hb.
        destruct (den_split _ _ _ _ _ _ Sa Ha) as (p & ma' & -> & Ha1 & Ha2).
        destruct (Du g ma' mb (proj2 (proj2 (Pt g ma')) Ha2) Hb) as (mu & U1 & U2 & U3).
        destruct (Dr g [p] mu (den_comp _ _ _ _ Ha1) U1) as (mr & R1 & R2 & R3). exists mr. split; [exact R1|]. split.
        -- rewrite R2, U2. reflexivity.
        -- intros n I J. apply in_space_cons in I as [I1 I2]. apply R3; auto.
      * specialize (Ca eq_refl). destruct ys as [ys|].
        -- destruct (Tb _ eq_refl) as [Ty Ny]. intros Mk; refine (K1 _ _ _ _ Mk _); [rewrite Ca; cbn [forallb]; rewrite Okc, Okd; exact Ty|discriminate|].
           intros g ma mb Ha Hb. destruct (den_split _ _ _ _ _ _ Sa Ha) as (p & ma' & -> & Ha1 & Ha2). inversion Ha2; subst.
           apply den_iff in Hb. rewrite (proj1 (csplit_comps _ _ _ _ Sb)) in Hb. exists (p :: mb). split; [constructor; auto|]. split; [reflexivity|].
           intros n I J. apply in_space_cons. auto.
        -- specialize (Cb eq_refl). intros Mk; refine (K1 _ _ _ _ Mk _); [subst a b; cbn [forallb]; rewrite Okc, Okd; reflexivity|discriminate|].
           intros g ma mb Ha Hb. apply den_iff in Ha. apply den_iff in Hb. subst a b. cbn [comps_of] in *.
           exists (ma ++ mb). split; [apply (Forall2_app Ha Hb)|]. split; [reflexivity|]. intros n I J. apply in_space_app. auto.
    + destruct (lt y x); [|discriminate]. destruct ys as [ys|].
      * assert (M : forall t u, mk_add ys = Some t -> rec a t = Some u -> rec (Comp d y) u = Some r -> add_spec a b r).
        { intros t u Mt Ru Rr. destruct (Tb _ eq_refl) as [Ty Ny].
          pose proof (fun g m => mk_add_spec ys t g m Ty Ny Mt) as Pt. assert (G0 : env) by (constructor; intros; exact None).
          destruct (IH _ _ _ Wa (proj1 (Pt G0 [])) Ru) as [Wu Du].
          destruct (IH _ _ _ (mv_ok_comp _ _ Wd Wy) Wu Rr) as [Wr Dr]. split; [exact Wr|]. intros g ma mb Ha Hb.
          destruct (den_split _ _ _ _ _ _ Sb Hb) as (q & mb' & -> & Hb1 & Hb2).
          destruct (Du g ma mb' Ha (proj2 (proj2 (Pt g mb')) Hb2)) as (mu & U1 & U2 & U3).
          destruct (Dr g [q] mu (den_comp _ _ _ _ Hb1) U1) as (mr & R1 & R2 & R3). exists mr. split; [exact R1|]. split.
          - rewrite R2, U2. rewrite (meq_cons_app q mb'). apply meq_sumf. intros h. rewrite !sumf_app. lra.
          - intros n I J. apply in_space_cons in J as [J1 J2]. apply R3; auto. }
        destruct (mk_add ys) as [t|] eqn:Mt; [|destruct xs; discriminate].
        destruct (rec a t) as [u|] eqn:Ru; [|destruct xs; discriminate].
        intros Rr. apply (M t u); auto. destruct xs; exact Rr.
      * specialize (Cb eq_refl). destruct xs as [xs|].
        -- destruct (Ta _ eq_refl) as [Tx Nx]. intros Mk; refine (K1 _ _ _ _ Mk _); [rewrite Cb; cbn [forallb]; rewrite Okc, Okd; exact Tx|discriminate|].
           intros g ma mb Ha Hb. destruct (den_split _ _ _ _ _ _ Sb Hb) as (q & mb' & -> & Hb1 & Hb2). inversion Hb2; subst.
           apply den_iff in Ha. rewrite (proj1 (csplit_comps _ _ _ _ Sa)) in Ha. exists (q :: ma). split; [constructor; auto|]. split; [apply (meq_comm [q] ma)|].
           intros n I J. apply in_space_cons. auto.
        -- specialize (Ca eq_refl). intros Mk; refine (K1 _ _ _ _ Mk _); [subst a b; cbn [forallb]; rewrite Okc, Okd; reflexivity|discriminate|].
           intros g ma mb Ha Hb. apply den_iff in Ha. apply den_iff in Hb. subst a b. cbn [comps_of] in *.
           exists (mb ++ ma). split; [apply (Forall2_app Hb Ha)|]. split; [apply meq_comm|]. intros n I J. apply in_space_app. auto.
Qed.
Theorem cadd_ok F n : add_sound (cadd F n).
Proof. induction n as [|n IH]; [discriminate|]. apply (cadd_step_ok F _ IH). Qed.
