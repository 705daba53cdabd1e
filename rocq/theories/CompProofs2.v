(** Soundness of the product of multivector expressions, given a sound product of blades. *)
From Coq Require Import NArith ZArith List Bool Reals Lra Lia Setoid Morphisms.
From Verif Require Import Bits SpecBits Expr ExprBase Sem Wf SpecMv MvBase Simp SimpProofs SimpProofs2 Comp CompProofs.
Import ListNotations.
Local Open Scope R_scope.

(** A component without the condition on declared grades. *)
Definition pcomp (g : env) (e : expr) (p : R * N) : Prop :=
  match e with
  | Comp c b => num g c (fst p) /\ dblade g b (snd p)
  | _ => False
  end.
Lemma dcomp_pcomp g e p : dcomp g e p -> pcomp g e p.
Proof. destruct e; cbn; tauto. Qed.

(** [mult] computes the product of blades [f] in a space of dimension [n]. *)
Definition mult_ok (mult : expr -> expr -> option expr) (f : N -> N -> mv) (n : N) : Prop :=
  forall x y m, blade_ok x = true -> blade_ok y = true -> mult x y = Some m ->
  mv_ok m = true /\
  forall g i j, dblade g x i -> dblade g y j -> (i < 2 ^ n)%N -> (j < 2 ^ n)%N ->
  exists l, Forall2 (pcomp g) (comps_of m) l /\ in_space n l /\
    (grade_declared x i -> grade_declared y j -> Forall2 (dcomp g) (comps_of m) l /\ meq l (f i j)).

Lemma scale_cons c p m : scale c (p :: m) = (c * fst p, snd p) :: scale c m.
Proof. reflexivity. Qed.

Lemma distribute_ok F n s : forall l r, wf s = true -> forallb comp_ok l = true -> distribute F n s l = Some r ->
  mv_ok r = true /\
  forall g v ms, num g s v -> Forall2 (pcomp g) l ms -> (v = 0 \/ Forall2 (dcomp g) l ms) ->
  exists mr, den g r mr /\ meq mr (scale v ms) /\ (forall k, in_space k ms -> in_space k mr).
Proof.
  induction l as [|e l IH]; intros r Ws Ok H; [discriminate|]. cbn [distribute] in H.
  cbn [forallb] in Ok. apply andb_true_iff in Ok as [Oe Ol]. apply comp_ok_iff in Oe as (c & b & -> & Wc & Wb).
  destruct (eng F OMul s c) as [p|] eqn:Ep; [|discriminate].
  destruct (s_mul _ (eng_ok F) _ _ _ Ws Wc Ep) as [Wp Vp].
  destruct (component_t_den p b _ Wp Wb eq_refl) as [Wh Dh].
  assert (Hh : forall g v q, num g s v -> pcomp g (Comp c b) q -> (v = 0 \/ dcomp g (Comp c b) q) ->
     exists m, den g (component_t p b) m /\ meq m (scale v [q]) /\ (forall k, in_space k [q] -> in_space k m)).
  { intros g v [w j] Hv [Q1 Q2] D. cbn [fst snd] in *. destruct (Dh g (v * w, j)) as (m & M1 & M2 & M3).
    - split; [apply Vp; auto|]. split; [exact Q2|]. cbn [fst snd]. intros Nz. destruct D as [->|D]; [exfalso; apply Nz; lra|].
      apply D. cbn. intros ->. apply Nz. lra.
    - exists m. split; [exact M1|]. split; [exact M2|]. intros k I. apply M3. inversion I; subst. constructor; auto. }
  destruct l as [|e' l'].
  - injection H as <-. split; [exact Wh|]. intros g v ms Hv P D. inversion P as [|? q ? ? Pq P']; subst. inversion P'; subst.
    apply Hh; auto. destruct D as [D|D]; [auto|]. right. inversion D; subst. auto.
  - destruct (distribute F n s (e' :: l')) as [t|] eqn:Et; [|discriminate].
    destruct (IH t Ws Ol eq_refl) as [Wt Dt]. destruct (cadd_ok F n _ _ _ Wh Wt H) as [Wr Dr]. split; [exact Wr|].
    intros g v ms Hv P D. inversion P as [|? q ? ms' Pq P']; subst.
    destruct (Hh g v q Hv Pq) as (m1 & A1 & A2 & A3). { destruct D as [D|D]; [auto|]. right. inversion D; subst. auto. }
    destruct (Dt g v ms' Hv P') as (m2 & B1 & B2 & B3). { destruct D as [D|D]; [auto|]. right. inversion D; subst. auto. }
    destruct (Dr g m1 m2 A1 B1) as (mr & R1 & R2 & R3). exists mr. split; [exact R1|]. split.
    + rewrite R2, A2, B2. reflexivity.
    + intros k I. apply in_space_cons in I as [I1 I2]. apply R3; auto.
Qed.

Definition mul_spec (f : N -> N -> mv) (n : N) (a b r : expr) : Prop :=
  mv_ok r = true /\
  forall g ma mb, den g a ma -> den g b mb -> in_space n ma -> in_space n mb ->
    exists mr, den g r mr /\ meq mr (bilinear f ma mb) /\ in_space n mr.
Definition mul_sound f n (k : expr -> expr -> option expr) : Prop :=
  forall a b r, mv_ok a = true -> mv_ok b = true -> k a b = Some r -> mul_spec f n a b r.

Lemma csplit_comp c x : csplit (Comp c x) = Some (c, x, None). Proof. reflexivity. Qed.

Lemma cmul_step_ok F k mult f n rec : mult_ok mult f n -> mul_sound f n rec -> mul_sound f n (cmul_step F k mult rec).
Proof.
  intros HM IH a b r Wa Wb. unfold cmul_step.
  destruct (csplit a) as [[[c x] xs]|] eqn:Sa; [|discriminate].
  destruct (csplit b) as [[[d y] ys]|] eqn:Sb; [|discriminate].
  destruct (is_zero_comp a) eqn:Za.
  { intros [= <-]. split; [exact Wa|]. intros g ma mb Ha Hb Ia Ib. exists ma. split; [exact Ha|]. split; [|exact Ia].
    rewrite (is_zero_comp_den _ _ _ Za Ha). reflexivity. }
  destruct (is_zero_comp b) eqn:Zb.
  { intros [= <-]. split; [exact Wb|]. intros g ma mb Ha Hb Ia Ib. exists mb. split; [exact Hb|]. split; [|exact Ib].
    pose proof (is_zero_comp_den _ _ _ Zb Hb) as Z. rewrite (bilinear_0_r f ma mb Z). exact Z. }
  destruct (mv_ok_head _ _ _ _ Sa Wa) as [Wc Wx]. destruct (mv_ok_head _ _ _ _ Sb Wb) as [Wd Wy].
  pose proof (mv_ok_comp _ _ Wc Wx) as Wcx. pose proof (mv_ok_comp _ _ Wd Wy) as Wdy.
  assert (G0 : env) by (constructor; intros; exact None).
  destruct xs as [xs|], ys as [ys|].
  - destruct (mv_ok_tail _ _ _ _ Sa Wa) as (_ & _ & Tx & Nx). destruct (mv_ok_tail _ _ _ _ Sb Wb) as (_ & _ & Ty & Ny).
    destruct (mk_add xs) as [t|] eqn:Mt; [|discriminate]. destruct (mk_add ys) as [u|] eqn:Mu; [|discriminate].
    destruct (rec (Comp c x) (Comp d y)) as [p|] eqn:Rp; [|discriminate].
    destruct (rec t (Comp d y)) as [q|] eqn:Rq; [|discriminate].
    destruct (cadd F k p q) as [pq|] eqn:Rpq; [|discriminate].
    destruct (rec (Comp c x) u) as [r'|] eqn:Rr; [|discriminate].
    destruct (rec t u) as [s|] eqn:Rs; [|discriminate].
    destruct (cadd F k r' s) as [rs|] eqn:Rrs; [|discriminate]. intros Rf.
    pose proof (fun g m => mk_add_spec xs t g m Tx Nx Mt) as Pt. pose proof (fun g m => mk_add_spec ys u g m Ty Ny Mu) as Pu.
    pose proof (proj1 (Pt G0 [])) as Wt. pose proof (proj1 (Pu G0 [])) as Wu.
    destruct (IH _ _ _ Wcx Wdy Rp) as [Wp Dp]. destruct (IH _ _ _ Wt Wdy Rq) as [Wq Dq].
    destruct (IH _ _ _ Wcx Wu Rr) as [Wr Dr]. destruct (IH _ _ _ Wt Wu Rs) as [Wss Ds].
    destruct (cadd_ok F k _ _ _ Wp Wq Rpq) as [Wpq Dpq]. destruct (cadd_ok F k _ _ _ Wr Wss Rrs) as [Wrs Drs].
    destruct (cadd_ok F k _ _ _ Wpq Wrs Rf) as [Wf Df]. split; [exact Wf|].
    intros g ma mb Ha Hb Ia Ib.
    destruct (den_split _ _ _ _ _ _ Sa Ha) as (pa & ma' & -> & Ha1 & Ha2). destruct (den_split _ _ _ _ _ _ Sb Hb) as (pb & mb' & -> & Hb1 & Hb2).
    apply in_space_cons in Ia as [Ia1 Ia2]. apply in_space_cons in Ib as [Ib1 Ib2].
    apply (den_comp g c x) in Ha1. apply (den_comp g d y) in Hb1. apply (Pt g ma') in Ha2. apply (Pu g mb') in Hb2.
    destruct (Dp g _ _ Ha1 Hb1 Ia1 Ib1) as (m1 & A1 & A2 & A3). destruct (Dq g _ _ Ha2 Hb1 Ia2 Ib1) as (m2 & B1 & B2 & B3).
    destruct (Dr g _ _ Ha1 Hb2 Ia1 Ib2) as (m3 & C1 & C2 & C3). destruct (Ds g _ _ Ha2 Hb2 Ia2 Ib2) as (m4 & E1 & E2 & E3).
    destruct (Dpq g _ _ A1 B1) as (m5 & F1 & F2 & F3). destruct (Drs g _ _ C1 E1) as (m6 & G1 & G2 & G3).
    destruct (Df g _ _ F1 G1) as (m7 & I1 & I2 & I3). exists m7. split; [exact I1|]. split; [|auto].
    rewrite I2, F2, G2, A2, B2, C2, E2. rewrite (meq_cons_app pa ma'), (meq_cons_app pb mb').
    rewrite bilinear_app_l, !bilinear_app_r. apply meq_sumf. intros h. rewrite !sumf_app. lra.
  - destruct (mv_ok_tail _ _ _ _ Sa Wa) as (_ & _ & Tx & Nx).
    destruct (rec (Comp c x) b) as [p|] eqn:Rp; [|discriminate]. destruct (mk_add xs) as [t|] eqn:Mt; [|discriminate].
    destruct (rec t b) as [q|] eqn:Rq; [|discriminate]. intros Rf.
    pose proof (fun g m => mk_add_spec xs t g m Tx Nx Mt) as Pt. pose proof (proj1 (Pt G0 [])) as Wt.
    destruct (IH _ _ _ Wcx Wb Rp) as [Wp Dp]. destruct (IH _ _ _ Wt Wb Rq) as [Wq Dq]. destruct (cadd_ok F k _ _ _ Wp Wq Rf) as [Wf Df]. split; [exact Wf|].
    intros g ma mb Ha Hb Ia Ib. destruct (den_split _ _ _ _ _ _ Sa Ha) as (pa & ma' & -> & Ha1 & Ha2). apply in_space_cons in Ia as [Ia1 Ia2].
    apply (den_comp g c x) in Ha1. apply (Pt g ma') in Ha2.
    destruct (Dp g _ _ Ha1 Hb Ia1 Ib) as (m1 & A1 & A2 & A3). destruct (Dq g _ _ Ha2 Hb Ia2 Ib) as (m2 & B1 & B2 & B3).
    destruct (Df g _ _ A1 B1) as (m7 & I1 & I2 & I3). exists m7. split; [exact I1|]. split; [|auto].
    rewrite I2, A2, B2. rewrite (meq_cons_app pa ma'), bilinear_app_l. reflexivity.
  - destruct (mv_ok_tail _ _ _ _ Sb Wb) as (_ & _ & Ty & Ny).
    destruct (rec a (Comp d y)) as [p|] eqn:Rp; [|discriminate]. destruct (mk_add ys) as [u|] eqn:Mu; [|discriminate].
    destruct (rec a u) as [q|] eqn:Rq; [|discriminate]. intros Rf.
    pose proof (fun g m => mk_add_spec ys u g m Ty Ny Mu) as Pu. pose proof (proj1 (Pu G0 [])) as Wu.
    destruct (IH _ _ _ Wa Wdy Rp) as [Wp Dp]. destruct (IH _ _ _ Wa Wu Rq) as [Wq Dq]. destruct (cadd_ok F k _ _ _ Wp Wq Rf) as [Wf Df]. split; [exact Wf|].
    intros g ma mb Ha Hb Ia Ib. destruct (den_split _ _ _ _ _ _ Sb Hb) as (pb & mb' & -> & Hb1 & Hb2). apply in_space_cons in Ib as [Ib1 Ib2].
    apply (den_comp g d y) in Hb1. apply (Pu g mb') in Hb2.
    destruct (Dp g _ _ Ha Hb1 Ia Ib1) as (m1 & A1 & A2 & A3). destruct (Dq g _ _ Ha Hb2 Ia Ib2) as (m2 & B1 & B2 & B3).
    destruct (Df g _ _ A1 B1) as (m7 & I1 & I2 & I3). exists m7. split; [exact I1|]. split; [|auto].
    rewrite I2, A2, B2. rewrite (meq_cons_app pb mb'), bilinear_app_r. reflexivity.
  - destruct (eng F OMul c d) as [s|] eqn:Es; [|discriminate]. destruct (mult x y) as [m|] eqn:Em; [|discriminate]. intros Hd.
    destruct (s_mul _ (eng_ok F) _ _ _ Wc Wd Es) as [Ws Vs]. destruct (HM x y m Wx Wy Em) as [Wm Dm].
    destruct (distribute_ok F k s _ r Ws (proj1 (mv_ok_comps _ Wm)) Hd) as [Wr Dr]. split; [exact Wr|].
    intros g ma mb Ha Hb Ia Ib. destruct (den_split _ _ _ _ _ _ Sa Ha) as ([v i] & ma' & -> & Ha1 & Ha2). destruct (den_split _ _ _ _ _ _ Sb Hb) as ([w j] & mb' & -> & Hb1 & Hb2).
    inversion Ha2; subst. inversion Hb2; subst. destruct Ha1 as (P1 & P2 & P3), Hb1 as (Q1 & Q2 & Q3). cbn [fst snd] in *.
    inversion Ia as [|? ? Li _]; subst. inversion Ib as [|? ? Lj _]; subst. cbn [snd] in *.
    destruct (Dm g i j P2 Q2 Li Lj) as (l & L1 & L2 & L3).
    destruct (Req_EM_T (v * w) 0) as [Z|Z].
    + destruct (Dr g (v * w) l (Vs g v w P1 Q1) L1 (or_introl Z)) as (mr & R1 & R2 & R3). exists mr. split; [exact R1|]. split; [|auto].
      rewrite R2, bilinear_1, Z, !scale_0. reflexivity.
    + assert (v <> 0) by (intros ->; apply Z; lra). assert (w <> 0) by (intros ->; apply Z; lra).
      destruct (L3 (P3 H) (Q3 H0)) as [L4 L5].
      destruct (Dr g (v * w) l (Vs g v w P1 Q1) L1 (or_intror L4)) as (mr & R1 & R2 & R3). exists mr. split; [exact R1|]. split; [|auto].
      rewrite R2, bilinear_1, L5. reflexivity.
Qed.
Theorem cmul_ok F mult f n : mult_ok mult f n -> forall k, mul_sound f n (cmul F k mult).
Proof. intros HM. induction k as [|k IH]; [discriminate|]. apply (cmul_step_ok F k mult f n _ HM IH). Qed.
