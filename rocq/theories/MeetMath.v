(** Contractions of blades and the intersection of two subspaces. *)
From Coq Require Import NArith ZArith List Bool Lia Reals Lra Setoid Morphisms RelationClasses.
From Verif Require Import Bits SpecBits Expr Sem Wf BitsBase SpecMv SpecAlg SpecExtra MvBase GradeProofs OuterProofs Clifford Clifford2 Clifford3 Clifford4 Clifford5 AlgProofs SpecGeneral Wick GenSum Wick2 DetProofs SpecSpaces VecProofs GenMul GenApi SpecGeo GaProofs GeoApi SpecMeet JoinMath.
Import ListNotations.
Local Open Scope R_scope.
Local Opaque sign_of indices idx.

Section Space.
Variable n : N.
Hypothesis Hn : (n <= 63)%N.
Notation "a ^^ b" := (mop a b) (at level 40, left associativity).
Notation "a << b" := (mlcont e1 a b) (at level 40, left associativity).
Notation ins := (in_space n).
Notation vec := (GaProofs.vec n).
Notation form := (diagonal_form e1).
Notation ip := (GaProofs.ip form).

Lemma form_sym i j : form i j = form j i.
Proof. unfold diagonal_form. destruct (N.eqb_spec i j) as [->|H]; [rewrite N.eqb_refl; reflexivity|]. rewrite (proj2 (N.eqb_neq j i)) by congruence. reflexivity. Qed.
Lemma ip_s u v : ip u v = ip v u. Proof. apply ip_sym, form_sym. Qed.
Lemma ip_ar u v w : ip w (u ++ v) = ip w u + ip w v. Proof. apply ip_app_r, form_sym. Qed.
Lemma ip_sr c u v : ip u (scale c v) = c * ip u v. Proof. apply ip_scale_r, form_sym. Qed.
Lemma ip_al u v w : ip (u ++ v) w = ip u w + ip v w. Proof. apply ip_app_l. Qed.
Lemma ip_sl c u v : ip (scale c u) v = c * ip u v. Proof. apply ip_scale_l. Qed.
Lemma ip_m u u' v v' : meq u u' -> meq v v' -> ip u v = ip u' v'. Proof. apply ip_meq. Qed.
Lemma ip_norm u : vec u -> ip u u = norm2 e1 u.
Proof.
  intros V. rewrite norm2_sumf. unfold GaProofs.ip. apply sumf_ext_in. intros p Hp. pose proof V as V2. unfold GaProofs.vec in V2. rewrite Forall_forall in V2. destruct (V2 p Hp) as (a & La & E).
  rewrite (Clifford5.squares_pos e1 n (snd p) ltac:(lia) (fun _ _ => eq_refl)) by (rewrite E; apply N.pow_lt_mono_r; lia). rewrite Rmult_1_l, E. f_equal. clear Hp p E V2.
  induction V as [|[c b] u (b' & Lb & Eb) V IH]; [reflexivity|]. cbn [sumf coef fst snd] in *. rewrite IH. f_equal. subst b. rewrite !N.log2_pow2 by apply N.le_0_l. unfold diagonal_form, e1.
  destruct (N.eqb_spec a b') as [->|Ne]; [rewrite N.eqb_refl; ring|]. rewrite (proj2 (N.eqb_neq (2 ^ b') (2 ^ a))); [ring|]. intros X. apply Ne. apply N.pow_inj_r in X; lia.
Qed.
Lemma ip_zero u : vec u -> ip u u = 0 -> meq u [].
Proof. intros V H. apply (norm_zero n Hn u (vec_in n u V)). rewrite <- ip_norm by exact V. exact H. Qed.
Definition minus (x y : mv) : mv := x ++ scale (-1) y.
Lemma minus_vec x y : vec x -> vec y -> vec (minus x y). Proof. intros X Y. apply vec_app; [exact X|apply vec_scale, Y]. Qed.
Lemma ip_minus x y z : ip (minus x y) z = ip x z - ip y z. Proof. unfold minus. rewrite ip_al, ip_sl. ring. Qed.
Lemma ip_minus_r x y z : ip z (minus x y) = ip z x - ip z y. Proof. unfold minus. rewrite ip_ar, ip_sr. ring. Qed.
Lemma minus_eq x y : meq (minus x y) [] -> meq x y.
Proof. intros H k. specialize (H k). unfold minus in H. rewrite ca_, cs_ in H. cbn [coef] in H. lra. Qed.
Lemma minus_span vs x y : in_span vs x -> in_span vs y -> in_span vs (minus x y).
Proof. intros X Y. apply span_add; [exact X|apply span_scale, Y]. Qed.

Definition perp (vs : list mv) (x : mv) : Prop := Forall (fun v => ip x v = 0) vs.
Lemma perp_span vs x y : perp vs x -> in_span vs y -> ip x y = 0.
Proof.
  intros P [cs E]. rewrite (ip_m x x y _ (reflexivity x) E). clear E. revert cs. induction P as [|v vs H _ IH]; intros [|c cs]; cbn [combination]; try (rewrite ip_s; reflexivity). rewrite ip_ar, ip_sr, H, IH. ring.
Qed.
Lemma perp_wedge cs b : Forall vec cs -> vec b -> perp cs b -> meq (b << wedge cs) [].
Proof.
  intros V B P. induction P as [|c cs H P IH]; [apply (lc_vec_one n Hn), B|]. inversion V; subst. cbn [wedge]. refine (transitivity (leibniz n Hn b c _ B _ (wedge_in n cs _)) _); try assumption.
  intros k. rewrite ca_, !cs_, H, (op_zero_r c _ (IH H3) k). cbn [coef]. ring.
Qed.
(** A vector splits off the part of the subspace that is orthogonal to it. *)
Lemma split_off b cs : Forall vec cs -> vec b -> perp cs b \/ exists c cs' s, vec c /\ Forall vec cs' /\ s <> 0 /\ ip b c <> 0 /\ perp cs' b /\ meq (wedge cs) (scale s (c ^^ wedge cs')) /\
  Forall (in_span cs) (c :: cs') /\ Forall (in_span (c :: cs')) cs /\ S (length cs') = length cs.
Proof.
  intros V B. induction V as [|x cs X V IH]; [left; constructor|]. destruct IH as [P|(c & cs' & s & C & V' & S & I & P & W & S1 & S2 & L)].
  - destruct (Req_EM_T (ip b x) 0) as [Z|Z]; [left; constructor; assumption|right]. exists x, cs, 1. do 2 (split; [assumption|]). split; [lra|]. do 2 (split; [assumption|]).
    split; [intros k; rewrite cs_; cbn [wedge]; ring|]. split; [apply Forall_forall; intros v Hv; apply span_in, Hv|]. split; [apply Forall_forall; intros v Hv; apply span_in, Hv|reflexivity].
  - right. set (t := ip b x / ip b c). exists c, (minus x (scale t c) :: cs'), (- s). split; [exact C|]. split; [constructor; [apply minus_vec; [exact X|apply vec_scale, C]|exact V']|]. split; [lra|]. split; [exact I|].
    assert (Q : ip b (minus x (scale t c)) = 0). { rewrite ip_minus_r, ip_sr. unfold t. field. exact I. }
    split; [constructor; [exact Q|exact P]|]. split; [|split; [|split; [|cbn [length]; f_equal; exact L]]].
    + cbn [wedge]. refine (transitivity (op_c _ _ _ _ (reflexivity x) W) _). refine (transitivity (op_scl_r _ _ _) _).
      assert (E : meq (c ^^ (minus x (scale t c) ^^ wedge cs')) (c ^^ (x ^^ wedge cs'))).
      { refine (transitivity (op_c _ _ _ _ (reflexivity c) (op_add_l _ _ _)) _). refine (transitivity (op_add_r _ _ _) _).
        intros k. rewrite ca_. assert (Z : meq (c ^^ (scale (-1) (scale t c) ^^ wedge cs')) []).
        { refine (transitivity (op_c _ _ _ _ (reflexivity c) (op_scl_l _ _ _)) _). refine (transitivity (op_scl_r _ _ _) _). apply meq_nil_scale. refine (transitivity (op_c _ _ _ _ (reflexivity c) (op_scl_l _ _ _)) _). refine (transitivity (op_scl_r _ _ _) _). apply meq_nil_scale. apply (square n Hn), C. }
        rewrite (Z k). cbn [coef]. ring. }
      intros k. rewrite !cs_, (anti n Hn x c _ X C k), cs_, (E k). ring.
    + inversion S1 as [|? ? Sc S1']; subst. constructor; [apply span_cons, Sc|]. constructor; [apply minus_span; [apply span_in; left; reflexivity|apply span_scale, span_cons, Sc]|]. eapply Forall_impl; [|exact S1']. intros v. apply span_cons.
    + assert (G : Forall (in_span (c :: minus x (scale t c) :: cs')) (c :: cs')). { apply Forall_forall. intros v [<-|Iv]; apply span_in; [left; reflexivity|right; right; exact Iv]. }
      constructor; [|eapply Forall_impl; [|exact S2]; intros v; apply span_trans, G].
      apply (span_meq _ (minus x (scale t c) ++ scale t c)); [intros k; unfold minus; rewrite !ca_, !cs_; ring|]. apply span_add; [apply span_in; right; left; reflexivity|apply span_scale, span_in; left; reflexivity].
Qed.
Theorem lc_blade b cs : Forall vec cs -> vec b -> ~ meq (wedge cs) [] -> ~ perp cs b -> exists ds w, w <> 0 /\ Forall vec ds /\ meq (b << wedge cs) (scale w (wedge ds)) /\ ~ meq (wedge ds) [] /\
  forall x, in_span ds x <-> in_span cs x /\ ip b x = 0.
Proof.
  intros V B NZ NP. destruct (split_off b cs V B) as [P|(c & ds & s & C & Vd & S & I & P & W & S1 & S2 & L)]; [contradiction|]. exists ds, (s * ip b c). split; [intros Q; apply Rmult_integral in Q; tauto|]. split; [exact Vd|].
  assert (Id := wedge_in n ds Vd). split; [|split].
  - refine (transitivity (lc_c _ _ _ _ (reflexivity b) W) _). refine (transitivity (lc_scl_r _ _ _) _). intros k. rewrite cs_, (leibniz n Hn b c _ B C Id k), ca_, !cs_, (op_zero_r c _ (perp_wedge ds b Vd B P) k). cbn [coef]. ring.
  - intros Z. apply NZ. refine (transitivity W _). apply meq_nil_scale, op_zero_r, Z.
  - intros x. inversion S1 as [|? ? Sc Sd]; subst. split.
    + intros H. split; [exact (span_trans cs ds x Sd H)|exact (perp_span ds b x P H)].
    + intros [H Z]. apply (span_trans _ _ x S2) in H. destruct H as [[|t ts] E]; [apply span_zero; exact E|]. cbn [combination] in E.
      assert (T : t = 0). { rewrite (ip_m b b x _ (reflexivity b) E), ip_ar, ip_sr in Z. rewrite (perp_span ds b (combination ts ds) P) in Z by (exists ts; reflexivity). rewrite Rplus_0_r in Z. apply Rmult_integral in Z. tauto. }
      exists ts. intros k. rewrite (E k), ca_, cs_, T. ring.
Qed.
Lemma op_zero_in vs x : Forall vec vs -> ~ meq (wedge vs) [] -> vec x -> meq (x ^^ wedge vs) [] -> in_span vs x.
Proof. intros V NZ X H. apply (blade_subspace n Hn vs x V NZ X), H. Qed.

(** Orthogonal lists, orthogonal projection, and the method of Gram and Schmidt. *)
Inductive orth : list mv -> Prop :=
| orth_nil : orth []
| orth_cons v vs : ip v v <> 0 -> perp vs v -> orth vs -> orth (v :: vs).
Lemma project_orth os x : Forall vec os -> orth os -> vec x -> exists p, vec p /\ in_span os p /\ perp os (minus x p).
Proof.
  intros V O X. revert V. induction O as [|o os NO P O IH]; intros V; [exists []; split; [constructor|]; split; [apply span_zero; reflexivity|constructor]|]. inversion V as [|? ? Vo Vs]; subst. destruct (IH Vs) as (p & Vp & Sp & Pp).
  set (t := ip x o / ip o o). exists (p ++ scale t o). split; [apply vec_app; [exact Vp|apply vec_scale, Vo]|]. split; [apply span_add; [apply span_cons, Sp|apply span_scale, span_in; left; reflexivity]|].
  constructor.
  - rewrite ip_minus, ip_al, ip_sl, (ip_s p o), (perp_span os o p P Sp). unfold t. field. exact NO.
  - unfold perp in *. rewrite Forall_forall in *. intros v Hv. specialize (Pp v Hv). specialize (P v Hv). rewrite ip_minus in *. rewrite ip_al, ip_sl, P. lra.
Qed.
Lemma ip_nonzero v : vec v -> ~ meq v [] -> ip v v <> 0. Proof. intros V NZ Z. apply NZ, ip_zero; assumption. Qed.
Theorem gram_schmidt vs : Forall vec vs -> ~ meq (wedge vs) [] -> exists os, Forall vec os /\ orth os /\ meq (wedge os) (wedge vs) /\ Forall (in_span vs) os /\ Forall (in_span os) vs.
Proof.
  intros V. induction V as [|v vs Hv V IH]; intros NZ; [exists []; repeat split; constructor|].
  assert (NZ' : ~ meq (wedge vs) []) by (intros Z; apply NZ; cbn [wedge]; apply op_zero_r, Z).
  destruct (IH NZ') as (os & Vo & O & W & S1 & S2). destruct (project_orth os v Vo O Hv) as (p & Vp & Sp & Pp). set (u := minus v p). assert (Vu : vec u) by (apply minus_vec; assumption).
  assert (E : meq (u ^^ wedge os) (v ^^ wedge vs)).
  { refine (transitivity (op_add_l _ _ _) _). intros k. rewrite ca_, (op_scl_l _ _ _ k), cs_, (span_wedge n Hn os p Vo Sp k), (op_c _ _ _ _ (reflexivity v) W k). cbn [coef]. ring. }
  exists (u :: os). split; [constructor; assumption|]. split; [constructor; [apply ip_nonzero; [exact Vu|]|exact Pp|exact O]|split; [exact E|split]].
  - intros Z. apply NZ. cbn [wedge]. refine (transitivity (symmetry E) _). apply op_zero_l, Z.
  - constructor; [apply minus_span; [apply span_in; left; reflexivity|apply span_cons, (span_trans vs os p S1 Sp)]|]. eapply Forall_impl; [|exact S1]. intros x. apply span_cons.
  - constructor; [|eapply Forall_impl; [|exact S2]; intros x; apply span_cons].
    apply (span_meq _ (u ++ p)); [intros k; unfold u, minus; rewrite !ca_, !cs_; ring|]. apply span_add; [apply span_in; left; reflexivity|apply span_cons, Sp].
Qed.
Lemma perp_trans vs os x : perp os x -> Forall (in_span os) vs -> perp vs x.
Proof. intros P S. eapply Forall_impl; [|exact S]. intros v Hv. exact (perp_span os x v P Hv). Qed.
Theorem projection vs x : Forall vec vs -> ~ meq (wedge vs) [] -> vec x -> exists p, vec p /\ in_span vs p /\ perp vs (minus x p).
Proof.
  intros V NZ X. destruct (gram_schmidt vs V NZ) as (os & Vo & O & _ & S1 & S2). destruct (project_orth os x Vo O X) as (p & Vp & Sp & Pp). exists p. split; [exact Vp|]. split; [exact (span_trans vs os p S1 Sp)|exact (perp_trans vs os _ Pp S2)].
Qed.

(** The contraction of a blade by a blade inside it is its orthogonal complement in it. *)
Lemma lcs_blade us cs : Forall vec cs -> ~ meq (wedge cs) [] -> Forall vec us -> orth us -> Forall (in_span cs) us -> exists ds w, w <> 0 /\ Forall vec ds /\ meq (lcs us (wedge cs)) (scale w (wedge ds)) /\ ~ meq (wedge ds) [] /\
  forall x, in_span ds x <-> in_span cs x /\ perp us x.
Proof.
  intros V NZ Vu O. revert Vu. induction O as [|u us NU P O IH]; intros Vu Su.
  - exists cs, 1. split; [lra|]. split; [exact V|]. split; [intros k; rewrite cs_; cbn; ring|]. split; [exact NZ|]. intros x. split; [intros H; split; [exact H|constructor]|tauto].
  - inversion Vu as [|? ? V1 V2]; subst. inversion Su as [|? ? S1 S2]; subst. destruct (IH V2 S2) as (es & w & Nw & Ve & E & Ne & Sp).
    assert (Ue : in_span es u) by (apply Sp; split; assumption). assert (NP : ~ perp es u) by (intros Q; apply NU, (perp_span es u u Q Ue)).
    destruct (lc_blade u es Ve V1 Ne NP) as (ds & w' & Nw' & Vd & E' & Nd & Sd). exists ds, (w * w'). split; [intros Z; apply Rmult_integral in Z; tauto|]. split; [exact Vd|]. split; [|split; [exact Nd|]].
    + cbn [lcs fold_right]. refine (transitivity (lc_c _ _ _ _ (reflexivity u) E) _). refine (transitivity (lc_scl_r _ _ _) _). intros k. rewrite !cs_, (E' k), cs_. ring.
    + intros x. rewrite Sd, Sp. split; [intros [[A B] C]; split; [exact A|constructor; [rewrite ip_s; exact C|exact B]]|intros [A B]; inversion B; subst; split; [split; assumption|rewrite ip_s; assumption]].
Qed.
Theorem contract us cs : Forall vec cs -> ~ meq (wedge cs) [] -> Forall vec us -> ~ meq (wedge us) [] -> Forall (in_span cs) us -> exists ds w, w <> 0 /\ Forall vec ds /\ meq (wedge us << wedge cs) (scale w (wedge ds)) /\ ~ meq (wedge ds) [] /\
  forall x, in_span ds x <-> in_span cs x /\ perp us x.
Proof.
  intros V NZ Vu NU Su. destruct (gram_schmidt us Vu NU) as (os & Vo & O & W & S1 & S2).
  assert (So : Forall (in_span cs) os) by (eapply Forall_impl; [|exact S1]; intros x; apply span_trans, Su).
  destruct (lcs_blade os cs V NZ Vo O So) as (ds & w & Nw & Vd & E & Nd & Sd). exists ds, w. split; [exact Nw|]. split; [exact Vd|]. split; [|split; [exact Nd|]].
  - refine (transitivity (lc_c _ _ _ _ (symmetry W) (reflexivity _)) _). refine (transitivity (symmetry (lcs_wedge n Hn os _ Vo (wedge_in n cs V))) E).
  - intros x. rewrite Sd. split; intros [A B]; (split; [exact A|]); [exact (perp_trans us os x B S2)|exact (perp_trans os us x B S1)].
Qed.

(** A part orthogonal to a subspace is lost in a contraction of an element of it. *)
Lemma perp_gen vs k m z : Forall vec vs -> vec z -> perp vs z -> gen n vs k m -> meq (z << m) [].
Proof.
  intros V Z P. induction 1 as [k|ls H|k a b Ha IHa Hb IHb|k c a Ha IHa|k a b E Ib Ha IHa].
  - apply lc_zero_r. reflexivity.
  - apply perp_wedge; [eapply Forall_impl; [|exact H]; cbn; tauto|exact Z|]. eapply Forall_impl; [|exact H]. intros v [_ Sv]. exact (perp_span vs z v P Sv).
  - refine (transitivity (lc_add_r _ _ _) _). intros q. rewrite ca_, (IHa q), (IHb q). cbn [coef]. ring.
  - refine (transitivity (lc_scl_r _ _ _) _). apply meq_nil_scale, IHa.
  - refine (transitivity (lc_c _ _ _ _ (reflexivity z) (symmetry E)) IHa).
Qed.
Lemma lc_add_l a b c : meq ((a ++ b) << c) (a << c ++ b << c). Proof. apply bilinear_app_l. Qed.
Definition projected (vs : list mv) (d p : mv) : Prop := vec p /\ in_span vs p /\ perp vs (minus d p).
Lemma projections vs ds : Forall vec vs -> ~ meq (wedge vs) [] -> Forall vec ds -> exists ps, Forall2 (projected vs) ds ps.
Proof.
  intros V NZ D. induction D as [|d ds Hd D [ps IH]]; [exists []; constructor|]. destruct (projection vs d V NZ Hd) as (p & X). exists (p :: ps). constructor; assumption.
Qed.
Lemma projected_vec vs ds ps : Forall2 (projected vs) ds ps -> Forall vec ps /\ Forall (in_span vs) ps.
Proof. induction 1 as [|d p ds ps (V & S & _) _ [IH1 IH2]]; split; constructor; assumption. Qed.
Lemma lcs_projected vs ds ps k m : Forall vec vs -> Forall vec ds -> Forall2 (projected vs) ds ps -> gen n vs k m -> meq (lcs ds m) (lcs ps m).
Proof.
  intros V D P G. induction P as [|d p ds ps (Vp & Sp & Pp) P IH]; [reflexivity|]. inversion D as [|? ? D1 D2]; subst. cbn [lcs fold_right]. fold (lcs ds m) (lcs ps m).
  refine (transitivity (lc_c _ _ _ _ (reflexivity d) (IH D2)) _). pose proof (perp_gen vs _ _ (minus d p) V (minus_vec d p D1 Vp) Pp (lcs_gen n Hn vs ps k m (proj1 (projected_vec vs ds ps P)) G)) as Z.
  pose proof (transitivity (symmetry (lc_add_l d (scale (-1) p) (lcs ps m))) Z) as Y. intros q. specialize (Y q). rewrite ca_, (lc_scl_l _ _ _ q), cs_ in Y. cbn [coef] in Y. lra.
Qed.
(** A list whose outer product is zero has an element in the span of those behind it. *)
Lemma dependent vs : Forall vec vs -> meq (wedge vs) [] -> exists l1 v l2, vs = l1 ++ v :: l2 /\ in_span l2 v.
Proof.
  intros V. induction V as [|v vs Hv V IH]; intros Z; [specialize (Z 0%N); cbn in Z; lra|].
  destruct (Classical_Prop.classic (meq (wedge vs) [])) as [Y|Y]; [destruct (IH Y) as (l1 & w & l2 & -> & S); exists (v :: l1), w, l2; split; [reflexivity|exact S]|].
  exists [], v, vs. split; [reflexivity|]. apply op_zero_in; assumption.
Qed.
Lemma dependent_zero l1 v l2 : Forall vec (l1 ++ v :: l2) -> in_span l2 v -> meq (wedge (l1 ++ v :: l2)) [].
Proof.
  intros V S. refine (transitivity (wedge_app _ _) _). apply op_zero_r. apply Forall_app in V. destruct V as [_ V]. inversion V; subst. cbn [wedge]. apply (span_wedge n Hn); assumption.
Qed.
Lemma comb_projected vs ds ps cs : Forall2 (projected vs) ds ps -> perp vs (minus (combination cs ds) (combination cs ps)).
Proof.
  intros P. unfold perp. apply Forall_forall. intros v Hv. rewrite ip_minus. revert cs. induction P as [|d p ds ps (_ & _ & Pp) P IH]; intros [|c cs]; cbn [combination]; try (cbn; ring).
  unfold perp in Pp. rewrite Forall_forall in Pp. specialize (Pp v Hv). rewrite ip_minus in Pp. specialize (IH cs). rewrite !ip_al, !ip_sl. replace (ip d v) with (ip p v) by lra. lra.
Qed.

(** The meet: the vectors orthogonal to the complement of the second subspace in the join, in the first. *)
Theorem meet_blade av bv cs : Forall vec av -> Forall vec bv -> Forall vec cs -> ~ meq (wedge av) [] -> ~ meq (wedge bv) [] -> ~ meq (wedge cs) [] -> (forall x, in_span cs x <-> in_span (av ++ bv) x) ->
  exists ms w, w <> 0 /\ Forall vec ms /\ meq ((wedge bv << wedge cs) << wedge av) (scale w (wedge ms)) /\ ~ meq (wedge ms) [] /\ forall x, in_span ms x <-> in_span av x /\ in_span bv x.
Proof.
  intros VA VB VC NA NB NC J.
  assert (Ja : forall x, in_span av x -> in_span cs x) by (intros x H; apply J, span_app_l, H). assert (Jb : forall x, in_span bv x -> in_span cs x) by (intros x H; apply J, span_app_r, H).
  destruct (contract bv cs VC NC VB NB) as (ds & w & Nw & Vd & Ed & Nd & Sd). { apply Forall_forall. intros x Hx. apply Jb, span_in, Hx. }
  destruct (projections av ds VA NA Vd) as (ps & P). destruct (projected_vec av ds ps P) as [Vp Sp].
  assert (Dz : forall y, vec y -> in_span ds y -> perp av y -> meq y []).
  { intros y Vy Sy Py. apply ip_zero; [exact Vy|]. apply Sd in Sy. destruct Sy as [Sy Py']. apply J in Sy. refine (perp_span (av ++ bv) y y _ Sy). apply Forall_app. split; assumption. }
  assert (Np : ~ meq (wedge ps) []).
  { intros Z. destruct (dependent ps Vp Z) as (l1 & p & l2 & -> & [ts Ep]). apply Forall2_app_inv_r in P. destruct P as (k1 & k0 & P1 & P2 & ->). inversion P2 as [|d p' k2 l2' Pd P3]; subst.
    apply Nd. apply (dependent_zero k1 d k2 Vd). exists ts. apply minus_eq. pose proof Vd as Vd2. apply Forall_app in Vd2. destruct Vd2 as [_ Vd2]. inversion Vd2 as [|? ? Vd0 Vk2]; subst. apply Dz.
    - apply minus_vec; [exact Vd0|apply (comb_vec n), Vk2].
    - apply minus_span; [apply span_in, in_or_app; right; left; reflexivity|]. apply span_comb. apply Forall_forall. intros x Hx. apply span_in, in_or_app. right. right. exact Hx.
    - pose proof (comb_projected av k2 l2 ts P3) as C. destruct Pd as (_ & _ & Pd). unfold perp in *. rewrite Forall_forall in *. intros v Hv. specialize (C v Hv). specialize (Pd v Hv). rewrite ip_minus in *. rewrite (ip_m p _ v v Ep (reflexivity v)) in Pd. lra. }
  destruct (contract ps av VA NA Vp Np Sp) as (ms & w' & Nw' & Vm & Em & Nm & Sm). exists ms, (w * w'). split; [intros Z; apply Rmult_integral in Z; tauto|]. split; [exact Vm|]. split; [|split; [exact Nm|]].
  - refine (transitivity (lc_c _ _ _ _ Ed (reflexivity _)) _). refine (transitivity (lc_scl_l _ _ _) _).
    assert (E : meq (wedge ds << wedge av) (wedge ps << wedge av)).
    { refine (transitivity (symmetry (lcs_wedge n Hn ds _ Vd (wedge_in n av VA))) _). refine (transitivity _ (lcs_wedge n Hn ps _ Vp (wedge_in n av VA))). exact (lcs_projected av ds ps _ _ VA Vd P (wedge_gen n av VA)). }
    intros q. rewrite !cs_, (E q), (Em q), cs_. ring.
  - intros x0. rewrite Sm.
    assert (K : forall x, vec x -> in_span av x -> (perp ps x <-> in_span bv x)).
    { intros x Vx Sx. assert (Eq : perp ps x <-> perp ds x).
      { clear - P Sx. induction P as [|d p ds ps (_ & _ & Pp) P IH]; [split; constructor|]. assert (Z : ip x d = ip x p). { pose proof (perp_span av _ x Pp Sx) as Q. rewrite ip_minus in Q. rewrite (ip_s x d), (ip_s x p). lra. }
        split; intros H; inversion H; subst; (constructor; [congruence|apply IH; assumption]). }
      rewrite Eq. split.
      - intros Pd. destruct (projection bv x VB NB Vx) as (p & Vp0 & Sp0 & Pp0). assert (Sr : in_span ds (minus x p)). { apply Sd. split; [apply minus_span; [apply Ja, Sx|apply Jb, Sp0]|exact Pp0]. }
        apply (span_meq bv p); [|exact Sp0]. symmetry. apply minus_eq, ip_zero; [apply minus_vec; assumption|]. rewrite ip_minus, (perp_span ds x _ Pd Sr), (ip_s p), (perp_span bv _ p Pp0 Sp0). ring.
      - intros Sb. unfold perp. apply Forall_forall. intros d Hd. rewrite ip_s. apply (perp_span bv); [|exact Sb]. apply (proj2 (proj1 (Sd d) (span_in ds d Hd))). }
    split.
    + intros [Sx Px]. split; [exact Sx|]. pose proof Sx as [ts Ex]. assert (Px' : perp ps (combination ts av)). { eapply Forall_impl; [|exact Px]. intros v Hv. rewrite <- (ip_m _ _ v v Ex (reflexivity v)). exact Hv. }
      apply (span_meq bv (combination ts av)); [symmetry; exact Ex|]. apply K; [apply (comb_vec n), VA|exists ts; reflexivity|exact Px'].
    + intros [Sx Sb]. split; [exact Sx|]. pose proof Sx as [ts Ex]. assert (Px' : perp ps (combination ts av)). { apply K; [apply (comb_vec n), VA|exists ts; reflexivity|]. exact (span_meq bv x0 _ Ex Sb). }
      eapply Forall_impl; [|exact Px']. intros v Hv. rewrite (ip_m _ _ v v Ex (reflexivity v)). exact Hv.
Qed.

(** Subspaces that only share the zero vector: the outer product of their blades is not zero. *)
Lemma disjoint_wedge ds es : Forall vec ds -> Forall vec es -> ~ meq (wedge ds) [] -> ~ meq (wedge es) [] -> (forall x, vec x -> in_span ds x -> in_span es x -> meq x []) -> ~ meq (wedge (ds ++ es)) [].
Proof.
  intros VD VE ND NE H Z. destruct (dependent (ds ++ es) ltac:(apply Forall_app; split; assumption) Z) as (l1 & v & l2 & E & [ts Ev]). revert l1 E. induction ds as [|d ds IH]; intros l1 E.
  - cbn [app] in E. subst es. apply NE, dependent_zero; [exact VE|]. exists ts. exact Ev.
  - destruct l1 as [|d' l1]; cbn [app] in E; injection E as -> E.
    + subst l2. inversion VD as [|? ? Vd VD']; subst. apply ND. refine (dependent_zero [] v ds VD _). set (k := length ds). set (x := minus v (combination (firstn k ts) ds)).
      assert (C : forall ws, meq (combination ts (ws ++ es)) (combination (firstn (length ws) ts) ws ++ combination (skipn (length ws) ts) es)).
      { clear. intros ws. revert ts. induction ws as [|w ws IH]; intros ts; cbn [app length]; [reflexivity|]. destruct ts as [|t ts]; cbn [firstn skipn combination]; [destruct es; reflexivity|]. specialize (IH ts). intros q. specialize (IH q). rewrite !ca_ in *. rewrite IH. ring. }
      assert (X : meq x (combination (skipn k ts) es)). { intros q. unfold x, minus. rewrite ca_, cs_, (Ev q), (C ds q), ca_. unfold k. ring. }
      exists (firstn k ts). apply minus_eq. apply H.
      * apply minus_vec; [exact Vd|apply (comb_vec n), VD'].
      * apply minus_span; [apply span_in; left; reflexivity|]. apply span_cons. exists (firstn k ts). reflexivity.
      * exists (skipn k ts). exact X.
    + inversion VD; subst. apply (IH ltac:(assumption)) with l1; [|intros x X1 X2 X3; apply H; [exact X1|apply span_cons, X2|exact X3]| |exact E].
      * intros Y. apply ND. cbn [wedge]. apply op_zero_r, Y.
      * rewrite E. apply dependent_zero; [rewrite <- E; apply Forall_app; split; assumption|]. exists ts. exact Ev.
Qed.
(** The plunge: the sum of the complements of the two subspaces in their sum. *)
Theorem plunge_blade av bv cs : Forall vec av -> Forall vec bv -> Forall vec cs -> ~ meq (wedge av) [] -> ~ meq (wedge bv) [] -> ~ meq (wedge cs) [] -> (forall x, in_span cs x <-> in_span (av ++ bv) x) ->
  exists ps w, w <> 0 /\ Forall vec ps /\ meq ((wedge bv << wedge cs) ^^ (wedge av << wedge cs)) (scale w (wedge ps)) /\ ~ meq (wedge ps) [] /\
  forall x, in_span ps x <-> exists y z, meq x (y ++ z) /\ in_span cs y /\ perp bv y /\ in_span cs z /\ perp av z.
Proof.
  intros VA VB VC NA NB NC J.
  destruct (contract bv cs VC NC VB NB) as (ds & w & Nw & Vd & Ed & Nd & Sd). { apply Forall_forall. intros x Hx. apply J, span_app_r, span_in, Hx. }
  destruct (contract av cs VC NC VA NA) as (es & w' & Nw' & Ve & Ee & Ne & Se). { apply Forall_forall. intros x Hx. apply J, span_app_l, span_in, Hx. }
  exists (ds ++ es), (w * w'). split; [intros Z; apply Rmult_integral in Z; tauto|]. split; [apply Forall_app; split; assumption|]. split; [|split].
  - refine (transitivity (op_c _ _ _ _ Ed Ee) _). refine (transitivity (op_scl_l _ _ _) _). refine (transitivity (meq_scl w _ _ (op_scl_r _ _ _)) _). intros q. rewrite !cs_, (wedge_app ds es q). ring.
  - apply disjoint_wedge; try assumption. intros x Vx Sx Sx'. apply ip_zero; [exact Vx|]. apply Sd in Sx. apply Se in Sx'. destruct Sx as [Sx Px]. destruct Sx' as [_ Px']. apply J in Sx. refine (perp_span (av ++ bv) x x _ Sx). apply Forall_app. split; assumption.
  - intros x. split.
    + intros [ts E]. assert (C : exists us vs, meq x (combination us ds ++ combination vs es)).
      { clear - E. revert ts x E. induction ds as [|d ds IH]; intros ts x E; cbn [app] in E; [exists [], ts; exact E|]. destruct ts as [|t ts]; cbn [combination] in E; [exists [], []; cbn [combination app]; exact E|].
        destruct (IH ts _ (reflexivity _)) as (us & vs & F). exists (t :: us), vs. intros q. specialize (F q). rewrite (E q). cbn [combination]. rewrite !ca_ in *. rewrite F. ring. }
      destruct C as (us & vs & F). exists (combination us ds), (combination vs es). split; [exact F|]. pose proof (proj1 (Sd (combination us ds)) ltac:(exists us; reflexivity)). pose proof (proj1 (Se (combination vs es)) ltac:(exists vs; reflexivity)). tauto.
    + intros (y & z & E & Sy & Py & Sz & Pz). apply (span_meq _ (y ++ z)); [symmetry; exact E|]. apply span_add; [apply span_app_l, Sd; auto|apply span_app_r, Se; auto].
Qed.
End Space.
