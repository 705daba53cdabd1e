(** The orthogonal decomposition that the meet and the join of two blades rest on. *)
From Coq Require Import NArith ZArith List Bool Lia Reals Lra Setoid Morphisms RelationClasses Classical.
From Verif Require Import Bits SpecBits Expr Sem Wf BitsBase SpecMv SpecAlg SpecExtra MvBase GradeProofs OuterProofs Clifford Clifford2 Clifford3 Clifford4 Clifford5 AlgProofs SpecGeneral Wick GenSum Wick2 DetProofs SpecSpaces VecProofs GenMul GenApi SpecGeo GaProofs GaInverse GeoApi GaRound SpecNorm SpecMeet JoinMath MeetMath MeetMath2.
Import ListNotations.
Local Open Scope R_scope.
Local Opaque sign_of indices idx.

Section Space.
Variable n : N.
Hypothesis Hn : (n <= 63)%N.
Notation "a ^^ b" := (mop a b) (at level 40, left associativity).
Notation "a << b" := (mlcont e1 a b) (at level 40, left associativity).
Notation "a ** b" := (mgp e1 a b) (at level 40, left associativity).
Notation ins := (in_space n).
Notation vec := (GaProofs.vec n).
Notation form := (diagonal_form e1).
Notation ip := (GaProofs.ip form).
Notation perp := MeetMath.perp.

(** ** Projection to the subspace of a blade *)
Lemma blade_square ds : Forall vec ds -> ~ meq (wedge ds) [] -> exists c, c <> 0 /\ meq (wedge ds ** wedge ds) [(c, 0%N)].
Proof.
  intros V NZ. destruct (gram_schmidt n Hn ds V NZ) as (os & Vo & O & W & _ & _).
  destruct (delta_product n Hn os [] [] Vo O ltac:(constructor) ltac:(constructor) ltac:(constructor) ltac:(constructor)) as (w & W0 & Q). rewrite app_nil_r in Q. exists w. split; [exact W0|].
  refine (transitivity (gp_c _ _ _ _ (symmetry W) (symmetry W)) _). refine (transitivity Q _). cbn [wedge].
  assert (X : meq (one ** one) one) by exact (g1l n form (gp_blade e1) (diagonal_geometric e1 n (n64 n Hn)) one (in_one n)). intros k. rewrite cs_, (X k). unfold one. cbn [coef]. destruct (N.eqb 0 k); ring.
Qed.
Lemma blade_inverse ds w : Forall vec ds -> ~ meq (wedge ds) [] -> w <> 0 -> norm2 e1 (scale w (wedge ds)) <> 0 /\ exists s, s <> 0 /\ meq (minv e1 (scale w (wedge ds))) (scale s (wedge ds)).
Proof.
  intros V NZ W0. destruct (blade_square ds V NZ) as (c & C0 & Q).
  destruct (square_inv n form (gp_blade e1) (n64 n Hn) (diagonal_geometric e1 n (n64 n Hn)) (N.of_nat (length ds)) (scale w (wedge ds)) (w * w * c)) as [N0 I].
  - unfold in_space, scale. rewrite Forall_map. exact (wedge_in n ds V).
  - apply homog_scale, (wedge_homog n Hn), V.
  - repeat apply Rmult_integral_contrapositive_currified; assumption.
  - refine (transitivity (gp_scl _ _ _ _) _). intros k. rewrite cs_, (Q k). cbn [coef]. destruct (N.eqb 0 k); ring.
  - split; [exact N0|]. exists (/ (w * w * c) * w). split; [apply Rmult_integral_contrapositive_currified; [apply Rinv_neq_0_compat; repeat apply Rmult_integral_contrapositive_currified; assumption|exact W0]|].
    refine (transitivity I _). intros k. rewrite !cs_. ring.
Qed.
Lemma scale_in c a : ins a -> ins (scale c a). Proof. intros H. unfold in_space, scale. rewrite Forall_map. exact H. Qed.
Theorem projected_value ds w x : Forall vec ds -> ~ meq (wedge ds) [] -> w <> 0 -> vec x -> exists p, projected n ds x p /\ meq ((x << minv e1 (scale w (wedge ds))) << scale w (wedge ds)) p.
Proof.
  intros V NZ W0 X. destruct (projection n Hn ds x V NZ X) as (p & Vp & Sp & Pp). exists p. split; [split; [exact Vp|]; split; [exact Sp|exact Pp]|].
  destruct (blade_square ds V NZ) as (c & C0 & Q). set (D := scale w (wedge ds)). assert (ID : ins D) by (apply scale_in, wedge_in, V).
  assert (Y : vec (minus x p)) by (apply minus_vec; assumption).
  assert (E : meq x (p ++ minus x p)) by (intros k; unfold minus; rewrite !ca_, !cs_; ring).
  refine (transitivity (lc_c _ _ _ _ (lc_c _ _ _ _ E (reflexivity _)) (reflexivity D)) _).
  refine (pr_value n form (gp_blade e1) (n64 n Hn) (diagonal_geometric e1 n (n64 n Hn)) p (minus x p) D (N.of_nat (length ds)) (w * w * c) Vp ID _ _ _ _ _).
  - apply homog_scale, (wedge_homog n Hn), V.
  - repeat apply Rmult_integral_contrapositive_currified; assumption.
  - refine (transitivity (gp_scl _ _ _ _) _). intros k. rewrite cs_, (Q k). cbn [coef]. destruct (N.eqb 0 k); ring.
  - refine (transitivity (op_scl_r _ _ _) _). apply meq_nil_scale, (span_wedge n Hn); assumption.
  - refine (transitivity (lc_scl_r _ _ _) _). apply meq_nil_scale, (perp_wedge n Hn); assumption.
Qed.

(** ** The projections of the basis vectors of a component of a blade span its subspace *)
Lemma ip_basis z i : vec z -> (i < n)%N -> ip z (basis i) = coef z (2 ^ i)%N.
Proof.
  intros V Hi. unfold GaProofs.ip, basis. rewrite coef_sumf. apply sumf_ext_in. intros p Hp. cbn [sumf]. unfold GaProofs.vec in V. rewrite Forall_forall in V. destruct (V p Hp) as (a & La & ->). rewrite !log_pow. unfold diagonal_form, delta, e1.
  destruct (N.eqb_spec a i) as [->|Ne]; [rewrite N.eqb_refl; ring|]. destruct (N.eqb_spec (2 ^ a) (2 ^ i)) as [Q|_]; [exfalso; apply Ne; apply (N.pow_inj_r 2); [reflexivity|exact Q]|ring].
Qed.
Lemma op_avoids z X E : vec z -> (forall i, (i < n)%N -> N.testbit E i = true -> coef z (2 ^ i)%N = 0) -> coef (z ^^ X) E = 0.
Proof.
  intros V Z. set (z' := filter (fun p => negb (N.testbit E (N.log2 (snd p)))) z).
  assert (Q : meq z z').
  { intros k. unfold z'. destruct (in_dec N.eq_dec k (map snd z)) as [J|J].
    - apply in_map_iff in J. destruct J as (p & <- & Ip). unfold GaProofs.vec in V. rewrite Forall_forall in V. destruct (V p Ip) as (a & La & ->). destruct (N.testbit E a) eqn:T.
      + rewrite (Z a La T). clear - T. induction z as [|[c b] z IH]; [reflexivity|]. cbn [filter snd]. destruct (negb (N.testbit E (N.log2 b))) eqn:B; [|exact IH]. cbn [coef]. rewrite <- IH. destruct (N.eqb_spec b (2 ^ a)) as [->|_]; [rewrite log_pow, T in B; discriminate B|ring].
      + clear - T. induction z as [|[c b] z IH]; [reflexivity|]. cbn [filter snd]. destruct (negb (N.testbit E (N.log2 b))) eqn:B; cbn [coef]; rewrite IH; [reflexivity|]. destruct (N.eqb_spec b (2 ^ a)) as [->|_]; [rewrite log_pow, T in B; discriminate B|ring].
    - assert (J' : ~ In k (map snd (filter (fun p => negb (N.testbit E (N.log2 (snd p)))) z))). { intros H. apply J. apply in_map_iff in H. destruct H as (p & <- & H). apply filter_In in H. apply in_map. tauto. }
      assert (C : forall l, ~ In k (map snd l) -> coef l k = 0). { clear. induction l as [|[c b] l IH]; intros H; [reflexivity|]. cbn [coef map snd] in *. destruct (N.eqb_spec b k) as [->|_]; [exfalso; apply H; left; reflexivity|]. rewrite IH by (intros Q; apply H; right; exact Q). ring. }
      rewrite (C _ J), (C _ J'). reflexivity. }
  rewrite (op_c _ _ X X Q (reflexivity X) E). unfold mop. rewrite coef_sumf, sumf_bilinear. rewrite (sumf_ext_in z' _ (fun _ => 0)); [apply sumf_0|]. intros p Hp. rewrite (sumf_ext_in X _ (fun _ => 0)); [apply sumf_0|]. intros q Hq.
  apply filter_In in Hp. destruct Hp as [Hp T]. unfold GaProofs.vec in V. rewrite Forall_forall in V. destruct (V p Hp) as (a & La & Ea). rewrite Ea in *. rewrite log_pow in T. unfold op_blade. destruct (N.eqb (N.land (2 ^ a) (snd q)) 0); [|reflexivity]. cbn [sumf]. unfold delta.
  destruct (N.eqb_spec (N.lor (2 ^ a) (snd q)) E) as [<-|_]; [|ring]. rewrite N.lor_spec, N.pow2_bits_true in T. discriminate T.
Qed.
Theorem projections_span ds E f : Forall vec ds -> ~ meq (wedge ds) [] -> (E < 2 ^ n)%N -> coef (wedge ds) E <> 0 -> (forall i, In i (indices E) -> projected n ds (basis i) (f i)) -> Forall (in_span (map f (indices E))) ds.
Proof.
  intros V NZ HE HC P. set (qs := map f (indices E)). assert (Vq : Forall vec qs) by (unfold qs; rewrite Forall_map; apply Forall_forall; intros i Hi; apply (P i Hi)).
  assert (Sq : Forall (in_span ds) qs) by (unfold qs; rewrite Forall_map; apply Forall_forall; intros i Hi; apply (P i Hi)).
  destruct (independent_part n Hn qs Vq) as (us & Vu & _ & NU & SU).
  assert (Su : Forall (in_span ds) us) by (apply Forall_forall; intros u Hu; apply (span_trans ds qs u Sq), SU, span_in, Hu).
  apply Forall_forall. intros d Hd. assert (Vd : vec d) by (rewrite Forall_forall in V; auto).
  destruct (projection n Hn us d Vu NU Vd) as (p & Vp & Sp & Pp). set (z := minus d p). assert (Vz : vec z) by (apply minus_vec; assumption).
  assert (Sz : in_span ds z) by (apply minus_span; [apply span_in, Hd|exact (span_trans ds us p Su Sp)]).
  assert (Zc : forall i, (i < n)%N -> N.testbit E i = true -> coef z (2 ^ i)%N = 0).
  { intros i Li T. rewrite <- (ip_basis z i Vz Li). assert (Ii : In i (indices E)) by (apply indices_spec; split; [|exact T]; lia). destruct (P i Ii) as (Vf & Sf & Pf).
    assert (Q1 : ip z (f i) = 0) by (apply (perp_span us z (f i) Pp), SU, span_in; unfold qs; apply in_map, Ii).
    assert (Q2 : ip (minus (basis i) (f i)) z = 0) by exact (perp_span ds _ z Pf Sz). rewrite ip_minus, (ip_s (f i) z), Q1, (ip_s (basis i) z) in Q2. lra. }
  destruct (classic (meq z [])) as [Y|Y].
  - apply SU. apply (span_meq us p); [|exact Sp]. symmetry. exact (minus_eq _ _ Y).
  - exfalso. apply HC. assert (Nz : ~ meq (wedge [z]) []) by (intros Q; apply Y; refine (transitivity (symmetry (Clifford.op_one_r z)) Q)).
    destruct (complement n Hn [z] ds ltac:(constructor; [exact Vz|constructor]) V Nz NZ ltac:(constructor; [exact Sz|constructor])) as (es & w & w' & _ & _ & _ & _ & Q & _).
    rewrite (Q E), cs_. cbn [app wedge]. rewrite (op_avoids z (wedge es) E Vz Zc). ring.
Qed.
End Space.
