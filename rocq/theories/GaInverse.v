(** Inverses and versors for the geometric product of any symmetric bilinear form. *)
From Coq Require Import NArith ZArith List Bool Lia Reals Lra Setoid Morphisms.
From Verif Require Import Bits SpecBits BitsBase Sem SpecMv SpecAlg MvBase Clifford Clifford2 Clifford3 Clifford4 Clifford5 SpecExtra AlgProofs SpecGeneral Wick Wick2 ExtraProofs SpecGeo GaProofs GaRound.
Import ListNotations.
Local Open Scope R_scope.

Lemma homog_grade_part k m : homog k (grade_part k m).
Proof. unfold grade_part, homog. apply Forall_forall. intros p I. apply filter_In in I as [_ I]. apply N.eqb_eq, I. Qed.
Lemma bilinear_none a b : meq (bilinear (fun _ _ => []) a b) [].
Proof. apply meq_sumf. intros h. rewrite sumf_bilinear. cbn [sumf]. rewrite (sumf_ext _ _ (fun _ => 0)) by (intros; apply sumf_0). apply sumf_0. Qed.
Section Inverse.
Variables (n : N) (A : N -> N -> R) (G : N -> N -> mv).
Hypothesis Hn : (n <= 64)%N.
Hypothesis HG : geometric n A G.
Hypothesis SA : forall i j, A i j = A j i.
Notation "a ** b" := (ggp G a b) (at level 40, left associativity).
Notation ins := (in_space n).
Notation gA := (gA n A G HG).
Notation gin := (gin n A G HG).
Local Opaque ggp scale meq.
Lemma g0r a : meq (a ** []) []. Proof. Transparent ggp. apply bilinear_0_r. reflexivity. Qed.
Local Opaque ggp.
Lemma g0l a : meq ([] ** a) []. Proof. Transparent ggp meq. intros j. reflexivity. Qed.
Local Opaque ggp.
Lemma lc_nil a : meq (glc G [] a) []. Proof. Transparent meq. intros j. reflexivity. Qed.
Local Opaque meq.
Lemma gin1 : ins one. Proof. apply in_one. Qed.
Lemma in_sc c a : ins a -> ins (scale c a). Proof. apply in_space_scale. Qed.
Fixpoint gpw (u : mv) (j : nat) : mv := match j with O => one | S j => gpw u j ** u end.
Fixpoint pev (cs : list R) (u : mv) : mv := match cs with [] => [] | c :: cs' => scale c one ++ u ** pev cs' u end.
Fixpoint cmb (u : mv) (cs : list R) (j : nat) : mv := match cs with [] => [] | c :: cs' => scale c (gpw u j) ++ cmb u cs' (S j) end.
Lemma gpw_in u j : ins u -> ins (gpw u j).
Proof. intros H. induction j; [apply gin1|]. cbn [gpw]. apply gin; auto. Qed.
Lemma pev_in u cs : ins u -> ins (pev cs u).
Proof. intros H. induction cs as [|c cs IH]; cbn [pev]; [constructor|]. apply Forall_app. split; [apply in_sc, gin1|apply gin; auto]. Qed.
Lemma cmb_pev u cs : ins u -> forall j, meq (gpw u j ** pev cs u) (cmb u cs j).
Proof.
  intros Iu. induction cs as [|c cs IH]; intros j; cbn [pev cmb]; [apply g0r|]. rewrite gDr, gSr, (g1r n A G Hn HG _ (gpw_in u j Iu)), <- (gA (gpw u j) u (pev cs u) (gpw_in u j Iu) Iu (pev_in u cs Iu)). change (gpw u j ** u) with (gpw u (S j)). rewrite IH. reflexivity.
Qed.
Lemma cmb_in u cs j : ins u -> ins (cmb u cs j).
Proof. intros H. revert j. induction cs as [|c cs IH]; intros j; cbn [cmb]; [constructor|]. apply Forall_app. split; [apply in_sc, gpw_in, H|apply IH]. Qed.
Lemma coef_cmb u cs j i : coef (cmb u cs j) (N.of_nat i) = dotl cs (map (fun t i => coef (gpw u t) (N.of_nat i)) (seq j (length cs))) i.
Proof. revert j. induction cs as [|c cs IH]; intros j; [reflexivity|]. cbn [cmb length seq map dotl]. rewrite coef_app, coef_scale, IH. reflexivity. Qed.
Theorem left_inv u v : ins u -> ins v -> meq (v ** u) one -> meq (u ** v) one.
Proof.
  intros Iu Iv E. set (D := N.to_nat (2 ^ n)). destruct (dependent D (map (fun t i => coef (gpw u t) (N.of_nat i)) (seq 0 (S D)))) as (cs & L & Nz & H).
  { rewrite map_length, seq_length. lia. }
  rewrite map_length, seq_length in L. assert (Z : meq (pev cs u) []).
  { rewrite <- (g1l n A G HG (pev cs u) (pev_in u cs Iu)). change one with (gpw u 0). rewrite (cmb_pev u cs Iu). Transparent meq. intros k. destruct (N.ltb_spec k (2 ^ n)) as [Lk|Lk]; [|apply (coef_big n); [apply cmb_in; exact Iu|exact Lk]].
    replace k with (N.of_nat (N.to_nat k)) by lia. rewrite coef_cmb, L. apply H. unfold D. lia. }
  clear H L. induction cs as [|c cs IH]; [inversion Nz|]. cbn [pev] in Z. pose proof (pev_in u cs Iu) as Ip. destruct (Req_EM_T c 0) as [->|Nc].
  - apply IH; [inversion Nz; [congruence|assumption]|]. assert (Z' : meq (u ** pev cs u) []).
    { intros k. specialize (Z k). rewrite coef_app, coef_scale in Z. cbn [coef] in *. lra. }
    rewrite <- (g1l n A G HG (pev cs u) Ip), <- E, (gA v u (pev cs u) Iv Iu Ip), Z'. apply g0r.
  - assert (R1 : meq (u ** scale (- / c) (pev cs u)) one).
    { rewrite gSr. intros k. specialize (Z k). rewrite coef_app, coef_scale in Z. rewrite coef_scale. change (coef [] k) with 0 in Z. replace (coef (u ** pev cs u) k) with (- (c * coef one k)) by lra. field. exact Nc. }
    assert (Ev : meq v (scale (- / c) (pev cs u))). { rewrite <- (g1r n A G Hn HG v Iv), <- R1, <- (gA v u _ Iv Iu (in_sc _ _ Ip)), E. apply (g1l n A G HG), in_sc, Ip. }
    rewrite Ev. exact R1.
Qed.
Local Opaque meq.

(** The inverse of a versor. *)
Section Versor.
Variables (v : mv) (s : R).
Hypothesis Iv : ins v.
Hypothesis Hs : s <> 0.
Hypothesis Sv : meq (v ** mrev v) [(s, 0%N)].
Let Ir := Clifford5.in_rev n v Iv.
Lemma versor_norm : gnorm G v = s.
Proof. unfold gnorm. rewrite (gsp_re n A G Hn HG v (mrev v) Iv Ir), Sv, !re_scalar. reflexivity. Qed.
Lemma versor_inv_in : ins (ginv G v). Proof. apply in_sc, Ir. Qed.
Lemma versor_right : meq (v ** ginv G v) one.
Proof. unfold ginv. rewrite versor_norm, gSr, Sv, scalar_scale. rewrite Rinv_l by exact Hs. reflexivity. Qed.
Lemma versor_left : meq (ginv G v ** v) one.
Proof. apply left_inv; [exact versor_inv_in|exact Iv|exact versor_right]. Qed.
End Versor.

(** V A V^-1, for any V and W with V W = W V = 1. *)
Section Sandwich.
Variables (v w : mv).
Hypotheses (Iv : ins v) (Iw : ins w) (Rw : meq (v ** w) one) (Lw : meq (w ** v) one).
Notation T a := (v ** a ** w).
Lemma sw_lin c d a b : meq (T (scale c a ++ scale d b)) (scale c (T a) ++ scale d (T b)).
Proof. rewrite gDr, gDl, !gSr, !gSl. reflexivity. Qed.
Lemma sw_one : meq (T one) one. Proof. rewrite (g1r n A G Hn HG v Iv). exact Rw. Qed.
Lemma sw_gp a b : ins a -> ins b -> meq (T (a ** b)) (T a ** T b).
Proof.
  intros Ia Ib. pose proof (gin _ _ Iv Ia) as Iva. pose proof (gin _ _ Iva Iw) as Ivw. pose proof (gin _ _ Iv Ib) as Ivb.
  rewrite <- (gA (v ** a ** w) (v ** b) w Ivw Ivb Iw). rewrite <- (gA (v ** a ** w) v b Ivw Iv Ib), (gA (v ** a) w v Iva Iw Iv), Lw, (g1r n A G Hn HG _ Iva), (gA v a b Iv Ia Ib). reflexivity.
Qed.
(** It preserves the inner product of vectors. *)
Lemma sw_vectors x y : vec n x -> vec n y -> meq (T x ** T y ++ T y ** T x) [(2 * ip A x y, 0%N)].
Proof.
  intros Vx Vy. pose proof (vec_in n x Vx) as Ix. pose proof (vec_in n y Vy) as Iy. rewrite <- !sw_gp by assumption. rewrite <- gDl, <- gDr, (vec_swap n A G Hn HG SA x y Vx Vy), (gsr n A G Hn HG _ v Iv), gSl, Rw. unfold one. rewrite scalar_scale, Rmult_1_r. reflexivity.
Qed.
End Sandwich.

(** Projection: [x] in the subspace of [b], [y] orthogonal to it. *)
Section Project.
Variables (x y b : mv) (k : N) (c : R).
Hypotheses (Vx : vec n x) (Vy : vec n y) (Ib : ins b) (Hb : homog k b) (Hc : c <> 0) (Sb : meq (b ** b) [(c, 0%N)]).
Hypotheses (Xb : meq (mop x b) []) (Yb : meq (glc G y b) []).
Local Opaque mop glc.
Let Ix := vec_in n x Vx.
Lemma in_b : meq (glc G x b) (x ** b).
Proof. rewrite (vec_gp n A G Hn HG x b Vx Ib), Xb. reflexivity. Qed.
Lemma times_b : meq (x ** b ** b) (scale c x).
Proof. rewrite (gA x b b Ix Ib Ib), Sb. apply (gsr n A G Hn HG c x Ix). Qed.
Lemma pr_norm : gnorm G b <> 0. Proof. exact (proj1 (square_inv n A G Hn HG k b c Ib Hb Hc Sb)). Qed.
Lemma pr_value : meq (glc G (glc G (x ++ y) (ginv G b)) b) x.
Proof.
  rewrite (proj2 (square_inv n A G Hn HG k b c Ib Hb Hc Sb)), lc_scale_r, lc_app_l, Yb, nil_app, lc_scale_l.
  assert (Q : meq (glc G (glc G x b) b) (scale c x)).
  { destruct (N.eq_dec k 0) as [->|Nk].
    - assert (Z : meq (glc G x b) []).
      { Transparent glc. unfold glc. rewrite (homog_eq 1 x (part_lcont G) (fun _ _ => []) 0 b (vec_homog n Hn x Vx) Hb) by (intros i j Hi Hj; unfold part_lcont; rewrite Hi, Hj; reflexivity). apply bilinear_none. }
      Local Opaque glc. rewrite Z. assert (Zx : meq (scale c x) []) by (rewrite <- times_b, <- in_b, Z; apply g0l). rewrite Zx. apply lc_nil.
    - assert (Q1 : meq (glc G x b) (grade_part (k - 1) (x ** b))) by (exact (lc_part G 1 k x b ltac:(lia) (vec_homog n Hn x Vx) Hb)).
      assert (Q2 : meq (grade_part (k - 1) (x ** b)) (x ** b)) by (rewrite <- Q1; exact in_b).
      rewrite Q1, (lc_part G (k - 1) k _ _ ltac:(lia) (homog_grade_part _ _) Hb), Q2, times_b. replace (k - (k - 1))%N with 1%N by lia.
      rewrite (homog_part_id 1 (scale c x) (homog_scale _ _ _ (vec_homog n Hn x Vx))). reflexivity. }
  rewrite Q, scale_scale. rewrite Rinv_l by exact Hc. apply scale_one.
Qed.
Lemma rj_value : meq (msub (x ++ y) (glc G (glc G (x ++ y) (ginv G b)) b)) y.
Proof. unfold msub. rewrite pr_value. Transparent meq scale. intros j. rewrite !coef_app, coef_scale. ring. Qed.
End Project.
End Inverse.
