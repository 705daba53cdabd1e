(** Algebra of multivectors in the space of any metric: vectors and the products. *)
From Coq Require Import NArith ZArith List Bool Lia Reals Lra Setoid Morphisms.
From Verif Require Import Bits SpecBits Expr Sem Wf BitsBase SpecMv SpecAlg SpecExtra MvBase GradeProofs OuterProofs Clifford Clifford2 Clifford4 AlgProofs SpecGeneral Wick GenSum Wick2 DetProofs SpecSpaces VecProofs GenMul GenApi SpecGeo.
Import ListNotations.
Local Open Scope R_scope.

Local Opaque sign_of indices idx.
Section Lists.
Variable B : N -> N -> R.
Hypothesis SB : forall i j, B i j = B j i.
Notation mulb := (Wick.mulb B).
Notation V := (Wick2.V B).
Notation D := (Wick.D B).
(** A blade times 1 and a blade times a vector. *)
Lemma mulb_unit m : forall a, (length a <= m)%nat -> incr a -> forall h, mulb a h 0%N = h (bits a).
Proof.
  induction m as [|m IH]; intros [|l a] L I h; try reflexivity; cbn [length] in L; [lia|]. pose proof (proj2 (proj2 I)) as Ia.
  rewrite (mulb_V B l a h 0%N (incr_all a Ia)), (IH a ltac:(lia) Ia). unfold Wick2.V.
  rewrite (rsum_ext_incr (B l) a Ia _ (fun z => h (bits z))) by (intros x Ix _ Lx; apply IH; [lia|exact Ix]).
  rewrite (rsum_D B l a h Ia), (E_low l a h I). ring.
Qed.
Lemma E_opp l h b : E l (fun x => - h x) b = - E l h b.
Proof. unfold E. destruct (N.testbit b l); ring. Qed.
Lemma mulb_right m l : (l < 64)%N -> forall a, (length a <= m)%nat -> incr a -> forall h, mulb a h (2 ^ l)%N = alt a * (E l h (bits a) - D l h (bits a)).
Proof.
  intros Hl. induction m as [|m IH]; intros [|j a] L I h; cbn [length] in L; try lia.
  1,2: cbn [Wick.mulb alt]; change (bits []) with 0%N; rewrite (D_zero B l h); unfold E; rewrite N.bits_0, N.lxor_0_l, sign_0_r; ring.
  pose proof (proj2 (proj2 I)) as Ia. pose proof (proj1 I) as Hj. rewrite (mulb_V B j a h (2 ^ l)%N (incr_all a Ia)), (IH a ltac:(lia) Ia).
  rewrite (rsum_ext_incr (B j) a Ia _ (fun z => - alt a * (E l h (bits z) - D l h (bits z)))).
  2: { intros x Ix _ Lx. rewrite (IH x ltac:(lia) Ix). replace (alt x) with (- alt a); [reflexivity|]. rewrite !alt_sg, <- Lx, sg_S. ring. }
  rewrite (rsum_D B j a (fun z => - alt a * (E l h z - D l h z)) Ia), D_mult.
  assert (S1 : D j (fun x => E l h x - D l h x) (bits a) = D j (E l h) (bits a) - D j (D l h) (bits a)).
  { transitivity (D j (fun x => E l h x + (-1) * D l h x) (bits a)); [unfold Wick.D, P; apply lsum_ext; intros y _; destruct (N.testbit (bits a) y); [f_equal; f_equal; ring|ring]|]. rewrite D_plus, D_mult. change (fun b => E l h b) with (E l h). change (fun x => D l h x) with (D l h). ring. }
  rewrite S1. unfold Wick2.V. rewrite E_plus, D_plus. change (fun x => E j h x) with (E j h). change (fun x => D j h x) with (D j h).
  rewrite (ED B j l h (bits a) Hl), (DD B j l h). cbn [alt]. rewrite <- (E_low j a (E l h) I), <- (E_low j a (D l h) I), (EE j l h (bits a) Hj Hl), (ED B l j h (bits a) Hj), (SB j l). ring.
Qed.
End Lists.

Global Instance ggp_meq G : Proper (meq ==> meq ==> meq) (ggp G). Proof. intros a a' Ea b b' Eb. apply bilinear_meq; assumption. Qed.
Global Instance glc_meq G : Proper (meq ==> meq ==> meq) (glc G). Proof. intros a a' Ea b b' Eb. apply bilinear_meq; assumption. Qed.
Global Instance grc_meq G : Proper (meq ==> meq ==> meq) (grc G). Proof. intros a a' Ea b b' Eb. apply bilinear_meq; assumption. Qed.
Global Instance gsp_meq G : Proper (meq ==> meq ==> meq) (gsp G). Proof. intros a a' Ea b b' Eb. apply bilinear_meq; assumption. Qed.
Global Instance mop_meq : Proper (meq ==> meq ==> meq) mop. Proof. intros a a' Ea b b' Eb. apply bilinear_meq; assumption. Qed.
Global Instance re_meq : Proper (meq ==> eq) re. Proof. intros a b E. apply E. Qed.
Global Instance gnorm_meq G : Proper (meq ==> eq) (gnorm G). Proof. intros a b E. unfold gnorm. assert (E' : meq (mrev a) (mrev b)) by (apply linear_meq; [reflexivity|exact E]). apply re_meq, gsp_meq; assumption. Qed.
Global Instance ginv_meq G : Proper (meq ==> meq) (ginv G).
Proof. intros a b E. unfold ginv. rewrite (gnorm_meq G a b E). assert (E' : meq (mrev a) (mrev b)) by (apply linear_meq; [reflexivity|exact E]). apply scale_meq; [reflexivity|exact E']. Qed.

Section Algebra.
Variables (n : N) (A : N -> N -> R) (G : N -> N -> mv).
Hypothesis Hn : (n <= 64)%N.
Hypothesis HG : geometric n A G.
Hypothesis SA : forall i j, A i j = A j i.
Notation "a ** b" := (ggp G a b) (at level 40, left associativity).
Notation "a ^^ b" := (mop a b) (at level 40, left associativity).
Notation "a << b" := (glc G a b) (at level 40, left associativity).
Notation ins := (in_space n).

(** Vectors of the space and their inner product. *)
Definition vec (u : mv) : Prop := Forall (fun p => exists a, (a < n)%N /\ snd p = (2 ^ a)%N) u.
Definition ip (u v : mv) : R := sumf u (fun p => sumf v (fun r => A (N.log2 p) (N.log2 r))).
Lemma vec_app u v : vec u -> vec v -> vec (u ++ v). Proof. intros; apply Forall_app; auto. Qed.
Lemma vec_scale c u : vec u -> vec (scale c u).
Proof. intros H. unfold vec, scale. rewrite Forall_map. exact H. Qed.
Lemma vec_in u : vec u -> ins u.
Proof. apply Forall_impl. intros p (a & H & ->). apply pow_in, H. Qed.
Lemma ip_sym u v : ip u v = ip v u. Proof. unfold ip. rewrite sumf_exch. apply sumf_ext. intros p. apply sumf_ext. intros r. apply SA. Qed.
Lemma ip_app_l u v w : ip (u ++ v) w = ip u w + ip v w. Proof. apply sumf_app. Qed.
Lemma ip_scale_l c u v : ip (scale c u) v = c * ip u v. Proof. apply sumf_scale. Qed.
Lemma ip_app_r u v w : ip w (u ++ v) = ip w u + ip w v. Proof. rewrite (ip_sym w), ip_app_l, (ip_sym u), (ip_sym v). reflexivity. Qed.
Lemma ip_scale_r c u v : ip u (scale c v) = c * ip u v. Proof. rewrite (ip_sym u), ip_scale_l, (ip_sym v). reflexivity. Qed.

(** Ring laws. *)
Lemma gA a b c : ins a -> ins b -> ins c -> meq (a ** b ** c) (a ** (b ** c)).
Proof.
  intros Ha Hb Hc. apply meq_iff. intros h. unfold ggp. rewrite !sumf_bilinear. transitivity (sumf a (fun i => sumf b (fun j => sumf c (fun l => sumf (bilinear G (G i j) [(1, l)]) h)))).
  - apply sumf_ext_in. intros p Hp. apply sumf_ext_in. intros r Hr. rewrite sumf_exch. apply sumf_ext. intros l. rewrite sumf_bilinear. apply sumf_ext. intros x. rewrite sumf1. ring.
  - apply sumf_ext_in. intros p Hp. rewrite sumf_bilinear. apply sumf_ext_in. intros r Hr. apply sumf_ext_in. intros s Hs. destruct HG as (_ & _ & _ & As).
    rewrite (sumf_meq _ _ _ (As (snd p) (snd r) (snd s) (proj1 (Forall_forall _ _) Ha p Hp) (proj1 (Forall_forall _ _) Hb r Hr) (proj1 (Forall_forall _ _) Hc s Hs))). rewrite sumf_bilinear, sumf1. ring.
Qed.
Lemma gDl a b c : meq ((a ++ b) ** c) (a ** c ++ b ** c). Proof. apply bilinear_app_l. Qed.
Lemma gDr a b c : meq (a ** (b ++ c)) (a ** b ++ a ** c). Proof. apply bilinear_app_r. Qed.
Lemma gSl c a b : meq (scale c a ** b) (scale c (a ** b)). Proof. apply bilinear_scale_l. Qed.
Lemma gSr c a b : meq (a ** scale c b) (scale c (a ** b)). Proof. apply bilinear_scale_r. Qed.
Lemma g1l a : ins a -> meq (one ** a) a.
Proof.
  intros H. destruct HG as (_ & U & _). apply meq_iff. intros h. unfold ggp. rewrite sumf_bilinear. unfold one. rewrite sumf1, Rmult_1_l. apply sumf_ext_in. intros p Hp.
  rewrite (sumf_meq _ _ _ (U (snd p) (proj1 (Forall_forall _ _) H p Hp))), sumf1. ring.
Qed.
Lemma zero_lt : (0 < 2 ^ n)%N. Proof. apply N.neq_0_lt_0, N.pow_nonzero. discriminate. Qed.
Lemma g1r a : ins a -> meq (a ** one) a.
Proof.
  intros H. apply meq_iff. intros h. unfold ggp. rewrite sumf_bilinear. unfold one. apply sumf_ext_in. intros p Hp. rewrite sumf1, Rmult_1_l. pose proof (proj1 (Forall_forall _ _) H p Hp) as Hp'.
  rewrite (geometric_sumf A n G Hn HG (snd p) 0%N h Hp' zero_lt). unfold Wick2.M. rewrite (mulb_unit A _ (indices (snd p)) (le_n _) (indices_incr _) h), (bits_indices _ (pow2_64 n _ Hn Hp')). reflexivity.
Qed.
Lemma gsl c a : ins a -> meq ([(c, 0%N)] ** a) (scale c a).
Proof. intros H. rewrite <- (g1l a H) at 2. rewrite <- gSl. apply ggp_meq; [|reflexivity]. intros k. cbn. destruct k; ring. Qed.
Lemma gsr c a : ins a -> meq (a ** [(c, 0%N)]) (scale c a).
Proof. intros H. rewrite <- (g1r a H) at 2. rewrite <- gSr. apply ggp_meq; [reflexivity|]. intros k. cbn. destruct k; ring. Qed.

(** Closure. *)
Lemma in_bilinear (f : N -> N -> mv) a b : (forall i j, (i < 2 ^ n)%N -> (j < 2 ^ n)%N -> ins (f i j)) -> ins a -> ins b -> ins (bilinear f a b).
Proof.
  intros Hf Ha Hb. unfold bilinear, linear. apply Forall_flat_map. refine (Forall_impl _ _ Ha). intros p Hp. apply in_space_scale. apply Forall_flat_map. refine (Forall_impl _ _ Hb). intros r Hr. apply in_space_scale, Hf; assumption.
Qed.
Lemma gin a b : ins a -> ins b -> ins (a ** b). Proof. apply in_bilinear, (proj1 HG). Qed.
Lemma part_in k m : ins m -> ins (grade_part k m).
Proof. intros H. unfold grade_part, in_space. apply Forall_forall. intros p Hp. apply filter_In in Hp. exact (proj1 (Forall_forall _ _) H p (proj1 Hp)). Qed.
Lemma lin a b : ins a -> ins b -> ins (a << b).
Proof. apply in_bilinear. intros i j Hi Hj. unfold part_lcont. destruct (N.leb _ _); [|constructor]. apply part_in, (proj1 HG); assumption. Qed.
Lemma oin a b : ins a -> ins b -> ins (a ^^ b).
Proof. apply in_bilinear. intros i j Hi Hj. unfold op_blade. destruct (N.eqb _ 0); [|constructor]. constructor; [|constructor]. cbn [snd]. apply BitsBase.lor_lt; assumption. Qed.
Lemma in_scalar c : ins [(c, 0%N)]. Proof. constructor; [exact zero_lt|constructor]. Qed.

(** A vector times a multivector. *)
Notation D := (Wick.D A).
Lemma log_pow a : N.log2 (2 ^ a) = a. Proof. apply N.log2_pow2, N.le_0_l. Qed.
Lemma sumf_vec u (H : N -> R) H' : vec u -> (forall a, (a < n)%N -> H (2 ^ a)%N = H' a) -> sumf u H = sumf u (fun i => H' (N.log2 i)).
Proof. intros Hu E. apply sumf_ext_in. intros p Hp. destruct (proj1 (Forall_forall _ _) Hu p Hp) as (a & La & ->). rewrite (E a La), log_pow. reflexivity. Qed.
Lemma sumf_gp u m h : vec u -> ins m -> sumf (u ** m) h = sumf u (fun i => sumf m (fun b => E (N.log2 i) h b + D (N.log2 i) h b)).
Proof.
  intros Hu Hm. unfold ggp. rewrite sumf_bilinear. rewrite (sumf_vec u _ (fun a => sumf m (fun b => E a h b + D a h b)) Hu); [reflexivity|]. intros a La. apply sumf_ext_in. intros p Hp.
  exact (G_vector A n G Hn HG a (snd p) h La (proj1 (Forall_forall _ _) Hm p Hp)).
Qed.
Lemma sumf_mop u m h : vec u -> sumf (u ^^ m) h = sumf u (fun i => sumf m (E (N.log2 i) h)).
Proof. intros Hu. unfold mop. rewrite sumf_bilinear. rewrite (sumf_vec u _ (fun a => sumf m (E a h)) Hu); [reflexivity|]. intros a La. apply sumf_ext. intros b. apply sumf_vector. Qed.
Lemma pop_len x : pop x = length (indices x). Proof. pose proof (grade_of_pop x) as Q. unfold grade_of in Q. lia. Qed.
Lemma grade_flip b j : (j < 64)%N -> grade_of (N.lxor b (2 ^ j)) = if N.testbit b j then (grade_of b - 1)%N else (grade_of b + 1)%N.
Proof.
  intros Hj. rewrite !grade_of_pop. pose proof (pop_lxor b (2 ^ j)) as Q. assert (P1 : pop (2 ^ j) = 1%nat) by (rewrite pop_len, indices_pow2 by exact Hj; reflexivity). rewrite P1 in Q.
  rewrite N.land_comm, land_pow2_bit in Q. destruct (N.testbit b j); [rewrite P1 in Q|change (pop 0) with 0%nat in Q]; revert Q; generalize (pop (N.lxor b (2 ^ j))) (pop b); intros; lia.
Qed.
Lemma grade_ge b j : (j < 64)%N -> N.testbit b j = true -> (1 <= grade_of b)%N.
Proof. intros Hj T. pose proof (proj2 (indices_spec b j) (conj Hj T)) as I. unfold grade_of. destruct (indices b); [destruct I|]. cbn [length]. lia. Qed.
Lemma lcont_vector a b h : (a < n)%N -> (b < 2 ^ n)%N -> sumf (part_lcont G (2 ^ a) b) h = D a h b.
Proof.
  intros La Lb. pose proof (pow2_64 n b Hn Lb) as Hb. unfold part_lcont. assert (g1 : grade_of (2 ^ a) = 1%N) by (pose proof (grade_flip 0 a ltac:(lia)) as Q; rewrite N.lxor_0_l, N.bits_0 in Q; exact Q). rewrite g1.
  destruct (N.leb_spec 1 (grade_of b)) as [H1|H1].
  - rewrite sumf_grade_part, (G_vector A n G Hn HG a b _ La Lb). unfold Wick2.V.
    assert (Z : E a (fun b0 => if N.eqb (grade_of b0) (grade_of b - 1) then h b0 else 0) b = 0).
    { unfold E. destruct (N.testbit b a) eqn:T; [reflexivity|]. rewrite (grade_flip b a ltac:(lia)), T. destruct (N.eqb_spec (grade_of b + 1) (grade_of b - 1)); [lia|ring]. }
    rewrite Z, Rplus_0_l. unfold Wick.D. apply lsum_ext. intros j Hj. apply idx_in in Hj. unfold P. destruct (N.testbit b j) eqn:T; [|reflexivity]. rewrite (grade_flip b j Hj), T, N.eqb_refl. reflexivity.
  - cbn [sumf]. symmetry. unfold Wick.D. transitivity (lsum (fun _ : N => 0) idx); [|apply lsum_0]. apply lsum_ext. intros j Hj. apply idx_in in Hj. unfold P. destruct (N.testbit b j) eqn:T; [|ring]. pose proof (grade_ge b j Hj T). lia.
Qed.
Lemma sumf_lc u m h : vec u -> ins m -> sumf (u << m) h = sumf u (fun i => sumf m (D (N.log2 i) h)).
Proof.
  intros Hu Hm. unfold glc. rewrite sumf_bilinear. rewrite (sumf_vec u _ (fun a => sumf m (D a h)) Hu); [reflexivity|]. intros a La. apply sumf_ext_in. intros p Hp.
  apply lcont_vector; [exact La|]. exact (proj1 (Forall_forall _ _) Hm p Hp).
Qed.
(** v m = v ^ m + v << m. *)
Lemma vec_gp u m : vec u -> ins m -> meq (u ** m) (u ^^ m ++ u << m).
Proof.
  intros Hu Hm. apply meq_iff. intros h. rewrite (sumf_gp u m h Hu Hm), sumf_app, (sumf_mop u m h Hu), (sumf_lc u m h Hu Hm), <- sumf_plus. apply sumf_ext. intros i. apply sumf_plus.
Qed.
(** u << (v ^ m) = (u . v) m - v ^ (u << m). *)
Lemma vec_leibniz u v m : vec u -> vec v -> ins m -> meq (u << (v ^^ m)) (scale (ip u v) m ++ scale (-1) (v ^^ (u << m))).
Proof.
  intros Hu Hv Hm. apply meq_iff. intros h. rewrite (sumf_lc u _ h Hu (oin _ _ (vec_in v Hv) Hm)), sumf_app, !sumf_scale, (sumf_mop v _ h Hv).
  rewrite (sumf_ext v _ (fun j => sumf u (fun i => sumf m (D (N.log2 i) (E (N.log2 j) h))))) by (intros j; apply (sumf_lc u m _ Hu Hm)). rewrite (sumf_exch v u).
  unfold ip. rewrite Rmult_comm, <- sumf_mult, <- sumf_mult, <- sumf_plus. apply sumf_ext. intros i. rewrite (sumf_mop v m _ Hv). rewrite <- !sumf_mult, <- sumf_plus. apply sumf_ext_in. intros p Hp.
  destruct (proj1 (Forall_forall _ _) Hv p Hp) as (a & La & ->). rewrite log_pow. rewrite (Rmult_comm (sumf m h)), <- !sumf_mult, <- sumf_plus. apply sumf_ext. intros b. rewrite (ED A (N.log2 i) a h b ltac:(lia)). ring.
Qed.
Lemma vec_scalar u v : vec u -> vec v -> meq (u << v) [(ip u v, 0%N)].
Proof.
  intros Hu Hv. assert (Q : meq v (v ^^ one)). { apply meq_iff. intros h. rewrite (sumf_mop v one h Hv). apply sumf_ext_in. intros p Hp. destruct (proj1 (Forall_forall _ _) Hv p Hp) as (a & La & ->). rewrite log_pow. unfold one. rewrite sumf1. unfold E. rewrite N.bits_0, N.lxor_0_l, sign_0_r. ring. }
  transitivity (u << (v ^^ one)); [apply glc_meq; [reflexivity|exact Q]|]. rewrite (vec_leibniz u v one Hu Hv (in_scalar 1)). assert (Z : meq (u << one) []).
  { apply meq_iff. intros h. rewrite (sumf_lc u one h Hu (in_scalar 1)). rewrite (sumf_ext u _ (fun _ => 0)); [apply sumf_0|]. intros i. unfold one. rewrite sumf1, (D_zero A _ h). ring. }
  rewrite Z. rewrite (bilinear_0_r op_blade v [] ltac:(reflexivity) : meq (v ^^ []) []). intros k. cbn. destruct k; ring.
Qed.
(** ^m v = v ^ m - v << m, ^m the grade involution. *)
Lemma vec_right u m : vec u -> ins m -> meq (minvol m ** u) (u ^^ m ++ scale (-1) (u << m)).
Proof.
  intros Hu Hm. apply meq_iff. intros h. rewrite sumf_app, sumf_scale, (sumf_mop u m h Hu), (sumf_lc u m h Hu Hm), <- sumf_mult, <- sumf_plus. unfold ggp. rewrite sumf_bilinear. unfold minvol. rewrite sumf_inv.
  rewrite (sumf_ext m _ (fun i => sumf u (fun j => Clifford2.sg (Nat.odd (pop i)) * sumf (G i j) h))) by (intros i; symmetry; apply sumf_mult). rewrite sumf_exch. apply sumf_ext_in. intros p Hp.
  destruct (proj1 (Forall_forall _ _) Hu p Hp) as (a & La & ->). rewrite log_pow, <- sumf_mult, <- sumf_plus. apply sumf_ext_in. intros r Hr. pose proof (proj1 (Forall_forall _ _) Hm r Hr) as Lr.
  rewrite (geometric_sumf A n G Hn HG (snd r) _ h Lr (pow_in a n La)). unfold Wick2.M. rewrite (mulb_right A SA _ a ltac:(lia) (indices (snd r)) (le_n _) (indices_incr _) h), (bits_indices _ (pow2_64 n _ Hn Lr)).
  rewrite alt_sg. rewrite pop_len. unfold GenSum.sg, Clifford2.sg. generalize (E a h (snd r)) (D a h (snd r)). intros x y. destruct (Nat.odd (length (indices (snd r)))); ring.
Qed.
(** Homogeneous multivectors and squares. *)
Definition flip (k : N) : R := if N.odd k then -1 else 1.
Lemma flip_sq k : flip k * flip k = 1. Proof. unfold flip. destruct (N.odd k); ring. Qed.
Lemma invol_homog k m : homog k m -> meq (minvol m) (scale (flip k) m).
Proof.
  intros H. apply meq_iff. intros h. unfold minvol. rewrite sumf_linear, sumf_scale, <- sumf_mult. apply sumf_ext_in. intros p Hp. unfold inv_blade. rewrite sumf1, (proj1 (Forall_forall _ _) H p Hp). reflexivity.
Qed.
Lemma rev_homog k m : homog k m -> meq (mrev m) (scale (if N.odd (k * (k - 1) / 2) then -1 else 1) m).
Proof.
  intros H. apply meq_iff. intros h. unfold mrev. rewrite sumf_linear, sumf_scale, <- sumf_mult. apply sumf_ext_in. intros p Hp. unfold rev_blade. rewrite sumf1, (proj1 (Forall_forall _ _) H p Hp). reflexivity.
Qed.
Lemma vec_homog u : vec u -> homog 1 u.
Proof. apply Forall_impl. intros p (a & La & ->). pose proof (grade_flip 0 a ltac:(lia)) as Q. rewrite N.lxor_0_l, N.bits_0 in Q. exact Q. Qed.
Lemma scale_scale a b m : meq (scale a (scale b m)) (scale (a * b) m).
Proof. intros k. rewrite !coef_scale. ring. Qed.
Lemma scale_one m : meq (scale 1 m) m. Proof. intros k. rewrite coef_scale. ring. Qed.
Lemma vec_right_homog u k m : vec u -> ins m -> homog k m -> meq (m ** u) (scale (flip k) (u ^^ m ++ scale (-1) (u << m))).
Proof.
  intros Hu Hm H. rewrite <- (vec_right u m Hu Hm). rewrite (ggp_meq G _ _ (invol_homog k m H) u u (reflexivity _)), gSl, scale_scale, flip_sq, scale_one. reflexivity.
Qed.
Lemma part_zero m : ins m -> meq (grade_part 0 m) [(re m, 0%N)].
Proof.
  intros H. unfold re. apply meq_iff. intros h. rewrite sumf_grade_part, sumf1. rewrite coef_sumf, Rmult_comm, <- sumf_mult. apply sumf_ext_in. intros p Hp. pose proof (proj1 (Forall_forall _ _) H p Hp) as L. unfold delta.
  destruct (N.eqb_spec (grade_of (snd p)) 0) as [Q|Q].
  - apply grade_0 in Q; [|exact (pow2_64 n _ Hn L)]. rewrite Q. cbn. ring.
  - destruct (N.eqb_spec (snd p) 0) as [Z|]; [exfalso; apply Q; rewrite Z; exact grade_of_0|]. ring.
Qed.
Lemma gsp_re a b : ins a -> ins b -> meq (gsp G a b) [(re (a ** b), 0%N)].
Proof. intros Ha Hb. rewrite <- (part_zero _ (gin a b Ha Hb)). unfold gsp, ggp. symmetry. apply (grade_part_bilinear 0 G a b). Qed.
Lemma re_scalar c : re [(c, 0%N)] = c. Proof. unfold re. cbn. ring. Qed.
Lemma re_scale c m : re (scale c m) = c * re m. Proof. apply coef_scale. Qed.
Lemma square_inv k r c : ins r -> homog k r -> c <> 0 -> meq (r ** r) [(c, 0%N)] -> gnorm G r <> 0 /\ meq (ginv G r) (scale (/ c) r).
Proof.
  intros Hi Hr Hc S. pose proof (rev_homog k r Hr) as Q. set (e := if N.odd (k * (k - 1) / 2) then -1 else 1) in *. assert (Ee : e * e = 1) by (unfold e; destruct (N.odd _); ring).
  assert (Nr : gnorm G r = e * c). { unfold gnorm. rewrite (re_meq _ _ (gsp_meq G r r (reflexivity _) _ _ Q)). rewrite (re_meq _ _ (gsp_re r _ Hi (in_space_scale n e r Hi))), re_scalar, (re_meq _ _ (gSr e r r)), re_scale, (re_meq _ _ S), re_scalar. reflexivity. }
  assert (Nz : e * c <> 0) by (apply Rmult_integral_contrapositive; split; [intros Z; rewrite Z in Ee; lra|exact Hc]).
  split; [rewrite Nr; exact Nz|]. unfold ginv. rewrite Nr. rewrite (scale_meq _ _ eq_refl _ _ Q), scale_scale. apply scale_meq; [|reflexivity]. assert (e <> 0) by (intros Z; rewrite Z in Ee; lra).
  field. split; assumption.
Qed.
Lemma scalar_inv c : c <> 0 -> gnorm G [(c, 0%N)] <> 0 /\ meq (ginv G [(c, 0%N)]) [(/ c, 0%N)].
Proof.
  intros Hc. assert (S : meq ([(c, 0%N)] ** [(c, 0%N)]) [(c * c, 0%N)]). { rewrite (gsl c _ (in_scalar c)). intros j. cbn. destruct j; ring. }
  assert (Hcc : c * c <> 0) by (apply Rmult_integral_contrapositive; split; assumption).
  destruct (square_inv 0 _ (c * c) (in_scalar c) ltac:(constructor; [exact grade_of_0|constructor]) Hcc S) as [N0 Q]. split; [exact N0|]. rewrite Q. intros j. cbn. destruct j; [field; assumption|ring].
Qed.
(** Products of vectors. *)
Lemma vec_swap u v : vec u -> vec v -> meq (u ** v ++ v ** u) [(2 * ip u v, 0%N)].
Proof.
  intros Hu Hv. rewrite (vec_gp u v Hu (vec_in v Hv)). rewrite (vec_right_homog u 1 v Hu (vec_in v Hv) (vec_homog v Hv)). pose proof (vec_scalar u v Hu Hv) as Q.
  intros j. rewrite !coef_app, coef_scale, !coef_app, coef_scale, (Q j). change (flip 1) with (-1). cbn [coef]. destruct (N.eqb 0 j); ring.
Qed.
Lemma vec_square u : vec u -> meq (u ** u) [(ip u u, 0%N)].
Proof. intros Hu. pose proof (vec_swap u u Hu Hu) as Q. intros j. specialize (Q j). rewrite coef_app in Q. revert Q. cbn [coef]. destruct (N.eqb 0 j); lra. Qed.
Lemma vec_sandwich u v : vec u -> vec v -> meq (u ** v ** u) (scale (2 * ip u v) u ++ scale (- ip u u) v).
Proof.
  intros Hu Hv. assert (Q : meq (u ** v) ([(2 * ip u v, 0%N)] ++ scale (-1) (v ** u))). { intros j. pose proof (vec_swap u v Hu Hv j) as Q. rewrite coef_app in *. rewrite coef_scale. lra. }
  rewrite Q, gDl, gSl, (gsl _ _ (vec_in u Hu)), (gA v u u) by (apply vec_in; assumption). rewrite (vec_square u Hu), (gsr _ _ (vec_in v Hv)). rewrite scale_scale. apply app_meq; [reflexivity|]. apply scale_meq; [ring|reflexivity].
Qed.
End Algebra.
