(** Blades and subspaces: a vector is in the subspace of a blade if and only if their outer product is zero. *)
From Coq Require Import NArith ZArith List Bool Lia Reals Lra Setoid Morphisms.
From Verif Require Import Bits SpecBits Expr Sem Wf BitsBase SpecMv SpecAlg SpecExtra MvBase GradeProofs OuterProofs Clifford Clifford2 Clifford3 Clifford4 AlgProofs SpecGeneral Wick GenSum Wick2 DetProofs SpecSpaces VecProofs GenMul GenApi SpecGeo GaProofs GeoApi SpecMeet.
Import ListNotations.
Local Open Scope R_scope.
Local Opaque sign_of indices idx.
Notation ca_ := Verif.AlgProofs.coef_app.
Notation cs_ := Verif.AlgProofs.coef_scale.

Lemma meq_add a b a' b' : meq a a' -> meq b b' -> meq (a ++ b) (a' ++ b').
Proof. intros X Y k. rewrite !ca_, X, Y. reflexivity. Qed.
Lemma meq_scl c a b : meq a b -> meq (scale c a) (scale c b).
Proof. intros X k. rewrite !cs_, X. reflexivity. Qed.
Ltac cf := intros ?k; rewrite ?ca_, ?cs_, ?ca_, ?cs_; cbn [coef].

Lemma span_meq vs x y : meq x y -> in_span vs x -> in_span vs y.
Proof. intros E [cs H]. exists cs. intros k. rewrite <- (E k). apply H. Qed.
Lemma comb_scale c : forall cs vs, meq (combination (map (Rmult c) cs) vs) (scale c (combination cs vs)).
Proof. induction cs as [|d cs IH]; intros [|v vs]; try reflexivity. cbn [combination map]. rewrite scale_app. apply meq_add; [|apply IH]. cf. ring. Qed.
Lemma span_scale vs c x : in_span vs x -> in_span vs (scale c x).
Proof. intros [cs H]. exists (map (Rmult c) cs). intros k. rewrite (comb_scale c cs vs k), !cs_, (H k). reflexivity. Qed.
Lemma comb_add : forall vs cs ds, exists es, meq (combination cs vs ++ combination ds vs) (combination es vs).
Proof.
  induction vs as [|v vs IH]; intros cs ds; [exists []; destruct cs, ds; reflexivity|]. destruct cs as [|c cs]; [exists ds; reflexivity|]. destruct ds as [|d ds]; [exists (c :: cs); intros k; rewrite ca_; cbn [combination coef]; ring|].
  destruct (IH cs ds) as [es H]. exists (c + d :: es). intros k. specialize (H k). cbn [combination]. rewrite !ca_ in *. rewrite !cs_. rewrite <- H. ring.
Qed.
Lemma span_add vs x y : in_span vs x -> in_span vs y -> in_span vs (x ++ y).
Proof. intros [cs H] [ds K]. destruct (comb_add vs cs ds) as [es E]. exists es. intros k. rewrite <- (E k), !ca_, (H k), (K k). reflexivity. Qed.
Lemma span_zero vs x : meq x [] -> in_span vs x.
Proof. intros H. exists []. destruct vs; exact H. Qed.
Lemma span_cons vs v x : in_span vs x -> in_span (v :: vs) x.
Proof. intros [cs H]. exists (0 :: cs). intros k. cbn [combination]. rewrite ca_, cs_, (H k). ring. Qed.
Lemma span_in vs v : In v vs -> in_span vs v.
Proof. induction vs as [|w vs IH]; [intros []|]. intros [->|I]; [|apply span_cons, IH, I]. exists [1]. cbn [combination]. cf. destruct vs; cbn [coef]; ring. Qed.
Lemma span_comb vs : forall ws cs, Forall (in_span vs) ws -> in_span vs (combination cs ws).
Proof. intros ws cs H. revert cs. induction H as [|w ws Hw _ IH]; intros [|c cs]; try (apply span_zero; reflexivity). cbn [combination]. apply span_add; [apply span_scale, Hw|apply IH]. Qed.
Lemma span_trans vs ws x : Forall (in_span vs) ws -> in_span ws x -> in_span vs x.
Proof. intros H [cs E]. eapply span_meq; [|exact (span_comb vs ws cs H)]. symmetry. exact E. Qed.
Lemma span_app_l vs ws x : in_span vs x -> in_span (vs ++ ws) x.
Proof. apply span_trans. apply Forall_forall. intros v I. apply span_in, in_or_app. auto. Qed.
Lemma span_app_r vs ws x : in_span ws x -> in_span (vs ++ ws) x.
Proof. apply span_trans. apply Forall_forall. intros v I. apply span_in, in_or_app. auto. Qed.

Definition e1 : N -> R := fun _ => 1.
Section Space.
Variable n : N.
Hypothesis Hn : (n <= 63)%N.
Notation "a ^^ b" := (mop a b) (at level 40, left associativity).
Notation "a << b" := (mlcont e1 a b) (at level 40, left associativity).
Notation ins := (in_space n).
Notation vec := (vec n).
Notation ip := (ip (diagonal_form e1)).

Lemma n64 : (n <= 64)%N. Proof. lia. Qed.
Lemma indices_bits b : (b < 2 ^ 64)%N -> grade_of b = 1%N -> exists a, (a < 64)%N /\ b = (2 ^ a)%N.
Proof.
  intros H G. pose proof (bits_indices b H) as E. pose proof (indices_incr b) as I. unfold grade_of in G. destruct (indices b) as [|a [|a' l]]; cbn [length] in G; try lia.
  exists a. split; [exact (proj1 I)|]. rewrite <- E, bits_cons. apply N.lxor_0_l.
Qed.
Lemma vector_vec x : is_vector n x <-> vec x.
Proof.
  split.
  - intros [I H]. unfold GaProofs.vec. unfold in_space, homog in *. rewrite Forall_forall in *. intros p Ip. specialize (I p Ip). specialize (H p Ip). cbn beta in *. destruct (indices_bits (snd p) (pow2_64 n _ n64 I) H) as (a & La & E). exists a. split; [|exact E].
    rewrite E in I. apply N.pow_lt_mono_r_iff in I; lia.
  - intros V. split; [apply vec_in, V|apply (vec_homog n n64), V].
Qed.

Lemma vec_ins x : vec x -> ins x. Proof. apply vec_in. Qed.
Lemma mop_in a b : ins a -> ins b -> ins (a ^^ b). Proof. apply oin. Qed.
Lemma lc_in a b : ins a -> ins b -> ins (a << b). Proof. exact (lin n (diagonal_form e1) (gp_blade e1) (diagonal_geometric e1 n n64) a b). Qed.
Lemma one_in : ins one. Proof. apply in_one. Qed.
Lemma wedge_in vs : Forall vec vs -> ins (wedge vs).
Proof. induction 1 as [|v vs V _ IH]; [exact one_in|]. cbn [wedge]. apply mop_in; [apply vec_ins, V|exact IH]. Qed.
Lemma one_homog : homog 0 one. Proof. constructor; [reflexivity|constructor]. Qed.
Lemma wedge_homog vs : Forall vec vs -> homog (N.of_nat (length vs)) (wedge vs).
Proof. induction 1 as [|v vs V _ IH]; [exact one_homog|]. cbn [wedge length]. replace (N.of_nat (S (length vs))) with (1 + N.of_nat (length vs))%N by lia. apply op_grades_add; [apply (vec_homog n n64), V|exact IH]. Qed.
Lemma op_add_l a b c : meq ((a ++ b) ^^ c) (a ^^ c ++ b ^^ c). Proof. apply bilinear_app_l. Qed.
Lemma op_add_r a b c : meq (a ^^ (b ++ c)) (a ^^ b ++ a ^^ c). Proof. apply bilinear_app_r. Qed.
Lemma op_scl_l c a b : meq (scale c a ^^ b) (scale c (a ^^ b)). Proof. apply Verif.Clifford.bilinear_scale_l. Qed.
Lemma op_scl_r c a b : meq (a ^^ scale c b) (scale c (a ^^ b)). Proof. apply Verif.Clifford.bilinear_scale_r. Qed.
Lemma op_c a a' b b' : meq a a' -> meq b b' -> meq (a ^^ b) (a' ^^ b'). Proof. intros A B. exact (mop_meq a a' A b b' B). Qed.
Lemma op_zero_r a b : meq b [] -> meq (a ^^ b) []. Proof. intros E. refine (transitivity (op_c a a b [] (reflexivity a) E) _). apply bilinear_0_r. reflexivity. Qed.
Lemma op_zero_l a b : meq a [] -> meq (a ^^ b) []. Proof. intros E. exact (op_c a [] b b E (reflexivity b)). Qed.
Global Instance mlcont_meq q : Proper (meq ==> meq ==> meq) (mlcont q). Proof. intros a a' Ea b b' Eb. apply bilinear_meq; assumption. Qed.
Lemma lc_add_r a b c : meq (a << (b ++ c)) (a << b ++ a << c). Proof. apply bilinear_app_r. Qed.
Lemma lc_scl_r c a b : meq (a << scale c b) (scale c (a << b)). Proof. apply Verif.Clifford.bilinear_scale_r. Qed.
Lemma lc_scl_l c a b : meq (scale c a << b) (scale c (a << b)). Proof. apply Verif.Clifford.bilinear_scale_l. Qed.
Lemma lc_c a a' b b' : meq a a' -> meq b b' -> meq (a << b) (a' << b'). Proof. intros A B. exact (mlcont_meq e1 a a' A b b' B). Qed.
Lemma lc_zero_r a b : meq b [] -> meq (a << b) []. Proof. intros E. refine (transitivity (lc_c a a b [] (reflexivity a) E) _). apply bilinear_0_r. reflexivity. Qed.
Lemma leibniz u v m : vec u -> vec v -> ins m -> meq (u << (v ^^ m)) (scale (ip u v) m ++ scale (-1) (v ^^ (u << m))).
Proof. intros U V M. exact (vec_leibniz n (diagonal_form e1) (gp_blade e1) n64 (diagonal_geometric e1 n n64) u v m U V M). Qed.
Lemma lc_vec_one u : vec u -> meq (u << one) [].
Proof. intros U. apply (lcont_none e1 1 0); [lia|apply (vec_homog n n64), U|exact one_homog]. Qed.
Lemma anti u v m : vec u -> vec v -> meq (u ^^ (v ^^ m)) (scale (-1) (v ^^ (u ^^ m))).
Proof.
  intros U V. rewrite <- (op_assoc u v m), <- (op_assoc v u m). change (bilinear op_blade u v) with (u ^^ v). change (bilinear op_blade v u) with (v ^^ u).
  assert (S : meq (u ^^ v) (scale (-1) (v ^^ u))) by exact (op_comm 1 1 v u (vec_homog n n64 v V) (vec_homog n n64 u U)).
  change (meq ((u ^^ v) ^^ m) (scale (-1) ((v ^^ u) ^^ m))). refine (transitivity (op_c _ _ m m S (reflexivity m)) _). apply op_scl_l.
Qed.
Lemma square v m : vec v -> meq (v ^^ (v ^^ m)) [].
Proof.
  intros V. rewrite <- (op_assoc v v m). change (meq ((v ^^ v) ^^ m) []). apply op_zero_l, op_vector, (vec_homog n n64), V. Qed.
Lemma vec_nil : vec []. Proof. constructor. Qed.
Lemma comb_vec vs : Forall vec vs -> forall cs, vec (combination cs vs).
Proof. induction 1 as [|v vs V _ IH]; intros [|c cs]; try constructor. cbn [combination]. apply vec_app; [apply vec_scale, V|apply IH]. Qed.

(** A vector of the subspace. *)
Lemma in_wedge v vs : Forall vec vs -> In v vs -> meq (v ^^ wedge vs) [].
Proof.
  induction 1 as [|w vs W Vs IH]; [intros []|]. intros [->|I]; cbn [wedge]; [apply square, W|].
  rewrite (anti v w) by (try exact W; rewrite Forall_forall in Vs; apply Vs, I). rewrite (op_zero_r w _ (IH I)). reflexivity.
Qed.
Lemma comb_wedge m : forall vs cs, Forall (fun v => meq (v ^^ m) []) vs -> meq (combination cs vs ^^ m) [].
Proof. intros vs cs H. revert cs. induction H as [|v vs V _ IH]; intros [|c cs]; try reflexivity. cbn [combination]. rewrite op_add_l, op_scl_l. cf. rewrite (V k), (IH cs k). cbn [coef]. ring. Qed.
Lemma span_wedge vs x : Forall vec vs -> in_span vs x -> meq (x ^^ wedge vs) [].
Proof. intros V [cs E]. refine (transitivity (op_c _ _ _ _ E (reflexivity _)) _). apply comb_wedge. apply Forall_forall. intros v I. apply in_wedge; assumption. Qed.

(** Sums of outer products of k vectors of the subspace. *)
Inductive gen (vs : list mv) : nat -> mv -> Prop :=
| gen_zero k : gen vs k []
| gen_wedge ls : Forall (fun v => vec v /\ in_span vs v) ls -> gen vs (length ls) (wedge ls)
| gen_add k a b : gen vs k a -> gen vs k b -> gen vs k (a ++ b)
| gen_scale k c a : gen vs k a -> gen vs k (scale c a)
| gen_meq k a b : meq a b -> ins b -> gen vs k a -> gen vs k b.
Lemma gen_in vs k m : gen vs k m -> ins m.
Proof.
  induction 1; [constructor|apply wedge_in; eapply Forall_impl; [|eassumption]; cbn; tauto|apply Forall_app; auto| |assumption].
  unfold in_space, scale in *. rewrite Forall_map. exact IHgen.
Qed.
Lemma gen_op vs u k m : vec u -> in_span vs u -> gen vs k m -> gen vs (S k) (u ^^ m).
Proof.
  intros V U. pose proof (vec_ins u V) as Iu. induction 1 as [k|ls H|k a b Ha IHa Hb IHb|k c a Ha IHa|k a b E Ib Ha IHa].
  - apply (gen_meq vs _ []); [|apply mop_in; [exact Iu|constructor]|apply gen_zero]. symmetry. apply op_zero_r. reflexivity.
  - change (gen vs (length (u :: ls)) (wedge (u :: ls))). apply gen_wedge. constructor; auto.
  - apply (gen_meq vs _ (u ^^ a ++ u ^^ b)); [symmetry; apply op_add_r| |apply gen_add; assumption]. apply mop_in; [exact Iu|]. apply (gen_in vs k). apply gen_add; assumption.
  - apply (gen_meq vs _ (scale c (u ^^ a))); [symmetry; apply op_scl_r| |apply gen_scale; assumption]. apply mop_in; [exact Iu|]. apply (gen_in vs k). apply gen_scale; assumption.
  - apply (gen_meq vs _ (u ^^ a)); [apply op_c; [reflexivity|exact E]|apply mop_in; assumption|exact IHa].
Qed.
Lemma gen_wedge_lc vs u ls : vec u -> Forall (fun v => vec v /\ in_span vs v) ls -> gen vs (pred (length ls)) (u << wedge ls).
Proof.
  intros U. induction ls as [|v ls IH]; intros H.
  - apply (gen_meq vs _ []); [symmetry; apply lc_vec_one, U|apply lc_in; [apply vec_ins, U|exact one_in]|apply gen_zero].
  - inversion H as [|? ? [V Sp] H']; subst. cbn [wedge length pred]. assert (W : Forall vec ls) by (eapply Forall_impl; [|exact H']; cbn; tauto). pose proof (wedge_in ls W) as Iw.
    apply (gen_meq vs _ (scale (ip u v) (wedge ls) ++ scale (-1) (v ^^ (u << wedge ls)))); [symmetry; apply leibniz; assumption|apply lc_in; [apply vec_ins, U|apply mop_in; [apply vec_ins, V|exact Iw]]|].
    apply gen_add; [apply gen_scale, gen_wedge, H'|apply gen_scale].
    destruct ls as [|w ls].
    + apply (gen_meq vs _ []); [symmetry; apply op_zero_r, lc_vec_one, U| |apply gen_zero]. apply mop_in; [apply vec_ins, V|apply lc_in; [apply vec_ins, U|exact one_in]].
    + change (length (w :: ls)) with (S (pred (length (w :: ls)))). apply gen_op; [exact V|exact Sp|exact (IH H')].
Qed.
Lemma gen_lc vs u k m : vec u -> gen vs k m -> gen vs (pred k) (u << m).
Proof.
  intros U. pose proof (vec_ins u U) as Iu. induction 1 as [k|ls H|k a b Ha IHa Hb IHb|k c a Ha IHa|k a b E Ib Ha IHa].
  - apply (gen_meq vs _ []); [symmetry; apply lc_zero_r; reflexivity|apply lc_in; [exact Iu|constructor]|apply gen_zero].
  - apply gen_wedge_lc; assumption.
  - apply (gen_meq vs _ (u << a ++ u << b)); [symmetry; apply lc_add_r| |apply gen_add; assumption]. apply lc_in; [exact Iu|]. apply (gen_in vs k). apply gen_add; assumption.
  - apply (gen_meq vs _ (scale c (u << a))); [symmetry; apply lc_scl_r| |apply gen_scale; assumption]. apply lc_in; [exact Iu|]. apply (gen_in vs k). apply gen_scale; assumption.
  - apply (gen_meq vs _ (u << a)); [apply lc_c; [reflexivity|exact E]|apply lc_in; assumption|exact IHa].
Qed.
Lemma gen_one vs k m : gen vs k m -> k = 1%nat -> in_span vs m.
Proof.
  induction 1 as [k|ls H|k a b Ha IHa Hb IHb|k c a Ha IHa|k a b E Ib Ha IHa]; intros K.
  - apply span_zero. reflexivity.
  - destruct ls as [|v [|w ls]]; try discriminate K. inversion H as [|? ? [V S] _]; subst. apply (span_meq vs v); [|exact S]. cbn [wedge]. symmetry. apply op_one_r.
  - apply span_add; auto. - apply span_scale; auto. - apply (span_meq vs a); auto.
Qed.

(** Contraction by several vectors. *)
Definition lcs (us : list mv) (m : mv) : mv := fold_right (fun u x => u << x) m us.
Lemma lcs_in us m : Forall vec us -> ins m -> ins (lcs us m).
Proof. intros H M. induction H as [|u us U _ IH]; [exact M|]. cbn [lcs fold_right]. apply lc_in; [apply vec_ins, U|exact IH]. Qed.
Lemma lcs_meq us : Proper (meq ==> meq) (lcs us).
Proof. intros a b E. induction us as [|u us IH]; [exact E|]. cbn [lcs fold_right]. apply lc_c; [reflexivity|exact IH]. Qed.
Lemma lc_one_l m : ins m -> meq (one << m) m.
Proof. intros M. intros k. change (coef (bilinear (lcont_blade e1) one m) k = coef m k). rewrite !coef_sumf. unfold one. rewrite sumf_bilinear. cbn [sumf]. rewrite Rplus_0_r, Rmult_1_l.
  apply sumf_ext. intros b. rewrite lcont_eq by reflexivity. rewrite N.land_0_l. cbn [N.eqb]. cbn [sumf]. rewrite sign_0_l, squares_0, N.lxor_0_l. ring.
Qed.
Lemma lcs_wedge us m : Forall vec us -> ins m -> meq (lcs us m) (wedge us << m).
Proof.
  intros H M. induction H as [|u us U Us IH]; [symmetry; apply lc_one_l, M|]. cbn [lcs fold_right wedge]. change (meq (u << lcs us m) ((u ^^ wedge us) << m)). refine (transitivity (lc_c _ _ _ _ (reflexivity u) IH) _). symmetry.
  exact (lcont_op e1 n u (wedge us) m n64 (vec_ins u U) (wedge_in us Us) M).
Qed.
Lemma lcs_gen vs us k m : Forall vec us -> gen vs k m -> gen vs (k - length us) (lcs us m).
Proof.
  intros H G. induction H as [|u us U _ IH]; [cbn [length lcs fold_right]; rewrite Nat.sub_0_r; exact G|].
  cbn [lcs fold_right length]. replace (k - S (length us))%nat with (pred (k - length us)) by lia. apply gen_lc; assumption.
Qed.
(** The lists with one element left out. *)
Fixpoint drops {A} (l : list A) : list (list A) := match l with [] => [] | x :: l' => l' :: map (cons x) (drops l') end.
Lemma lc_comb u : forall cs ms, meq (u << combination cs ms) (combination cs (map (fun m => u << m) ms)).
Proof. induction cs as [|c cs IH]; intros [|m ms]; cbn [combination map]; try (apply lc_zero_r; reflexivity). rewrite lc_add_r, lc_scl_r, IH. reflexivity. Qed.
Lemma lcs_expand x m : vec x -> ins m -> forall us, Forall vec us -> exists s cs, s * s = 1 /\
  meq (lcs us (x ^^ m)) (scale s (x ^^ lcs us m) ++ combination cs (map (fun d => lcs d m) (drops us))).
Proof.
  intros X M us H. induction H as [|u us U Us (s & cs & S & E)]; [exists 1, []; split; [ring|cbn [lcs fold_right drops map combination]; cf; ring]|].
  exists (- s), (s * ip u x :: cs). split; [rewrite <- S; ring|]. cbn [lcs fold_right drops map combination]. change (meq (u << lcs us (x ^^ m)) (scale (- s) (x ^^ (u << lcs us m)) ++ (scale (s * ip u x) (lcs us m) ++ combination cs (map (fun d => lcs d m) (map (cons u) (drops us)))))).
  refine (transitivity (lc_c _ _ _ _ (reflexivity u) E) _). rewrite lc_add_r, lc_scl_r, (leibniz u x (lcs us m) U X (lcs_in us m Us M)), lc_comb, !map_map. cf. change (fun d => lcs (u :: d) m) with (fun d => u << lcs d m). ring.
Qed.

Lemma basis_vec i : (i < n)%N -> vec (basis i).
Proof. intros H. constructor; [|constructor]. exists i. split; [exact H|reflexivity]. Qed.
Lemma wedge_basis l : incr l -> (forall y, In y l -> (y < n)%N) -> meq (wedge (map basis l)) [(1, bits l)].
Proof.
  induction l as [|x l IH]; intros I L; [reflexivity|]. cbn [map wedge]. assert (Lx : (x < n)%N) by (apply L; left; reflexivity).
  refine (transitivity (op_c _ _ _ _ (reflexivity _) (IH (proj2 (proj2 I)) (fun y Iy => L y (or_intror Iy)))) _).
  apply meq_sumf. intros h. rewrite (sumf_mop n (basis x) _ h (basis_vec x Lx)). unfold basis. cbn [sumf]. rewrite N.log2_pow2 by apply N.le_0_l. rewrite (E_low x l h I). ring.
Qed.
Lemma indices_lt E y : (E < 2 ^ n)%N -> In y (indices E) -> (y < n)%N.
Proof. intros H. apply indices_below, H. Qed.
Lemma single_in c E : (E < 2 ^ n)%N -> ins [(c, E)]. Proof. intros H. constructor; [exact H|constructor]. Qed.
(** The contraction by a basis blade of the same grade picks its coefficient. *)
Lemma pick W E k : ins W -> homog k W -> (E < 2 ^ n)%N -> grade_of E = k -> meq ([(1, E)] << W) [(sign_of E E * coef W E, 0%N)].
Proof.
  intros IW HW HE GE. apply meq_sumf. intros h. change (sumf (bilinear (lcont_blade e1) [(1, E)] W) h = sumf [(sign_of E E * coef W E, 0%N)] h). rewrite sumf_bilinear. cbn [sumf]. rewrite Rplus_0_r, Rmult_1_l, Rplus_0_r.
  pose proof (pow2_64 n E n64 HE) as E64.
  induction W as [|[c b] W IH]; [cbn [sumf coef]; ring|]. inversion IW; inversion HW; subst. cbn [sumf coef fst snd] in *. rewrite (IH H2 H6), (lcont_eq e1 E b E64).
  assert (Q : N.eqb (N.land E b) E = N.eqb b E).
  { destruct (N.eqb_spec b E) as [->|Ne]; [rewrite N.land_diag; apply N.eqb_refl|]. apply N.eqb_neq. intros X. apply Ne.
    rewrite <- (land_sub b E (pow2_64 n b n64 H1)); [rewrite N.land_comm; exact X|]. rewrite N.land_comm, X. symmetry. exact H5. }
  rewrite Q. destruct (N.eqb_spec b E) as [->|Ne]; cbn [sumf]; [|ring]. rewrite N.lxor_nilpotent, (Clifford5.squares_pos e1 n E n64 (fun _ _ => eq_refl) HE). ring.
Qed.
Lemma drops_incr l : incr l -> Forall (fun d => incr d /\ (forall y, In y d -> In y l) /\ S (length d) = length l /\ exists i, In i l /\ bits d = N.lxor (bits l) (2 ^ i)) (drops l).
Proof.
  induction l as [|x l IH]; intros I; [constructor|]. cbn [drops]. constructor.
  - split; [exact (proj2 (proj2 I))|]. split; [intros y Iy; right; exact Iy|]. split; [reflexivity|]. exists x. split; [left; reflexivity|]. rewrite bits_cons, flip2. reflexivity.
  - rewrite Forall_map. eapply Forall_impl; [|exact (IH (proj2 (proj2 I)))]. cbn beta. intros d (Id & Sd & Ld & i & Ii & Ed). split; [|split; [|split]].
    + split; [exact (proj1 I)|]. split; [intros y Iy; apply (proj1 (proj2 I)), Sd, Iy|exact Id].
    + intros y [->|Iy]; [left; reflexivity|right; auto].
    + cbn [length]. rewrite <- Ld. reflexivity.
    + exists i. split; [right; exact Ii|]. rewrite !bits_cons, Ed. apply flip_comm.
Qed.
Lemma drops_map {A B} (f : A -> B) l : drops (map f l) = map (map f) (drops l).
Proof. induction l as [|x l IH]; [reflexivity|]. cbn [map drops]. rewrite IH, !map_map. f_equal. Qed.
Definition factor (W : mv) (E i : N) : mv := [(1, N.lxor E (2 ^ i))] << W.
Lemma scl_cancel c d x y : c <> 0 -> meq (scale c x) (scale d y) -> meq x (scale (d / c) y).
Proof. intros C H k. specialize (H k). rewrite !cs_ in *. apply (Rmult_eq_reg_l c); [|exact C]. rewrite H. field. exact C. Qed.
(** A vector of the subspace is a combination of the factors. *)
Theorem factors_span W E k x : ins W -> homog k W -> (E < 2 ^ n)%N -> grade_of E = k -> coef W E <> 0 -> vec x -> meq (x ^^ W) [] ->
  in_span (map (factor W E) (indices E)) x.
Proof.
  intros IW HW HE GE C X Z. pose proof (pow2_64 n E n64 HE) as E64. set (us := map basis (indices E)).
  assert (V : forall l, (forall y, In y l -> (y < n)%N) -> Forall vec (map basis l)). { intros l H. rewrite Forall_map. apply Forall_forall. intros y Iy. apply basis_vec, H, Iy. }
  assert (L : forall y, In y (indices E) -> (y < n)%N) by (intros y; apply indices_lt, HE).
  assert (B : forall l, incr l -> (forall y, In y l -> (y < n)%N) -> meq (lcs (map basis l) W) ([(1, bits l)] << W)).
  { intros l I H. refine (transitivity (lcs_wedge _ W (V l H) IW) _). apply lc_c; [apply wedge_basis; assumption|reflexivity]. }
  destruct (lcs_expand x W X IW us (V _ L)) as (s & cs & S & X2).
  assert (T : meq (lcs us W) [(sign_of E E * coef W E, 0%N)]).
  { refine (transitivity (B _ (indices_incr E) L) _). rewrite (bits_indices E E64). exact (pick W E k IW HW HE GE). }
  assert (T2 : meq (x ^^ lcs us W) (scale (sign_of E E * coef W E) x)).
  { refine (transitivity (op_c _ _ _ _ (reflexivity x) T) _). transitivity (x ^^ scale (sign_of E E * coef W E) one); [apply op_c; [reflexivity|]|refine (transitivity (op_scl_r _ _ _) _); apply meq_scl, op_one_r].
    intros j. rewrite cs_. cbn [coef one]. destruct (N.eqb 0 j); ring. }
  assert (Z2 : meq (lcs us (x ^^ W)) []).
  { refine (transitivity (lcs_meq us _ _ Z) _). clear. induction us as [|u us IH]; [reflexivity|]. cbn [lcs fold_right]. apply lc_zero_r, IH. }
  set (M := combination cs (map (fun d => lcs d W) (drops us))) in *.
  assert (SM : in_span (map (factor W E) (indices E)) M).
  { apply span_comb. unfold us. rewrite drops_map, map_map, Forall_map. eapply Forall_impl; [|exact (drops_incr _ (indices_incr E))]. cbn beta. intros d (Id & Sd & _ & i & Ii & Ed).
    eapply span_meq; [|apply (span_in _ (factor W E i)); apply in_map, Ii]. symmetry. refine (transitivity (B d Id (fun y Iy => L y (Sd y Iy))) _). unfold factor. rewrite Ed, (bits_indices E E64). reflexivity. }
  assert (F : meq x (scale (-1 / (s * (sign_of E E * coef W E))) M)).
  { apply scl_cancel; [intros Q; apply Rmult_integral in Q; destruct Q as [->|Q]; [lra|]; apply Rmult_integral in Q; destruct Q as [Q|Q]; [exact (sign_nz _ _ Q)|exact (C Q)]|].
    intros j. specialize (X2 j). specialize (T2 j). specialize (Z2 j). rewrite Z2, ca_, !cs_, T2, cs_ in X2. rewrite !cs_. cbn [coef] in X2. rewrite Rmult_assoc. lra. }
  eapply span_meq; [symmetry; exact F|]. apply span_scale, SM.
Qed.
(** The factors are in the subspace. *)
Lemma flip_lt E i : (E < 2 ^ n)%N -> (i < n)%N -> (N.lxor E (2 ^ i) < 2 ^ n)%N.
Proof. intros HE Hi. apply lxor_lt; [exact HE|apply N.pow_lt_mono_r; lia]. Qed.
Lemma wedge_gen vs : Forall vec vs -> gen vs (length vs) (wedge vs).
Proof. intros H. apply gen_wedge. rewrite Forall_forall in *. intros v Iv. split; [apply H, Iv|apply span_in, Iv]. Qed.
Lemma factor_in vs E i : Forall vec vs -> (E < 2 ^ n)%N -> grade_of E = N.of_nat (length vs) -> In i (indices E) -> in_span vs (factor (wedge vs) E i).
Proof.
  intros H HE G Ii. pose proof (pow2_64 n E n64 HE) as E64. pose proof (flip_lt E i HE (indices_lt E i HE Ii)) as Hd. set (d := indices (N.lxor E (2 ^ i))).
  assert (Ld : forall y, In y d -> (y < n)%N) by (intros y; apply indices_lt, Hd).
  assert (Vd : Forall vec (map basis d)). { rewrite Forall_map. apply Forall_forall. intros y Iy. apply basis_vec, Ld, Iy. }
  assert (T : N.testbit E i = true). { rewrite <- (bits_indices E E64). apply (bits_bit _ (indices_incr E)), Ii. }
  pose proof (grade_flip n n64 E i ltac:(pose proof (indices_lt E i HE Ii); lia)) as GF. rewrite T in GF.
  assert (Len : length (map basis d) = pred (length vs)). { rewrite map_length. unfold d. unfold grade_of in *. lia. }
  assert (Pos : (0 < length vs)%nat). { pose proof (grade_ge n n64 E i ltac:(pose proof (indices_lt E i HE Ii); lia) T). lia. }
  pose proof (lcs_gen vs (map basis d) _ _ Vd (wedge_gen vs H)) as Gd. rewrite Len in Gd. apply gen_one in Gd; [|lia]. eapply span_meq; [|exact Gd].
  refine (transitivity (lcs_wedge _ _ Vd (wedge_in vs H)) _). unfold factor. apply lc_c; [|reflexivity]. unfold d. refine (transitivity (wedge_basis _ (indices_incr _) Ld) _). rewrite (bits_indices _ (pow2_64 n _ n64 Hd)). reflexivity.
Qed.
(** A nonzero blade has a nonzero coefficient. *)
Lemma nonzero_coef m : ins m -> ~ meq m [] -> exists E, (E < 2 ^ n)%N /\ coef m E <> 0.
Proof.
  intros I H. destruct (Exists_dec (fun p => coef m (snd p) <> 0) m) as [X|X]; [intros p; destruct (Req_EM_T (coef m (snd p)) 0); [right|left]; tauto| |].
  - apply Exists_exists in X. destruct X as (p & Ip & Hp). exists (snd p). split; [|exact Hp]. exact (proj1 (Forall_forall _ _) I p Ip).
  - exfalso. apply H. intros k. cbn [coef]. destruct (in_dec N.eq_dec k (map snd m)) as [J|J].
    + apply in_map_iff in J. destruct J as (p & <- & Ip). destruct (Req_EM_T (coef m (snd p)) 0) as [Q|Q]; [exact Q|]. exfalso. apply X. apply Exists_exists. exists p. auto.
    + clear X H I. induction m as [|[c b] m IH]; [reflexivity|]. cbn [coef map snd] in *. destruct (N.eqb_spec b k) as [->|Ne]; [exfalso; apply J; left; reflexivity|]. rewrite IH; [ring|]. intros Q. apply J. right. exact Q.
Qed.
Lemma coef_homog k m E : homog k m -> coef m E <> 0 -> grade_of E = k.
Proof. intros H. induction H as [|[c b] m Hb _ IH]; cbn [coef snd] in *; [lra|]. destruct (N.eqb_spec b E) as [->|Ne]; [intros _; exact Hb|]. intros C. apply IH. lra. Qed.
(** The subspace of a blade. *)
Theorem blade_subspace vs x : Forall vec vs -> ~ meq (wedge vs) [] -> vec x -> (meq (x ^^ wedge vs) [] <-> in_span vs x).
Proof.
  intros V Z X. split; [intros W|apply span_wedge, V]. destruct (nonzero_coef _ (wedge_in vs V) Z) as (E & HE & C).
  pose proof (coef_homog _ _ _ (wedge_homog vs V) C) as G.
  refine (span_trans _ _ _ _ (factors_span _ E _ x (wedge_in vs V) (wedge_homog vs V) HE G C X W)). rewrite Forall_map. apply Forall_forall. intros i Ii. apply factor_in; assumption.
Qed.
(** ** Blades *)
Lemma vectors_vec vs : Forall (is_vector n) vs <-> Forall vec vs.
Proof. split; intros H; (eapply Forall_impl; [|exact H]); intros x; apply vector_vec. Qed.
Lemma meq_nil_scale c x : meq x [] -> meq (scale c x) [].
Proof. intros E k. rewrite cs_, (E k). cbn [coef]. ring. Qed.
Lemma scale_nz c x : c <> 0 -> meq (scale c x) [] -> meq x [].
Proof. intros C E k. specialize (E k). rewrite cs_ in E. cbn [coef] in *. apply Rmult_integral in E. tauto. Qed.
Lemma blade_inv vs m : blade_of n vs m -> Forall vec vs /\ exists w, w <> 0 /\ meq m (scale w (wedge vs)) /\ ~ meq (wedge vs) [].
Proof.
  intros (V & (w & E) & Z). split; [apply vectors_vec, V|]. exists w. assert (W : w <> 0). { intros ->. apply Z. intros k. rewrite (E k), cs_. cbn [coef]. ring. }
  split; [exact W|]. split; [exact E|]. intros Q. apply Z. exact (transitivity E (meq_nil_scale w _ Q)).
Qed.
Lemma blade_space vs m x : blade_of n vs m -> vec x -> (meq (x ^^ m) [] <-> in_span vs x).
Proof.
  intros B X. destruct (blade_inv vs m B) as (V & w & W & E & Z). rewrite <- (blade_subspace vs x V Z X).
  assert (Q : meq (x ^^ m) (scale w (x ^^ wedge vs))). { refine (transitivity (op_c _ _ _ _ (reflexivity x) E) _). apply op_scl_r. }
  split; intros H; [apply (scale_nz w _ W); exact (transitivity (symmetry Q) H)|exact (transitivity Q (meq_nil_scale w _ H))].
Qed.
Lemma blade_meq vs m m' : meq m m' -> blade_of n vs m -> blade_of n vs m'.
Proof. intros E (V & (w & Q) & Z). split; [exact V|]. split; [exists w; exact (transitivity (symmetry E) Q)|]. intros X. apply Z. exact (transitivity E X). Qed.
Lemma blade_scale vs m c : c <> 0 -> blade_of n vs m -> blade_of n vs (scale c m).
Proof.
  intros C (V & (w & Q) & Z). split; [exact V|]. split; [|intros X; apply Z, (scale_nz c _ C X)]. exists (c * w). intros k. rewrite !cs_, (Q k), cs_. ring.
Qed.
Lemma blade_homog vs m E : blade_of n vs m -> coef m E <> 0 -> (E < 2 ^ n)%N /\ grade_of E = N.of_nat (length vs).
Proof.
  intros B C. destruct (blade_inv vs m B) as (V & w & W & Q & Z). rewrite (Q E), cs_ in C. assert (C' : coef (wedge vs) E <> 0) by (intros X; apply C; rewrite X; ring).
  split; [|exact (coef_homog _ _ _ (wedge_homog vs V) C')]. destruct (N.ltb_spec E (2 ^ n)) as [L|L]; [exact L|]. exfalso. apply C'.
  pose proof (wedge_in vs V) as I. clear - I L. induction I as [|[c b] m Hb _ IH]; cbn [coef snd] in *; [reflexivity|]. destruct (N.eqb_spec b E) as [->|Ne]; [lia|]. rewrite IH. ring.
Qed.
Lemma blade_coef vs m : blade_of n vs m -> exists E, coef m E <> 0.
Proof.
  intros B. destruct (blade_inv vs m B) as (V & w & W & Q & Z). destruct (nonzero_coef _ (wedge_in vs V) Z) as (E & _ & C). exists E. rewrite (Q E), cs_. intros X. apply Rmult_integral in X. tauto.
Qed.
Lemma wedge_app vs ws : meq (wedge (vs ++ ws)) (wedge vs ^^ wedge ws).
Proof.
  induction vs as [|v vs IH]; cbn [app wedge]; [symmetry; apply op_one_l|]. refine (transitivity (op_c _ _ _ _ (reflexivity v) IH) _). symmetry. exact (op_assoc v (wedge vs) (wedge ws)).
Qed.
Lemma wedge_snoc vs u : meq (wedge (vs ++ [u])) (wedge vs ^^ u).
Proof. refine (transitivity (wedge_app vs [u]) _). apply op_c; [reflexivity|]. cbn [wedge]. apply op_one_r. Qed.
Lemma blade_snoc vs m u : blade_of n vs m -> vec u -> ~ meq (m ^^ u) [] -> blade_of n (vs ++ [u]) (m ^^ u).
Proof.
  intros (V & (w & Q) & _) U Z. split; [apply Forall_app; split; [exact V|constructor; [apply vector_vec, U|constructor]]|]. split; [|exact Z]. exists w.
  refine (transitivity (op_c _ _ _ _ Q (reflexivity u)) _). refine (transitivity (op_scl_l _ _ _) _). apply meq_scl. symmetry. apply wedge_snoc.
Qed.
Lemma op_flip k m u : homog k m -> vec u -> exists s, s <> 0 /\ meq (u ^^ m) (scale s (m ^^ u)).
Proof. intros H U. pose proof (op_comm k 1 m u H (vec_homog n n64 u U)) as Q. exists (if N.odd (k * 1) then -1 else 1). split; [destruct (N.odd (k * 1)); lra|exact Q]. Qed.
Lemma blade_absorbs vs m u : blade_of n vs m -> vec u -> meq (m ^^ u) [] -> in_span vs u.
Proof.
  intros B U Z. destruct (blade_inv vs m B) as (V & w & W & Q & NZ). apply (blade_subspace vs u V NZ U).
  destruct (op_flip _ _ u (wedge_homog vs V) U) as (s & _ & F). refine (transitivity F _). apply meq_nil_scale. apply (scale_nz w _ W).
  refine (transitivity (symmetry (op_scl_l w _ u)) _). exact (transitivity (op_c _ _ _ _ (symmetry Q) (reflexivity u)) Z).
Qed.
(** ** The factors of a blade *)
Lemma sign_nonzero a b : sign_of a b <> 0. Proof. apply sign_nz. Qed.
Lemma lc_coef d W k : (d < 2 ^ n)%N -> ins W -> coef ([(1, d)] << W) k = (if N.eqb (N.land d (N.lxor d k)) d then sign_of d (N.lxor d k) else 0) * coef W (N.lxor d k).
Proof.
  intros Hd IW. pose proof (pow2_64 n d n64 Hd) as D64.
  change ([(1, d)] << W) with (scale 1 (linear (lcont_blade e1 d) W) ++ []). rewrite app_nil_r, cs_, Rmult_1_l.
  induction IW as [|[c b] W Hb IW IH]; [cbn [coef linear flat_map]; ring|].
  change (linear (lcont_blade e1 d) ((c, b) :: W)) with (scale c (lcont_blade e1 d b) ++ linear (lcont_blade e1 d) W). rewrite ca_, IH, cs_. cbn [coef snd] in *. rewrite (lcont_eq e1 d b D64).
  assert (P : N.land d b = d -> squares e1 d = 1). { intros _. exact (Clifford5.squares_pos e1 n d n64 (fun _ _ => eq_refl) Hd). }
  destruct (N.eqb_spec b (N.lxor d k)) as [->|Ne].
  - destruct (N.eqb_spec (N.land d (N.lxor d k)) d) as [Q|Q]; cbn [coef]; [|ring]. rewrite <- N.lxor_assoc, N.lxor_nilpotent, N.lxor_0_l, N.eqb_refl, (P Q). ring.
  - destruct (N.eqb_spec (N.land d b) d) as [Q|Q]; cbn [coef]; [|ring]. destruct (N.eqb_spec (N.lxor d b) k) as [X|X]; [|ring]. exfalso. apply Ne. rewrite <- X, <- N.lxor_assoc, N.lxor_nilpotent, N.lxor_0_l. reflexivity.
Qed.
Lemma sub_flip E i : N.testbit E i = true -> N.land (N.lxor E (2 ^ i)) E = N.lxor E (2 ^ i).
Proof.
  intros T. apply N.bits_inj. intros j. rewrite N.land_spec, N.lxor_spec, N.pow2_bits_eqb. destruct (N.eqb_spec i j) as [<-|Ne]; [rewrite T; reflexivity|]. rewrite xorb_false_r. apply andb_diag.
Qed.
Lemma indices_test E i : (E < 2 ^ n)%N -> In i (indices E) -> N.testbit E i = true.
Proof. intros HE Ii. rewrite <- (bits_indices E (pow2_64 n E n64 HE)). apply (bits_bit _ (indices_incr E)), Ii. Qed.
Lemma factor_nz W E i : ins W -> (E < 2 ^ n)%N -> In i (indices E) -> coef W E <> 0 -> ~ meq (factor W E i) [].
Proof.
  intros IW HE Ii C Z. pose proof (indices_test E i HE Ii) as T. pose proof (flip_lt E i HE (indices_lt E i HE Ii)) as Hd. specialize (Z (2 ^ i)%N). unfold factor in Z. rewrite (lc_coef _ W _ Hd IW), N.lxor_assoc, N.lxor_nilpotent, N.lxor_0_r, (sub_flip E i T), N.eqb_refl in Z.
  cbn [coef] in Z. apply Rmult_integral in Z. destruct Z as [Z|Z]; [exact (sign_nonzero _ _ Z)|exact (C Z)].
Qed.
Lemma factor_scale w W E i : meq (factor (scale w W) E i) (scale w (factor W E i)). Proof. apply lc_scl_r. Qed.
(** A factor of a blade as the projection of a basis vector. *)
Lemma factor_lc W E i r : (E < 2 ^ n)%N -> In i (indices E) -> r <> 0 -> exists s, s <> 0 /\ meq ((basis i << [(r, E)]) << W) (scale s (factor W E i)).
Proof.
  intros HE Ii R0. pose proof (indices_lt E i HE Ii) as Li. pose proof (indices_test E i HE Ii) as T.
  assert (Lp : (2 ^ i < 2 ^ n)%N) by (apply N.pow_lt_mono_r; lia). pose proof (pow2_64 n _ n64 Lp) as P64.
  assert (Q : meq (basis i << [(r, E)]) (scale (sign_of (2 ^ i) E * r) [(1, N.lxor E (2 ^ i))])).
  { intros k. unfold basis. rewrite (lc_coef _ _ _ Lp (single_in r E HE)), cs_. cbn [coef]. replace (N.eqb E (N.lxor (2 ^ i) k)) with (N.eqb (N.lxor E (2 ^ i)) k).
    2:{ destruct (N.eqb_spec (N.lxor E (2 ^ i)) k) as [<-|Ne]; symmetry; [rewrite (N.lxor_comm E), <- N.lxor_assoc, N.lxor_nilpotent, N.lxor_0_l; apply N.eqb_refl|]. apply N.eqb_neq. intros ->. apply Ne. rewrite N.lxor_comm, <- N.lxor_assoc, N.lxor_nilpotent, N.lxor_0_l. reflexivity. }
    destruct (N.eqb_spec (N.lxor E (2 ^ i)) k) as [<-|Ne]; [|ring]. rewrite (N.lxor_comm E), <- N.lxor_assoc, N.lxor_nilpotent, N.lxor_0_l.
    replace (N.eqb (N.land (2 ^ i) E) (2 ^ i)) with true; [ring|]. symmetry. apply N.eqb_eq. apply N.bits_inj. intros j. rewrite N.land_spec, N.pow2_bits_eqb. destruct (N.eqb_spec i j) as [<-|Ne]; [exact T|reflexivity]. }
  exists (sign_of (2 ^ i) E * r). split; [intros X; apply Rmult_integral in X; destruct X as [X|X]; [exact (sign_nonzero _ _ X)|exact (R0 X)]|].
  refine (transitivity (lc_c _ _ _ _ Q (reflexivity W)) _). apply lc_scl_l.
Qed.
Lemma blade_factor_in vs m E i : blade_of n vs m -> coef m E <> 0 -> In i (indices E) -> in_span vs (factor m E i).
Proof.
  intros B C Ii. destruct (blade_homog vs m E B C) as [HE G]. destruct (blade_inv vs m B) as (V & w & W & Q & _).
  eapply span_meq; [|exact (span_scale vs w _ (factor_in vs E i V HE G Ii))]. symmetry. refine (transitivity _ (factor_scale w _ E i)). apply lc_c; [reflexivity|exact Q].
Qed.
Lemma blade_factors_span vs m E : blade_of n vs m -> coef m E <> 0 -> Forall (in_span (map (factor m E) (indices E))) vs.
Proof.
  intros B C. destruct (blade_homog vs m E B C) as [HE G]. destruct (blade_inv vs m B) as (V & w & W & Q & _).
  assert (C' : coef (wedge vs) E <> 0). { intros X. apply C. rewrite (Q E), cs_, X. ring. }
  apply Forall_forall. intros v Iv. refine (span_trans _ _ _ _ (factors_span _ E _ v (wedge_in vs V) (wedge_homog vs V) HE G C' (proj1 (Forall_forall _ _) V v Iv) (in_wedge v vs V Iv))).
  rewrite Forall_map. apply Forall_forall. intros i Ii. apply (span_meq _ (scale (/ w) (factor m E i))); [|apply span_scale, span_in, in_map, Ii].
  intros k. rewrite cs_. pose proof (lc_c _ _ _ _ (reflexivity [(1, N.lxor E (2 ^ i))]) Q k) as X. change ([(1, N.lxor E (2 ^ i))] << m) with (factor m E i) in X. rewrite X. pose proof (factor_scale w (wedge vs) E i k) as Y. unfold factor in Y at 1. rewrite Y, cs_. field. exact W.
Qed.
Lemma blade_factor_nz vs m E i : blade_of n vs m -> coef m E <> 0 -> In i (indices E) -> ~ meq (factor m E i) [].
Proof.
  intros B C Ii Z. destruct (blade_homog vs m E B C) as [HE G]. destruct (blade_inv vs m B) as (V & w & W & Q & _). apply (factor_nz (wedge vs) E i (wedge_in vs V) HE Ii); [intros X; apply C; rewrite (Q E), cs_, X; ring|].
  apply (scale_nz w _ W). refine (transitivity (symmetry (factor_scale w _ E i)) _). refine (transitivity _ Z). apply lc_c; [reflexivity|symmetry; exact Q].
Qed.
Lemma norm_zero a : ins a -> norm2 e1 a = 0 -> meq a [].
Proof.
  intros I Z. rewrite (Clifford5.norm2_sum e1 n a I) in Z. intros k. cbn [coef].
  destruct (N.ltb_spec k (2 ^ n)) as [L|L].
  2:{ clear Z. induction I as [|[c b] m Hb _ IH]; cbn [coef snd] in *; [reflexivity|]. destruct (N.eqb_spec b k) as [->|Ne]; [lia|]. rewrite IH. ring. }
  assert (S : forall l, (forall j, In j l -> (j < 2 ^ n)%N) -> 0 <= total (map (fun k => squares e1 k * (coef a k * coef a k)) l) /\ (total (map (fun k => squares e1 k * (coef a k * coef a k)) l) = 0 -> forall j, In j l -> coef a j = 0)).
  { induction l as [|x l IH]; intros H; [split; [cbn; lra|intros _ j []]|]. destruct (IH (fun j Ij => H j (or_intror Ij))) as [P1 P2]. cbn [map total fold_right] in *. change (fold_right Rplus 0) with total in *.
    rewrite (Clifford5.squares_pos e1 n x n64 (fun _ _ => eq_refl) (H x (or_introl eq_refl))). pose proof (Rle_0_sqr (coef a x)) as Q. unfold Rsqr in Q. split; [lra|]. intros E j [<-|Ij]; [|apply P2; [lra|exact Ij]].
    assert (coef a x * coef a x = 0) as X by lra. apply Rmult_integral in X. tauto. }
  apply (proj2 (S (blades_of n) (fun j Ij => proj1 (Clifford5.blades_in n j) Ij)) Z). apply Clifford5.blades_in. exact L.
Qed.
End Space.
