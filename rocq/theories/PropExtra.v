(** C25-C28, C36: inverse, norm, duality, versor application and commutator product. *)
From Coq Require Import NArith ZArith List Bool Reals Lra Lia.
From Verif Require Import Bits SpecBits Expr Sem Wf SpecMv SpecAlg SpecOrder Simp Comp Mapping Ops EvalC SpecEval Lazy SpecLazy Api Extra SpecApi SpecExtra.
From Verif Require Import MvBase OrderProofs ProductProofs OuterProofs GumProofs PresProofs CanonProofs PolyProofs LazyProofs2 Clifford Clifford2 Clifford3 Clifford4 Clifford5 ApiProofs ApiProofs2 ApiProofs3 ExtraProofs PropApi.
Import ListNotations.
Local Open Scope R_scope.

(** The functions below act on objects with compile-time blades whose coefficients are stored or are
    rational constants (sums, products and integer powers of integers).  [exact f inputs] excludes the
    calls that evaluate a quotient of two integers, which truncates (C11); it only depends on the types
    of the arguments.  As in C24, [Ovf] is the outcome of a run in which integer arithmetic leaves the
    64-bit range. *)

(** ** The geometric product of rational objects *)
Theorem C24_gp_rational : forall P Q R F k a b ma mb o, (P + Q + R <= 63)%N -> rat_object (P + Q + R) a -> rat_object (P + Q + R) b -> value a ma -> value b mb ->
  exact (body2 (gp F k P Q R)) [a; b] ->
  gp F k P Q R a b = Some o ->
  o = Ovf \/ exists r, o = Done r /\ rat_object (P + Q + R) r /\ value r (mgp (signature P Q) ma mb).
Proof.
  intros P Q R F k a b ma mb o H Oa Ob Va Vb X E.
  exact (ratc2 F k _ _ a b ma mb _ o (sound_mul is_int F k _ _ _ _ ma mb (gp_map_ok P Q R H F) (N.le_refl _) (signed_const F P Q R _ _ H (gp_bv F))) Oa Ob Va Vb X E).
Qed.
Print Assumptions C24_gp_rational.

(** ** C25: inverse *)
(** inv(V) is the reverse of V divided by the squared reverse norm. *)
Theorem C25_inv : forall P Q R F k a ma o, (P + Q + R <= 63)%N -> rat_object (P + Q + R) a -> value a ma ->
  norm2 (signature P Q) ma <> 0 -> exact (body1 (inv F k (Signed P Q R))) [a] ->
  inv F k (Signed P Q R) a = Some o ->
  o = Ovf \/ exists r, o = Done r /\ rat_object (P + Q + R) r /\ value r (minv (signature P Q) ma).
Proof.
  intros P Q R F k a ma o H Oa Va Hn X E. refine (rat1 F k (inv F k (Signed P Q R)) _ a ma _ o _ (fun x => eq_refl) _ Oa Va X E).
  intros K g x HP Tx. exact (y_inv is_int K F k _ g (Signed P Q R) HP H eq_refl eq_refl x ma Hn Tx).
Qed.
Print Assumptions C25_inv.
(** If V ~V is a non-zero scalar then the scalar is the squared norm and inv(V) is the two-sided inverse. *)
Theorem C25_law : forall q m s, s <> 0 -> meq (mgp q m (mrev m)) [(s, 0%N)] ->
  norm2 q m = s /\ meq (mgp q m (minv q m)) one /\ meq (mgp q (minv q m) m) one.
Proof. intros q m s Hs H. split; [exact (norm2_of q m s H)|]. split; [exact (inv_r q m s Hs H)|exact (inv_left q m s Hs H)]. Qed.
Print Assumptions C25_law.
(** The two products computed by the library with the inverse computed by the library. *)
Theorem C25_inverse : forall P Q R F k a ma s i o o', (P + Q + R <= 63)%N -> rat_object (P + Q + R) a -> value a ma ->
  s <> 0 -> meq (mgp (signature P Q) ma (mrev ma)) [(s, 0%N)] ->
  exact (body1 (inv F k (Signed P Q R))) [a] -> inv F k (Signed P Q R) a = Some (Done i) ->
  exact (body2 (gp F k P Q R)) [a; i] -> gp F k P Q R a i = Some o ->
  exact (body2 (gp F k P Q R)) [i; a] -> gp F k P Q R i a = Some o' ->
  (o = Ovf \/ exists r, o = Done r /\ value r one) /\ (o' = Ovf \/ exists r, o' = Done r /\ value r one).
Proof.
  intros P Q R F k a ma s i o o' H Oa Va Hs Hm X1 E1 X2 E2 X3 E3. destruct (C25_law _ ma s Hs Hm) as (N2 & L1 & L2).
  destruct (C25_inv P Q R F k a ma _ H Oa Va ltac:(rewrite N2; exact Hs) X1 E1) as [C|(r & C & Oi & Vi)]; [discriminate C|]. injection C as <-. split.
  - destruct (C24_gp_rational P Q R F k a i ma _ o H Oa Oi Va Vi X2 E2) as [->|(r & -> & _ & Vr)]; [auto|]. right. exists r. split; [reflexivity|]. exact (value_meq _ _ _ Vr L1).
  - destruct (C24_gp_rational P Q R F k i a _ ma o' H Oi Oa Vi Va X3 E3) as [->|(r & -> & _ & Vr)]; [auto|]. right. exists r. split; [reflexivity|]. exact (value_meq _ _ _ Vr L2).
Qed.
Print Assumptions C25_inverse.
(** igp(A, B) = A B^-1. *)
Theorem C25_igp : forall P Q R F k a b ma mb o, (P + Q + R <= 63)%N -> rat_object (P + Q + R) a -> rat_object (P + Q + R) b -> value a ma -> value b mb ->
  norm2 (signature P Q) mb <> 0 -> exact (body2 (igp F k (Signed P Q R))) [a; b] ->
  igp F k (Signed P Q R) a b = Some o ->
  o = Ovf \/ exists r, o = Done r /\ rat_object (P + Q + R) r /\ value r (mgp (signature P Q) ma (minv (signature P Q) mb)).
Proof.
  intros P Q R F k a b ma mb o H Oa Ob Va Vb Hn X E. refine (rat2 F k (igp F k (Signed P Q R)) _ a b ma mb _ o _ (fun x y => eq_refl) _ Oa Ob Va Vb X E).
  intros K g x y HP Tx Ty. exact (y_igp is_int K F k _ g (Signed P Q R) HP H eq_refl eq_refl x y ma mb Hn Tx Ty).
Qed.
Print Assumptions C25_igp.
(** a / s for a scalar s. *)
Theorem C25_divide : forall n F k a b ma v o, (n <= 63)%N -> rat_object n a -> rat_object n b -> value a ma -> value b [(v, 0%N)] ->
  v <> 0 -> exact (body2 (divide_by F k)) [a; b] ->
  divide_by F k a b = Some o ->
  o = Ovf \/ exists r, o = Done r /\ rat_object n r /\ value r (scale (/ v) ma).
Proof.
  intros n F k a b ma v o H Oa Ob Va Vb Hv X E. refine (rat2 F k (divide_by F k) _ a b ma [(v, 0%N)] _ o _ (fun x y => eq_refl) _ Oa Ob Va Vb X E).
  intros K g x y HP Tx Ty. exact (y_divide is_int K F k _ g HP H eq_refl x y ma v Hv Tx Ty).
Qed.
Print Assumptions C25_divide.

(** ** C26: reverse norm *)
(** rnorm_sqr of an object with stored and integer coefficients: the scalar product of A and ~A, which is
    the scalar whose value is the sum of the squared coefficients weighted by the squares of the blades. *)
Theorem C26_rnorm_sqr : forall P Q R F k a ma o, (P + Q + R <= 63)%N -> int_object (P + Q + R) a -> value a ma ->
  rnorm_sqr F k (Signed P Q R) a = Some o ->
  o = Ovf \/ exists r, o = Done r /\ int_object (P + Q + R) r /\ value r (msp (signature P Q) ma (mrev ma)) /\
    value r [(total (map (fun b => squares (signature P Q) b * (coef ma b * coef ma b)) (blades_of (P + Q + R))), 0%N)].
Proof.
  intros P Q R F k a ma o H Oa Va E.
  destruct (int_fn F k _ _ [a] [ma] (msp (signature P Q) ma (mrev ma)) o
    ltac:(intros K g args HP HA; inversion HA as [|x ? ? ? Tx HA1]; subst; inversion HA1; subst; exact (y_rnorm_sqr is_pos K F k _ g (Signed P Q R) HP H eq_refl x ma Tx)) ltac:(auto) ltac:(auto) E) as [->|(r & -> & Or & Vr)]; [auto|].
  right. exists r. split; [reflexivity|]. split; [exact Or|]. split; [exact Vr|]. destruct (object_space _ _ _ _ Oa Va) as (m' & I & Q'). apply (value_meq _ _ _ Vr).
  exact (norm_scalar (signature P Q) (P + Q + R) ma m' H I Q').
Qed.
Print Assumptions C26_rnorm_sqr.
(** In a Euclidean space: the sum of the squared coefficients, non-negative, zero only for zero. *)
Theorem C26_euclidean : forall n F k a ma o, (n <= 63)%N -> int_object n a -> value a ma ->
  rnorm_sqr F k (Signed n 0 0) a = Some o ->
  o = Ovf \/ exists r s, o = Done r /\ value r [(s, 0%N)] /\ s = total (map (fun b => coef ma b * coef ma b) (blades_of n)) /\
    0 <= s /\ (s = 0 <-> meq ma []).
Proof.
  intros n F k a ma o H Oa Va E. assert (N0 : (n + 0 + 0)%N = n) by lia.
  destruct (C26_rnorm_sqr n 0 0 F k a ma o ltac:(lia) ltac:(rewrite N0; exact Oa) Va E) as [->|(r & -> & _ & Vr & _)]; [auto|]. right.
  destruct (object_space _ _ _ _ Oa Va) as (m' & I & Q'). exists r. eexists. split; [reflexivity|]. split; [|exact (euclid_all n ma m' H I Q')].
  apply (value_meq _ _ _ Vr). exact (euclid_scalar n ma m' H I Q').
Qed.
Print Assumptions C26_euclidean.

(** ** C27: dual and undual *)
(** dual(A, I) = A contracted with the inverse of I. *)
Theorem C27_dual : forall P Q R F k a b ma mb o, (P + Q + R <= 63)%N -> rat_object (P + Q + R) a -> rat_object (P + Q + R) b -> value a ma -> value b mb ->
  norm2 (signature P Q) mb <> 0 -> exact (body2 (dual F k (Signed P Q R))) [a; b] ->
  dual F k (Signed P Q R) a b = Some o ->
  o = Ovf \/ exists r, o = Done r /\ rat_object (P + Q + R) r /\ value r (mlcont (signature P Q) ma (minv (signature P Q) mb)).
Proof.
  intros P Q R F k a b ma mb o H Oa Ob Va Vb Hn X E. refine (rat2 F k (dual F k (Signed P Q R)) _ a b ma mb _ o _ (fun x y => eq_refl) _ Oa Ob Va Vb X E).
  intros K g x y HP Tx Ty. exact (y_dual is_int K F k _ g (Signed P Q R) HP H eq_refl eq_refl x y ma mb ltac:(discriminate) Hn Tx Ty).
Qed.
Print Assumptions C27_dual.
(** undual(A, I) = A contracted with I. *)
Theorem C27_undual : forall P Q R F k a b ma mb o, (P + Q + R <= 63)%N -> rat_object (P + Q + R) a -> rat_object (P + Q + R) b -> value a ma -> value b mb ->
  exact (body2 (undual F k (Signed P Q R))) [a; b] ->
  undual F k (Signed P Q R) a b = Some o ->
  o = Ovf \/ exists r, o = Done r /\ rat_object (P + Q + R) r /\ value r (mlcont (signature P Q) ma mb).
Proof.
  intros P Q R F k a b ma mb o H Oa Ob Va Vb X E. refine (rat2 F k (undual F k (Signed P Q R)) _ a b ma mb _ o _ (fun x y => eq_refl) _ Oa Ob Va Vb X E).
  intros K g x y HP Tx Ty. exact (y_undual is_int K F k _ g (Signed P Q R) HP H eq_refl x y ma mb ltac:(discriminate) Tx Ty).
Qed.
Print Assumptions C27_undual.
(** The two functions are inverse to each other for every non-zero multiple I of the pseudoscalar of a
    non-degenerate space. *)
Theorem C27_undual_dual : forall P Q F k a i ma c d o, (P + Q <= 63)%N -> c <> 0 -> rat_object (P + Q) a -> rat_object (P + Q) i ->
  value a ma -> value i [(c, (2 ^ (P + Q) - 1)%N)] ->
  exact (body2 (dual F k (Signed P Q 0))) [a; i] -> dual F k (Signed P Q 0) a i = Some (Done d) ->
  exact (body2 (undual F k (Signed P Q 0))) [d; i] -> undual F k (Signed P Q 0) d i = Some o ->
  o = Ovf \/ exists r, o = Done r /\ value r ma.
Proof.
  intros P Q F k a i ma c d o H Hc Oa Oi Va Vi X1 E1 X2 E2. assert (N0 : (P + Q + 0)%N = (P + Q)%N) by lia.
  assert (Hq : squares (signature P Q) (2 ^ (P + Q) - 1) <> 0) by (apply nondeg).
  destruct (object_space _ _ _ _ Oa Va) as (m' & I & Q'). rewrite <- N0 in Oa, Oi.
  destruct (C27_dual P Q 0 F k a i ma _ _ ltac:(lia) Oa Oi Va Vi ltac:(apply ps_norm_nz; assumption) X1 E1) as [C|(r & C & Od & Vd)]; [discriminate C|]. injection C as <-.
  destruct (C27_undual P Q 0 F k d i _ _ o ltac:(lia) Od Oi Vd Vi X2 E2) as [->|(r & -> & _ & Vr)]; [auto|]. right. exists r. split; [reflexivity|].
  apply (value_meq _ _ _ Vr). exact (undual_dual' (signature P Q) (P + Q) c ma m' H Hc Hq I Q').
Qed.
Print Assumptions C27_undual_dual.
Theorem C27_dual_undual : forall P Q F k a i ma c d o, (P + Q <= 63)%N -> c <> 0 -> rat_object (P + Q) a -> rat_object (P + Q) i ->
  value a ma -> value i [(c, (2 ^ (P + Q) - 1)%N)] ->
  exact (body2 (undual F k (Signed P Q 0))) [a; i] -> undual F k (Signed P Q 0) a i = Some (Done d) ->
  exact (body2 (dual F k (Signed P Q 0))) [d; i] -> dual F k (Signed P Q 0) d i = Some o ->
  o = Ovf \/ exists r, o = Done r /\ value r ma.
Proof.
  intros P Q F k a i ma c d o H Hc Oa Oi Va Vi X1 E1 X2 E2. assert (N0 : (P + Q + 0)%N = (P + Q)%N) by lia.
  assert (Hq : squares (signature P Q) (2 ^ (P + Q) - 1) <> 0) by (apply nondeg).
  destruct (object_space _ _ _ _ Oa Va) as (m' & I & Q'). rewrite <- N0 in Oa, Oi.
  destruct (C27_undual P Q 0 F k a i ma _ _ ltac:(lia) Oa Oi Va Vi X1 E1) as [C|(r & C & Od & Vd)]; [discriminate C|]. injection C as <-.
  destruct (C27_dual P Q 0 F k d i _ _ o ltac:(lia) Od Oi Vd Vi ltac:(apply ps_norm_nz; assumption) X2 E2) as [->|(r & -> & _ & Vr)]; [auto|]. right. exists r. split; [reflexivity|].
  apply (value_meq _ _ _ Vr). exact (dual_undual' (signature P Q) (P + Q) c ma m' H Hc Hq I Q').
Qed.
Print Assumptions C27_dual_undual.
(** Duality exchanges the outer product and the left contraction. *)
Theorem C27_exchange : forall P Q c a b, (P + Q <= 63)%N -> c <> 0 -> in_space (P + Q) a -> in_space (P + Q) b ->
  let I := [(c, (2 ^ (P + Q) - 1)%N)] in let D x := mlcont (signature P Q) x (minv (signature P Q) I) in
  meq (D (mop a b)) (mlcont (signature P Q) a (D b)) /\ meq (D (mlcont (signature P Q) a b)) (mop a (D b)).
Proof.
  intros P Q c a b H Hc Ia Ib I D. assert (H' : (P + Q <= 64)%N) by lia. split.
  - apply (dual_op (signature P Q) (P + Q)); auto. apply in_inv, in_I.
  - exact (dual_lcont (signature P Q) (P + Q) c a b H' Hc (nondeg P Q) Ia Ib).
Qed.
Print Assumptions C27_exchange.

(** ** C28: versor application *)
(** apply_even_versor(V, A) = V A V^-1. *)
Theorem C28_even : forall P Q R F k a b ma mb o, (P + Q + R <= 63)%N -> rat_object (P + Q + R) a -> rat_object (P + Q + R) b -> value a ma -> value b mb ->
  norm2 (signature P Q) ma <> 0 -> exact (body2 (apply_even_versor F k (Signed P Q R))) [a; b] ->
  apply_even_versor F k (Signed P Q R) a b = Some o ->
  o = Ovf \/ exists r, o = Done r /\ rat_object (P + Q + R) r /\ value r (mgp (signature P Q) (mgp (signature P Q) ma mb) (minv (signature P Q) ma)).
Proof.
  intros P Q R F k a b ma mb o H Oa Ob Va Vb Hn X E. refine (rat2 F k (apply_even_versor F k (Signed P Q R)) _ a b ma mb _ o _ (fun x y => eq_refl) _ Oa Ob Va Vb X E).
  intros K g x y HP Tx Ty. exact (y_even is_int K F k _ g (Signed P Q R) HP H eq_refl eq_refl x y ma mb Hn Tx Ty).
Qed.
Print Assumptions C28_even.
(** apply_odd_versor(V, A) = V A^ V^-1, with the grade involution of A. *)
Theorem C28_odd : forall P Q R F k a b ma mb o, (P + Q + R <= 63)%N -> rat_object (P + Q + R) a -> rat_object (P + Q + R) b -> value a ma -> value b mb ->
  norm2 (signature P Q) ma <> 0 -> exact (body2 (apply_odd_versor F k (Signed P Q R))) [a; b] ->
  apply_odd_versor F k (Signed P Q R) a b = Some o ->
  o = Ovf \/ exists r, o = Done r /\ rat_object (P + Q + R) r /\ value r (mgp (signature P Q) (mgp (signature P Q) ma (minvol mb)) (minv (signature P Q) ma)).
Proof.
  intros P Q R F k a b ma mb o H Oa Ob Va Vb Hn X E. refine (rat2 F k (apply_odd_versor F k (Signed P Q R)) _ a b ma mb _ o _ (fun x y => eq_refl) _ Oa Ob Va Vb X E).
  intros K g x y HP Tx Ty. exact (y_odd is_int K F k _ g (Signed P Q R) HP H eq_refl eq_refl x y ma mb Hn Tx Ty).
Qed.
Print Assumptions C28_odd.
(** apply_rotor(R, A) = R A ~R. *)
Theorem C28_rotor : forall P Q R F k a b ma mb o, (P + Q + R <= 63)%N -> rat_object (P + Q + R) a -> rat_object (P + Q + R) b -> value a ma -> value b mb ->
  exact (body2 (apply_rotor F k (Signed P Q R))) [a; b] ->
  apply_rotor F k (Signed P Q R) a b = Some o ->
  o = Ovf \/ exists r, o = Done r /\ rat_object (P + Q + R) r /\ value r (mgp (signature P Q) (mgp (signature P Q) ma mb) (mrev ma)).
Proof.
  intros P Q R F k a b ma mb o H Oa Ob Va Vb X E. refine (rat2 F k (apply_rotor F k (Signed P Q R)) _ a b ma mb _ o _ (fun x y => eq_refl) _ Oa Ob Va Vb X E).
  intros K g x y HP Tx Ty. exact (y_rotor is_int K F k _ g (Signed P Q R) HP H eq_refl x y ma mb Tx Ty).
Qed.
Print Assumptions C28_rotor.
(** V A V^-1 is linear in A, maps 1 to 1, distributes over the geometric product and preserves the scalar
    product, for every V such that V ~V is a non-zero scalar. *)
Theorem C28_even_laws : forall q v s, s <> 0 -> meq (mgp q v (mrev v)) [(s, 0%N)] ->
  let T a := mgp q (mgp q v a) (minv q v) in
  (forall c d a b, meq (T (scale c a ++ scale d b)) (scale c (T a) ++ scale d (T b))) /\
  meq (T one) one /\
  (forall a b, meq (T (mgp q a b)) (mgp q (T a) (T b))) /\
  (forall a b, re (msp q (T a) (T b)) = re (msp q a b)).
Proof.
  intros q v s Hs H T. destruct (C25_law q v s Hs H) as (_ & L1 & L2). split; [|split; [|split]].
  - intros c d a b. exact (sandwich_lin q v (minv q v) c d a b).
  - exact (sandwich_one q v (minv q v) L1).
  - intros a b. exact (sandwich_gp q v (minv q v) a b L2).
  - intros a b. exact (sandwich_sp q v (minv q v) a b L2).
Qed.
Print Assumptions C28_even_laws.
(** The same for V A^ V^-1. *)
Theorem C28_odd_laws : forall q v s, s <> 0 -> meq (mgp q v (mrev v)) [(s, 0%N)] ->
  let T a := mgp q (mgp q v (minvol a)) (minv q v) in
  (forall c d a b, meq (T (scale c a ++ scale d b)) (scale c (T a) ++ scale d (T b))) /\
  meq (T one) one /\
  (forall a b, meq (T (mgp q a b)) (mgp q (T a) (T b))) /\
  (forall a b, re (msp q (T a) (T b)) = re (msp q a b)).
Proof.
  intros q v s Hs H T. destruct (C25_law q v s Hs H) as (_ & L1 & L2). exact (odd_laws q v (minv q v) L1 L2).
Qed.
Print Assumptions C28_odd_laws.
(** R A ~R for a unit R. *)
Theorem C28_rotor_laws : forall q v, meq (mgp q v (mrev v)) one ->
  let T a := mgp q (mgp q v a) (mrev v) in
  (forall c d a b, meq (T (scale c a ++ scale d b)) (scale c (T a) ++ scale d (T b))) /\
  meq (T one) one /\
  (forall a b, meq (T (mgp q a b)) (mgp q (T a) (T b))) /\
  (forall a b, re (msp q (T a) (T b)) = re (msp q a b)).
Proof.
  intros q v H T. assert (L2 : meq (mgp q (mrev v) v) one) by (destruct (some_space (mrev v)) as (n & Hn); exact (left_inverse q n (mrev v) v Hn H)). split; [|split; [|split]].
  - intros c d a b. exact (sandwich_lin q v (mrev v) c d a b).
  - exact (sandwich_one q v (mrev v) H).
  - intros a b. exact (sandwich_gp q v (mrev v) a b L2).
  - intros a b. exact (sandwich_sp q v (mrev v) a b L2).
Qed.
Print Assumptions C28_rotor_laws.

(** ** C36: commutator product *)
(** cp(A, B) = (A B - B A) / 2. *)
Theorem C36_cp : forall P Q R F k a b ma mb o, (P + Q + R <= 63)%N -> rat_object (P + Q + R) a -> rat_object (P + Q + R) b -> value a ma -> value b mb ->
  exact (body2 (cp F k (Signed P Q R))) [a; b] ->
  cp F k (Signed P Q R) a b = Some o ->
  o = Ovf \/ exists r, o = Done r /\ rat_object (P + Q + R) r /\ value r (mcp (signature P Q) ma mb).
Proof.
  intros P Q R F k a b ma mb o H Oa Ob Va Vb X E. refine (rat2 F k (cp F k (Signed P Q R)) _ a b ma mb _ o _ (fun x y => eq_refl) _ Oa Ob Va Vb X E).
  intros K g x y HP Tx Ty. exact (y_cp is_int K F k _ g (Signed P Q R) HP H eq_refl eq_refl x y ma mb Tx Ty).
Qed.
Print Assumptions C36_cp.
(** Antisymmetry, the Jacobi identity, and the product rule. *)
Theorem C36_cp_laws : forall q a b c,
  meq (mcp q a b) (scale (-1) (mcp q b a)) /\
  meq (mcp q a (mcp q b c) ++ mcp q b (mcp q c a) ++ mcp q c (mcp q a b)) [] /\
  meq (mcp q a (mgp q b c)) (mgp q (mcp q a b) c ++ mgp q b (mcp q a c)).
Proof. intros q a b c. split; [exact (cp_anti q a b)|]. split; [exact (jacobi q a b c)|exact (cp_leibniz q a b c)]. Qed.
Print Assumptions C36_cp_laws.

(** ** Cases that meet the hypotheses *)
Lemma int_rat n a : int_object n a -> rat_object n a.
Proof. intros (M & E & C & W & H). exists M. split; [exact E|]. split; [exact C|]. split; [exact W|]. eapply Forall_impl; [|exact H]. intros p [L D]. split; [exact L|]. destruct D as [D|[D1 D2]]; [left; exact D|right; split; [destruct (snd p); try discriminate D1; reflexivity|exact D2]]. Qed.

(** The unit pseudoscalar of the three-dimensional space. *)
Definition ob_i : cliff := {| cexpr := Comp (CV 1) (CBlade 7); cint := true; cvals := []; cbits := [] |}.
Example ob_i_ok : rat_object 3 ob_i /\ value ob_i [(1, (2 ^ 3 - 1)%N)].
Proof.
  split.
  - exists [(7%N, CV 1)]. split; [reflexivity|]. split; [apply canonical_check; vm_compute; reflexivity|]. split; [split; constructor|]. constructor; [|constructor]. split; [reflexivity|right; split; reflexivity].
  - intros g. exists [(1, 7%N)]. split; [|intros j; reflexivity]. exists ([], []). split; [|reflexivity]. exists ([], []). split; [reflexivity|split; [split; reflexivity|intros _; exact Logic.I]].
Qed.
(** The calls on u e1 + v e2 and w e1 + 3 e12 compile and are exact. *)
Definition compiles (x : result) : bool := match x with Some _ => true | None => false end.
Example extra_cases : forall u v w, let S := Signed 3 0 0 in let a := ob_a u v in let b := ob_b w in
  (exact (body1 (inv 30 30 S)) [a] /\ compiles (inv 30 30 S a) = true) /\
  (exact (body2 (igp 30 30 S)) [b; a] /\ compiles (igp 30 30 S b a) = true) /\
  (exact (body2 (divide_by 30 30)) [b; c_obj 2] /\ compiles (divide_by 30 30 b (c_obj 2)) = true) /\
  (exact (body2 (dual 30 30 S)) [b; ob_i] /\ compiles (dual 30 30 S b ob_i) = true) /\
  (exact (body2 (undual 30 30 S)) [b; ob_i] /\ compiles (undual 30 30 S b ob_i) = true) /\
  (exact (body2 (apply_even_versor 30 30 S)) [a; b] /\ compiles (apply_even_versor 30 30 S a b) = true) /\
  (exact (body2 (apply_odd_versor 30 30 S)) [a; b] /\ compiles (apply_odd_versor 30 30 S a b) = true) /\
  (exact (body2 (apply_rotor 30 30 S)) [a; b] /\ compiles (apply_rotor 30 30 S a b) = true) /\
  (exact (body2 (cp 30 30 S)) [a; b] /\ compiles (cp 30 30 S a b) = true) /\
  compiles (rnorm_sqr 30 30 S b) = true.
Proof. intros u v w S a b. do 9 (split; [split; [apply exact_check; lazy; reflexivity|lazy; reflexivity]|]). lazy. reflexivity. Qed.
(** Every vector u e1 + v e2 other than zero is a versor of the Euclidean space. *)
Example versor_case : forall u v, u * u + v * v <> 0 -> meq (mgp (signature 3 0) [(u, 1%N); (v, 2%N)] (mrev [(u, 1%N); (v, 2%N)])) [(u * u + v * v, 0%N)].
Proof. intros u v _ k. cbn. destruct k as [|[[p|p|]|[p|p|]|]]; cbn; ring. Qed.
(** The inverse of 2 e1 and its products with 2 e1 (a constant object: everything happens at compile time). *)
Definition ob_2 : cliff := {| cexpr := Comp SV (CBlade 1); cint := false; cvals := [2]; cbits := [] |}.
Example C25_case : exists i, inv 30 30 (Signed 3 0 0) ob_2 = Some (Done i) /\ exact (body2 (gp 30 30 3 0 0)) [ob_2; i] /\ exact (body2 (gp 30 30 3 0 0)) [i; ob_2] /\
  compiles (gp 30 30 3 0 0 ob_2 i) = true /\ compiles (gp 30 30 3 0 0 i ob_2) = true.
Proof.
  destruct (inv 30 30 (Signed 3 0 0) ob_2) as [o|] eqn:E; [|lazy in E; discriminate E].
  assert (D : exists x, o = Done {| cexpr := Comp SV (CBlade 1); cint := false; cvals := [x]; cbits := [] |}).
  { lazy in E. match type of E with context [Req_EM_T ?a ?b] => destruct (Req_EM_T a b) as [Z|_] end; [exfalso; lra|]. injection E as <-. eexists. reflexivity. }
  destruct D as (x & ->). eexists. split; [reflexivity|]. clear E. split; [apply exact_check; lazy; reflexivity|]. split; [apply exact_check; lazy; reflexivity|]. split; lazy; reflexivity.
Qed.
