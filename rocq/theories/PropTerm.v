(** C54: sums and products compile: not always (the simplification may not end), but always for
    multivectors that store their coefficients. *)
From Coq Require Import NArith ZArith List Bool Reals Lia Sorting.Sorted.
From Verif Require Import Bits SpecBits Expr Sem Wf SpecMv SpecAlg SpecOrder Simp Comp Ops SimpProofs OrderProofs LazyProofs2 SimpMono Mapping CanonProofs Lazy Api SpecApi ApiProofs2 PropApi ApiProofs TotalProofs4 TotalProofs5 TotalProofs6 TotalProofs7 TotalProofs8 TotalProofs9 TotalProofs12 TotalProofs13 SpecTotal.
Import ListNotations.

(** x, -x, 3/2 x and -3/2 x; -x + 3/2 x and -3/2 x + x as the library writes them. *)
Definition unknown : expr := GV 1 0.
Definition minus_x : expr := Fn NMul [CV (-1); unknown].
Definition halves (z : Z) : expr := Fn NMul [CV z; Fn NPow [CV 2; CV (-1)]; unknown].
Definition left_sum : expr := Fn NAdd [minus_x; halves 3].
Definition right_sum : expr := Fn NAdd [halves (-3); unknown].

Lemma known F o p q r : eng 40 o p q = Some r -> eng F o p q = None \/ eng F o p q = Some r.
Proof. intros E. destruct (eng F o p q) as [y|] eqn:E'; [right|left; reflexivity]. f_equal. exact (eng_fun F 40%nat o p q y r E' E). Qed.
Ltac resolve F := repeat (match goal with |- context [eng F ?o ?p ?q] =>
  let r := eval vm_compute in (eng 40%nat o p q) in
  match r with Some ?v => let H := fresh in assert (H : eng F o p q = None \/ eng F o p q = Some v) by (apply known; vm_compute; reflexivity); destruct H as [H|H]; rewrite H; clear H; [try reflexivity|] end end; cbv beta iota).
Definition negatives : expr := Fn NAdd [minus_x; halves (-3)].
Definition positives : expr := Fn NAdd [halves 3; unknown].
Lemma loop1 F : eng F OAdd negatives positives = None -> eng (S F) OAdd left_sum right_sum = None.
Proof.
  intros H. change (addition_step (eng F) left_sum right_sum = None). unfold addition_step. lazy -[eng]. resolve F.
  unfold negatives, positives, minus_x, halves, unknown in H. rewrite H. reflexivity.
Qed.
Lemma loop2 F : eng F OAdd left_sum right_sum = None -> eng (S F) OAdd negatives positives = None.
Proof.
  intros H. change (addition_step (eng F) negatives positives = None). unfold addition_step. lazy -[eng]. resolve F.
  unfold left_sum, right_sum, minus_x, halves, unknown in H. rewrite H. reflexivity.
Qed.
Lemma never F : eng F OAdd left_sum right_sum = None /\ eng F OAdd negatives positives = None.
Proof. induction F as [|F [H1 H2]]; [split; reflexivity|]. split; [apply loop1, H2|apply loop2, H1]. Qed.

(** The simplification of the sum of (-x + 3/2 x) e1 + e2 and (x - 3/2 x) e1 does not end at any recursion depth,
    although the library has built both (so a program that adds them does not compile); in the other order it
    gives e2. *)
Definition first_mv : expr := mv_of [(1%N, left_sum); (2%N, CV 1)].
Definition second_mv : expr := mv_of [(1%N, right_sum)].
Theorem C54_refuted : exists p q p' q' : expr,
  (cadd 40 40 p q = Some first_mv) /\ (cadd 40 40 p' q' = Some second_mv) /\
  (forall F k, cadd F k first_mv second_mv = None) /\ cadd 40 40 second_mv first_mv = Some (Comp (CV 1) (CBlade 2)).
Proof.
  exists (mv_of [(1%N, minus_x); (2%N, CV 1)]), (mv_of [(1%N, halves 3)]), (mv_of [(1%N, unknown)]), (mv_of [(1%N, halves (-3))]).
  split; [vm_compute; reflexivity|]. split; [vm_compute; reflexivity|]. split; [|vm_compute; reflexivity].
  intros F [|k]; [reflexivity|]. destruct (never F) as [H _]. unfold left_sum, right_sum, minus_x, halves, unknown in H.
  cbn [cadd]. lazy -[eng cadd]. rewrite H. reflexivity.
Qed.
Print Assumptions C54_refuted.
(** Constants suffice: -pow(c<-3>, c<-1>) does not compile either, at any depth (the product -1 * 1/(-3) is written as
    the product of 1 and 1/3, which a static_assert forbids). *)
Lemma negative_third F : eng F OMul (CV (-1)) (Fn NPow [CV (-3); CV (-1)]) = None.
Proof.
  destruct F as [|F]; [reflexivity|]. change (product_step (eng F) (CV (-1)) (Fn NPow [CV (-3); CV (-1)]) = None).
  lazy -[eng]. destruct (eng F OPow (CV 3) (CV (-1))); reflexivity.
Qed.
Theorem C54_negative_refuted : exists a, pow 40 40 (c_obj (-3)%Z) (c_obj (-1)%Z) = Some (Done a) /\ forall F k, neg F k a = None.
Proof.
  exists (lazy_obj (Comp (Fn NPow [CV (-3); CV (-1)]) (CBlade 0))). split; [vm_compute; reflexivity|]. intros F k.
  assert (E : cmul F k (gp_real_map F) (c_expr (-1)%Z) (Comp (Fn NPow [CV (-3); CV (-1)]) (CBlade 0)) = None).
  { destruct k as [|k]; [reflexivity|]. rewrite TotalProofs3.cmul_S. unfold cmul_step. change (csplit (c_expr (-1)%Z)) with (Some (CV (-1), CBlade 0, @None (list expr))). cbn [csplit]. change (is_zero_comp (c_expr (-1)%Z)) with false. cbn [is_zero_comp]. rewrite negative_third. reflexivity. }
  unfold neg, gp_scalar, call. rewrite (proj1 (free_args [c_obj (-1)%Z; lazy_obj (Comp (Fn NPow [CV (-3); CV (-1)]) (CBlade 0))] ltac:(repeat constructor))).
  change (map cexpr [c_obj (-1)%Z; lazy_obj (Comp (Fn NPow [CV (-3); CV (-1)]) (CBlade 0))]) with [c_expr (-1)%Z; Comp (Fn NPow [CV (-3); CV (-1)]) (CBlade 0)]. cbn [op2]. rewrite E. reflexivity.
Qed.
Print Assumptions C54_negative_refuted.

(** Products of two objects that store their coefficients compile, and the results store theirs: products and sums
    can be composed without end. *)
Theorem C54_gp : forall P Q R a b ma mb, (P + Q + R <= 63)%N -> stored (P + Q + R) a -> stored (P + Q + R) b -> value a ma -> value b mb ->
  compiles (P + Q + R) a b (fun F k => gp F k P Q R a b) (bilinear (gp_blade (signature P Q)) ma mb).
Proof.
  intros P Q R a b ma mb H A B Va Vb. refine (product_total _ (fun F => gp_map F P Q R) a b _ H (fun F => signed_const F P Q R _ _ H (gp_bv F)) (fun F => orth_total F _ _ _ _ H (gp_vt _) (factor_small P Q R)) A B _).
  intros F k o E. exact (C24_gp P Q R F k a b ma mb o H (stored_object _ a H A) (stored_object _ b H B) Va Vb E).
Qed.
Print Assumptions C54_gp.
Theorem C54_lcont : forall P Q R a b ma mb, (P + Q + R <= 63)%N -> stored (P + Q + R) a -> stored (P + Q + R) b -> value a ma -> value b mb ->
  compiles (P + Q + R) a b (fun F k => lcont F k P Q R a b) (bilinear (lcont_blade (signature P Q)) ma mb).
Proof.
  intros P Q R a b ma mb H A B Va Vb. refine (product_total _ (fun F => lcont_map F P Q R) a b _ H (fun F => signed_const F P Q R _ _ H (lcont_bv F)) (fun F => orth_total F _ _ _ _ H (lcont_vt _) (factor_small P Q R)) A B _).
  intros F k o E. exact (C24_lcont P Q R F k a b ma mb o H (stored_object _ a H A) (stored_object _ b H B) Va Vb E).
Qed.
Print Assumptions C54_lcont.
Theorem C54_rcont : forall P Q R a b ma mb, (P + Q + R <= 63)%N -> stored (P + Q + R) a -> stored (P + Q + R) b -> value a ma -> value b mb ->
  compiles (P + Q + R) a b (fun F k => rcont F k P Q R a b) (bilinear (rcont_blade (signature P Q)) ma mb).
Proof.
  intros P Q R a b ma mb H A B Va Vb. refine (product_total _ (fun F => rcont_map F P Q R) a b _ H (fun F => signed_const F P Q R _ _ H (rcont_bv F)) (fun F => orth_total F _ _ _ _ H (rcont_vt _) (factor_small P Q R)) A B _).
  intros F k o E. exact (C24_rcont P Q R F k a b ma mb o H (stored_object _ a H A) (stored_object _ b H B) Va Vb E).
Qed.
Print Assumptions C54_rcont.
Theorem C54_sp : forall P Q R a b ma mb, (P + Q + R <= 63)%N -> stored (P + Q + R) a -> stored (P + Q + R) b -> value a ma -> value b mb ->
  compiles (P + Q + R) a b (fun F k => sp F k P Q R a b) (bilinear (sp_blade (signature P Q)) ma mb).
Proof.
  intros P Q R a b ma mb H A B Va Vb. refine (product_total _ (fun F => sp_map F P Q R) a b _ H (fun F => signed_const F P Q R _ _ H (sp_bv F)) (fun F => orth_total F _ _ _ _ H (sp_vt _) (factor_small P Q R)) A B _).
  intros F k o E. exact (C24_sp P Q R F k a b ma mb o H (stored_object _ a H A) (stored_object _ b H B) Va Vb E).
Qed.
Print Assumptions C54_sp.
Theorem C54_dot : forall P Q R a b ma mb, (P + Q + R <= 63)%N -> stored (P + Q + R) a -> stored (P + Q + R) b -> value a ma -> value b mb ->
  compiles (P + Q + R) a b (fun F k => dot F k P Q R a b) (bilinear (dot_blade (signature P Q)) ma mb).
Proof.
  intros P Q R a b ma mb H A B Va Vb. refine (product_total _ (fun F => dot_map F P Q R) a b _ H (fun F => signed_const F P Q R _ _ H (dot_bv F)) (fun F => orth_total F _ _ _ _ H (dot_vt _) (factor_small P Q R)) A B _).
  intros F k o E. exact (C24_dot P Q R F k a b ma mb o H (stored_object _ a H A) (stored_object _ b H B) Va Vb E).
Qed.
Print Assumptions C54_dot.
Theorem C54_hip : forall P Q R a b ma mb, (P + Q + R <= 63)%N -> stored (P + Q + R) a -> stored (P + Q + R) b -> value a ma -> value b mb ->
  compiles (P + Q + R) a b (fun F k => hip F k P Q R a b) (bilinear (hip_blade (signature P Q)) ma mb).
Proof.
  intros P Q R a b ma mb H A B Va Vb. refine (product_total _ (fun F => hip_map F P Q R) a b _ H (fun F => signed_const F P Q R _ _ H (hip_bv F)) (fun F => orth_total F _ _ _ _ H (hip_vt _) (factor_small P Q R)) A B _).
  intros F k o E. exact (C24_hip P Q R F k a b ma mb o H (stored_object _ a H A) (stored_object _ b H B) Va Vb E).
Qed.
Print Assumptions C54_hip.
Theorem C54_outer : forall n a b ma mb, (n <= 63)%N -> stored n a -> stored n b -> value a ma -> value b mb ->
  compiles n a b (fun F k => outer F k n a b) (bilinear op_blade ma mb).
Proof.
  intros n a b ma mb H A B Va Vb. refine (product_total _ (fun F => op_map F n) a b _ H (fun F => op_const F n H) (fun F => op_total F n H) A B _).
  intros F k o E. exact (C24_outer n F k a b ma mb o H (stored_object _ a H A) (stored_object _ b H B) Va Vb E).
Qed.
Print Assumptions C54_outer.
Theorem C54_regressive : forall n a b ma mb, (n <= 63)%N -> stored n a -> stored n b -> value a ma -> value b mb ->
  compiles n a b (fun F k => regressive F k n a b) (bilinear (rp_blade n) ma mb).
Proof.
  intros n a b ma mb H A B Va Vb. refine (product_total _ (fun F => rp_map F n) a b _ H (fun F => rp_const F n H) (fun F => rp_total F n H) A B _).
  intros F k o E. exact (C24_regressive n F k a b ma mb o H (stored_object _ a H A) (stored_object _ b H B) Va Vb E).
Qed.
Print Assumptions C54_regressive.
Theorem C54_plus : forall n a b ma mb, (n <= 63)%N -> stored n a -> stored n b -> value a ma -> value b mb ->
  compiles n a b (fun F k => plus F k a b) (ma ++ mb).
Proof.
  intros n a b ma mb H A B Va Vb. refine (plus_total n a b _ H A B _).
  intros F k o E. exact (C24_plus n F k a b ma mb o H (stored_object _ a H A) (stored_object _ b H B) Va Vb E).
Qed.
Print Assumptions C54_plus.
Theorem C54_reverse : forall n a ma, (n <= 63)%N -> stored n a -> value a ma -> compiles n a a (fun F k => reverse F k a) (linear rev_blade ma).
Proof.
  intros n a ma H A Va. refine (gum_total n _ a _ H A _). intros F k o E. exact (C24_reverse n F k a ma o H (stored_object _ a H A) Va E).
Qed.
Print Assumptions C54_reverse.
Theorem C54_involute : forall n a ma, (n <= 63)%N -> stored n a -> value a ma -> compiles n a a (fun F k => involute F k a) (linear inv_blade ma).
Proof.
  intros n a ma H A Va. refine (gum_total n _ a _ H A _). intros F k o E. exact (C24_involute n F k a ma o H (stored_object _ a H A) Va E).
Qed.
Print Assumptions C54_involute.
Theorem C54_conjugate : forall n a ma, (n <= 63)%N -> stored n a -> value a ma -> compiles n a a (fun F k => conjugate F k a) (linear conj_blade ma).
Proof.
  intros n a ma H A Va. refine (gum_total n _ a _ H A _). intros F k o E. exact (C24_conjugate n F k a ma o H (stored_object _ a H A) Va E).
Qed.
Print Assumptions C54_conjugate.
Theorem C54_neg : forall n a ma, (n <= 63)%N -> stored n a -> value a ma -> compiles n a a (fun F k => neg F k a) (scale (-1) ma).
Proof.
  intros n a ma H A Va. refine (neg_total n a _ H A _). intros F k o E. exact (C24_neg n F k a ma o H (stored_object _ a H A) Va E).
Qed.
Print Assumptions C54_neg.
Theorem C54_minus : forall n a b ma mb, (n <= 63)%N -> stored n a -> stored n b -> value a ma -> value b mb ->
  compiles n a b (fun F k => minus F k a b) (ma ++ scale (-1) mb).
Proof.
  intros n a b ma mb H A B Va Vb. refine (minus_total n a b _ H A B _).
  intros F k o E. exact (C24_minus n F k a b ma mb o H (stored_object _ a H A) (stored_object _ b H B) Va Vb E).
Qed.
Print Assumptions C54_minus.
(** Multiplication by an object whose value is a scalar, which needs no metric. *)
Theorem C54_scale : forall n q c a b ma mb, (n <= 63)%N -> meq ma [(c, 0%N)] -> stored n a -> stored n b -> value a ma -> value b mb ->
  compiles n a b (fun F k => gp_scalar F k a b) (bilinear (gp_blade q) ma mb).
Proof.
  intros n q c a b ma mb H Sc A B Va Vb. refine (product_total n gp_real_map a b _ H (fun F => gp_real_const F n H) (fun F => real_total F n H) A B _).
  intros F k o E. exact (C24_gp_scalar n q c F k a b ma mb o H Sc (stored_object _ a H A) (stored_object _ b H B) Va Vb E).
Qed.
Print Assumptions C54_scale.
(** Products with a constant basis blade (a basis vector, a pseudoscalar), on the right and on the left. *)
Theorem C54_blade_right : forall P Q R p a k0 ma, (P + Q + R <= 63)%N -> stored (P + Q + R) a -> (k0 < 2 ^ (P + Q + R))%N -> value a ma ->
  compiles (P + Q + R) a a (fun F k => product_call F k P Q R p a (unit_blade k0)) (bilinear (product_blade P Q R p) ma [(1%R, k0)]).
Proof.
  intros P Q R p a k0 ma H A K Va. destruct (unit_object _ k0 H K) as [Ou Vu]. pose proof (stored_object _ a H A) as Oa. destruct p.
  - refine (proj1 (blade_product _ (fun F => gp_map F P Q R) a k0 _ H (fun F => signed_const F P Q R _ _ H (gp_bv F)) (fun F => orth_total F _ _ _ _ H (gp_vt _) (factor_small P Q R)) A K) _).
    intros F k o E. exact (C24_gp P Q R F k a (unit_blade k0) ma _ o H Oa Ou Va Vu E).
  - refine (proj1 (blade_product _ (fun F => lcont_map F P Q R) a k0 _ H (fun F => signed_const F P Q R _ _ H (lcont_bv F)) (fun F => orth_total F _ _ _ _ H (lcont_vt _) (factor_small P Q R)) A K) _).
    intros F k o E. exact (C24_lcont P Q R F k a (unit_blade k0) ma _ o H Oa Ou Va Vu E).
  - refine (proj1 (blade_product _ (fun F => rcont_map F P Q R) a k0 _ H (fun F => signed_const F P Q R _ _ H (rcont_bv F)) (fun F => orth_total F _ _ _ _ H (rcont_vt _) (factor_small P Q R)) A K) _).
    intros F k o E. exact (C24_rcont P Q R F k a (unit_blade k0) ma _ o H Oa Ou Va Vu E).
  - refine (proj1 (blade_product _ (fun F => sp_map F P Q R) a k0 _ H (fun F => signed_const F P Q R _ _ H (sp_bv F)) (fun F => orth_total F _ _ _ _ H (sp_vt _) (factor_small P Q R)) A K) _).
    intros F k o E. exact (C24_sp P Q R F k a (unit_blade k0) ma _ o H Oa Ou Va Vu E).
  - refine (proj1 (blade_product _ (fun F => dot_map F P Q R) a k0 _ H (fun F => signed_const F P Q R _ _ H (dot_bv F)) (fun F => orth_total F _ _ _ _ H (dot_vt _) (factor_small P Q R)) A K) _).
    intros F k o E. exact (C24_dot P Q R F k a (unit_blade k0) ma _ o H Oa Ou Va Vu E).
  - refine (proj1 (blade_product _ (fun F => hip_map F P Q R) a k0 _ H (fun F => signed_const F P Q R _ _ H (hip_bv F)) (fun F => orth_total F _ _ _ _ H (hip_vt _) (factor_small P Q R)) A K) _).
    intros F k o E. exact (C24_hip P Q R F k a (unit_blade k0) ma _ o H Oa Ou Va Vu E).
  - refine (proj1 (blade_product _ (fun F => op_map F (P + Q + R)) a k0 _ H (fun F => op_const F _ H) (fun F => op_total F _ H) A K) _).
    intros F k o E. exact (C24_outer _ F k a (unit_blade k0) ma _ o H Oa Ou Va Vu E).
  - refine (proj1 (blade_product _ (fun F => rp_map F (P + Q + R)) a k0 _ H (fun F => rp_const F _ H) (fun F => rp_total F _ H) A K) _).
    intros F k o E. exact (C24_regressive _ F k a (unit_blade k0) ma _ o H Oa Ou Va Vu E).
Qed.
Print Assumptions C54_blade_right.
Theorem C54_blade_left : forall P Q R p a k0 ma, (P + Q + R <= 63)%N -> stored (P + Q + R) a -> (k0 < 2 ^ (P + Q + R))%N -> value a ma ->
  compiles (P + Q + R) a a (fun F k => product_call F k P Q R p (unit_blade k0) a) (bilinear (product_blade P Q R p) [(1%R, k0)] ma).
Proof.
  intros P Q R p a k0 ma H A K Va. destruct (unit_object _ k0 H K) as [Ou Vu]. pose proof (stored_object _ a H A) as Oa. destruct p.
  - refine (proj2 (blade_product _ (fun F => gp_map F P Q R) a k0 _ H (fun F => signed_const F P Q R _ _ H (gp_bv F)) (fun F => orth_total F _ _ _ _ H (gp_vt _) (factor_small P Q R)) A K) _).
    intros F k o E. exact (C24_gp P Q R F k (unit_blade k0) a _ ma o H Ou Oa Vu Va E).
  - refine (proj2 (blade_product _ (fun F => lcont_map F P Q R) a k0 _ H (fun F => signed_const F P Q R _ _ H (lcont_bv F)) (fun F => orth_total F _ _ _ _ H (lcont_vt _) (factor_small P Q R)) A K) _).
    intros F k o E. exact (C24_lcont P Q R F k (unit_blade k0) a _ ma o H Ou Oa Vu Va E).
  - refine (proj2 (blade_product _ (fun F => rcont_map F P Q R) a k0 _ H (fun F => signed_const F P Q R _ _ H (rcont_bv F)) (fun F => orth_total F _ _ _ _ H (rcont_vt _) (factor_small P Q R)) A K) _).
    intros F k o E. exact (C24_rcont P Q R F k (unit_blade k0) a _ ma o H Ou Oa Vu Va E).
  - refine (proj2 (blade_product _ (fun F => sp_map F P Q R) a k0 _ H (fun F => signed_const F P Q R _ _ H (sp_bv F)) (fun F => orth_total F _ _ _ _ H (sp_vt _) (factor_small P Q R)) A K) _).
    intros F k o E. exact (C24_sp P Q R F k (unit_blade k0) a _ ma o H Ou Oa Vu Va E).
  - refine (proj2 (blade_product _ (fun F => dot_map F P Q R) a k0 _ H (fun F => signed_const F P Q R _ _ H (dot_bv F)) (fun F => orth_total F _ _ _ _ H (dot_vt _) (factor_small P Q R)) A K) _).
    intros F k o E. exact (C24_dot P Q R F k (unit_blade k0) a _ ma o H Ou Oa Vu Va E).
  - refine (proj2 (blade_product _ (fun F => hip_map F P Q R) a k0 _ H (fun F => signed_const F P Q R _ _ H (hip_bv F)) (fun F => orth_total F _ _ _ _ H (hip_vt _) (factor_small P Q R)) A K) _).
    intros F k o E. exact (C24_hip P Q R F k (unit_blade k0) a _ ma o H Ou Oa Vu Va E).
  - refine (proj2 (blade_product _ (fun F => op_map F (P + Q + R)) a k0 _ H (fun F => op_const F _ H) (fun F => op_total F _ H) A K) _).
    intros F k o E. exact (C24_outer _ F k (unit_blade k0) a _ ma o H Ou Oa Vu Va E).
  - refine (proj2 (blade_product _ (fun F => rp_map F (P + Q + R)) a k0 _ H (fun F => rp_const F _ H) (fun F => rp_total F _ H) A K) _).
    intros F k o E. exact (C24_regressive _ F k (unit_blade k0) a _ ma o H Ou Oa Vu Va E).
Qed.
Print Assumptions C54_blade_left.

(** Hence every formula compiles, at a recursion depth that depends only on the dimension, and gives the multivector
    it denotes. *)
Theorem C54_formula : forall P Q R f, (P + Q + R <= 63)%N -> objects_ok (P + Q + R) f ->
  forall F k, (depth (P + Q + R) <= F)%nat -> (depth (P + Q + R) <= k)%nat ->
  exists r, compute F k P Q R f = Some (Done r) /\ stored (P + Q + R) r /\ floating r /\ value r (denoted P Q R f).
Proof.
  intros P Q R f H O F k HF Hk.
  assert (Out : forall a b g m, compiles (P + Q + R) a b g m -> floating a -> floating b -> exists r, g F k = Some (Done r) /\ stored (P + Q + R) r /\ floating r /\ value r m).
  { intros a b g m C Fa Fb. destruct (C F k HF Hk) as [(r & E & S & V & Fl)|[_ N]]; [exists r; auto|tauto]. }
  induction f as [a m|x IHx y IHy|x IHx y IHy|x IHx|p x IHx y IHy|p x IHx k0|p k0 x IHx|u x IHx]; cbn [objects_ok compute denoted] in *.
  - destruct O as (A & B & C). exists a. auto.
  - destruct (IHx (proj1 O)) as (a & -> & Sa & Fa & Va). destruct (IHy (proj2 O)) as (b & -> & Sb & Fb & Vb). cbn [andthen]. exact (Out a b _ _ (C54_plus _ a b _ _ H Sa Sb Va Vb) Fa Fb).
  - destruct (IHx (proj1 O)) as (a & -> & Sa & Fa & Va). destruct (IHy (proj2 O)) as (b & -> & Sb & Fb & Vb). cbn [andthen]. exact (Out a b _ _ (C54_minus _ a b _ _ H Sa Sb Va Vb) Fa Fb).
  - destruct (IHx O) as (a & -> & Sa & Fa & Va). cbn [andthen]. exact (Out a a _ _ (C54_neg _ a _ H Sa Va) Fa Fa).
  - destruct (IHx (proj1 O)) as (a & -> & Sa & Fa & Va). destruct (IHy (proj2 O)) as (b & -> & Sb & Fb & Vb). cbn [andthen].
    destruct p; cbn [product_call product_blade].
    + exact (Out a b _ _ (C54_gp P Q R a b _ _ H Sa Sb Va Vb) Fa Fb).
    + exact (Out a b _ _ (C54_lcont P Q R a b _ _ H Sa Sb Va Vb) Fa Fb).
    + exact (Out a b _ _ (C54_rcont P Q R a b _ _ H Sa Sb Va Vb) Fa Fb).
    + exact (Out a b _ _ (C54_sp P Q R a b _ _ H Sa Sb Va Vb) Fa Fb).
    + exact (Out a b _ _ (C54_dot P Q R a b _ _ H Sa Sb Va Vb) Fa Fb).
    + exact (Out a b _ _ (C54_hip P Q R a b _ _ H Sa Sb Va Vb) Fa Fb).
    + exact (Out a b _ _ (C54_outer _ a b _ _ H Sa Sb Va Vb) Fa Fb).
    + exact (Out a b _ _ (C54_regressive _ a b _ _ H Sa Sb Va Vb) Fa Fb).
  - destruct O as [O K]. destruct (IHx O) as (a & -> & Sa & Fa & Va). cbn [andthen]. exact (Out a a _ _ (C54_blade_right P Q R p a k0 _ H Sa K Va) Fa Fa).
  - destruct O as [O K]. destruct (IHx O) as (a & -> & Sa & Fa & Va). cbn [andthen]. exact (Out a a _ _ (C54_blade_left P Q R p a k0 _ H Sa K Va) Fa Fa).
  - destruct (IHx O) as (a & -> & Sa & Fa & Va). cbn [andthen]. destruct u; cbn [unary_call unary_blade].
    + exact (Out a a _ _ (C54_reverse _ a _ H Sa Va) Fa Fa).
    + exact (Out a a _ _ (C54_involute _ a _ H Sa Va) Fa Fa).
    + exact (Out a a _ _ (C54_conjugate _ a _ H Sa Va) Fa Fa).
Qed.
Print Assumptions C54_formula.

(** C13: for multivectors that store their coefficients, A + B and B + A are the same object: the same type, with the
    same blades in the same order, and the same coefficients (or both overflow). *)
Theorem C13_plus : forall n a b F k, (n <= 63)%N -> stored n a -> stored n b -> (depth n <= F)%nat -> (depth n <= k)%nat ->
  plus F k a b <> None /\ plus F k a b = plus F k b a.
Proof. intros n a b F k H A B. exact (plus_comm n a b H A B F k). Qed.
Print Assumptions C13_plus.

(** An object that meets the hypotheses, and a formula: with x = u e1 + v e2, the reverse of (x x - x) ^ (- x);
    (e3 x) _| (e1 e2 e3). *)
Example C54_object : forall u v, stored 3 (ob_a u v) /\ floating (ob_a u v) /\ value (ob_a u v) [(u, 1%N); (v, 2%N)].
Proof.
  intros u v. split; [|split; [left; reflexivity|apply ob_a_ok]]. exists [1%N; 2%N]. split; [reflexivity|]. split.
  - destruct (canonical_check [(1%N, SV); (2%N, SV)] eq_refl) as [S _]. exact S.
  - split; [repeat constructor|]. split; [reflexivity|]. split; [reflexivity|]. discriminate.
Qed.
Example C54_case : forall u v, let x := Object (ob_a u v) [(u, 1%N); (v, 2%N)] in
  objects_ok (3 + 0 + 0) (Unary Reversion (Product Outer (Difference (Product Geometric x x) x) (Opposite x))) /\
  objects_ok (3 + 0 + 0) (ByBlade LeftContraction (BladeBy Geometric 4 x) 7).
Proof. intros u v x. pose proof (C54_object u v) as O. split; [cbn; tauto|]. split; [|reflexivity]. split; [exact O|reflexivity]. Qed.
