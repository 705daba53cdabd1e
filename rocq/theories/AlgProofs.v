(** Values of sums, products and sign changes of multivector expressions. *)
From Coq Require Import NArith ZArith List Bool Reals Lra Lia Setoid Morphisms.
From Verif Require Import Bits SpecBits Expr Sem Wf SpecMv SpecAlg MvBase Simp SimpProofs Comp CompProofs CompProofs2 Mapping ProductProofs GumProofs Clifford Ops.
Import ListNotations.
Local Open Scope R_scope.

Lemma dcomp_fun g e p p' : dcomp g e p -> dcomp g e p' -> p = p'.
Proof.
  destruct e; try (intros []; fail). intros (A1 & A2 & _) (B1 & B2 & _). destruct p as [v i], p' as [w j]. cbn [fst snd] in *.
  rewrite (num_fun _ _ _ _ A1 B1), (dblade_fun _ _ _ _ A2 B2). reflexivity.
Qed.
Lemma Forall2_fun {A B} (P : A -> B -> Prop) l : (forall x y z, P x y -> P x z -> y = z) -> forall m m', Forall2 P l m -> Forall2 P l m' -> m = m'.
Proof. intros H. induction l; intros m m' U V; inversion U; inversion V; subst; [reflexivity|]. f_equal; eauto. Qed.
Lemma den_fun g e m m' : den g e m -> den g e m' -> m = m'.
Proof.
  assert (D : (exists p, dcomp g e p /\ m = [p]) -> (exists p, dcomp g e p /\ m' = [p]) -> m = m').
  { intros (p & P1 & ->) (p' & P2 & ->). rewrite (dcomp_fun _ _ _ _ P1 P2). reflexivity. }
  destruct e as [| | | | | | | | | |f l]; try exact D. destruct f; try exact D. apply Forall2_fun. apply dcomp_fun.
Qed.
Lemma den_value g e m : den g e m -> has_value g e m. Proof. exists m. split; [auto|]. intros k. reflexivity. Qed.
Lemma value_fun g e m m' : has_value g e m -> has_value g e m' -> meq m m'.
Proof. intros (x & X1 & X2) (y & Y1 & Y2). rewrite (den_fun _ _ _ _ X1 Y1) in X2. intros k. rewrite <- X2, <- Y2. reflexivity. Qed.
Lemma value_meq g e m m' : has_value g e m -> meq m m' -> has_value g e m'.
Proof. intros (x & X1 & X2) H. exists x. split; [auto|]. intros k. rewrite X2. apply H. Qed.
Lemma same_intro g a b ma mb : has_value g a ma -> has_value g b mb -> meq ma mb -> same g a b.
Proof. intros A B H. exists mb. split; [eapply value_meq; eauto|auto]. Qed.
Lemma same_meq g a b ma mb : same g a b -> has_value g a ma -> has_value g b mb -> meq ma mb.
Proof. intros (m & A & B) HA HB. intros k. rewrite (value_fun _ _ _ _ HA A k). apply (value_fun _ _ _ _ B HB k). Qed.
Lemma in_dim_value n g e : in_dim n g e -> exists m, has_value g e m /\ in_space n m.
Proof. intros (m & A & B). exists m. split; [apply den_value; auto|auto]. Qed.
Lemma in_dim_mono n n' g e : (n <= n')%N -> in_dim n g e -> in_dim n' g e.
Proof.
  intros H (m & A & B). exists m. split; [auto|]. eapply Forall_impl; [|exact B]. intros p Hp. apply (N.lt_le_trans _ _ _ Hp). apply N.pow_le_mono_r; [discriminate|exact H].
Qed.

Lemma add_value F k a b r : mv_ok a = true -> mv_ok b = true -> cadd F k a b = Some r ->
  mv_ok r = true /\ (forall g ma mb, has_value g a ma -> has_value g b mb -> has_value g r (ma ++ mb)) /\
  (forall g n, in_dim n g a -> in_dim n g b -> in_dim n g r).
Proof.
  intros Wa Wb E. destruct (cadd_ok F k a b r Wa Wb E) as [W V]. split; [exact W|]. split.
  - intros g ma mb (a' & A1 & A2) (b' & B1 & B2). destruct (V g a' b' A1 B1) as (m & M1 & M2 & _). exists m. split; [auto|]. rewrite M2, A2, B2. reflexivity.
  - intros g n (a' & A1 & A2) (b' & B1 & B2). destruct (V g a' b' A1 B1) as (m & M1 & _ & M3). exists m. auto.
Qed.
Lemma mul_value mult f n F k a b r : mult_ok mult f n -> mv_ok a = true -> mv_ok b = true -> cmul F k mult a b = Some r ->
  mv_ok r = true /\ forall g, in_dim n g a -> in_dim n g b -> in_dim n g r /\
    forall ma mb, has_value g a ma -> has_value g b mb -> has_value g r (bilinear f ma mb).
Proof.
  intros M Wa Wb E. destruct (cmul_ok F mult f n M k a b r Wa Wb E) as [W V]. split; [exact W|].
  intros g (a' & A1 & A2) (b' & B1 & B2). destruct (V g a' b' A1 B1 A2 B2) as (m & M1 & M2 & M3). split; [exists m; auto|].
  intros ma mb HA HB. exists m. split; [auto|]. rewrite M2. rewrite (value_fun _ _ _ _ (den_value _ _ _ A1) HA), (value_fun _ _ _ _ (den_value _ _ _ B1) HB). reflexivity.
Qed.
Lemma unary_value f l a r : unary_ok f l -> mv_ok a = true -> f a = Some r ->
  mv_ok r = true /\ forall g n, (n <= 63)%N -> in_dim n g a -> in_dim n g r /\ forall ma, has_value g a ma -> has_value g r (linear l ma).
Proof.
  intros U Wa E. destruct (U a r Wa E) as [W V]. split; [exact W|]. intros g n Hn (a' & A1 & A2). destruct (V g a' n A1 Hn A2) as (m & M1 & M2 & M3).
  split; [exists m; auto|]. intros ma HA. exists m. split; [auto|]. pose proof (value_fun _ _ _ _ (den_value _ _ _ A1) HA) as Q. rewrite M2. apply linear_meq; [reflexivity|exact Q].
Qed.
Lemma c_value g z : has_value g (c_expr z) [(IZR z, 0%N)].
Proof. exists [(IZR z, 0%N)]. split; [|reflexivity]. exists (IZR z, 0%N). split; [|reflexivity]. split; [apply num_cv|]. split; [reflexivity|]. intros _. exact I. Qed.
Lemma c_dim n g z : in_dim n g (c_expr z).
Proof. exists [(IZR z, 0%N)]. split; [|constructor; [|constructor]; apply N.neq_0_lt_0, N.pow_nonzero; discriminate]. exists (IZR z, 0%N). split; [|reflexivity]. split; [apply num_cv|]. split; [reflexivity|]. intros _. exact I. Qed.
Lemma c_ok z : mv_ok (c_expr z) = true. Proof. reflexivity. Qed.
Lemma coef_app a b k : coef (a ++ b) k = coef a k + coef b k.
Proof. induction a as [|[c i] a IH]; cbn [app coef]; [lra|]. rewrite IH. lra. Qed.
Lemma coef_scale c a k : coef (scale c a) k = c * coef a k.
Proof. induction a as [|[v i] a IH]; [cbn; lra|]. unfold scale in *. cbn [map coef fst snd]. rewrite IH. destruct (N.eqb i k); lra. Qed.
(** Multiplying by a scalar on the left. *)
Lemma scalar_gp q c a : meq (bilinear (gp_blade q) [(c, 0%N)] a) (scale c a).
Proof.
  assert (E : meq [(c, 0%N)] (scale c one)) by (intros k; cbn; destruct k; cbn; lra). rewrite E, bilinear_scale_l. apply meq_sumf. intros h. rewrite sumf_scale.
  pose proof (gp_one_l q a) as G. rewrite meq_iff in G. rewrite G, sumf_scale. reflexivity.
Qed.
Lemma neg_value F k a r : mv_ok a = true -> neg_t F k a = Some r ->
  mv_ok r = true /\ forall g, in_dim 63 g a -> in_dim 63 g r /\ forall ma, has_value g a ma -> has_value g r (scale (-1) ma).
Proof.
  intros Wa E. destruct (mul_value _ _ _ F k _ _ _ (gp_real_map_ok F) (c_ok (-1)) Wa E) as [W V]. split; [exact W|].
  intros g D. destruct (V g (c_dim _ _ _) D) as [D' V']. split; [exact D'|]. intros ma Ha. eapply value_meq; [apply (V' _ _ (c_value _ _) Ha)|]. apply scalar_gp.
Qed.
Lemma sub_value F k a b r : mv_ok a = true -> mv_ok b = true -> sub_t F k a b = Some r ->
  mv_ok r = true /\ forall g, in_dim 63 g b -> forall ma mb, has_value g a ma -> has_value g b mb -> has_value g r (ma ++ scale (-1) mb).
Proof.
  intros Wa Wb. unfold sub_t. destruct (neg_t F k b) as [m|] eqn:N; [|discriminate]. intros E. destruct (neg_value _ _ _ _ Wb N) as [Wm Vm].
  destruct (add_value _ _ _ _ _ Wa Wm E) as (W & V & _). split; [exact W|]. intros g D ma mb Ha Hb. apply V; [auto|]. apply (Vm g D). auto.
Qed.
