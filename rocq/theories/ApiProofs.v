(** Public functions on multivector objects: a function that evaluates a sound type-level operation
    returns an object with the right value. *)
From Coq Require Import NArith ZArith List Bool Lia Reals Lra.
From Verif Require Import Bits SpecBits Expr ExprBase Sem Wf SpecMv SpecAlg MvBase Simp SimpProofs PresProofs Comp CompProofs EvalC SpecEval SpecOrder OrderProofs CompProofs2 Mapping Ops GradeProofs BitsBase ProductProofs GumProofs AlgProofs Lazy SpecLazy TagProofs LazyProofs LazyProofs2 CanonProofs PolyProofs Api SpecApi.
Import ListNotations.

Lemma sem_ext g g' e : (forall t k, ev g t k = ev g' t k) -> (forall t k, eb g t k = eb g' t k) -> sem g e = sem g' e.
Proof.
  intros E1 E2. induction e as [z|t i| |z|t i| |z|z|pg x IH|c x IHc IHx|f l IH] using expr_ind'; cbn [sem]; try reflexivity; [rewrite E1; reflexivity|rewrite E2; reflexivity|].
  f_equal. apply map_ext_in. rewrite Forall_forall in IH. exact IH.
Qed.
Lemma den_ext g g' e m : (forall t k, ev g t k = ev g' t k) -> (forall t k, eb g t k = eb g' t k) -> den g e m -> den g' e m.
Proof.
  intros E1 E2. assert (D : forall e p, dcomp g e p -> dcomp g' e p).
  { intros e0 p. destruct e0 as [| | | | | | | | |c b|]; try (intros []; fail). cbn [dcomp]. unfold num. rewrite (sem_ext g g' c E1 E2). intros (A & B & C). split; [exact A|]. split; [|exact C].
    destruct b; cbn [dblade] in *; auto. rewrite <- (sem_ext g g' _ E1 E2). exact B. }
  assert (D1 : (exists p, dcomp g e p /\ m = [p]) -> exists p, dcomp g' e p /\ m = [p]) by (intros (p & P & ->); eauto).
  destruct e as [| | | | | | | | | |f l]; try exact D1. destruct f; try exact D1. cbn [den]. intros H. induction H; constructor; auto.
Qed.
(** Constants do not depend on the environment. *)
Lemma const_sem g1 g2 e : const e = true -> sem g1 e = sem g2 e.
Proof.
  unfold const. induction e as [z|t i| |z|t i| |z|z|pg x IH|c x IHc IHx|f l IH] using expr_ind'; intros H; try discriminate; [reflexivity|exfalso; exact (no_tag t H)|].
  cbn [sem]. f_equal. apply map_ext_in. rewrite Forall_forall in IH. intros a Ha. apply IH; [exact Ha|].
  assert (Q : forallb (numeric 1 0) l = true).
  { destruct f; cbn [numeric] in *; try (destruct l as [|x [|]]; try discriminate H; cbn [fun1 andb] in *; try discriminate H; cbn [forallb]; rewrite !andb_true_r; exact H); try exact H.
    destruct l as [|x [|y [|]]]; try discriminate H. cbn [forallb]. rewrite !andb_true_r. exact H. }
  rewrite forallb_forall in Q. apply Q. exact Ha.
Qed.

(** ** Types without storage *)
Lemma comps_mv p M : comps_of (mv_of (p :: M)) = map entry (p :: M). Proof. destruct M; reflexivity. Qed.
Lemma components_mv p M : components (mv_of (p :: M)) = map entry (p :: M). Proof. destruct M; reflexivity. Qed.
Lemma has_stored_mv M : has_stored (mv_of M) = existsb (fun p => has_stored (snd p)) M.
Proof.
  assert (H : forall M, existsb has_stored (map entry M) = existsb (fun p => has_stored (snd p)) M).
  { induction M0 as [|[k c] M0 IH]; [reflexivity|]. cbn [map existsb]. rewrite IH. f_equal. cbn. apply orb_false_r. }
  destruct M as [|p [|q M]]; [reflexivity| |apply (H (p :: q :: M))]. cbn. destruct p. cbn. rewrite !orb_false_r. reflexivity.
Qed.
Lemma good_const_value M : Forall (fun p => const (snd p) = true) M -> forall g m, has_value g (mv_of M) m ->
  forall int, value {| cexpr := mv_of M; cint := int; cvals := []; cbits := [] |} m.
Proof.
  intros HM g m (m0 & D & Q) int g'. exists m0. split; [|exact Q]. cbn [cexpr cvals cbits]. destruct M as [|p M].
  - destruct D as (p & D & ->). exists ([], []). split; [|reflexivity]. destruct p as [v k]. destruct D as (D1 & D2 & _). unfold num in D1. cbn in D1. injection D1 as <-. cbn in D2. subst k.
    exists ([], []). split; [reflexivity|]. split; [split; reflexivity|]. intros _. exact I.
  - rewrite components_mv. apply den_iff in D. rewrite comps_mv in D. clear Q. revert m0 D. generalize (p :: M) HM. clear p M HM. induction l as [|[k c] l IH]; intros HM m0 D; inversion D as [|? [v j] ? m1 D1 D2]; subst; [reflexivity|].
    inversion HM as [|? ? Hc HM']; subst. cbn [snd] in Hc. exists ([], []). split; [|apply IH; auto]. destruct D1 as (D1 & D3 & _). exists ([], []). cbn [fst snd dblade] in *. subst j.
    destruct (const_shape _ Hc) as (_ & _ & _ & _ & NS & _). rewrite (sread_const g' c NS _ (const_no_blade _ Hc)), (const_sem g' g c Hc). split; [unfold num in D1; rewrite D1; reflexivity|]. split; [split; reflexivity|]. intros _. exact I.
Qed.

(** ** Arguments of a context *)
Lemma tags_map tag : forall M v b l', tags tag (map entry M) v b = Some l' -> Forall (fun p => snd p = SV \/ const (snd p) = true) M -> Forall (fun p => snd p <> CV 0) M ->
  exists M', l' = map entry M' /\ Forall2 (fun p q => fst q = fst p /\ (snd p = SV /\ (exists j, snd q = GV tag j) \/ const (snd p) = true /\ snd q = snd p)) M M'.
Proof.
  assert (TC : forall e v b, const e = true -> tag_vars tag e v b = Some e).
  { unfold const. induction e as [z|t i| |z|t i| |z|z|pg x IH|c x IHc IHx|f l IH] using expr_ind'; intros v b H; try discriminate H; [reflexivity|reflexivity|].
    assert (Q : forallb (numeric 1 0) l = true).
    { destruct f; cbn [numeric] in *; try (destruct l as [|x [|]]; try discriminate H; cbn [fun1 andb] in *; try discriminate H; cbn [forallb]; rewrite !andb_true_r; exact H); try exact H.
      destruct l as [|x [|y [|]]]; try discriminate H. cbn [forallb]. rewrite !andb_true_r. exact H. }
    cbn [tag_vars]. assert (T : tags tag l v b = Some l); [|unfold tags in T; rewrite T; reflexivity]. clear H. revert v b. induction IH as [|x l Hx _ IHl]; intros v b; [reflexivity|].
    cbn [forallb] in Q. apply andb_prop in Q as [Q1 Q2]. cbn [tags]. rewrite (Hx v b Q1). fold (tags tag). rewrite (IHl Q2). reflexivity. }
  induction M as [|[k c] M IH]; intros v b l' E HS HZ; [injection E as <-; exists []; split; [reflexivity|constructor]|].
  inversion HS as [|? ? Hc HS']; subst. inversion HZ as [|? ? Hz HZ']; subst. cbn [fst snd] in *. cbn [map tags] in E. fold (tags tag) in E.
  destruct (tag_vars tag (entry (k, c)) v b) as [y|] eqn:Ey; [|discriminate]. destruct (tags tag (map entry M) (v + count_vals (entry (k, c))) (b + count_bits (entry (k, c)))) as [ys|] eqn:Es; [|discriminate]. injection E as <-.
  destruct (IH _ _ _ Es HS' HZ') as (M' & -> & F2). change (entry (k, c)) with (Comp c (CBlade k)) in Ey. cbn [tag_vars] in Ey. destruct Hc as [->|Hc].
  - cbn [tag_vars component_t] in Ey. injection Ey as <-. exists ((k, GV tag (N.of_nat v)) :: M'). split; [reflexivity|]. constructor; [|exact F2]. cbn [fst snd]. split; [reflexivity|]. left. eauto.
  - rewrite (TC c v b Hc) in Ey. assert (D : component_t c (CBlade k) = Comp c (CBlade k)) by (destruct c as [[]| | | | | | | | | |]; try reflexivity; congruence). rewrite D in Ey. injection Ey as <-.
    exists ((k, c) :: M'). split; [reflexivity|]. constructor; [|exact F2]. cbn [fst snd]. auto.
Qed.
Lemma tag_mv tag M e : tag_vars tag (mv_of M) 0 0 = Some e -> canonical M -> Forall (fun p => snd p = SV \/ const (snd p) = true) M ->
  exists M', e = mv_of M' /\ canonical M' /\ Forall2 (fun p q => fst q = fst p /\ (snd p = SV /\ (exists j, snd q = GV tag j) \/ const (snd p) = true /\ snd q = snd p)) M M'.
Proof.
  intros E [C1 C2] HS. assert (HZ : Forall (fun p => snd p <> CV 0) M) by (eapply Forall_impl; [|exact C2]; intros p [H _]; exact H).
  assert (CC : forall M', Forall2 (fun p q => fst q = fst p /\ (snd p = SV /\ (exists j, snd q = GV tag j) \/ const (snd p) = true /\ snd q = snd p)) M M' -> canonical M').
  { intros M' F2. split; [replace (map fst M') with (map fst M); [exact C1|]|].
    - clear -F2. induction F2 as [|p q M M' [H _] F2 IH]; [reflexivity|]. cbn [map]. congruence.
    - clear -F2 C2. induction F2 as [|p q M M' [H1 H2] F2 IH]; [constructor|]. inversion C2 as [|? ? [Z L] C2']; subst. constructor; [|auto]. rewrite H1. split; [|exact L]. destruct H2 as [[_ [j ->]]|[_ ->]]; [discriminate|exact Z]. }
  destruct M as [|p [|q M]].
  - injection E as <-. exists []. split; [reflexivity|]. split; [split; constructor|constructor].
  - change (mv_of [p]) with (entry p) in E. assert (E' : tags tag (map entry [p]) 0 0 = Some [e]) by (cbn [map tags]; rewrite E; reflexivity).
    destruct (tags_map tag [p] 0 0 [e] E' HS HZ) as (M' & Q & F2). inversion F2 as [|? q0 ? M1 H1 H2]; subst. inversion H2; subst. injection Q as ->. exists [q0]. split; [reflexivity|]. split; [apply CC; exact F2|exact F2].
  - cbn [mv_of] in E. apply tag_fn in E as (l' & -> & E). destruct (tags_map tag (p :: q :: M) 0 0 l' E HS HZ) as (M' & -> & F2). exists M'. split; [|split; [apply CC; exact F2|exact F2]].
    inversion F2 as [|? ? ? ? ? F3]; subst. inversion F3; subst. reflexivity.
Qed.

(** Result types of an evaluation. *)
Section Result.
Variables (X K : expr -> bool) (F k : nat).
Hypothesis HX : exps X.
Hypothesis Kcv : forall z, K (CV z) = true.
Hypothesis Kadd : forall a b r, eng F OAdd a b = Some r -> K a = true -> K b = true -> K r = true.
Hypothesis Kmul : forall a b r, eng F OMul a b = Some r -> K a = true -> K b = true -> K r = true.
Hypothesis Kpow : forall a b r, eng F OPow a b = Some r -> K a = true -> X b = true -> K r = true.
Hypothesis Kpoly : forall a, K a = true -> ipoly X 1 0 a = true.
Lemma Kconst a : K a = true -> const a = true.
Proof. intros H. apply (ipoly_numeric X HX). apply Kpoly, H. Qed.

Lemma result_coefs lo hi A M cs : ev_list F k lo hi A M cs -> Forall (fun p => (ipoly X lo hi (snd p) = true \/ query lo hi (snd p) = true /\ has_getter (snd p) = true) /\ wf (snd p) = true) A ->
  forall (Q : N -> Prop), Forall (fun p => Q (fst p)) A -> Forall (fun p => Q (fst p) /\ (snd p = SV \/ K (snd p) = true /\ wf (snd p) = true)) M.
Proof.
  induction 1 as [|i c A M cs W Nu G H IH|i c t A M cs E C [Wt Kp] Z H IH|i c A M cs E Kp H IH]; intros HA Q HQ; [constructor| | |]; inversion HA as [|? ? [P1 W1] HA']; subst; inversion HQ as [|? ? Q1 HQ']; subst; cbn [fst snd] in *.
  - constructor; [cbn [fst snd]; auto|auto].
  - constructor; [|auto]. cbn [fst snd]. split; [exact Q1|]. right. split; [|exact Wt].
    assert (P2 : has_getter c = true -> query lo hi c = true -> False) by (intros G Qc; pose proof (ev_query F k lo hi c Qc W1 _ _ E) as R; unfold ev_ok in R; rewrite G in R; destruct R as [_ R]; discriminate R).
    destruct P1 as [P1|[Q2 G]]; [|destruct (P2 G Q2)]. refine (ev_closed X HX F k lo hi K Kcv Kadd Kmul Kpow Kconst c _ W1 t [] E).
    apply (ipoly_closed X lo hi c P1). destruct (has_getter c) eqn:G; [|reflexivity]. destruct (P2 eq_refl (query_numeric _ _ _ (ipoly_numeric X HX _ _ _ P1))).
  - auto.
Qed.

(** A type-level operation respects the classes of coefficients, and computes [res] from arguments of values [ms]. *)
Definition closed_class (P : expr -> bool) : Prop := (forall z, P (CV z) = true) /\
  (forall a b r, eng F OAdd a b = Some r -> P a = true -> P b = true -> P r = true) /\
  (forall a b r, eng F OMul a b = Some r -> P a = true -> P b = true -> P r = true) /\
  (forall a b r, eng F OPow a b = Some r -> P a = true -> X b = true -> P r = true) /\
  (forall c, P c = true -> has_stored c = false /\ count_vals c = 0%nat /\ count_bits c = 0%nat).
Definition typed_value (P : expr -> bool) (dim : N) (g : env) (e : expr) (m : mv) : Prop :=
  good P dim e /\ mv_ok e = true /\ has_value g e m.
Definition sound_op (op : list expr -> option expr) (dim : N) (ms : list mv) (res : mv) : Prop :=
  forall P g args e, closed_class P -> Forall2 (typed_value P dim g) args ms -> op args = Some e -> typed_value P dim g e res.

Lemma poly_shape lo hi e : ipoly X lo hi e = true -> has_stored e = false /\ count_vals e = 0%nat /\ count_bits e = 0%nat.
Proof.
  intros H. apply (ipoly_numeric X HX) in H. revert H.
  induction e as [z|t i| |z|t i| |z|z|pg x IH|c x IHc IHx|f l IH] using expr_ind'; intros H; try discriminate H; [auto|auto|].
  assert (Q : forallb (numeric lo hi) l = true).
  { destruct f; cbn [numeric] in *; try (destruct l as [|x [|]]; try discriminate H; cbn [fun1 andb] in *; try discriminate H; cbn [forallb]; rewrite !andb_true_r; exact H); try exact H.
    destruct l as [|x [|y [|]]]; try discriminate H. cbn [forallb]. rewrite !andb_true_r. exact H. }
  cbn [has_stored count_vals count_bits]. clear H. induction IH as [|x l Hx _ IHl]; [auto|]. cbn [forallb] in Q. apply andb_prop in Q as [Q1 Q2]. destruct (Hx Q1) as (A1 & A2 & A3), (IHl Q2) as (B1 & B2 & B3).
  cbn [existsb fold_right]. rewrite A1, A2, A3, B1, B2, B3. auto.
Qed.
Lemma ipoly_class lo hi : closed_class (ipoly X lo hi).
Proof.
  split; [reflexivity|]. split; [|split; [|split]]; [intros a b r E A B..|apply poly_shape].
  - exact (ipoly_eng X HX lo hi F OAdd a b r E A B).
  - exact (ipoly_eng X HX lo hi F OMul a b r E A B).
  - exact (ipoly_eng X HX lo hi F OPow a b r E A B).
Qed.
Lemma K_class : closed_class K. Proof. split; [exact Kcv|]. split; [exact Kadd|]. split; [exact Kmul|]. split; [exact Kpow|]. intros c Hc. apply (poly_shape 1 0), Kpoly, Hc. Qed.

Lemma object_shape n a : object K n a -> object_ok (cexpr a) = true.
Proof.
  intros (M & -> & [C1 C2] & _ & H). assert (Q : forallb comp_ok (map entry M) = true /\ forallb comp_flat (map entry M) = true).
  { clear C1. induction M as [|[i c] M IH]; [split; reflexivity|]. inversion H as [|? ? [_ Hc] H']; subst. inversion C2 as [|? ? [_ L] C2']; subst. destruct (IH C2' H') as [I1 I2]. cbn [map forallb]. rewrite I1, I2, !andb_true_r. cbn [fst snd] in *.
    assert (B : N.ltb i (2 ^ 64) = true) by (apply N.ltb_lt; apply (N.lt_trans _ _ _ L); reflexivity). unfold entry. cbn [comp_ok comp_flat fst snd]. rewrite B.
    destruct Hc as [->|[Kc Wc]]; [split; reflexivity|]. rewrite Wc, (const_no_blade _ (Kconst _ Kc)). split; reflexivity. }
  destruct Q as [Q1 Q2]. unfold object_ok. destruct M as [|p [|q M]]; [reflexivity| |].
  - cbn [map forallb] in Q1, Q2. rewrite andb_true_r in Q1, Q2. change (mv_of [p]) with (entry p). assert (E : components (entry p) = [entry p]) by (destruct p; reflexivity). rewrite E. cbn [forallb]. rewrite Q2, andb_true_r.
    destruct p. exact Q1.
  - cbn [mv_of mv_ok components]. rewrite Q1, Q2. reflexivity.
Qed.
Lemma good_stored P dim e : (forall c, P c = true -> has_stored c = false /\ count_vals c = 0%nat /\ count_bits c = 0%nat) -> good P dim e -> has_stored e = false /\ count_vals e = 0%nat /\ count_bits e = 0%nat.
Proof.
  intros HP (M & -> & _ & HM). rewrite has_stored_mv. destruct (counts_mv M) as [-> ->]. induction HM as [|p M [H _] HM IH]; [auto|]. destruct (HP _ H) as (A1 & A2 & A3), IH as (B1 & B2 & B3). cbn [existsb fold_right]. rewrite A1, A2, A3, B1, B2, B3. auto.
Qed.

(** Getters of an object do not exist. *)
Lemma object_id n a : object K n a -> greater_id (cexpr a) = 0%N.
Proof.
  intros (M & -> & _ & _ & H). assert (CG : forall e, const e = true -> greater_id e = 0%N).
  { unfold const. induction e as [z|t i| |z|t i| |z|z|pg x IH|c x IHc IHx|f l IH] using expr_ind'; intros Hc; try discriminate Hc; [reflexivity|exfalso; exact (no_tag t Hc)|].
    assert (Q : forallb (numeric 1 0) l = true).
    { destruct f; cbn [numeric] in *; try (destruct l as [|x [|]]; try discriminate Hc; cbn [fun1 andb] in *; try discriminate Hc; cbn [forallb]; rewrite !andb_true_r; exact Hc); try exact Hc.
      destruct l as [|x [|y [|]]]; try discriminate Hc. cbn [forallb]. rewrite !andb_true_r. exact Hc. }
    cbn [greater_id]. clear Hc. induction IH as [|x l Hx _ IHl]; [reflexivity|]. cbn [forallb] in Q. apply andb_prop in Q as [Q1 Q2]. cbn [fold_right]. rewrite (Hx Q1), (IHl Q2). reflexivity. }
  assert (Q : fold_right (fun x n => N.max (greater_id x) n) 0%N (map entry M) = 0%N).
  { induction H as [|[i c] M [_ Hc] HM IH]; [reflexivity|]. cbn [map fold_right]. rewrite IH. cbn [entry fst snd greater_id] in *. destruct Hc as [->|[Kc _]]; [reflexivity|]. rewrite (CG c (Kconst _ Kc)). reflexivity. }
  destruct M as [|p [|q M]]; [reflexivity| |exact Q]. cbn [map fold_right] in Q. rewrite N.max_0_r in Q. exact Q.
Qed.
Lemma inputs_base n l : Forall (object K n) l -> base_id l = 0%N.
Proof. induction 1 as [|a l H HL IH]; [reflexivity|]. unfold base_id in *. cbn [fold_right]. rewrite IH, (object_id n a H). reflexivity. Qed.

(** The argument made from an object. *)
Lemma arg_class n l args j a : Forall (object K n) l -> arguments (base_id l) l = Some args -> nth_error l j = Some a ->
  exists e M, nth_error args j = Some e /\ e = mv_of M /\ canonical M /\ Forall (fun p => (fst p < 2 ^ n)%N) M /\
  Forall (fun p => ipoly X 1 (N.of_nat (length (stored_inputs l))) (snd p) = true) M /\ (stored_inputs l = [] -> Forall (fun p => K (snd p) = true) M).
Proof.
  intros HL E J. pose proof (proj1 (Forall_forall _ _) HL a (nth_error_In _ _ J)) as (M & Ea & C & W & HM). destruct (arguments_spec _ _ _ _ _ E J) as (e & N1 & H). exists e.
  rewrite (inputs_base n l HL) in H. destruct (has_stored (cexpr a)) eqn:S.
  - destruct H as (i & I1 & I2). rewrite Ea in I2.
    assert (HS : Forall (fun p => snd p = SV \/ const (snd p) = true) M) by (eapply Forall_impl; [|exact HM]; intros p [_ [->|[Kp _]]]; [auto|right; apply Kconst, Kp]).
    destruct (tag_mv _ M e I2 C HS) as (M' & -> & C' & F2). exists M'. split; [exact N1|]. split; [reflexivity|]. split; [exact C'|].
    assert (Li : (i < length (stored_inputs l))%nat) by (apply nth_error_Some; congruence).
    split; [|split].
    + clear -F2 HM. induction F2 as [|p q M M' [H1 _] F2 IH]; [constructor|]. inversion HM as [|? ? [L _] HM']; subst. constructor; [rewrite H1; exact L|auto].
    + clear -F2 HM Li HX Kpoly. induction F2 as [|p q M M' [H1 H2] F2 IH]; [constructor|]. inversion HM as [|? ? [L Hp] HM']; subst. constructor; [|auto]. destruct H2 as [[_ [j ->]]|[Cp ->]].
      * cbn [ipoly]. apply andb_true_intro. split; apply N.leb_le; lia.
      * destruct Hp as [Hp|[Kp _]]; [rewrite Hp in Cp; discriminate Cp|]. apply ipoly_mono, Kpoly, Kp.
    + intros Z. rewrite Z in I1. destruct i; discriminate I1.
  - subst e. exists M. split; [exact N1|]. split; [exact Ea|]. split; [exact C|]. rewrite Ea, has_stored_mv in S. assert (KM : Forall (fun p => K (snd p) = true) M).
    { clear -HM S. induction HM as [|p M [_ Hp] HM IH]; [constructor|]. cbn [existsb] in S. apply orb_false_iff in S as [S1 S2]. constructor; [|auto]. destruct Hp as [Hp|[Kp _]]; [rewrite Hp in S1; discriminate S1|exact Kp]. }
    split; [eapply Forall_impl; [|exact HM]; intros p [L _]; exact L|]. split; [|intros _; exact KM]. eapply Forall_impl; [|exact KM]. intros p Kp. apply ipoly_mono, Kpoly, Kp.
Qed.
Lemma in_dim_mv n g M m : Forall (fun p => (fst p < 2 ^ n)%N) M -> den g (mv_of M) m -> in_space n m.
Proof.
  intros H D. apply den_entries in D as [[-> ->]|[Ne D]].
  - constructor; [|constructor]. cbn. apply N.neq_0_lt_0, N.pow_nonzero. discriminate.
  - clear Ne. revert m D. induction H as [|[i c] M L HM IH]; intros m D; inversion D as [|? p ? m1 D1 D2]; subst; [constructor|]. constructor; [|apply IH; exact D2].
    destruct (dentry _ _ _ _ D1) as [_ ->]. exact L.
Qed.
Lemma blades_in n g M m : den g (mv_of M) m -> in_space n m -> Forall (fun p => (fst p < 2 ^ n)%N) M.
Proof.
  intros D S. apply den_entries in D as [[-> ->]|[Ne D]]; [constructor|]. clear Ne. revert m D S. induction M as [|[i c] M IH]; intros m D S; inversion D as [|? p ? m1 D1 D2]; subst; [constructor|].
  inversion S as [|? ? S1 S2]; subst. constructor; [|eauto]. destruct (dentry _ _ _ _ D1) as [_ E]. rewrite E in S1. exact S1.
Qed.
Lemma arguments_length l : forall base args, arguments base l = Some args -> length args = length l.
Proof.
  induction l as [|a l IH]; intros base args E; [injection E as <-; reflexivity|]. cbn [arguments] in E. destruct (has_stored (cexpr a)).
  - destruct (tag_vars (base + 1) (cexpr a) 0 0); [|discriminate]. destruct (arguments (base + 1) l) eqn:Er; [|discriminate]. injection E as <-. cbn. f_equal. eauto.
  - destruct (arguments base l) eqn:Er; [|discriminate]. injection E as <-. cbn. f_equal. eauto.
Qed.

(** The arguments handed out by the context have the values of the inputs. *)
Lemma args_typed dim inputs ms args : Forall (object K dim) inputs -> Forall2 value inputs ms -> arguments (base_id inputs) inputs = Some args ->
  let g := ctx_env (base_id inputs) (stored_inputs inputs) in
  Forall2 (typed_value (ipoly X 1 (N.of_nat (length (stored_inputs inputs)))) dim g) args ms /\ (stored_inputs inputs = [] -> Forall2 (typed_value K dim g) args ms).
Proof.
  intros HO HV Ea. set (hi := N.of_nat (length (stored_inputs inputs))) in *. set (g0 := {| ev := fun _ _ => None; eb := fun _ _ => None |}). intros g.
  assert (P : forall j a m, nth_error inputs j = Some a -> nth_error ms j = Some m -> exists x, nth_error args j = Some x /\ typed_value (ipoly X 1 hi) dim g x m /\ (stored_inputs inputs = [] -> typed_value K dim g x m)).
    { intros j a m J1 J2. pose proof (proj1 (Forall_forall _ _) HO a (nth_error_In _ _ J1)) as Oa.
      assert (Va : value a m). { clear -HV J1 J2. revert j J1 J2. induction HV as [|b m' l ms H HV IH]; intros [|j] J1 J2; try discriminate J1; [injection J1 as ->; injection J2 as ->; exact H|apply (IH j J1 J2)]. }
      destruct (arguments_value inputs args g0 j a m Ea J1 (object_shape dim a Oa) (Va g0)) as (x & X1 & X2 & m' & D & Q).
      destruct (arg_class dim inputs args j a HO Ea J1) as (x' & M & X1' & EM & CM & LM & PM & KM). rewrite X1 in X1'. injection X1' as <-. exists x. split; [exact X1|].
      apply (den_ext _ g) in D; [|intros t i; cbn [nested ev]; unfold g, ctx_env; cbn [ev]; destruct (N.ltb (base_id inputs) t); reflexivity|intros t i; cbn [nested eb]; unfold g, ctx_env; cbn [eb]; destruct (N.ltb (base_id inputs) t); reflexivity].
      assert (Y : mv_ok x = true /\ has_value g x m) by (split; [apply andb_prop in X2 as [X2 _]; exact X2|exists m'; auto]).
      split; [|intros Z]; (split; [|exact Y]); exists M; (split; [exact EM|split; [exact CM|]]).
      - clear -LM PM. induction LM; inversion PM; subst; constructor; auto.
      - specialize (KM Z). clear -LM KM. induction LM; inversion KM; subst; constructor; auto. }
    assert (L1 : length args = length inputs) by exact (arguments_length _ _ _ Ea). assert (L2 : length ms = length inputs) by (clear -HV; induction HV; cbn; auto).
    clearbody g hi. revert P. generalize (stored_inputs inputs). intros st P. clear -P L1 L2. revert args ms L1 L2 P. induction inputs as [|a l IH]; intros [|x args] [|m ms]; cbn [length]; intros L1 L2 P; try discriminate; [split; constructor|].
    destruct (P 0%nat a m eq_refl eq_refl) as (x' & X0 & P1 & P2). injection X0 as <-. destruct (IH args ms ltac:(lia) ltac:(lia) (fun j => P (S j))) as (Q1 & Q2). split; constructor; auto.
Qed.
(** A call of a sound operation. *)
Theorem call_ok op dim inputs ms res o : sound_op op dim ms res -> Forall (object K dim) inputs -> Forall2 value inputs ms ->
  (forall args A, arguments 0 inputs = Some args -> op args = Some (mv_of A) -> canonical A -> Forall (fun p => ipoly X 1 (N.of_nat (length (stored_inputs inputs))) (snd p) = true) A ->
     Forall (fun p => exact_coef (ctx_int 0 (stored_inputs inputs)) (snd p) = true) A) ->
  call F k op inputs = Some o ->
  o = Ovf \/ exists r, o = Done r /\ object K dim r /\ value r res.
Proof.
  intros HR HO HV HD E. unfold call in E. destruct (arguments (base_id inputs) inputs) as [args|] eqn:Ea; [|discriminate]. destruct (op args) as [e|] eqn:Eo; [|discriminate].
  pose proof (inputs_base dim inputs HO) as B0.
  set (hi := N.of_nat (length (stored_inputs inputs))) in *. set (g := ctx_env (base_id inputs) (stored_inputs inputs)).
  destruct (args_typed dim inputs ms args HO HV Ea) as (V4 & V5). fold g hi in V4. fold g in V5.
  destruct (HR _ g _ _ (ipoly_class 1 hi) V4 Eo) as ((A & -> & CA & PA') & We & Ve). pose proof Ve as (m0 & Dm & _).
  assert (PA : Forall (fun p => ipoly X 1 hi (snd p) = true) A) by (eapply Forall_impl; [|exact PA']; intros p [H _]; exact H).
  assert (Sm : Forall (fun p => (fst p < 2 ^ dim)%N) A) by (eapply Forall_impl; [|exact PA']; intros p [_ H]; exact H).
  assert (WA : Forall (fun p => wf (snd p) = true) A).
  { destruct (mv_ok_comps _ We) as [Wc _]. destruct A as [|p A]; [constructor|]. rewrite comps_mv in Wc. clear -Wc. revert Wc. generalize (p :: A). intros l. induction l as [|[i c] l IH]; intros H; [constructor|]. cbn [map forallb] in H. apply andb_prop in H as [H1 H2]. constructor; [|auto]. unfold entry in H1. cbn [comp_ok fst snd] in *. apply andb_prop in H1 as [H1 _]. exact H1. }
  assert (D : stored_inputs inputs = [] \/ stored_inputs inputs <> []) by (destruct (stored_inputs inputs); [left; reflexivity|right; discriminate]). destruct D as [ES|Ne].
  - right. unfold lazy_eval in E. rewrite ES in E. destruct (HR _ g _ _ K_class (V5 ES) Eo) as ((A' & EA & CA' & KB) & _).
    destruct (good_stored K dim (mv_of A) (fun c Hc => poly_shape 1 0 c (Kpoly c Hc)) (ex_intro _ A' (conj EA (conj CA' KB)))) as (_ & Z1 & Z2). rewrite Z1, Z2 in E. injection E as <-. eexists. split; [reflexivity|].
    rewrite EA in *. split.
    + exists A'. split; [reflexivity|]. split; [exact CA'|]. split; [split; [constructor|constructor]|].       assert (WA' : Forall (fun p => wf (snd p) = true) A').
      { destruct (mv_ok_comps _ We) as [Wc _]. clear -Wc. destruct A' as [|p A]; [constructor|]. rewrite comps_mv in Wc. revert Wc. generalize (p :: A). intros l. induction l as [|[i c] l IH]; intros H; [constructor|]. cbn [map forallb] in H. apply andb_prop in H as [H1 H2]. constructor; [|auto]. unfold entry in H1. cbn [comp_ok fst snd] in *. apply andb_prop in H1 as [H1 _]. exact H1. }
      clear -KB WA'. induction KB as [|p A [H1 H2] HA IH]; [constructor|]. inversion WA'; subst. constructor; auto.
    + apply (good_const_value A') with g; [eapply Forall_impl; [|exact KB]; intros p [Kp _]; apply Kconst, Kp|exact Ve].
  - assert (TY : typed (ctx_int (base_id inputs) (stored_inputs inputs)) g).
    { apply typed_ctx, stored_Forall. eapply Forall_impl; [|exact HO]. intros a (M & _ & _ & W & _). exact W. }
    assert (HF : Forall (fun p => coefficient_ok (base_id inputs + 1) (base_id inputs + N.of_nat (length (stored_inputs inputs))) (snd p) /\ exact_coef (ctx_int (base_id inputs) (stored_inputs inputs)) (snd p) = true) A).
    { rewrite B0 in *. pose proof (HD args A Ea Eo CA PA) as ND. rewrite !N.add_0_l. clear -PA WA ND HX. induction PA as [|p A H HA IH]; [constructor|]. inversion WA; inversion ND; subst. constructor; [|auto]. split; [|assumption]. apply (ipoly_coefficient X HX); assumption. }
    destruct (lazy_eval_list F k inputs A o m0 Ne TY CA HF Dm E) as [->|(r & M & cs & -> & RM & CM & L & WR & VR)]; [auto|right]. exists r. split; [reflexivity|]. split.
    + exists M. split; [exact RM|]. split; [exact CM|]. split; [exact WR|]. rewrite B0, !N.add_0_l in L. refine (result_coefs _ _ A M cs L _ (fun i => (i < 2 ^ dim)%N) Sm).
      clear -PA WA. induction PA as [|p A H HA IH]; [constructor|]. inversion WA; subst. constructor; auto.
    + intros g'. destruct Ve as (m1 & D1 & Q1). pose proof (den_fun _ _ _ _ Dm D1) as ->. destruct (VR g') as (m2 & S2 & Q2). exists m2. split; [exact S2|]. intros i. rewrite Q2. apply Q1.
Qed.
(** A call whose type has coefficients computed at run time by conditionals. *)
Theorem open_ok op dim inputs ms res o : stored_inputs inputs <> [] -> Forall (object K dim) inputs -> Forall2 value inputs ms ->
  let hi := N.of_nat (length (stored_inputs inputs)) in let g := ctx_env 0 (stored_inputs inputs) in
  (forall args e, arguments 0 inputs = Some args -> Forall2 (typed_value (ipoly X 1 hi) dim g) args ms -> op args = Some e ->
     exists A, e = mv_of A /\ canonical A /\ has_value g e res /\ mv_ok e = true /\ Forall (fun p => (fst p < 2 ^ dim)%N) A /\
       Forall (fun p => (ipoly X 1 hi (snd p) = true \/ query 1 hi (snd p) = true /\ has_getter (snd p) = true) /\ exact_coef (ctx_int 0 (stored_inputs inputs)) (snd p) = true) A) ->
  call F k op inputs = Some o ->
  o = Ovf \/ exists r, o = Done r /\ object K dim r /\ value r res.
Proof.
  intros Ne HO HV hi g HR E. unfold call in E. destruct (arguments (base_id inputs) inputs) as [args|] eqn:Ea; [|discriminate]. destruct (op args) as [e|] eqn:Eo; [|discriminate].
  pose proof (inputs_base dim inputs HO) as B0. destruct (args_typed dim inputs ms args HO HV Ea) as (V4 & _). rewrite B0 in V4, Ea. fold g in V4. fold hi in V4.
  destruct (HR args e Ea V4 Eo) as (A & -> & CA & Ve & We & Sm & HF). pose proof Ve as (m0 & Dm & _).
  assert (WA : Forall (fun p => wf (snd p) = true) A).
  { destruct (mv_ok_comps _ We) as [Wc _]. clear -Wc. destruct A as [|p A]; [constructor|]. rewrite comps_mv in Wc. revert Wc. generalize (p :: A). intros l. induction l as [|[i c] l IH]; intros H; [constructor|]. cbn [map forallb] in H. apply andb_prop in H as [H1 H2]. constructor; [|auto]. unfold entry in H1. cbn [comp_ok fst snd] in *. apply andb_prop in H1 as [H1 _]. exact H1. }
  assert (TY : typed (ctx_int (base_id inputs) (stored_inputs inputs)) (ctx_env (base_id inputs) (stored_inputs inputs))).
  { apply typed_ctx, stored_Forall. eapply Forall_impl; [|exact HO]. intros a (M & _ & _ & W & _). exact W. }
  assert (HC : Forall (fun p => coefficient_ok (base_id inputs + 1) (base_id inputs + N.of_nat (length (stored_inputs inputs))) (snd p) /\ exact_coef (ctx_int (base_id inputs) (stored_inputs inputs)) (snd p) = true) A).
  { rewrite B0. rewrite !N.add_0_l. fold hi. clear -HF WA HX. induction HF as [|p A [H1 H2] HA IH]; [constructor|]. inversion WA; subst. constructor; [|auto]. split; [|exact H2]. destruct H1 as [H1|H1]; [apply (ipoly_coefficient X HX); assumption|split; auto]. }
  assert (Dm' : den (ctx_env (base_id inputs) (stored_inputs inputs)) (mv_of A) m0) by (rewrite B0; exact Dm).
  destruct (lazy_eval_list F k inputs A o m0 Ne TY CA HC Dm' E) as [->|(r & M & cs & -> & RM & CM & L & WR & VR)]; [auto|right]. exists r. split; [reflexivity|]. split.
  + exists M. split; [exact RM|]. split; [exact CM|]. split; [exact WR|]. rewrite B0, !N.add_0_l in L. refine (result_coefs _ _ A M cs L _ (fun i => (i < 2 ^ dim)%N) Sm).
    fold hi. clear -HF WA. induction HF as [|p A [H1 H2] HA IH]; [constructor|]. inversion WA; subst. constructor; auto.
  + intros g'. destruct Ve as (m1 & D1 & Q1). pose proof (den_fun _ _ _ _ Dm D1) as ->. destruct (VR g') as (m2 & S2 & Q2). exists m2. split; [exact S2|]. intros i. rewrite Q2. apply Q1.
Qed.
End Result.

(** ** Sound type-level operations *)
Section Ops.
Variables (X P : expr -> bool) (F k : nat) (dim : N).
Hypothesis HP : closed_class X F P.
Notation T := (typed_value P dim).
Lemma T_dim g e m : T g e m -> in_dim dim g e.
Proof.
  intros ((M & -> & _ & HM) & _ & (m0 & D & _)). exists m0. split; [exact D|]. apply (in_dim_mv dim g M m0); [|exact D]. eapply Forall_impl; [|exact HM]. intros p [_ H]. exact H.
Qed.
Lemma T_meq g e m m' : T g e m -> meq m m' -> T g e m'.
Proof. intros (G & W & V) H. split; [exact G|]. split; [exact W|]. exact (value_meq _ _ _ _ V H). Qed.
Lemma T_add g a b ma mb r : T g a ma -> T g b mb -> cadd F k a b = Some r -> T g r (ma ++ mb).
Proof.
  intros (Ga & Wa & Va) (Gb & Wb & Vb) E. destruct (add_value F k a b r Wa Wb E) as (Wr & V & _). destruct HP as (_ & Pa & _).
  split; [exact (good_add F P dim Pa k a b r Ga Gb E)|]. split; [exact Wr|]. apply V; auto.
Qed.
Lemma T_mul mult f n g a b ma mb r : mult_ok mult f n -> (dim <= n)%N -> const_mult dim mult -> T g a ma -> T g b mb -> cmul F k mult a b = Some r -> T g r (bilinear f ma mb).
Proof.
  intros HM Hn HC Ta Tb E. pose proof Ta as (Ga & Wa & Va). pose proof Tb as (Gb & Wb & Vb). destruct (mul_value mult f n F k a b r HM Wa Wb E) as (Wr & V). destruct HP as (Pc & Pa & Pm & _ & _).
  split; [exact (good_mul F P dim Pc Pa Pm mult (const_good P dim mult Pc HC) k a b r Ga Gb E)|]. split; [exact Wr|].
  apply (V g); auto; apply (in_dim_mono dim n); auto; eapply T_dim; eauto.
Qed.
Lemma T_gum pat l g a ma r : unary_ok (gum F k pat) l -> (dim <= 63)%N -> T g a ma -> gum F k pat a = Some r -> T g r (linear l ma).
Proof.
  intros HU Hd Ta E. pose proof Ta as (Ga & Wa & Va). destruct (unary_value _ l a r HU Wa E) as (Wr & V). destruct HP as (Pc & Pa & Pm & _ & _).
  split; [exact (good_gum F P dim Pc Pa Pm k pat a r Ga E)|]. split; [exact Wr|]. apply (V g dim Hd (T_dim _ _ _ Ta)). exact Va.
Qed.
Lemma T_const g z : T g (c_expr z) [(IZR z, 0%N)].
Proof.
  destruct HP as (Pc & _). split; [|split; [reflexivity|apply c_value]]. assert (E : c_expr z = component_t (CV z) (CBlade 0)) by (destruct z; reflexivity). rewrite E.
  apply good_comp; [apply Pc|reflexivity|apply N.neq_0_lt_0, N.pow_nonzero; discriminate].
Qed.
Lemma gp_real_const : (dim <= 63)%N -> const_mult dim (gp_real_map F).
Proof.
  intros Hd. apply orth_const; [discriminate|apply gp_bv|intros c; exists 1%Z; reflexivity|]. destruct (N.eq_dec dim 63) as [->|Ne]; [left; discriminate|right]. intros x y Hx Hy.
  assert (L : forall x, (x < 2 ^ dim)%N -> (x < 2 ^ 63)%N) by (intros z Hz; apply (N.lt_le_trans _ _ _ Hz), N.pow_le_mono_r; [discriminate|exact Hd]).
  destruct (grades_wrap x (L x Hx)) as [Ex Gx]. destruct (grades_wrap y (L y Hy)) as [Ey Gy]. rewrite Ex, Ey.
  pose proof (grade_le (N.lxor x y) dim ltac:(lia) (lxor_lt x y dim Hx Hy)) as K. pose proof (grade_lxor x y) as E1. pose proof (grade_land_l x y) as E2. pose proof (grade_land_r x y) as E3.
  assert (Tb : N.testbit (gp_grades (2 ^ grade_of x) (2 ^ grade_of y) 63) (grade_of (N.lxor x y)) = true).
  { revert K E1 E2 E3 Gx Gy. generalize (grade_of x) (grade_of y) (grade_of (N.lxor x y)) (grade_of (N.land x y)). intros a b c d K E1 E2 E3 Gx Gy.
    apply (gp_grades_ok _ _ 63 a b c); try lia; try (apply N.pow_lt_mono_r; lia); try (rewrite N.pow2_bits_eqb; apply N.eqb_refl). replace (c + a + b)%N with (2 * (c + d))%N by lia. rewrite N.even_mul. reflexivity. }
  apply N.eqb_neq. intros Q. rewrite Q in Tb. unfold bit in Tb. rewrite wrap_shift in Tb by reflexivity. rewrite N.pow2_bits_eqb in Tb. apply N.eqb_eq in Tb. lia.
Qed.
Lemma T_neg g a ma r : (dim <= 63)%N -> T g a ma -> neg_t F k a = Some r -> T g r (scale (-1) ma).
Proof.
  intros Hd Ta E. eapply T_meq; [exact (T_mul _ _ 63 g _ _ _ _ _ (gp_real_map_ok F) Hd (gp_real_const Hd) (T_const g (-1)) Ta E)|]. apply scalar_gp.
Qed.
Lemma T_sub g a b ma mb r : (dim <= 63)%N -> T g a ma -> T g b mb -> sub_t F k a b = Some r -> T g r (ma ++ scale (-1) mb).
Proof. intros Hd Ta Tb. unfold sub_t. destruct (neg_t F k b) as [m|] eqn:E; [|discriminate]. intros E'. exact (T_add g a m _ _ r Ta (T_neg g b mb m Hd Tb E) E'). Qed.
End Ops.
