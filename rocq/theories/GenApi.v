(** Proofs: the products of multivectors in general metric spaces. *)
From Coq Require Import NArith ZArith List Bool Reals Lra Lia.
From Verif Require Import Bits BitsBase SpecBits BitsProofs BitsOnes Expr Sem Wf SpecMv MvBase Simp SimpProofs Comp CompProofs CompProofs2 Mapping GradeProofs MappingProofs ProductProofs OuterProofs SpecOrder OrderProofs GumProofs CanonProofs General Clifford2 SpecGeneral Wick2 GenMul EvalC Lazy SpecLazy TagProofs Api SpecApi AlgProofs PolyProofs ApiProofs ApiProofs2 ApiProofs3 SpecSpaces Spaces.
Import ListNotations.
Local Open Scope R_scope.
Local Opaque sign_of indices.

Lemma dotV_iff a b c : dotV a b c = true <-> c = absdiff a b. Proof. unfold dotV, absdiff. destruct (N.leb_spec a b); rewrite subV_iff; lia. Qed.
(** ** The part of the geometric product each product keeps *)
Definition keeps (V : N -> N -> N -> bool) (part : (N -> N -> mv) -> N -> N -> mv) : Prop :=
  forall G l r h, sumf (G l r) (hV V l r h) = sumf (part G l r) h.
Lemma hV_unfold V l r h : hV V l r h = fun b => if V (grade_of l) (grade_of r) (grade_of b) then h b else 0. Proof. reflexivity. Qed.
Lemma sumf_fun_ext m h h' : (forall b, h b = h' b) -> sumf m h = sumf m h'.
Proof. intros H. induction m as [|[c b] m IH]; cbn [sumf]; [reflexivity|]. rewrite H, IH. reflexivity. Qed.
Lemma sumf_none m : sumf m (fun _ => 0) = 0.
Proof. induction m as [|[c b] m IH]; cbn [sumf]; [reflexivity|]. rewrite IH. ring. Qed.
Lemma gp_keeps : keeps (fun _ _ _ => true) (fun G => G). Proof. intros G l r h. reflexivity. Qed.
Lemma sub_keeps a b m h : sumf m (fun k => if subV a b (grade_of k) then h k else 0) = sumf (if N.leb a b then grade_part (b - a) m else []) h.
Proof.
  destruct (N.leb_spec a b) as [L|L].
  - rewrite sumf_grade_part. apply sumf_fun_ext. intros k. destruct (N.eqb_spec (grade_of k) (b - a)) as [E|E].
    + rewrite (proj2 (subV_iff _ _ _) (conj L E)). reflexivity.
    + destruct (subV a b (grade_of k)) eqn:V; [apply subV_iff in V; tauto|reflexivity].
  - cbn [sumf]. transitivity (sumf m (fun _ => 0)); [|apply sumf_none]. apply sumf_fun_ext. intros k. destruct (subV a b (grade_of k)) eqn:V; [apply subV_iff in V; lia|reflexivity].
Qed.
Lemma lcont_keeps : keeps subV part_lcont. Proof. intros G l r h. rewrite hV_unfold. apply sub_keeps. Qed.
Lemma rcont_keeps : keeps (fun a b c => subV b a c) part_rcont. Proof. intros G l r h. rewrite hV_unfold. apply sub_keeps. Qed.
Lemma sp_keeps : keeps (fun _ _ c => N.eqb c 0) part_sp. Proof. intros G l r h. rewrite hV_unfold. unfold part_sp. rewrite sumf_grade_part. reflexivity. Qed.
Lemma dot_keeps : keeps dotV part_dot.
Proof.
  intros G l r h. rewrite hV_unfold. unfold part_dot. rewrite sumf_grade_part. apply sumf_fun_ext. intros k. destruct (N.eqb_spec (grade_of k) (absdiff (grade_of l) (grade_of r))) as [E|E].
  - rewrite (proj2 (dotV_iff _ _ _) E). reflexivity.
  - destruct (dotV _ _ _) eqn:V; [apply dotV_iff in V; contradiction|reflexivity].
Qed.
Lemma hip_keeps : keeps hipV part_hip.
Proof.
  intros G l r h. unfold part_hip. destruct (_ || _)%bool eqn:Z.
  - cbn [sumf]. transitivity (sumf (G l r) (fun _ => 0)); [|apply sumf_none]. rewrite hV_unfold. apply sumf_fun_ext. intros k. unfold hipV. rewrite Z. reflexivity.
  - rewrite <- (dot_keeps G l r h), !hV_unfold. apply sumf_fun_ext. intros k. unfold hipV. rewrite Z. reflexivity.
Qed.

(** ** The possible grades declared by each product *)
Definition declares (n : N) (grades : N -> N -> N -> N) (V : N -> N -> N -> bool) : Prop :=
  forall L R a b c, (L < 2 ^ 64)%N -> (R < 2 ^ 64)%N -> N.testbit L a = true -> N.testbit R b = true -> (a <= n)%N -> (b <= n)%N -> (c <= n)%N ->
    (a - b <= c)%N -> (b - a <= c)%N -> (c <= a + b)%N -> N.even (c + a + b) = true -> V a b c = true -> N.testbit (grades L R n) c = true.
Lemma gp_declares n : (n <= 63)%N -> declares n gp_grades (fun _ _ _ => true).
Proof. intros Hn L R' a b k HL HR TL TR An Bn Kn H1 H2 H3 E _. apply (gp_grades_ok L R' n a b k); auto. Qed.
Lemma lcont_declares n : declares n lcont_grades subV.
Proof. intros L R' a b k HL HR TL TR An Bn Kn H1 H2 H3 E V. apply subV_iff in V as [V ->]. apply lcont_rec_ok; auto using pop_le_64. Qed.
Lemma rcont_declares n : declares n rcont_grades (fun a b c => subV b a c).
Proof. intros L R' a b k HL HR TL TR An Bn Kn H1 H2 H3 E V. apply subV_iff in V as [V ->]. apply rcont_rec_ok; auto using pop_le_64. Qed.
Lemma sp_declares n : declares n sp_grades (fun _ _ c => N.eqb c 0).
Proof.
  intros L R' a b k HL HR TL TR An Bn Kn H1 H2 H3 E V. apply N.eqb_eq in V. subst k. assert (a = b) by lia. subst b.
  unfold sp_grades. destruct (N.eqb_spec (N.land L R') 0) as [Z|Z]; [|reflexivity].
  assert (T : N.testbit (N.land L R') a = true) by (rewrite N.land_spec, TL, TR; reflexivity). rewrite Z, N.bits_0 in T. discriminate.
Qed.
Lemma dot_declares n : declares n dot_grades dotV.
Proof. intros L R' a b k HL HR TL TR An Bn Kn H1 H2 H3 E V. apply dotV_iff in V as ->. apply (dot_grades_ok 63 (N.le_refl 63)); auto. Qed.
Lemma hip_declares n : declares n hip_grades hipV.
Proof.
  intros L R' a b k HL HR TL TR An Bn Kn H1 H2 H3 E V. unfold hipV in V. destruct (N.eqb_spec a 0) as [|Za]; [discriminate|]. destruct (N.eqb_spec b 0) as [|Zb]; [discriminate|].
  apply dotV_iff in V as ->. apply (dot_grades_ok 63 (N.le_refl 63)); auto using drop_scalar_lt; rewrite (drop_scalar_bit 63 (N.le_refl 63)); auto; lia.
Qed.

(** The product of two compile-time blades: the right factor has grade at most 7, or it has grade 8 and the left factor
    has grade at most 7. *)
Definition low (k b : N) : bool := N.leb (grade_of b) k.
Definition fits_blades (l r : N) : bool := (low 7 r || (low 7 l && low 8 r))%bool.
Lemma fits_grades l r : fits_blades l r = true -> (grade_of r <= 8)%N /\ ((grade_of r <= 7)%N \/ (grade_of l <= 7)%N).
Proof. unfold fits_blades, low. rewrite orb_true_iff, andb_true_iff, !N.leb_le. lia. Qed.
Section Blades.
Variables (F k d : nat) (n : N) (ent : expr -> expr -> option expr) (g : env) (A : N -> N -> R) (G : N -> N -> mv).
Variables (grades : N -> N -> N -> N) (valid : valid_t) (V : N -> N -> N -> bool) (part : (N -> N -> mv) -> N -> N -> mv).
Hypothesis Hn : (n <= 63)%N.
Hypothesis HE : forall i j e, (i < n)%N -> (j < n)%N -> ent (CV (Z.of_N i + 1)) (CV (Z.of_N j + 1)) = Some e -> wf e = true /\ num g e (A i j).
Hypothesis HS : forall i j, A i j = A j i.
Hypothesis HG : geometric n A G.
Hypothesis HV : valid_ok valid V.
Hypothesis HB : bool_valid valid.
Hypothesis HD : declares n grades V.
Hypothesis HK : keeps V part.

Theorem blades_ok l r e P : (l < 2 ^ n)%N -> (r < 2 ^ n)%N -> fits_blades l r = true ->
  (forall a b e, ent (CV a) (CV b) = Some e -> P e = true) -> (forall z, P (CV z) = true) ->
  (forall a b r, eng F OAdd a b = Some r -> P a = true -> P b = true -> P r = true) -> (forall a b r, eng F OMul a b = Some r -> P a = true -> P b = true -> P r = true) ->
  general_multiply F k d n ent grades valid (CBlade l) (CBlade r) = Some e ->
  mv_ok e = true /\ good P n e /\ exists m, den g e m /\ in_space n m /\ meq m (part G l r).
Proof.
  intros Hl Hr Ft P1 P2 P3 P4 E. destruct (fits_grades l r Ft) as [Gr Gl].
  destruct (general_ok F k d n ent g A P grades valid V Hn HE P1 P2 P3 P4 HV HB HD l r Hl Hr Gr Gl e E) as (W & Go & m & D & I & S).
  split; [exact W|]. split; [exact Go|]. exists m. split; [exact D|]. split; [exact I|]. apply meq_iff. intros h. rewrite S, <- (HK G l r h).
  assert (E1 : (fun i j => A j i) = A) by (do 2 (apply FunctionalExtensionality.functional_extensionality; intros ?); apply HS). rewrite E1. symmetry. apply (geometric_sumf A n G); auto. lia.
Qed.
End Blades.

(** ** Multivectors with compile-time blades *)
Section Agree.
Variables (Q : N -> N -> bool) (F : nat) (P : expr -> bool) (dim : N) (mult mult' : expr -> expr -> option expr).
Hypothesis HM : forall x y, (x < 2 ^ dim)%N -> (y < 2 ^ dim)%N -> Q x y = true -> mult (CBlade x) (CBlade y) = mult' (CBlade x) (CBlade y).
Definition pairs (A B : entries) : Prop := forall p q, In p A -> In q B -> Q (fst p) (fst q) = true.
Definition inside (A : entries) : Prop := canonical A /\ Forall (fun p => P (snd p) = true /\ (fst p < 2 ^ dim)%N) A.
Lemma cmul_agree : forall n A B, inside A -> inside B -> pairs A B -> cmul F n mult (mv_of A) (mv_of B) = cmul F n mult' (mv_of A) (mv_of B).
Proof.
  induction n as [|n IH]; intros A B [CA PA] [CB PB] H; [reflexivity|]. cbn [cmul]. unfold cmul_step.
  destruct A as [|p A].
  { change (csplit (mv_of [])) with (Some (CV 0, CBlade 0, @None (list expr))). reflexivity. }
  rewrite csplit_mv. destruct B as [|q B].
  { change (csplit (mv_of [])) with (Some (CV 0, CBlade 0, @None (list expr))). cbv iota beta. destruct (is_zero_comp (mv_of (p :: A))); reflexivity. }
  rewrite csplit_mv. cbv iota beta. destruct (canonical_tail _ _ CA) as (C1 & C2 & Np & Lp). destruct (canonical_tail _ _ CB) as (C3 & C4 & Nq & Lq).
  rewrite (zero_mv p A Np), (zero_mv q B Nq). inversion PA as [|? ? Pp PA']; subst. inversion PB as [|? ? Pq PB']; subst.
  change (Comp (snd p) (CBlade (fst p))) with (mv_of [p]) in *. change (Comp (snd q) (CBlade (fst q))) with (mv_of [q]) in *.
  assert (Ip : inside [p]) by (split; [apply canonical_cons; [split; constructor|constructor|exact Np|exact Lp]|constructor; auto]).
  assert (Iq : inside [q]) by (split; [apply canonical_cons; [split; constructor|constructor|exact Nq|exact Lq]|constructor; auto]).
  assert (IA : inside A) by (split; assumption). assert (IB : inside B) by (split; assumption).
  assert (Hpq : pairs [p] [q]) by (intros x y [<-|[]] [<-|[]]; apply H; left; reflexivity).
  assert (HpB : pairs [p] B) by (intros x y [<-|[]] Y; apply H; [left; reflexivity|right; exact Y]).
  assert (HAq : pairs A [q]) by (intros x y X [<-|[]]; apply H; [right; exact X|left; reflexivity]).
  assert (HAB : pairs A B) by (intros x y X Y; apply H; right; assumption).
  destruct A as [|p' A], B as [|q' B].
  - rewrite (HM _ _ (proj2 Pp) (proj2 Pq) (Hpq p q (or_introl eq_refl) (or_introl eq_refl))). reflexivity.
  - rewrite mk_add_entries. rewrite (IH _ _ Ip Iq Hpq), (IH _ _ Ip IB HpB). reflexivity.
  - rewrite mk_add_entries. rewrite (IH _ _ Ip Iq Hpq), (IH _ _ IA Iq HAq). reflexivity.
  - rewrite !mk_add_entries. rewrite (IH _ _ Ip Iq Hpq), (IH _ _ IA Iq HAq), (IH _ _ Ip IB HpB), (IH _ _ IA IB HAB). reflexivity.
Qed.
End Agree.
(** A blade product only used on some compile-time blades of the space. *)
Definition restrict (Q : N -> N -> bool) (n : N) (mult : expr -> expr -> option expr) (x y : expr) : option expr :=
  match x, y with CBlade a, CBlade b => if (N.ltb a (2 ^ n) && N.ltb b (2 ^ n) && Q a b)%bool then mult x y else None | _, _ => None end.
Definition blade_values (Q : N -> N -> bool) (P : expr -> bool) (n : N) (mult : expr -> expr -> option expr) (f : N -> N -> mv) : Prop :=
  forall l r e, (l < 2 ^ n)%N -> (r < 2 ^ n)%N -> Q l r = true -> mult (CBlade l) (CBlade r) = Some e ->
  mv_ok e = true /\ good P n e /\ forall g, exists m, den g e m /\ in_space n m /\ meq m (f l r).
Lemma restrict_ok Q P n mult f : blade_values Q P n mult f -> mult_ok (restrict Q n mult) f n.
Proof.
  intros H x y m Bx By. unfold restrict. destruct x as [| | | | | | |a| | |]; try discriminate. destruct y as [| | | | | | |b| | |]; try discriminate.
  destruct (N.ltb_spec a (2 ^ n)) as [La|]; [|discriminate]. destruct (N.ltb_spec b (2 ^ n)) as [Lb|]; [|discriminate]. cbn [andb].
  destruct (Q a b) eqn:Qa; [|discriminate]. intros E. destruct (H a b m La Lb Qa E) as (W & _ & K). split; [exact W|].
  intros g i j Di Dj _ _. cbn [dblade] in Di, Dj. subst i j. destruct (K g) as (l & D & I & Q'). apply den_iff in D. exists l. split; [clear -D; induction D; constructor; auto using dcomp_pcomp|]. split; [exact I|]. intros _ _. split; [exact D|exact Q'].
Qed.
Lemma T_mul_blades Q X P F k dim mult f g A B ma mb r : closed_class X F P -> blade_values Q P dim mult f ->
  inside P dim A -> inside P dim B -> pairs Q A B ->
  typed_value P dim g (mv_of A) ma -> typed_value P dim g (mv_of B) mb -> cmul F k mult (mv_of A) (mv_of B) = Some r -> typed_value P dim g r (bilinear f ma mb).
Proof.
  intros HP HM Ia Ib Ip Ta Tb E. pose proof Ta as (Ga & Wa & Va). pose proof Tb as (Gb & Wb & Vb).
  assert (HR := restrict_ok Q P dim mult f HM).
  assert (AG : forall x y, (x < 2 ^ dim)%N -> (y < 2 ^ dim)%N -> Q x y = true -> mult (CBlade x) (CBlade y) = restrict Q dim mult (CBlade x) (CBlade y)).
  { intros x y Hx Hy Qx. unfold restrict. rewrite (proj2 (N.ltb_lt _ _) Hx), (proj2 (N.ltb_lt _ _) Hy), Qx. reflexivity. }
  rewrite (cmul_agree Q F P dim mult (restrict Q dim mult) AG k A B Ia Ib Ip) in E.
  destruct (mul_value (restrict Q dim mult) f dim F k _ _ r HR Wa Wb E) as (Wr & V). destruct HP as (Pc & Pa & Pm & HP').
  split; [|split; [exact Wr|]].
  - apply (good_mul F P dim Pc Pa Pm (restrict Q dim mult)) with (n := k) (a := mv_of A) (b := mv_of B); auto. intros x y e _ _ Xd Yd M.
    unfold restrict in M. rewrite (proj2 (N.ltb_lt _ _) Xd), (proj2 (N.ltb_lt _ _) Yd) in M. cbn [andb] in M. destruct (Q x y) eqn:Qx; [|discriminate]. apply (HM x y e Xd Yd Qx M).
  - apply (V g); auto; eapply T_dim; [exact Ta|exact Tb]||eauto.
Qed.

(** ** Types whose blades have a bounded grade *)
Lemma upto_mv k p M : grades_upto k (mv_of (p :: M)) = forallb (fun q => low k (fst q)) (p :: M).
Proof. unfold grades_upto. rewrite components_mv. induction (p :: M) as [|[i c] l IH]; [reflexivity|]. cbn [map forallb]. rewrite IH. reflexivity. Qed.
(** The products C33 speaks about. *)
Definition fits (a b : expr) : bool := (grades_upto 7 b || (grades_upto 7 a && grades_upto 8 b))%bool.
Lemma fits_right a b : grades_upto 7 b = true -> fits a b = true. Proof. unfold fits. intros ->. reflexivity. Qed.
Lemma fits_or a b : grades_upto 7 b = true \/ grades_upto 7 a = true /\ grades_upto 8 b = true -> fits a b = true.
Proof. unfold fits. intros [-> | [-> ->]]; [reflexivity|apply orb_true_r]. Qed.
Lemma upto_in k M p : grades_upto k (mv_of M) = true -> In p M -> low k (fst p) = true.
Proof. destruct M as [|q M]; [contradiction|]. rewrite upto_mv, forallb_forall. intros H I. exact (H p I). Qed.
Lemma fits_pairs A B : fits (mv_of A) (mv_of B) = true -> pairs fits_blades A B.
Proof.
  unfold fits. intros H p q Ip Iq. unfold fits_blades. apply orb_prop in H as [H|H].
  - rewrite (upto_in 7 B q H Iq). reflexivity.
  - apply andb_prop in H as [H1 H2]. rewrite (upto_in 7 A p H1 Ip), (upto_in 8 B q H2 Iq). apply orb_true_r.
Qed.
Lemma component_upto k c x c' : component_grade_upto k (Comp c (CBlade x)) = true -> component_grade_upto k (component_t c' (CBlade x)) = true.
Proof. intros H. destruct (component_t_cases c' (CBlade x)) as [->|[-> _]]; [exact H|]. cbn [component_grade_upto]. rewrite grade_of_0. apply N.leb_le, N.le_0_l. Qed.
Lemma tag_component k tag e v b e' : tag_vars tag e v b = Some e' -> component_grade_upto k e = true -> component_grade_upto k e' = true.
Proof.
  destruct e as [| | | | | | | | |c x|]; try discriminate. destruct x as [| | | | | | |x| | |]; try discriminate. cbn [tag_vars]. destruct (tag_vars tag c v b); [|discriminate]. intros E H. injection E as <-. exact (component_upto k c x _ H).
Qed.
Lemma tag_upto k tag e v b e' : tag_vars tag e v b = Some e' -> grades_upto k e = true -> grades_upto k e' = true.
Proof.
  intros E H. unfold grades_upto in *. destruct e as [| | | | | | | | |c x|f l]; try (cbn [components forallb] in H; discriminate H).
  - cbn [components forallb] in H. rewrite andb_true_r in H. pose proof (tag_component k tag _ v b e' E H) as H'. destruct e'; try discriminate H'. cbn [components forallb]. rewrite H'. reflexivity.
  - apply tag_fn in E as (l' & -> & E). destruct f; try (cbn [components forallb] in H; discriminate H). cbn [components] in *. apply tags_Forall2 in E. clear -E H. induction E as [|x y l l' (v & b & E) _ IH]; [reflexivity|].
    cbn [forallb] in *. apply andb_prop in H as [H1 H2]. rewrite (tag_component k tag _ _ _ _ E H1), (IH H2). reflexivity.
Qed.
Lemma arguments_upto : forall l base args, arguments base l = Some args -> Forall2 (fun a e => forall k, grades_upto k (cexpr a) = true -> grades_upto k e = true) l args.
Proof.
  induction l as [|a l IH]; intros base args E; [injection E as <-; constructor|]. cbn [arguments] in *. destruct (has_stored (cexpr a)).
  - destruct (tag_vars (base + 1) (cexpr a) 0 0) as [e|] eqn:Ee; [|discriminate]. destruct (arguments (base + 1) l) as [r|] eqn:Er; [|discriminate]. injection E as <-. constructor; [intros k; exact (tag_upto k _ _ _ _ _ Ee)|exact (IH _ _ Er)].
  - destruct (arguments base l) as [r|] eqn:Er; [|discriminate]. injection E as <-. constructor; [auto|exact (IH _ _ Er)].
Qed.
Definition guard (op : list expr -> option expr) (args : list expr) : option expr := match args with [a; b] => if fits a b then op args else None | _ => None end.
Lemma call_guard F d op a b : fits (cexpr a) (cexpr b) = true -> call F d op [a; b] = call F d (guard op) [a; b].
Proof.
  intros H. unfold call. destruct (arguments (base_id [a; b]) [a; b]) as [args|] eqn:E; [|reflexivity]. apply arguments_upto in E. inversion E as [|? x ? ? H1 E1]; subst. inversion E1 as [|? y ? ? H2 E2]; subst. inversion E2; subst. unfold guard.
  assert (Q : fits x y = true).
  { unfold fits in *. apply orb_prop in H as [H|H]; [rewrite (H2 _ H); reflexivity|]. apply andb_prop in H as [H H']. rewrite (H1 _ H), (H2 _ H'). apply orb_true_r. }
  rewrite Q. reflexivity.
Qed.

(** ** Products in a general metric space *)
Definition int_entries (n : N) (ent : expr -> expr -> option expr) (A : N -> N -> R) : Prop :=
  (forall a b e, ent (CV a) (CV b) = Some e -> exists z, e = CV z) /\
  (forall i j z, (i < n)%N -> (j < n)%N -> ent (CV (Z.of_N i + 1)) (CV (Z.of_N j + 1)) = Some (CV z) -> A i j = IZR z) /\
  (forall i j, A i j = A j i).
Section General.
Variables (F k d : nat) (n : N) (ent : expr -> expr -> option expr) (A : N -> N -> R) (G : N -> N -> mv).
Variables (grades : N -> N -> N -> N) (valid : valid_t) (V : N -> N -> N -> bool) (part : (N -> N -> mv) -> N -> N -> mv).
Hypothesis Hn : (n <= 63)%N.
Hypothesis HE : int_entries n ent A.
Hypothesis HG : geometric n A G.
Hypothesis HV : valid_ok valid V.
Hypothesis HB : bool_valid valid.
Hypothesis HD : declares n grades V.
Hypothesis HK : keeps V part.
Lemma general_values X P : closed_class X F P -> blade_values fits_blades P n (general_multiply F k d n ent grades valid) (part G).
Proof.
  intros (P1 & P2 & P3 & _) l r e Hl Hr Ql E. destruct HE as (E1 & E2 & E3).
  assert (K : forall g, mv_ok e = true /\ good P n e /\ exists m, den g e m /\ in_space n m /\ meq m (part G l r)).
  { intros g. apply (blades_ok F k d n ent g A G grades valid V part Hn) with (l := l) (r := r); auto.
    - intros i j e0 Hi Hj E0. destruct (E1 _ _ _ E0) as [z ->]. split; [reflexivity|]. rewrite (E2 i j z Hi Hj E0). apply num_cv.
    - intros a b e0 E0. destruct (E1 _ _ _ E0) as [z ->]. apply P1. }
  destruct (K {| ev := fun _ _ => None; eb := fun _ _ => None |}) as (W & Go & _). split; [exact W|]. split; [exact Go|]. intros g. destruct (K g) as (_ & _ & H). exact H.
Qed.
Lemma sound_general X ma mb : sound_op X F (guard (op2 (cmul F k (general_multiply F k d n ent grades valid)))) n [ma; mb] (bilinear (part G) ma mb).
Proof.
  intros P g args e HP HA E. inversion HA as [|a ? ? ? Ta HA1]; subst. inversion HA1 as [|b ? ? ? Tb HA2]; subst. inversion HA2; subst. unfold guard in E. cbn [op2] in E.
  destruct (fits a b) eqn:Ft; [|discriminate]. pose proof Ta as ((A' & -> & CA & PA) & _). pose proof Tb as ((B' & -> & CB & PB) & _).
  exact (T_mul_blades fits_blades X P F k n _ _ g A' B' ma mb e HP (general_values X P HP) (conj CA PA) (conj CB PB) (fits_pairs A' B' Ft) Ta Tb E).
Qed.
Theorem general_call a b ma mb o : int_object n a -> int_object n b -> fits (cexpr a) (cexpr b) = true -> value a ma -> value b mb ->
  call F k (op2 (cmul F k (general_multiply F k d n ent grades valid))) [a; b] = Some o ->
  o = Ovf \/ exists r, o = Done r /\ int_object n r /\ value r (bilinear (part G) ma mb).
Proof.
  intros Oa Ob Ft Va Vb E. rewrite call_guard in E by exact Ft.
  exact (int_call F k _ _ [a; b] [ma; mb] _ o (sound_general is_pos ma mb) ltac:(auto) ltac:(auto) E).
Qed.
End General.

(** ** The metric spaces *)
Lemma conformal_entry_cv D a b : conformal_entry D (CV a) (CV b) =
  Some (if Z.eqb a b then if Z.leb a (Z.of_N D) then CV 1 else CV 0 else if Z.leb a (Z.of_N D) || Z.leb b (Z.of_N D) then CV 0 else CV (-1)).
Proof.
  unfold conformal_entry. assert (Q : mk_equal (CV a) (CV b) = CBool (Z.eqb a b)) by (unfold mk_equal; cbn [expr_eqb has_stored is_constant negb andb]; destruct (Z.eqb a b); reflexivity).
  rewrite Q. cbn [mk_le]. destruct (Z.eqb a b), (Z.leb a (Z.of_N D)), (Z.leb b (Z.of_N D)); reflexivity.
Qed.
Lemma conformal_int D : int_entries (D + 2) (conformal_entry D) (conformal_metric D).
Proof.
  split; [|split].
  - intros a b e E. rewrite conformal_entry_cv in E. injection E as <-. destruct (Z.eqb a b), (Z.leb a (Z.of_N D)), (Z.leb b (Z.of_N D)); cbn [orb]; eauto.
  - intros i j z Hi Hj E. rewrite conformal_entry_cv in E. injection E as E. unfold conformal_metric.
    destruct (Z.eqb_spec (Z.of_N i + 1) (Z.of_N j + 1)), (Z.leb_spec (Z.of_N i + 1) (Z.of_N D)), (Z.leb_spec (Z.of_N j + 1) (Z.of_N D)), (N.ltb_spec i D), (N.ltb_spec j D), (N.eqb_spec i j); try lia; cbn [orb] in *; injection E as <-; reflexivity.
  - intros i j. unfold conformal_metric. rewrite (N.eqb_sym j i), (orb_comm (N.ltb j D)). reflexivity.
Qed.
Lemma matrix_int F n entries : (forall i j, (i < n)%N -> (j < n)%N -> matrix_of n entries i j = matrix_of n entries j i) ->
  int_entries n (matrix_space_entry F n (map CV entries)) (matrix_of n entries).
Proof.
  intros S. assert (K : forall a b e, matrix_space_entry F n (map CV entries) (CV a) (CV b) = Some e -> exists i, (Z.of_N n * (a - 1) + (b - 1) = Z.of_nat i)%Z /\ nth_error (map CV entries) i = Some e).
  { intros a b e E. unfold matrix_space_entry in E.
    destruct (eng F OAdd (CV a) (CV (-1))) as [i'|] eqn:E1; [|discriminate]. apply eng_add_cv in E1 as ->. destruct (eng F OMul _ _) as [p|] eqn:E2; [|discriminate]. apply eng_mul_cv in E2 as ->.
    destruct (eng F OAdd (CV b) (CV (-1))) as [j'|] eqn:E3; [|discriminate]. apply eng_add_cv in E3 as ->. destruct (eng F OAdd _ _) as [x|] eqn:E4; [|discriminate]. apply eng_add_cv in E4 as ->.
    cbn [matrix_entry] in E. destruct (Z.leb_spec 0 (Z.of_N n * (a + -1) + (b + -1))); [|discriminate]. exists (Z.to_nat (Z.of_N n * (a + -1) + (b + -1))). split; [lia|exact E]. }
  split; [|split].
  - intros a b e E. destruct (K a b e E) as (i & _ & H). rewrite nth_error_map in H. destruct (nth_error entries i); [|discriminate]. injection H as <-. eauto.
  - intros i j z Hi Hj E. destruct (K _ _ _ E) as (m & Q & H). rewrite nth_error_map in H. destruct (nth_error entries m) as [y|] eqn:Ey; [|discriminate]. injection H as ->.
    unfold matrix_of. rewrite (proj2 (N.ltb_lt _ _) Hi), (proj2 (N.ltb_lt _ _) Hj). cbn [andb]. f_equal. symmetry. replace (N.to_nat (n * i + j)) with m by lia. apply nth_error_nth with (d := 0%Z) in Ey. symmetry. exact Ey.
  - intros i j. destruct (N.lt_ge_cases i n) as [Hi|Hi]; [destruct (N.lt_ge_cases j n) as [Hj|Hj]; [auto|]|]; unfold matrix_of; rewrite (andb_comm (N.ltb j n)); destruct (N.ltb_spec i n), (N.ltb_spec j n); try lia; reflexivity.
Qed.
