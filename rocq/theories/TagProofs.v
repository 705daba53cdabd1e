(** The arguments of a lazy context read back the values of its inputs. *)
From Coq Require Import NArith ZArith List Bool Reals Lra Lia.
From Verif Require Import Bits Expr ExprBase Sem Wf SpecBits SpecMv MvBase Simp SimpProofs SpecAlg Comp CompProofs GradeProofs Lazy SpecLazy.
Import ListNotations.
Local Open Scope R_scope.

Lemma skipn_hd {A} (l : list A) n : match skipn n l with x :: r => nth_error l n = Some x /\ skipn (n + 1) l = r | [] => nth_error l n = None /\ skipn (n + 1) l = [] end.
Proof.
  revert n. induction l as [|x l IH]; intros [|n]; cbn [skipn nth_error Nat.add]; auto. apply IH.
Qed.

(** [g'] reads the entries of the input bound to [tag], and agrees with [g] on the tags of the input. *)
Definition binds (g g' : env) (M tag : N) (V : list R) (B : list N) : Prop :=
  (forall k, ev g' tag k = nth_error V (N.to_nat k)) /\ (forall k, eb g' tag k = nth_error B (N.to_nat k)) /\
  (forall t k, (t <= M)%N -> ev g' t k = ev g t k) /\ (forall t k, (t <= M)%N -> eb g' t k = eb g t k).

Lemma greater_le e l M : (fold_right (fun x n => N.max (greater_id x) n) 0%N (e :: l) <= M)%N -> (greater_id e <= M)%N /\ (fold_right (fun x n => N.max (greater_id x) n) 0%N l <= M)%N.
Proof. cbn [fold_right]. lia. Qed.

Section Tag.
Variables (g g' : env) (M tag : N) (V : list R) (B : list N).
Hypothesis G : binds g g' M tag V B.
Lemma tag_sem e : forall v b e', tag_vars tag e v b = Some e' -> (greater_id e <= M)%N ->
  sread g e (skipn v V, skipn b B) = (sem g' e', (skipn (v + count_vals e) V, skipn (b + count_bits e) B)).
Proof.
  destruct G as (G1 & G2 & G3 & G4).
  induction e as [z|t i| |z|t i| |z|z|pg x IH|c x IHc IHx|f l IH] using expr_ind'; intros v b e' E K; cbn [tag_vars] in E;
    try (injection E as <-; cbn [sread sem count_vals count_bits]; rewrite !Nat.add_0_r; reflexivity).
  - injection E as <-. cbn [greater_id] in K. cbn [sread sem count_vals count_bits]. rewrite !Nat.add_0_r, G3 by exact K. reflexivity.
  - injection E as <-. cbn [sread sem count_vals count_bits fst snd]. rewrite G1, Nat2N.id, Nat.add_0_r.
    pose proof (skipn_hd V v) as H. destruct (skipn v V) as [|x r]; destruct H as [-> ->]; reflexivity.
  - injection E as <-. cbn [greater_id] in K. cbn [sread sem count_vals count_bits]. rewrite !Nat.add_0_r, G4 by exact K. reflexivity.
  - injection E as <-. cbn [sread sem count_vals count_bits fst snd]. rewrite G2, Nat2N.id, Nat.add_0_r.
    pose proof (skipn_hd B b) as H. destruct (skipn b B) as [|x r]; destruct H as [-> ->]; reflexivity.
  - destruct (tag_vars tag x v b) as [y|] eqn:Ey; [|discriminate]. cbn [greater_id] in K. pose proof (IH _ _ _ Ey K) as H.
    cbn [sread count_vals count_bits]. rewrite H. cbn [snd]. f_equal.
    unfold dyn_blade_t in E. destruct (N.eqb pg 1); destruct y; try (injection E as <-; reflexivity); destruct (N.eqb _ _); try discriminate; injection E as <-; reflexivity.
  - destruct (tag_vars tag c v b) as [d|] eqn:Ed; [|discriminate]. cbn [greater_id] in K.
    destruct (tag_vars tag x (v + count_vals c) (b + count_bits c)) as [y|] eqn:Ey; [|discriminate]. injection E as <-.
    assert (K1 : (greater_id c <= M)%N) by lia. assert (K2 : (greater_id x <= M)%N) by lia.
    cbn [sread count_vals count_bits]. rewrite (IHc _ _ _ Ed K1). cbn [snd]. rewrite (IHx _ _ _ Ey K2). cbn [snd]. rewrite !Nat.add_assoc. f_equal.
    destruct (component_t_cases d y) as [->|[-> _]]; reflexivity.
  - cbn [sread count_vals count_bits]. cbn [greater_id] in K.
    match type of E with context [?go l v b] => set (tags := go) in E end.
    match goal with |- context [?go l (skipn v V, skipn b B)] => set (reads := go) end.
    destruct (tags l v b) as [l'|] eqn:El; [|discriminate]. injection E as <-. cbn [sem].
    assert (H : reads l (skipn v V, skipn b B) = (map (sem g') l', (skipn (v + fold_right (fun x n => (count_vals x + n)%nat) 0%nat l) V, skipn (b + fold_right (fun x n => (count_bits x + n)%nat) 0%nat l) B))).
    { clear -IH El K. revert v b l' El. induction l as [|x l Hl]; intros v b l' El.
      - cbn in El. injection El as <-. cbn. rewrite !Nat.add_0_r. reflexivity.
      - cbn in El. destruct (tag_vars tag x v b) as [y|] eqn:Ey; [|discriminate]. fold tags in El.
        destruct (tags l (v + count_vals x)%nat (b + count_bits x)%nat) as [l''|] eqn:El'; [|discriminate]. injection El as <-.
        apply greater_le in K as [K1 K2]. inversion IH as [|? ? Hx Hxs]; subst.
        cbn. fold reads. rewrite (Hx _ _ _ Ey K1). cbn [fst snd]. rewrite (Hl Hxs K2 _ _ _ El'). cbn [fst snd map]. rewrite !Nat.add_assoc. reflexivity. }
    rewrite H. reflexivity.
Qed.

End Tag.

Section Shape.
Variable tag : N.
Definition tags := fix go (l : list expr) (v b : nat) : option (list expr) :=
  match l with [] => Some [] | x :: xs => y <- tag_vars tag x v b ;; ys <- go xs (v + count_vals x)%nat (b + count_bits x)%nat ;; Some (y :: ys) end.
Lemma tags_Forall2 l : forall v b l', tags l v b = Some l' -> Forall2 (fun x y => exists v b, tag_vars tag x v b = Some y) l l'.
Proof.
  induction l as [|x l IH]; intros v b l' E; cbn in E; [injection E as <-; constructor|]. destruct (tag_vars tag x v b) eqn:Ex; [|discriminate].
  fold tags in E. destruct (tags l _ _) eqn:El; [|discriminate]. injection E as <-. constructor; eauto.
Qed.
Lemma tag_fn f l v b e' : tag_vars tag (Fn f l) v b = Some e' -> exists l', e' = Fn f l' /\ tags l v b = Some l'.
Proof. intros E. cbn [tag_vars] in E. fold tags in E. destruct (tags l v b); [|discriminate]. injection E as <-. eauto. Qed.
Lemma tag_atomic e v b e' : tag_vars tag e v b = Some e' -> no_blade e = true -> atomic e' = atomic e.
Proof.
  destruct e; intros E N; try discriminate N; try (cbn in E; injection E as <-; reflexivity). apply tag_fn in E as (l' & -> & _). reflexivity.
Qed.
Lemma tag_shape e : forall v b e', tag_vars tag e v b = Some e' -> no_blade e = true ->
  no_blade e' = true /\ is_constant e' = is_constant e /\ (wf e = true -> wf e' = true).
Proof.
  induction e as [z|t i| |z|t i| |z|z|pg x IH|c x IHc IHx|f l IH] using expr_ind'; intros v b e' E N; try discriminate N;
    try (cbn in E; injection E as <-; auto; fail).
  pose proof E as E0. apply tag_fn in E as (l' & -> & E). apply tags_Forall2 in E. cbn [no_blade is_constant] in *.
  assert (H : forallb no_blade l' = true /\ forallb is_constant l' = forallb is_constant l /\ (forallb wf l = true -> forallb wf l' = true) /\ length l' = length l).
  { clear E0. induction E as [|x y l l' (v' & b' & Hxy) E IHl]; [auto|]. inversion IH; subst. cbn [forallb] in *. apply andb_prop in N as [N1 N2].
    destruct (H1 _ _ _ Hxy N1) as (A1 & A2 & A3). destruct (IHl H2 N2) as (B1 & B2 & B3 & B4). rewrite A1, A2, B1, B2, !andb_true_iff. cbn [length]. intuition congruence. }
  destruct H as (A & B & C & D). split; [exact A|]. split; [exact B|]. intros W.
  destruct f; cbn [wf] in *; try (apply C; exact W; fail).
  - destruct E as [|x1 y1 l1 m1 (v1 & b1 & H1) E]; [discriminate|]. destruct E as [|x2 y2 l2 m2 (v2 & b2 & H2) E]; [discriminate|]. destruct E; [|discriminate].
    rewrite !andb_true_iff in *. cbn [forallb] in *. rewrite !andb_true_iff in *. rewrite (tag_atomic _ _ _ _ H1) by tauto. tauto.
  - rewrite !andb_true_iff in *. rewrite D. tauto.
  - rewrite !andb_true_iff in *. rewrite D. tauto.
Qed.
End Shape.

Section Read.
Variables (g g' : env) (M tag : N) (V : list R) (B : list N).
Hypothesis G : binds g g' M tag V B.
Lemma tag_comp e v b e' p s' : tag_vars tag e v b = Some e' -> comp_ok e = true -> comp_flat e = true -> (greater_id e <= M)%N ->
  scomp g e (skipn v V, skipn b B) p s' ->
  s' = (skipn (v + count_vals e) V, skipn (b + count_bits e) B) /\ comp_ok e' = true /\ comp_flat e' = true /\
  exists p', dcomp g' e' p' /\ meq [p'] [p] /\ (forall n, in_space n [p] -> in_space n [p']).
Proof.
  intros E O Fl K S. destruct e as [| | | | | | | | |c x|]; try contradiction. apply comp_ok_comp in O as [Wc Ox]. cbn [tag_vars] in E.
  destruct (tag_vars tag c v b) as [d|] eqn:Ed; [|discriminate]. destruct (tag_vars tag x _ _) as [y|] eqn:Ey; [|discriminate]. injection E as <-.
  cbn [greater_id] in K. assert (K1 : (greater_id c <= M)%N) by lia. assert (K2 : (greater_id x <= M)%N) by lia.
  destruct S as (s1 & S1 & S2 & S3). rewrite (tag_sem g g' M tag V B G c _ _ _ Ed K1) in S1. injection S1 as S1 <-.
  assert (Nc : no_blade c = true) by (destruct x; try discriminate Ox; cbn [comp_flat] in Fl; rewrite ?andb_true_iff in Fl; tauto).
  destruct (tag_shape tag c _ _ _ Ed Nc) as (Nd & _ & Wd). specialize (Wd Wc).
  assert (H : s' = (skipn (v + (count_vals c + count_vals x)) V, skipn (b + (count_bits c + count_bits x)) B) /\ blade_ok y = true /\ comp_flat (Comp d y) = true /\
    (exists k, dblade g' y k /\ (fst p <> 0 -> k = snd p /\ grade_declared y k) /\ (forall n, (snd p < 2 ^ n)%N -> (k < 2 ^ n)%N))).
  { rewrite !Nat.add_assoc. destruct x as [| | | | | | |z|pg z| |]; try contradiction.
    - cbn in Ey. injection Ey as <-. cbn [count_vals count_bits]. rewrite !Nat.add_0_r. destruct S2 as [S2 ->]. split; [reflexivity|]. split; [exact Ox|]. split; [exact Nd|].
      exists (snd p). cbn. auto.
    - cbn [tag_vars] in Ey. destruct (tag_vars tag z _ _) as [w|] eqn:Ew; [|discriminate]. cbn [greater_id] in K2. cbn [sblade] in S2. destruct S2 as [S2 L64].
      rewrite (tag_sem g g' M tag V B G z _ _ _ Ew K2) in S2. injection S2 as S2 <-. cbn [count_vals count_bits]. split; [reflexivity|].
      cbn [blade_ok] in Ox. rewrite !andb_true_iff, negb_true_iff in Ox. destruct Ox as [[Wz Cz] Lpg].
      cbn [comp_flat] in Fl. apply andb_prop in Fl as [_ Nz]. destruct (tag_shape tag z _ _ _ Ew Nz) as (Nw & Cw & Ww). rewrite Cz in Cw. specialize (Ww Wz).
      assert (Nb : forall q, w <> CBits q) by (intros q ->; discriminate Cw).
      unfold dyn_blade_t in Ey. destruct (N.eqb_spec pg 1) as [->|Npg].
      + assert (y = CBlade 0) as -> by (destruct w; try congruence; exfalso; eapply Nb; reflexivity). split; [reflexivity|]. split; [exact Nd|].
        exists 0%N. split; [reflexivity|]. split; [|intros n _; apply N.neq_0_lt_0, N.pow_nonzero; discriminate]. intros Np. specialize (S3 Np). cbn [grade_declared] in S3. split; [|exact I].
        assert (G0 : grade_of (snd p) = 0%N) by (destruct (grade_of (snd p)) as [|[]]; [reflexivity|discriminate S3..]).
        symmetry. exact (grade_0 _ L64 G0).
      + assert (y = DBlade pg w) as -> by (destruct w; try congruence; exfalso; eapply Nb; reflexivity). cbn [blade_ok comp_flat]. rewrite Ww, Cw, Lpg, Nd, Nw. split; [reflexivity|]. split; [reflexivity|].
        exists (snd p). split; [exact S2|]. split; [auto|auto]. }
  destruct H as (-> & Oy & Fy & k & D1 & D2 & D3). split; [reflexivity|]. destruct (component_t_ok d y Wd Oy) as [C1 C2]. split; [exact C1|].
  split; [destruct (component_t_cases d y) as [->|[-> _]]; [exact Fy|reflexivity]|].
  destruct (C2 g' (fst p, k)) as (p' & P1 & P2 & P3).
  { split; [exact S1|]. split; [exact D1|]. cbn [fst snd]. intros Np. apply D2. exact Np. }
  exists p'. split; [exact P1|]. split.
  - rewrite P2. destruct (Req_EM_T (fst p) 0) as [Z|Np].
    + destruct p as [u q]. cbn [fst snd] in *. rewrite Z. rewrite (meq_zero k), meq_zero. reflexivity.
    + destruct (D2 Np) as [-> _]. destruct p. reflexivity.
  - intros n Hn. apply P3. inversion Hn; subst. constructor; [|constructor]. cbn [snd]. apply D3. assumption.
Qed.

Lemma tag_comps l : forall v b l' m s', tags tag l v b = Some l' -> forallb comp_ok l = true -> forallb comp_flat l = true ->
  (fold_right (fun x n => N.max (greater_id x) n) 0%N l <= M)%N ->
  scomps g l (skipn v V, skipn b B) m s' ->
  forallb comp_ok l' = true /\ forallb comp_flat l' = true /\ length l' = length l /\
  exists m', Forall2 (dcomp g') l' m' /\ meq m' m /\ (forall n, in_space n m -> in_space n m').
Proof.
  induction l as [|e l IH]; intros v b l' m s' E O Fl K S; cbn in E.
  - injection E as <-. destruct m; [|contradiction]. split; [reflexivity|]. split; [reflexivity|]. split; [reflexivity|]. exists []. split; [constructor|]. split; [intros k; reflexivity|auto].
  - fold (tags tag) in E. destruct (tag_vars tag e v b) as [e'|] eqn:Ee; [|discriminate]. destruct (tags tag l _ _) as [l''|] eqn:El; [|discriminate]. injection E as <-.
    cbn [forallb] in O, Fl. apply andb_prop in O as [O1 O2]. apply andb_prop in Fl as [F1 F2]. apply greater_le in K as [K1 K2].
    destruct m as [|p m]; [contradiction|]. destruct S as (s1 & S1 & S2). destruct (tag_comp _ _ _ _ _ _ Ee O1 F1 K1 S1) as (-> & C1 & C2 & p' & P1 & P2 & P3).
    destruct (IH _ _ _ _ _ El O2 F2 K2 S2) as (A1 & A2 & A3 & m' & M1 & M2 & M3). cbn [forallb length]. rewrite C1, C2, A1, A2, A3.
    split; [reflexivity|]. split; [reflexivity|]. split; [reflexivity|]. exists (p' :: m'). split; [constructor; assumption|]. split.
    + intros k. specialize (P2 k). specialize (M2 k). destruct p, p'. cbn [coef] in *. lra.
    + intros n Hn. apply in_space_cons in Hn as [X Y]. apply in_space_cons. split; [apply P3; exact X|apply M3; exact Y].
Qed.
Lemma tag_object e e' m : tag_vars tag e 0 0 = Some e' -> object_ok e = true -> (greater_id e <= M)%N ->
  (exists s', scomps g (components e) (V, B) m s') ->
  object_ok e' = true /\ exists m', den g' e' m' /\ meq m' m /\ (forall n, in_space n m -> in_space n m').
Proof.
  intros E O K (s' & S). unfold object_ok in *. change (components e) with (comps_of e) in *. apply andb_prop in O as [O Fl]. destruct (mv_ok_comps e O) as [Oc Ne].
  assert (T : exists l', tags tag (comps_of e) 0 0 = Some l' /\ match e with Fn NAdd _ => e' = Fn NAdd l' | _ => l' = [e'] end).
  { destruct e as [| | | | | | | | |c x|f l]; try discriminate O; [unfold comps_of, tags; rewrite E; eauto|].
    destruct f; try discriminate O. apply tag_fn in E as (l' & -> & E). exists l'. auto. }
  destruct T as (l' & T1 & T2).
  assert (Kl : (fold_right (fun x n => N.max (greater_id x) n) 0%N (comps_of e) <= M)%N).
  { destruct e as [| | | | | | | | |c x|f l]; try discriminate O; [cbn [comps_of fold_right]; lia|]. destruct f; try discriminate O. exact K. }
  destruct (tag_comps _ _ _ _ _ _ T1 Oc Fl Kl S) as (A1 & A2 & A3 & m' & M1 & M2 & M3).
  assert (H : comps_of e' = l' /\ mv_ok e' = true).
  { destruct e as [| | | | | | | | |c x|f l]; try discriminate O.
    - subst l'. cbn [forallb] in A1. rewrite andb_true_r in A1. destruct e' as [| | | | | | | | |c' x'|]; try discriminate A1. auto.
    - destruct f; try discriminate O. subst e'. split; [reflexivity|]. cbn [mv_ok comps_of] in *. apply andb_prop in O as [O _]. rewrite A1, A3, O. reflexivity. }
  destruct H as [H1 H2]. split.
  - apply andb_true_iff. split; [exact H2|]. change (components e') with (comps_of e'). rewrite H1. exact A2.
  - exists m'. split; [apply den_iff; rewrite H1; exact M1|auto].
Qed.
End Read.

(** Without stored entries, reading is evaluating. *)
Lemma sread_plain g g' e : (forall t k, (t <= greater_id e)%N -> ev g' t k = ev g t k) -> (forall t k, (t <= greater_id e)%N -> eb g' t k = eb g t k) ->
  has_stored e = false -> no_blade e = true -> forall s, sread g e s = (sem g' e, s).
Proof.
  induction e as [z|t i| |z|t i| |z|z|pg x IH|c x IHc IHx|f l IH] using expr_ind'; intros H1 H2 N B s; try discriminate; cbn [sread sem greater_id] in *; try reflexivity.
  - rewrite H1 by lia. reflexivity.
  - rewrite H2 by lia. reflexivity.
  - cbn [has_stored no_blade] in *. match goal with |- context [?go l s] => set (reads := go) end.
    assert (H : reads l s = (map (sem g') l, s)); [|rewrite H; reflexivity].
    revert s. induction IH as [|x l Hx Hl IHl]; intros s; [reflexivity|]. cbn. fold reads. cbn [existsb forallb fold_right] in *. apply orb_false_elim in N as [N1 N2]. apply andb_prop in B as [B1 B2].
    rewrite Hx; auto; [|intros; apply H1; lia|intros; apply H2; lia]. cbn [fst snd]. rewrite IHl; auto; intros; [apply H1; lia|apply H2; lia].
Qed.
Lemma plain_comp g g' e : (forall t k, (t <= greater_id e)%N -> ev g' t k = ev g t k) -> (forall t k, (t <= greater_id e)%N -> eb g' t k = eb g t k) ->
  has_stored e = false -> comp_ok e = true -> comp_flat e = true -> forall s p s', scomp g e s p s' -> s' = s /\ dcomp g' e p.
Proof.
  intros H1 H2 N O Fl s p s' S. destruct e as [| | | | | | | | |c x|]; try contradiction. cbn [has_stored greater_id] in *. apply orb_false_elim in N as [N1 N2].
  destruct S as (s1 & S1 & S2 & S3).
  assert (Nc : no_blade c = true) by (destruct x; try discriminate Fl; cbn [comp_flat] in Fl; rewrite ?andb_true_iff in Fl; tauto).
  rewrite (sread_plain g g' c) in S1; auto; [|intros; apply H1; lia|intros; apply H2; lia]. injection S1 as S1 <-.
  destruct x as [| | | | | | |z|pg z| |]; try contradiction; cbn [sblade] in S2.
  - destruct S2 as [S2 ->]. split; [reflexivity|]. split; [exact S1|]. split; [exact S2|exact S3].
  - destruct S2 as [S2 _]. cbn [comp_flat has_stored greater_id] in *. apply andb_prop in Fl as [_ Nz].
    rewrite (sread_plain g g' z) in S2; auto; [|intros; apply H1; lia|intros; apply H2; lia]. injection S2 as S2 <-.
    split; [reflexivity|]. split; [exact S1|]. split; [exact S2|exact S3].
Qed.
Lemma plain_comps g g' l : (forall t k, (t <= fold_right (fun x n => N.max (greater_id x) n) 0%N l)%N -> ev g' t k = ev g t k) -> (forall t k, (t <= fold_right (fun x n => N.max (greater_id x) n) 0%N l)%N -> eb g' t k = eb g t k) ->
  existsb has_stored l = false -> forallb comp_ok l = true -> forallb comp_flat l = true -> forall s m s', scomps g l s m s' -> Forall2 (dcomp g') l m.
Proof.
  induction l as [|e l IH]; intros H1 H2 N O Fl s m s' S; destruct m as [|p m]; try contradiction; [constructor|].
  destruct S as (s1 & S1 & S2). cbn [existsb forallb fold_right] in *. apply orb_false_elim in N as [N1 N2]. apply andb_prop in O as [O1 O2]. apply andb_prop in Fl as [F1 F2].
  constructor.
  - eapply (plain_comp g g' e); eauto; intros; [apply H1; lia|apply H2; lia].
  - eapply IH; eauto; intros; [apply H1; lia|apply H2; lia].
Qed.

(** Tags given to the stored inputs. *)
Lemma arguments_spec : forall l base args k a, arguments base l = Some args -> nth_error l k = Some a ->
  exists e, nth_error args k = Some e /\
  (if has_stored (cexpr a) then exists j, nth_error (stored_inputs l) j = Some a /\ tag_vars (base + 1 + N.of_nat j) (cexpr a) 0 0 = Some e else e = cexpr a).
Proof.
  induction l as [|x l IH]; intros base args k a E K; [destruct k; discriminate|]. cbn [arguments stored_inputs filter] in *.
  destruct (has_stored (cexpr x)) eqn:S.
  - destruct (tag_vars (base + 1) (cexpr x) 0 0) as [e|] eqn:Ee; [|discriminate]. destruct (arguments (base + 1) l) as [r|] eqn:Er; [|discriminate]. injection E as <-.
    destruct k as [|k]; cbn [nth_error] in *.
    + injection K as <-. exists e. split; [reflexivity|]. rewrite S. exists 0%nat. split; [reflexivity|]. rewrite N.add_0_r. exact Ee.
    + destruct (IH _ _ _ _ Er K) as (e' & N & H). exists e'. split; [exact N|]. destruct (has_stored (cexpr a)); [|exact H]. destruct H as (j & J1 & J2). exists (Datatypes.S j). split; [exact J1|].
      rewrite <- J2. f_equal. lia.
  - destruct (arguments base l) as [r|] eqn:Er; [|discriminate]. injection E as <-. destruct k as [|k]; cbn [nth_error] in *.
    + injection K as <-. exists (cexpr x). rewrite S. auto.
    + apply (IH _ _ _ _ Er K).
Qed.
Lemma base_le l : forall a, In a l -> (greater_id (cexpr a) <= base_id l)%N.
Proof. unfold base_id. induction l as [|x l IH]; intros a []; cbn [fold_right]; [subst; lia|]. specialize (IH _ H). lia. Qed.
Lemma nested_binds base l g j a M : nth_error l j = Some a -> (M <= base)%N -> binds g (nested base l g) M (base + 1 + N.of_nat j) (cvals a) (cbits a).
Proof.
  intros H K. assert (E : forall t, t = (base + 1 + N.of_nat j)%N -> N.ltb base t = true /\ N.to_nat (t - base - 1) = j) by (intros t ->; split; [apply N.ltb_lt; lia|lia]).
  destruct (E _ eq_refl) as [E1 E2]. unfold nested, binds, ctx_env. cbn [ev eb]. rewrite E1, E2, H. split; [reflexivity|]. split; [reflexivity|].
  split; intros t k Ht; destruct (N.ltb_spec base t); auto; lia.
Qed.
(** An argument of a context has the value of its input. *)
Theorem arguments_value l args g k a m : arguments (base_id l) l = Some args -> nth_error l k = Some a -> object_ok (cexpr a) = true -> value_in g a m ->
  exists e, nth_error args k = Some e /\ object_ok e = true /\
  exists m', den (nested (base_id l) (stored_inputs l) g) e m' /\ meq m' m.
Proof.
  intros E K O (m0 & S & Q). destruct (arguments_spec _ _ _ _ _ E K) as (e & N & H). exists e. split; [exact N|].
  pose proof (base_le l a (nth_error_In _ _ K)) as Kb. destruct (has_stored (cexpr a)) eqn:St.
  - destruct H as (j & J1 & J2). destruct (tag_object g (nested (base_id l) (stored_inputs l) g) (base_id l) _ _ _ (nested_binds _ _ _ _ _ _ J1 (N.le_refl _)) _ _ m0 J2 O Kb (ex_intro _ _ S)) as (A & m' & M1 & M2 & _).
    split; [exact A|]. exists m'. split; [exact M1|]. intros i. rewrite M2. apply Q.
  - subst e. split; [exact O|]. exists m0. split; [|exact Q]. apply den_iff. unfold object_ok in O. apply andb_prop in O as [O Fl]. destruct (mv_ok_comps _ O) as [Oc _].
    assert (X : (fold_right (fun x n => N.max (greater_id x) n) 0%N (comps_of (cexpr a)) <= base_id l)%N /\ existsb has_stored (comps_of (cexpr a)) = false).
    { destruct (cexpr a) as [| | | | | | | | |c x|f' l']; try discriminate O; [cbn [comps_of fold_right existsb]; rewrite St; split; [lia|reflexivity]|]. destruct f'; try discriminate O. split; [exact Kb|exact St]. }
    destruct X as [X1 X2]. eapply (plain_comps g); eauto; intros t k' Ht; cbn [nested ev eb]; destruct (N.ltb_spec (base_id l) t); auto; lia.
Qed.
