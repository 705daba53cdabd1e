(** Proofs about the construction of vectors and of multivector types with stored coefficients. *)
From Coq Require Import NArith ZArith List Bool Reals Lra Lia Sorting.Sorted.
From Verif Require Import Bits BitsBase BitsOnes BitsProofs Visit VisitProofs Expr ExprBase Sem Wf SpecBits SpecMv MvBase Simp SpecOrder OrderProofs GradeProofs Mapping
  GumProofs Comp EvalC SpecEval Lazy SpecLazy LazyProofs LazyProofs2 Api SpecApi ApiProofs ForEach Build SpecUtil UtilProofs Copy CopyProofs.
Import ListNotations.
Local Open Scope R_scope.

(** *** Sums of consecutive parts *)
Lemma canonical_app A B : canonical (A ++ B) -> canonical A /\ canonical B.
Proof.
  induction A as [|p A IH]; intros H; [split; [apply canonical_nil|exact H]|]. cbn [app] in H. destruct (canonical_tail _ _ H) as (C & F & N & L). destruct (IH C) as [CA CB]. split; [|exact CB].
  apply canonical_cons; auto. rewrite map_app, Forall_app in F. tauto.
Qed.
Lemma cadd_append F : forall A B n, canonical (A ++ B) -> (length A < n)%nat -> cadd F n (mv_of A) (mv_of B) = Some (mv_of (A ++ B)).
Proof.
  intros A. induction A as [|[k c] A IH]; intros B [|n] C L; try (cbn [length] in L; lia); cbn [cadd].
  - destruct B as [|p B]; [reflexivity|]. unfold cadd_step. rewrite csplit_mv. unfold cadd_zero. rewrite zero_mv by (apply canonical_tail in C; tauto). reflexivity.
  - destruct (canonical_app _ _ C) as [CA CB]. destruct (canonical_tail _ _ CA) as (CA' & AA & Nc & Lk). cbn [fst snd app length] in *. destruct (canonical_tail _ _ C) as (CT & AT & _). cbn [fst] in AT.
    destruct B as [|[l d] B].
    + unfold cadd_step. rewrite csplit_mv. unfold cadd_zero. rewrite zero_mv by exact Nc. rewrite app_nil_r. reflexivity.
    + destruct (canonical_tail _ _ CB) as (CB' & AB & Nd & Ll). cbn [fst snd] in *. unfold cadd_step. rewrite !csplit_mv. unfold cadd_zero. rewrite !zero_mv by assumption. cbn [andb fst snd].
      assert (K : blade_lt k l). { rewrite Forall_forall in AT. apply AT. rewrite map_app. apply in_or_app. right. left. reflexivity. }
      assert (E : expr_eqb (CBlade k) (CBlade l) = false). { apply not_true_iff_false. rewrite expr_eqb_eq. intros [= ->]. exact (blade_lt_irrefl _ K). }
      assert (L1 : lt (CBlade k) (CBlade l) = true) by (apply lt_blade; assumption). rewrite E, L1. destruct A as [|p A].
      * destruct B as [|q B]; [reflexivity|]. change (mk_add (map entry ((k, c) :: (l, d) :: q :: B)) = Some (mv_of ((k, c) :: (l, d) :: q :: B))). apply mk_add_entries.
      * rewrite mk_add_entries. rewrite (IH _ n CT) by lia. change (Comp c (CBlade k)) with (mv_of [(k, c)]).
        (* one entry in front *)
        destruct n as [|n]; [cbn [length] in L; lia|]. cbn [app] in *. cbn [cadd]. unfold cadd_step. rewrite !csplit_mv. unfold cadd_zero. rewrite (zero_mv (k, c) []) by exact Nc. rewrite zero_mv by (apply canonical_tail in CT; tauto). cbn [andb fst snd].
        inversion AT as [|? ? Kp _]; subst. assert (E' : expr_eqb (CBlade k) (CBlade (fst p)) = false). { apply not_true_iff_false. rewrite expr_eqb_eq. intros [= X]. rewrite X in Kp. exact (blade_lt_irrefl _ Kp). }
        assert (L2 : lt (CBlade k) (CBlade (fst p)) = true) by (apply lt_blade; [exact Lk| |exact Kp]; apply canonical_tail in CT; tauto). rewrite E', L2.
        destruct (A ++ (l, d) :: B) as [|q Q] eqn:EQ; [destruct A; discriminate EQ|]. change (mk_add (map entry ((k, c) :: p :: q :: Q)) = Some (mv_of ((k, c) :: p :: q :: Q))). apply mk_add_entries.
Qed.

(** *** Types with stored coefficients *)
Definition svs (l : list N) : entries := map (fun b => (b, SV)) l.
Lemma svs_canonical l : StronglySorted blade_lt l -> Forall (fun b => (b < 2 ^ 63)%N) l -> canonical (svs l).
Proof.
  intros S H. split.
  - unfold svs. rewrite map_map. cbn [fst]. rewrite map_id. exact S.
  - apply Forall_map. eapply Forall_impl; [|exact H]. intros b Hb. cbn [fst snd]. split; [discriminate|exact Hb].
Qed.
Lemma same_grade_sorted l g : StronglySorted N.lt l -> (forall z, In z l -> grade_of z = g) -> StronglySorted blade_lt l.
Proof.
  intros S H. induction S as [|x l S IH A]; constructor.
  - apply IH. intros z Hz. apply H. right. exact Hz.
  - rewrite Forall_forall in *. intros z Hz. right. split; [|exact (A z Hz)]. rewrite (H x), (H z); [reflexivity|right; exact Hz|left; reflexivity].
Qed.
Lemma component_sv b : component_t SV (CBlade b) = mv_of [(b, SV)]. Proof. reflexivity. Qed.
Lemma kvector_type F n mask : (2 <= n)%nat -> forall fuel b l, kvector_bitsets fuel mask b = Some l -> canonical (svs l) -> kvector_t F n fuel mask b = Some (stored_type l).
Proof.
  intros Hn. induction fuel as [|fuel IH]; intros b l H C; [discriminate|]. cbn [kvector_bitsets kvector_t] in *. destruct (b =? 0)%N; [apply Some_inj in H; subst l; reflexivity|].
  destruct (next_combination b mask) as [b'|]; [|discriminate]. destruct (kvector_bitsets fuel mask b') as [l'|] eqn:K; [|discriminate]. apply Some_inj in H. subst l.
  assert (C' : canonical (svs l')) by (apply canonical_tail in C; tauto). rewrite (IH b' l' K C'). rewrite component_sv. unfold stored_type. fold (svs l'). rewrite cadd_append; [reflexivity|exact C|cbn [length]; lia].
Qed.
Lemma kvector_more : forall fuel mask b l, kvector_bitsets fuel mask b = Some l -> forall fuel', (fuel <= fuel')%nat -> kvector_bitsets fuel' mask b = Some l.
Proof.
  induction fuel as [|fuel IH]; intros mask b l H fuel' L; [discriminate|]. destruct fuel' as [|fuel']; [lia|]. cbn [kvector_bitsets] in *. destruct (b =? 0)%N; [exact H|]. destruct (next_combination b mask) as [b'|]; [|discriminate].
  destruct (kvector_bitsets fuel mask b') as [l'|] eqn:K; [|discriminate]. rewrite (IH _ _ _ K fuel' ltac:(lia)). exact H.
Qed.
Lemma first_mask k : (k <= 63)%N -> first_combination k = (2 ^ k - 1)%N.
Proof.
  intros Hk. assert (2 ^ k <= 2 ^ 63)%N by (apply N.pow_le_mono_r; lia). change (2 ^ 63)%N with 9223372036854775808%N in H. pose proof (pow2_pos k).
  unfold first_combination. rewrite N.shiftl_mul_pow2, N.mul_1_l. rewrite wrap_small by (change (2 ^ 64)%N with 18446744073709551616%N; lia). apply dec64_pos; auto. change (2 ^ 64)%N with 18446744073709551616%N; lia.
Qed.
Lemma sorted_app (l r : list N) : StronglySorted blade_lt l -> StronglySorted blade_lt r -> (forall x y, In x l -> In y r -> blade_lt x y) -> StronglySorted blade_lt (l ++ r).
Proof.
  intros Sl Sr H. induction Sl as [|x l Sl IH A]; [exact Sr|]. cbn [app]. constructor; [apply IH; intros a b Ha Hb; apply H; [right|]; assumption|]. apply Forall_app. split; [exact A|]. apply Forall_forall. intros y Hy. apply H; [left; reflexivity|exact Hy].
Qed.
(** The blades of the space, of the grades [first..last], in canonical order. *)
Definition blades_of (dim first last : N) (l : list N) : Prop :=
  StronglySorted blade_lt l /\ forall b, In b l <-> (b < 2 ^ dim)%N /\ (first <= grade_of b <= last)%N.
Lemma small_blade dim b : (dim <= 63)%N -> (b < 2 ^ dim)%N -> (b < 2 ^ 63)%N.
Proof. intros H L. apply N.lt_le_trans with (2 ^ dim)%N; [exact L|]. apply N.pow_le_mono_r; lia. Qed.
Lemma blades_canonical dim first last l : (dim <= 63)%N -> blades_of dim first last l -> canonical (svs l).
Proof. intros H [S I]. apply svs_canonical; [exact S|]. apply Forall_forall. intros b Hb. apply I in Hb. exact (small_blade _ _ H (proj1 Hb)). Qed.
Lemma grade_type F dim g : (g <= dim)%N -> (dim <= 63)%N ->
  exists depth l, blades_of dim g g l /\ forall n fuel, (2 <= n)%nat -> (depth <= fuel)%nat ->
  (if (g =? 0)%N then Some (Comp SV (CBlade 0)) else kvector_t F n fuel (first_combination dim) (first_combination g)) = Some (stored_type l).
Proof.
  intros H D. destruct (N.eqb_spec g 0) as [->|N].
  - exists 0%nat, [0%N]. split; [|reflexivity]. split; [constructor; constructor|]. intros b. split.
    + intros [<-|[]]. split; [apply pow2_pos|]. change (grade_of 0) with 0%N. lia.
    + intros [L G]. left. symmetry. apply grade_0; [|lia]. apply N.lt_trans with (2 ^ 63)%N; [exact (small_blade _ _ D L)|reflexivity].
  - destruct (kvector_enumeration g dim ltac:(lia) H D) as (depth & l & E & S & I). exists depth, l.
    assert (B : blades_of dim g g l). { split; [apply (same_grade_sorted l g S); intros z Hz; apply I in Hz; tauto|]. intros b. rewrite I. split; intros [X Y]; (split; [exact X|lia]). }
    split; [exact B|]. intros n fuel Hn Hf. rewrite (first_mask dim D). apply kvector_type; [exact Hn|exact (kvector_more _ _ _ _ E _ Hf)|exact (blades_canonical _ _ _ _ D B)].
Qed.
Lemma multivector_type F dim : (dim <= 63)%N -> forall d first, (first + N.of_nat d <= dim)%N ->
  exists depth l, blades_of dim first (first + N.of_nat d) l /\ forall n fuel, (depth <= n)%nat -> (depth <= fuel)%nat ->
  multivector_t F n fuel (first_combination dim) first d = Some (stored_type l).
Proof.
  intros D. induction d as [|d IH]; intros first H.
  - destruct (grade_type F dim first ltac:(lia) D) as (depth & l & B & E). exists (2 + depth)%nat, l. rewrite N.add_0_r. split; [exact B|]. intros n fuel Hn Hf. cbn [multivector_t]. apply E; lia.
  - destruct (grade_type F dim first ltac:(lia) D) as (d1 & l1 & B1 & E1). destruct (IH (first + 1)%N ltac:(lia)) as (d2 & l2 & B2 & E2). exists (2 + d1 + d2 + length l1)%nat, (l1 ++ l2).
    assert (B : blades_of dim first (first + N.of_nat (S d)) (l1 ++ l2)).
    { destruct B1 as [S1 I1], B2 as [S2 I2]. split.
      - apply sorted_app; [exact S1|exact S2|]. intros x y Hx Hy. apply I1 in Hx. apply I2 in Hy. left. lia.
      - intros b. rewrite in_app_iff, I1, I2. lia. }
    split; [exact B|]. intros n fuel Hn Hf. cbn [multivector_t]. rewrite E2 by lia. specialize (E1 n fuel ltac:(lia) ltac:(lia)).
    assert (G : forall e, e = stored_type l1 -> cadd F n e (stored_type l2) = Some (stored_type (l1 ++ l2))).
    { intros e ->. unfold stored_type. rewrite map_app. apply cadd_append; [|rewrite map_length; lia]. rewrite <- map_app. exact (blades_canonical _ _ _ _ D B). }
    destruct (first =? 0)%N; [apply Some_inj in E1; apply G; exact E1|]. rewrite E1. apply G. reflexivity.
Qed.
Theorem full_multivector_ok F dim first last : (first <= last)%N -> (last <= dim)%N -> (dim <= 63)%N ->
  exists depth l, (StronglySorted blade_lt l /\ forall b, In b l <-> (b < 2 ^ dim)%N /\ (first <= grade_of b <= last)%N) /\
  forall n fuel, (depth <= n)%nat -> (depth <= fuel)%nat -> full_multivector F n fuel dim first last = Some (stored_type l).
Proof.
  intros H1 H2 H3. destruct (multivector_type F dim H3 (N.to_nat (last - first)) first ltac:(lia)) as (depth & l & B & E). exists depth, l. split; [|exact E]. unfold blades_of in B. replace (first + N.of_nat (N.to_nat (last - first)))%N with last in B by lia. exact B.
Qed.

(** *** Derived types *)
Lemma derived_ok F n M : (2 <= n)%nat -> canonical M -> M <> [] -> derived F n (mv_of M) = Some (stored_type (map fst M)).
Proof.
  intros Hn C NE. unfold derived. destruct M as [|p M]; [congruence|]. rewrite comps_mv. clear NE. revert p C. induction M as [|q M IH]; intros p C; [reflexivity|].
  change (map entry (p :: q :: M)) with (Comp (snd p) (CBlade (fst p)) :: map entry (q :: M)). destruct (canonical_tail _ _ C) as (C' & A & _ & L).
  assert (E : derived_t F n (Comp (snd p) (CBlade (fst p)) :: map entry (q :: M)) = (t <- derived_t F n (map entry (q :: M)) ;; cadd F n (component_t SV (CBlade (fst p))) t)) by reflexivity. rewrite E, (IH q C'). rewrite component_sv.
  assert (CS : canonical (svs (map fst (p :: q :: M)))). { apply svs_canonical; [exact (proj1 C)|]. apply Forall_map. eapply Forall_impl; [|exact (proj2 C)]. cbn. tauto. }
  exact (cadd_append F [(fst p, SV)] (svs (map fst (q :: M))) n CS ltac:(cbn [length]; lia)).
Qed.

(** *** Vectors *)
Definition coord_ok (x : coordinate) (v : R) (c : expr) : Prop :=
  coord_coef x = Some c /\ ((c = SV /\ coord_vals x = [v]) \/ (exists z, c = CV z /\ v = IZR z /\ coord_vals x = [])) /\ (coord_int x = true -> isint v).
Lemma coord_form x v : coordinate_value x v -> exists c, coord_ok x v c.
Proof.
  destruct x as [int y|a]; cbn [coordinate_value].
  - intros [-> H]. exists SV. split; [reflexivity|]. split; [left; auto|exact H].
  - intros [O V]. pose proof (int_exact 0 a O) as X. assert (HF : Forall (fun e => exact_comp (cint a) e = true) (components (cexpr a))) by (eapply Forall_impl; [|exact X]; cbn; tauto).
    pose proof O as (M & E & C & WS & HM). destruct (value_reads is_integer 0 a _ M O E HF V) as (m0 & R & B & Q & ND & IV). unfold coord_ok. cbn [coord_coef coord_vals coord_int]. rewrite E.
    destruct M as [|[k c] M].
    + exists (CV 0). split; [reflexivity|]. inversion R; subst. specialize (Q 0%N). cbn [coef N.eqb] in Q. assert (v = 0) by lra. split; [right; exists 0%Z; auto|]. intros _. exists 0%Z. auto.
    + inversion HM as [|? ? [Hk Hc] HM']; subst. cbn [fst snd] in *. change (2 ^ 0)%N with 1%N in Hk. assert (k = 0)%N by lia. subst k. destruct M as [|[k' c'] M].
      2: { exfalso. inversion HM' as [|? ? [Hk' _] _]; subst. cbn [fst] in Hk'. change (2 ^ 0)%N with 1%N in Hk'. apply canonical_tail in C. destruct C as (_ & A & _). inversion A as [|? ? A0 _]; subst. cbn [fst] in A0. replace k' with 0%N in A0 by lia. exact (blade_lt_irrefl _ A0). }
      exists c. split; [reflexivity|]. inversion R as [|? w ? ? ? R1|? ? w ? ? ? Ns Nu R1]; subst; inversion R1; subst.
      * specialize (Q 0%N). cbn [coef] in Q. change (0 =? 0)%N with true in Q. cbn iota in Q. assert (v = w) by lra. subst w. split; [left; auto|]. intros I. specialize (IV I). inversion IV; subst. assumption.
      * destruct Hc as [->|[Hc _]]; [congruence|]. destruct c; try discriminate Hc. injection Nu as <-. specialize (Q 0%N). cbn [coef] in Q. change (0 =? 0)%N with true in Q. cbn iota in Q. assert (v = IZR z) by lra. subst v. split; [right; exists z; auto|]. intros _. exists z. reflexivity.
Qed.
Definition bit_list (i dim : N) (M : entries) : Prop := Forall (fun p => (exists j, fst p = 2 ^ j /\ i <= j < dim)%N /\ (snd p = SV \/ is_integer (snd p) = true)) M.
Lemma grade_pow j : (j < 64)%N -> grade_of (2 ^ j) = 1%N.
Proof.
  intros H. assert (A : forallb (fun k => (grade_of (2 ^ k) =? 1)%N) (map N.of_nat (seq 0 64)) = true) by (vm_compute; reflexivity).
  rewrite forallb_forall in A. apply N.eqb_eq, A. apply in_map_iff. exists (N.to_nat j). split; [lia|]. apply in_seq. lia.
Qed.
Lemma vector_head c i : (i < 63)%N -> c = SV \/ is_integer c = true -> exists A, component_t c (CBlade (bit i)) = mv_of A /\ canonical A /\
  ((c = CV 0 /\ A = []) \/ (c <> CV 0 /\ A = [((2 ^ i)%N, c)])).
Proof.
  intros L H. rewrite bit_pow by lia. assert (P : (2 ^ i < 2 ^ 63)%N) by (apply N.pow_lt_mono_r; lia).
  assert (D : c = CV 0 \/ c <> CV 0) by (destruct c as [[]| | | | | | | | | |]; (left; reflexivity) || (right; discriminate)). destruct D as [->|D].
  - exists []. split; [reflexivity|]. split; [apply canonical_nil|left; auto].
  - exists [((2 ^ i)%N, c)]. split; [|split; [|right; auto]].
    + destruct H as [->|H]; [reflexivity|]. destruct c; try discriminate H. destruct z; [congruence|reflexivity|reflexivity].
    + apply canonical_cons; [apply canonical_nil|constructor|exact D|exact P].
Qed.
Lemma reads_app A B vs ws m w : reads A vs m -> reads B ws w -> reads (A ++ B) (vs ++ ws) (m ++ w).
Proof. induction 1; intros H'; cbn [app]; [exact H'| |]; constructor; auto. Qed.
Lemma coef_parts m w k : coef (m ++ w) k = coef m k + coef w k.
Proof. induction m as [|[v j] m IH]; cbn [app coef]; [ring|]. rewrite IH. ring. Qed.
Lemma vector_entries F n dim : (dim <= 63)%N -> (2 <= n)%nat -> forall l xs, Forall2 coordinate_value l xs -> l <> [] -> forall i, dim = (i + N.of_nat (length l))%N ->
  exists M m, vector_t F n dim l = Some (mv_of M) /\ canonical M /\ bit_list i dim M /\ reads M (flat_map coord_vals l) m /\ meq m (coordinates i xs).
Proof.
  intros D Hn l xs H. induction H as [|x v l xs Hx H IH]; [congruence|]. intros _ i E. cbn [length] in E.
  destruct (coord_form x v Hx) as (c & Ec & Hc & _). assert (Kc : c = SV \/ is_integer c = true) by (destruct Hc as [[-> _]|[z [-> _]]]; auto).
  destruct (vector_head c i ltac:(lia) Kc) as (A & EA & CA & DA).
  assert (RA : exists mA, reads A (coord_vals x) mA /\ meq mA [(v, (2 ^ i)%N)]).
  { destruct DA as [[-> ->]|[Nc ->]].
    - destruct Hc as [[Q _]|(z & [= <-] & -> & ->)]; [discriminate|]. exists []. split; [constructor|]. intros k. cbn [coef]. destruct (_ =? _)%N; ring.
    - destruct Hc as [[-> ->]|(z & -> & -> & ->)]; (eexists; split; [|intros k; reflexivity]); [constructor; constructor|]. apply r_c; [discriminate|reflexivity|constructor]. }
  destruct RA as (mA & RA & QA). assert (BA : bit_list i dim A).
  { destruct DA as [[_ ->]|[_ ->]]; constructor; [|constructor]. cbn [fst snd]. split; [exists i; split; [reflexivity|lia]|exact Kc]. }
  assert (Eh : component_t c (CBlade (bit (dim - (N.of_nat (length l) + 1)))) = mv_of A) by (replace (dim - (N.of_nat (length l) + 1))%N with i by lia; exact EA).
  cbn [vector_t]. rewrite Ec, Eh. destruct l as [|y l].
  - inversion H; subst. exists A, mA. split; [reflexivity|]. split; [exact CA|]. split; [exact BA|]. cbn [flat_map coordinates]. rewrite app_nil_r. split; [exact RA|exact QA].
  - destruct (IH ltac:(discriminate) (i + 1)%N ltac:(cbn [length] in *; lia)) as (M & m & EM & CM & BM & RM & QM). rewrite EM.
    assert (AM : Forall (blade_lt (2 ^ i)) (map fst M)).
    { apply Forall_map. eapply Forall_impl; [|exact BM]. intros p [(j & -> & Hj) _]. right. rewrite !grade_pow by lia. split; [reflexivity|]. apply N.pow_lt_mono_r; lia. }
    assert (C : canonical (A ++ M)). { destruct DA as [[_ ->]|[Nc ->]]; [exact CM|]. cbn [app]. apply canonical_cons; [exact CM|exact AM|exact Nc|]. cbn [fst]. apply N.pow_lt_mono_r; lia. }
    rewrite (cadd_append F A M n C) by (destruct DA as [[_ ->]|[_ ->]]; cbn [length]; lia). exists (A ++ M), (mA ++ m). split; [reflexivity|]. split; [exact C|]. split.
    + apply Forall_app. split; [exact BA|]. eapply Forall_impl; [|exact BM]. intros p [(j & Ej & Hj) K]. split; [exists j; split; [exact Ej|lia]|exact K].
    + split; [apply reads_app; assumption|]. intros k. rewrite coef_parts. cbn [coordinates]. change (coef ((v, (2 ^ i)%N) :: coordinates (i + 1) xs) k) with (coef ([(v, (2 ^ i)%N)] ++ coordinates (i + 1) xs) k). rewrite coef_parts, (QA k), (QM k). reflexivity.
Qed.
Lemma reads_none M vs m : reads M vs m -> Forall (fun p => snd p = SV \/ is_integer (snd p) = true) M -> count_vals (mv_of M) = 0%nat -> vs = [].
Proof.
  intros R H. destruct (counts_mv M) as [-> _]. induction R as [|k v M vs m R IH|k c v M vs m N Nu R IH]; intros E; [reflexivity|discriminate E|]. inversion H as [|? ? Hc HM]; subst. cbn [snd fold_right] in *. apply IH; [exact HM|lia].
Qed.
Lemma pow_bound j dim : (j < dim)%N -> (2 ^ j < 2 ^ dim)%N. Proof. intros H. apply N.pow_lt_mono_r; lia. Qed.
Theorem vector_ok F n l xs : (N.of_nat (length l) <= 63)%N -> l <> [] -> (2 <= n)%nat -> Forall2 coordinate_value l xs ->
  exists a, vector F n (N.of_nat (length l)) l = Some a /\ int_object (N.of_nat (length l)) a /\ value a (coordinates 0 xs).
Proof.
  intros D NE Hn H. destruct (vector_entries F n _ D Hn l xs H NE 0%N eq_refl) as (M & m & E & C & B & R & Q). unfold vector. rewrite N.eqb_refl, E.
  assert (HS : Forall (fun p => snd p = SV \/ is_integer (snd p) = true) M) by (eapply Forall_impl; [|exact B]; cbn; tauto).
  assert (EV : (if Nat.eqb (count_vals (mv_of M)) 0 then [] else flat_map coord_vals l) = flat_map coord_vals l).
  { destruct (Nat.eqb_spec (count_vals (mv_of M)) 0) as [Z|]; [|reflexivity]. symmetry. exact (reads_none _ _ _ R HS Z). }
  rewrite EV. eexists. split; [reflexivity|]. split.
  - exists M. cbn [cexpr]. split; [reflexivity|]. split; [exact C|]. split.
    + split; [|constructor]. cbn [cint cvals]. intros I. rewrite forallb_forall in I. clear - I H. induction H as [|x v l xs Hx H IH]; [constructor|]. cbn [flat_map]. apply Forall_app. split; [|apply IH; intros y Hy; apply I; right; exact Hy].
      destruct (coord_form x v Hx) as (c & _ & Hc & Hi). specialize (Hi (I x (or_introl eq_refl))). destruct Hc as [[_ ->]|(z & _ & _ & ->)]; [constructor; [exact Hi|constructor]|constructor].
    + eapply Forall_impl; [|exact B]. intros p [(j & -> & Hj) K]. split; [exact (pow_bound _ _ (proj2 Hj))|]. destruct K as [K|K]; [left; exact K|right]. split; [exact K|]. destruct (snd p); try discriminate K. reflexivity.
  - assert (X : exact_entries (forallb coord_int l) M) by (eapply Forall_impl; [|exact HS]; intros p [->|K]; [reflexivity|]; destruct (snd p); try discriminate K; reflexivity).
    intros g. destruct (reads_value (forallb coord_int l) M _ m X R g) as (m' & S & Q').
    exists m'. split; [exact S|]. intros k. rewrite (Q' k). exact (Q k).
Qed.

(** *** Grade ranges and the pseudoscalar *)
Lemma range_checked : forallb (fun a => forallb (fun b => let r := grade_range a b in negb (a <=? b)%N || (r <? 2 ^ 64)%N && forallb (fun k => Bool.eqb (N.testbit r k) ((a <=? k)%N && (k <=? b)%N)) (map N.of_nat (seq 0 64))) (map N.of_nat (seq 0 64))) (map N.of_nat (seq 0 64)) = true.
Proof. vm_compute. reflexivity. Qed.
Lemma in_range j d : (j < N.of_nat d)%N -> In j (map N.of_nat (seq 0 d)).
Proof. intros H. apply in_map_iff. exists (N.to_nat j). split; [lia|]. apply in_seq. lia. Qed.
Lemma range_ok first last k : (first <= last)%N -> (last < 64)%N -> N.testbit (grade_range first last) k = true <-> (first <= k <= last)%N.
Proof.
  intros H1 H2. pose proof range_checked as C. rewrite forallb_forall in C. specialize (C first (in_range first 64 ltac:(lia))). rewrite forallb_forall in C. specialize (C last (in_range last 64 ltac:(lia))). cbv zeta in C.
  destruct (N.leb_spec first last) as [_|X]; [|lia]. cbn [negb orb] in C. apply andb_prop in C as [C1 C2]. apply N.ltb_lt in C1. destruct (N.lt_ge_cases k 64) as [L|L].
  - rewrite forallb_forall in C2. specialize (C2 k (in_range k 64 ltac:(lia))). apply eqb_prop in C2. rewrite C2, andb_true_iff, !N.leb_le. tauto.
  - split; [|lia]. intros T. exfalso. rewrite (testbit_high _ 64 k C1 L) in T. discriminate.
Qed.
Lemma blade_bits_ok l : NoDup l -> Forall (fun i => (1 <= i <= 63)%N) l -> (blade_bits l < 2 ^ 63)%N /\ forall k, N.testbit (blade_bits l) k = true <-> In (k + 1)%N l.
Proof.
  intros ND. induction ND as [|i l Ni ND IH]; intros H; [split; [reflexivity|]; intros k; rewrite N.bits_0; split; [discriminate|intros []]|].
  inversion H as [|? ? Hi Hl]; subst. destruct (IH Hl) as [L B]. cbn [blade_bits fold_right]. fold (blade_bits l). rewrite bit_pow by lia.
  assert (P : (2 ^ (i - 1) < 2 ^ 63)%N) by (apply N.pow_lt_mono_r; lia).
  assert (Z : N.land (2 ^ (i - 1)) (blade_bits l) = 0%N).
  { apply N.bits_inj. intros k. rewrite N.land_spec, N.bits_0, N.pow2_bits_eqb. destruct (N.eqb_spec (i - 1) k) as [<-|]; [|reflexivity]. cbn [andb]. apply not_true_iff_false. rewrite B. replace (i - 1 + 1)%N with i by lia. exact Ni. }
  rewrite (N.add_nocarry_lxor _ _ Z). assert (X : N.lxor (2 ^ (i - 1)) (blade_bits l) = N.lor (2 ^ (i - 1)) (blade_bits l)) by (apply N.lxor_lor; exact Z). rewrite X.
  assert (LL : (N.lor (2 ^ (i - 1)) (blade_bits l) < 2 ^ 63)%N) by (apply lor_lt; assumption). rewrite wrap_small by (apply N.lt_trans with (2 ^ 63)%N; [exact LL|reflexivity]). split; [exact LL|].
  intros k. rewrite N.lor_spec, orb_true_iff, B, N.pow2_bits_eqb, N.eqb_eq. cbn [In]. split; intros [Q|Q]; auto; left; lia.
Qed.
Lemma pseudoscalar_ok dim : (dim <= 63)%N -> pseudoscalar dim = {| cexpr := mv_of [((2 ^ dim - 1)%N, CV 1)]; cint := true; cvals := []; cbits := [] |}.
Proof. intros H. unfold pseudoscalar. rewrite (first_mask dim H). reflexivity. Qed.
