(** Lemmas on the steps of the functions on pairs of blades. *)
From Coq Require Import NArith ZArith List Bool Lia Reals Lra Sorting.Sorted Morphisms Setoid RelationClasses.
From Verif Require Import Bits SpecBits BitsBase BitsOnes BitsProofs Visit VisitProofs Expr ExprBase Sem Wf SpecMv SpecAlg MvBase RPowProofs Simp SimpProofs SmartProofs Comp Mapping Ops CompProofs SpecOrder OrderProofs GradeProofs MappingProofs ProductProofs OuterProofs GumProofs AlgProofs AlgProofs2 Clifford2 Clifford5 EvalC SpecEval Lazy SpecLazy LazyProofs LazyProofs2 CanonProofs PolyProofs Api Extra SpecApi SpecExtra ApiProofs ApiProofs2 ApiProofs3 ExtraProofs Grade SpecGrade KeepProofs KeepProofs2 KeepProofs3 KeepProofs4 Norm SpecNorm NormProofs4 ForEach SpecUtil UtilProofs Copy CopyProofs Build BuildProofs UnitProofs PropApi PropGrade PropUtil SpecMeet Meet JoinMath.
Import ListNotations.
Local Open Scope R_scope.

(** ** Outcomes *)
Definition holds {A} (P : A -> Prop) (x : option (out A)) : Prop := forall o, x = Some o -> o = Overflow \/ exists a, o = Ret a /\ P a.
Lemma holds_bind {A B} (P : A -> Prop) (Q : B -> Prop) x (f : A -> option (out B)) : holds P x -> (forall a, x = Some (Ret a) -> P a -> holds Q (f a)) -> holds Q (obind x f).
Proof.
  intros H1 H2 o E. destruct x as [oa|]; [|discriminate E]. destruct (H1 oa eq_refl) as [->|(a & -> & Pa)]; cbn [obind] in E; [apply Some_inj in E as <-; left; reflexivity|]. exact (H2 a eq_refl Pa o E).
Qed.
Lemma holds_ret {A} (P : A -> Prop) a : P a -> holds P (Some (Ret a)).
Proof. intros H o E. apply Some_inj in E as <-. right. exists a. auto. Qed.
Lemma holds_ran {A} (P : A -> Prop) (r : option (done A)) : (forall o, r = Some o -> o = Ovf \/ exists a, o = Done a /\ P a) -> holds P (ran r).
Proof. intros H o E. destruct r as [d|]; [|discriminate E]. destruct (H d eq_refl) as [->|(a & -> & Pa)]; cbn [ran] in E; apply Some_inj in E as <-; [left; reflexivity|right; exists a; auto]. Qed.
Lemma holds_weaken {A} (P Q : A -> Prop) x : holds P x -> (forall a, P a -> Q a) -> holds Q x.
Proof. intros H HQ o E. destruct (H o E) as [->|(a & -> & Pa)]; [left; reflexivity|right; exists a; auto]. Qed.
Lemma ran_done {A} (r : option (done A)) a : ran r = Some (Ret a) -> r = Some (Done a).
Proof. destruct r as [[]|]; cbn [ran]; intros E; try discriminate E. apply Some_inj in E. injection E as ->. reflexivity. Qed.

(** ** Types: with more recursion depth the types stay the same *)
Definition below (f g : expr -> expr -> option expr) : Prop := forall a b r, f a b = Some r -> g a b = Some r.
Lemma step_mono F f g : below f g -> below (cadd_step F f) (cadd_step F g).
Proof.
  intros H a b r. unfold cadd_step. destruct (csplit a) as [[[c x] xs]|]; [|auto]. destruct (csplit b) as [[[d y] ys]|]; [|auto]. destruct (cadd_zero a b); [auto|].
  destruct (expr_eqb x y).
  - destruct (eng F OAdd c d) as [s|]; [|auto]. destruct xs as [xs|], ys as [ys|]; auto.
    + destruct (mk_add xs) as [t|]; [|auto]. destruct (mk_add ys) as [u|]; [|auto]. destruct (f t u) as [v|] eqn:E; [|discriminate]. rewrite (H _ _ _ E). apply H.
    + destruct (mk_add xs) as [t|]; [|auto]. apply H.
    + destruct (mk_add ys) as [t|]; [|auto]. apply H.
  - destruct (lt x y).
    + destruct xs as [xs|], ys as [ys|]; auto; (destruct (mk_add xs) as [t|]; [|auto]; destruct (f t b) as [v|] eqn:E; [|discriminate]; rewrite (H _ _ _ E); apply H).
    + destruct (lt y x); [|auto]. destruct xs as [xs|], ys as [ys|]; auto; (destruct (mk_add ys) as [t|]; [|auto]; destruct (f a t) as [v|] eqn:E; [|discriminate]; rewrite (H _ _ _ E); apply H).
Qed.
Lemma cadd_mono F n m : (n <= m)%nat -> below (cadd F n) (cadd F m).
Proof. revert m. induction n as [|n IH]; intros m L a b r; [discriminate|]. destruct m as [|m]; [lia|]. cbn [cadd]. apply step_mono, IH. lia. Qed.
Lemma kvector_mono F n m : (n <= m)%nat -> forall fuel fuel', (fuel <= fuel')%nat -> forall mask b r, kvector_t F n fuel mask b = Some r -> kvector_t F m fuel' mask b = Some r.
Proof.
  intros L. induction fuel as [|fuel IH]; intros fuel' L' mask b r; [discriminate|]. destruct fuel' as [|fuel']; [lia|]. cbn [kvector_t]. destruct (N.eqb b 0); [auto|]. destruct (next_combination b mask) as [b'|]; [|auto].
  destruct (kvector_t F n fuel mask b') as [t|] eqn:E; [|discriminate]. rewrite (IH fuel' ltac:(lia) _ _ _ E). apply (cadd_mono F n m L).
Qed.
Lemma multivector_mono F n m fuel fuel' : (n <= m)%nat -> (fuel <= fuel')%nat -> forall d mask first r, multivector_t F n fuel mask first d = Some r -> multivector_t F m fuel' mask first d = Some r.
Proof.
  intros L L'. induction d as [|d IH]; intros mask first r; cbn [multivector_t].
  - destruct (N.eqb first 0); [auto|]. apply (kvector_mono F n m L _ _ L').
  - destruct (multivector_t F n fuel mask (first + 1) d) as [t|] eqn:E; [|discriminate]. rewrite (IH _ _ _ E). destruct (N.eqb first 0); [apply (cadd_mono F n m L)|].
    destruct (kvector_t F n fuel mask (first_combination first)) as [k|] eqn:Ek; [|discriminate]. rewrite (kvector_mono F n m L _ _ L' _ _ _ Ek). apply (cadd_mono F n m L).
Qed.
Lemma full_some F n fuel dim first last t : (first <= last)%N -> (last <= dim)%N -> (dim <= 63)%N -> full_multivector F n fuel dim first last = Some t ->
  exists l, BuildProofs.blades_of dim first last l /\ t = stored_type l.
Proof.
  intros H1 H2 H3 E. destruct (full_multivector_ok F dim first last H1 H2 H3) as (depth & l & B & D). exists l. split; [exact B|].
  specialize (D (n + depth)%nat (fuel + depth)%nat ltac:(lia) ltac:(lia)). unfold full_multivector in *. apply (multivector_mono F n (n + depth) fuel (fuel + depth) ltac:(lia) ltac:(lia)) in E. rewrite D in E. apply Some_inj in E. auto.
Qed.
Lemma derived_mono F n m : (n <= m)%nat -> forall l r, derived_t F n l = Some r -> derived_t F m l = Some r.
Proof.
  intros L. induction l as [|e l IH]; intros r; cbn [derived_t]; [auto|]. destruct e as [| | | | | | | | |c b|]; auto. destruct l as [|e' l']; [auto|]. destruct (derived_t F n (e' :: l')) as [t|]; [|discriminate]. rewrite (IH t eq_refl). apply (cadd_mono F n m L).
Qed.
Lemma derived_some F n M t : canonical M -> M <> [] -> derived F n (mv_of M) = Some t -> t = stored_type (map fst M).
Proof.
  intros C Ne E. unfold derived in E. apply (derived_mono F n (2 + n) ltac:(lia)) in E. pose proof (derived_ok F (2 + n) M ltac:(lia) C Ne) as D. unfold derived in D. rewrite D in E. apply Some_inj in E. auto.
Qed.

(** ** Objects whose coefficients are all stored *)
Lemma object_mono K d d' a : (d <= d')%N -> object K d a -> object K d' a.
Proof.
  intros L (M & E & C & W & H). exists M. split; [exact E|]. split; [exact C|]. split; [exact W|]. eapply Forall_impl; [|exact H]. intros p [Hp Q]. split; [|exact Q]. apply N.lt_le_trans with (2 ^ d)%N; [exact Hp|]. apply N.pow_le_mono_r; lia.
Qed.
Lemma svs_exact int l : exact_entries int (svs l).
Proof. unfold exact_entries, svs. rewrite Forall_map. apply Forall_forall. reflexivity. Qed.
Lemma reads_svs : forall l vs, length vs = length l -> reads (svs l) vs (combine vs l).
Proof. induction l as [|b l IH]; intros [|v vs] H; try discriminate H; cbn [svs map combine]; [constructor|]. constructor. apply IH. cbn [length] in H. lia. Qed.
Lemma stored_value l int vs : length vs = length l -> value {| cexpr := stored_type l; cint := int; cvals := vs; cbits := [] |} (combine vs l).
Proof. intros H. apply (reads_value int (svs l) vs); [apply svs_exact|apply reads_svs, H]. Qed.
Lemma stored_object d l int vs : canonical (svs l) -> Forall (fun b => (b < 2 ^ d)%N) l -> (int = true -> Forall isint vs) -> int_object d {| cexpr := stored_type l; cint := int; cvals := vs; cbits := [] |}.
Proof.
  intros C H I. exists (svs l). split; [reflexivity|]. split; [exact C|]. split; [split; [exact I|constructor]|]. unfold svs. rewrite Forall_map. eapply Forall_impl; [|exact H]. intros b Hb. cbn [fst snd]. split; [exact Hb|left; reflexivity].
Qed.
Lemma stored_names l k : l <> [] -> (names_blade (stored_type l) k <-> In k l).
Proof. intros Ne. unfold stored_type. rewrite names_mv, map_map. cbn [fst]. rewrite map_id. split; [intros [H|[H _]]; [exact H|destruct l; [contradiction|discriminate H]]|auto]. Qed.
Lemma count_stored l : l <> [] -> count_vals (stored_type l) = length l /\ count_bits (stored_type l) = 0%nat.
Proof.
  intros Ne. unfold stored_type. destruct l as [|a [|b l]]; [contradiction|split; reflexivity|]. change (mv_of (map (fun b => (b, SV)) (a :: b :: l))) with (Fn NAdd (map entry (map (fun b => (b, SV)) (a :: b :: l)))).
  generalize (a :: b :: l) as m. intros m. cbn [count_vals count_bits]. split; induction m as [|x m IH]; cbn [map fold_right entry fst snd count_vals count_bits length list_sum] in *; auto; rewrite ?IH; reflexivity.
Qed.
Lemma ret_inj {A} (a b : A) : Ret a = Ret b -> a = b. Proof. congruence. Qed.
(** Every coefficient zero but one. *)
Lemma onehot_coef : forall l i, (i < length l)%nat -> NoDup l -> meq (combine (firstn i (repeat 0 (length l)) ++ 1 :: skipn (S i) (repeat 0 (length l))) l) [(1, nth i l 0%N)].
Proof.
  assert (Z : forall l k, coef (combine (repeat 0 (length l)) l) k = 0). { induction l as [|b l IH]; intros k; [reflexivity|]. cbn [length repeat combine coef]. rewrite IH. destruct (N.eqb b k); ring. }
  induction l as [|b l IH]; intros i H ND k; [cbn in H; lia|]. inversion ND; subst. destruct i as [|i].
  - cbn [length repeat firstn skipn app combine coef nth]. rewrite Z. reflexivity.
  - cbn [length] in H. change (coef (combine (0 :: (firstn i (repeat 0 (length l)) ++ 1 :: skipn (S i) (repeat 0 (length l)))) (b :: l)) k = coef [(1, nth i l 0%N)] k). cbn [combine coef]. rewrite (IH i ltac:(lia) H3 k). cbn [coef]. destruct (N.eqb b k); ring.
Qed.
Lemma canonical_nodup M : canonical M -> NoDup (map fst M).
Proof.
  intros [S _]. induction S as [|x l S IH A]; constructor; [|exact IH]. intros I. rewrite Forall_forall in A. exact (blade_lt_irrefl _ (A _ I)).
Qed.
Lemma svs_fst l : map fst (svs l) = l. Proof. unfold svs. rewrite map_map. cbn [fst]. apply map_id. Qed.
Lemma onehot d l int i a : canonical (svs l) -> Forall (fun b => (b < 2 ^ d)%N) l -> l <> [] -> put_one i {| cexpr := stored_type l; cint := int; cvals := repeat 0 (count_vals (stored_type l)); cbits := [] |} = Some (Ret a) ->
  (i < length l)%nat /\ int_object d a /\ value a [(1, nth i l 0%N)].
Proof.
  intros C H Ne E. unfold put_one in E. cbn [cvals cexpr cint cbits] in E. destruct (count_stored l Ne) as [Q _]. rewrite Q, repeat_length in E. destruct (Nat.ltb_spec i (length l)) as [L|L]; [|discriminate E]. apply Some_inj, ret_inj in E. subst a.
  split; [exact L|]. split.
  - apply stored_object; [exact C|exact H|]. intros _. apply Forall_app. assert (Z : Forall isint (repeat 0 (length l))). { apply Forall_forall. intros x Ix. apply repeat_spec in Ix. subst x. exists 0%Z. reflexivity. }
    split; [|constructor; [exists 1%Z; reflexivity|]].
    + apply Forall_forall. intros x Ix. rewrite Forall_forall in Z. apply Z. rewrite <- (firstn_skipn i (repeat 0 (length l))). apply in_or_app. auto.
    + apply Forall_forall. intros x Ix. rewrite Forall_forall in Z. apply Z. rewrite <- (firstn_skipn (S i) (repeat 0 (length l))). apply in_or_app. auto.
  - refine (value_meq _ _ _ (stored_value l int _ _) _); [|apply onehot_coef; [exact L|]].
    + assert (L1 : length (firstn i (repeat 0 (length l))) = i) by (rewrite firstn_length, repeat_length; lia). assert (L2 : length (skipn (S i) (repeat 0 (length l))) = (length l - S i)%nat) by (rewrite skipn_length, repeat_length; reflexivity).
      rewrite app_length, L1. transitivity (i + S (length (skipn (S i) (repeat 0%R (length l)))))%nat; [reflexivity|]. rewrite L2. lia.
    + rewrite <- (svs_fst l). apply canonical_nodup, C.
Qed.

(** ** Projections of basis vectors *)
Lemma lcont_real_const F : const_mult 63 (lcont_real_map F).
Proof. apply orth_const; [discriminate|apply lcont_bv|intros c; exists 1%Z; reflexivity|left; discriminate]. Qed.
Lemma y_lcont_real P F k g a b ma mb : closed_class is_pos F P -> typed_value P 63 g a ma -> typed_value P 63 g b mb ->
  yields P 63 g (lcont_in F k Real (lazy_obj a) (lazy_obj b)) (mlcont e1 ma mb).
Proof.
  intros HP Ta Tb. refine (yields_call is_pos P F k 63 g HP _ [a; b] [ma; mb] _ (sound_mul is_pos F k 63 _ _ 63 ma mb (lcont_real_map_ok F) (N.le_refl 63) (lcont_real_const F)) (Forall2_cons _ _ Ta (Forall2_cons _ _ Tb (Forall2_nil _)))).
Qed.
Lemma y_take P F k dim g a ma z : closed_class is_pos F P -> (dim <= 63)%N -> typed_value P dim g a ma -> yields P dim g (take_grade F k (lazy_obj a) (c_obj z)) (keepR (IZR z) ma).
Proof. intros HP Hd Ta. rewrite take_const. refine (yields_call is_pos P F k dim g HP _ [a] [ma] _ (sound_keep is_pos F k dim z ma Hd) (Forall2_cons _ _ Ta (Forall2_nil _))). Qed.
Lemma project_ok F n v b i mv0 mb mi o : int_object 63 v -> int_object 63 b -> int_object 63 i -> value v mv0 -> value b mb -> value i mi -> project_vector F n v b i = Some o ->
  o = Ovf \/ exists r, o = Done r /\ int_object 63 r /\ value r (grade_part 1 (mlcont e1 (mlcont e1 mv0 mi) mb)).
Proof.
  intros Ov Ob Oi Vv Vb Vi E. rewrite <- keepR_grade. unfold project_vector in E.
  refine (int_fn F n _ 63 [v; b; i] [mv0; mb; mi] _ o _ ltac:(auto) ltac:(auto) E). intros P g args HP HA. refine (yields_context is_pos P F n 63 g HP args [mv0; mb; mi] _ _ HA _).
  inversion HA as [|x ? ? ? Tx HA1]; subst. inversion HA1 as [|y ? ? ? Ty HA2]; subst. inversion HA2 as [|z ? ? ? Tz HA3]; subst. inversion HA3; subst. cbn [map].
  apply (yields_then P 63 g _ _ (mlcont e1 mv0 mi)); [apply y_lcont_real; [exact HP|exact Tx|exact Tz]|]. intros p Tp.
  apply (yields_then P 63 g _ _ (mlcont e1 (mlcont e1 mv0 mi) mb)); [apply y_lcont_real; [exact HP|exact Tp|exact Ty]|]. intros q Tq.
  apply y_take; [exact HP|discriminate|exact Tq].
Qed.

(** ** Unit multivectors *)
Lemma object_reads d a m : int_object d a -> value a m -> exists M m0, cexpr a = mv_of M /\ canonical M /\ Forall (fun p => (fst p < 2 ^ d)%N) M /\ exact_entries (cint a) M /\ reads M (cvals a) m0 /\ cbits a = [] /\ meq m0 m /\ NoDup (map snd m0) /\ in_space d m0.
Proof.
  intros O V. pose proof (int_exact d a O) as X. assert (HF : Forall (fun e => exact_comp (cint a) e = true) (components (cexpr a))) by (eapply Forall_impl; [|exact X]; cbn; tauto).
  pose proof O as O'. destruct O' as (M & E & C & _ & B). destruct (value_reads is_integer d a m M O E HF V) as (m0 & R & Hb & Q & ND & _). exists M, m0.
  assert (B' : Forall (fun p => (fst p < 2 ^ d)%N) M) by (eapply Forall_impl; [|exact B]; cbn; tauto).
  split; [exact E|]. split; [exact C|]. split; [exact B'|]. split; [apply exact_of; rewrite <- E; exact HF|]. split; [exact R|]. split; [exact Hb|]. split; [exact Q|]. split; [exact ND|].
  apply reads_blades in R. unfold in_space. apply Forall_forall. intros p Ip. assert (I : In (snd p) (map fst M)) by (rewrite <- R; apply in_map, Ip). apply in_map_iff in I. destruct I as (x & <- & Ix). rewrite Forall_forall in B'. exact (B' x Ix).
Qed.
Lemma object_space d a m : int_object d a -> value a m -> exists m0, in_space d m0 /\ meq m0 m.
Proof. intros O V. destruct (object_reads d a m O V) as (M & m0 & _ & _ & _ & _ & _ & _ & Q & _ & I). eauto. Qed.
Lemma norm2_same a b : meq a b -> norm2 e1 a = norm2 e1 b.
Proof. intros E. unfold norm2, re, msp, mrev. exact (bilinear_meq (sp_blade e1) a b E (linear rev_blade a) (linear rev_blade b) (linear_meq rev_blade rev_blade a b (fun _ => reflexivity _) E) 0%N). Qed.
Lemma sqrt_nz u w : u * u = Rabs w -> w <> 0 -> / u <> 0.
Proof. intros H W. apply Rinv_neq_0_compat. intros ->. apply W. rewrite Rmult_0_l in H. apply Rabs_no_R0 in W. lra. Qed.
Lemma norm_nonneg d a : (d <= 63)%N -> in_space d a -> 0 <= norm2 e1 a.
Proof.
  intros Hd I. rewrite (Clifford5.norm2_sum e1 d a I). apply Clifford5.total_nonneg. rewrite Forall_map. apply Forall_forall. intros k Ik. rewrite (Clifford5.squares_pos e1 d k ltac:(lia) (fun _ _ => eq_refl) (proj1 (Clifford5.blades_in d k) Ik)). pose proof (Rle_0_sqr (coef a k)) as Q. unfold Rsqr in Q. lra.
Qed.
Lemma unit_one u m : u * u = Rabs (norm2 e1 m) -> 0 <= norm2 e1 m -> norm2 e1 m <> 0 -> norm2 e1 (scale (/ u) m) = 1.
Proof.
  intros U P Nz. rewrite <- (unit_norm2 Real u m U Nz). symmetry. apply Rabs_pos_eq. change (sig_of Real) with e1. change (norm2 e1 (scale (/ u) m)) with (norm2 (sig_of Real) (scale (/ u) m)). rewrite (norm2_scale Real). change (sig_of Real) with e1.
  apply Rmult_le_pos; [apply Rle_0_sqr|exact P].
Qed.
Lemma unit_em_ok F n a m o : int_object 63 a -> value a m -> ~ meq m [] -> unit_exact F n a -> unit_em F n a = Some o ->
  o = Ovf \/ exists r u, o = Done r /\ int_object 63 r /\ u <> 0 /\ value r (scale u m) /\ norm2 e1 (scale u m) = 1.
Proof.
  intros Oa Va Nz X E. destruct (object_space 63 a m Oa Va) as (m0 & I & Q).
  assert (N2 : norm2 e1 m <> 0). { intros Z. apply Nz. refine (transitivity (symmetry Q) _). apply (norm_zero 63 ltac:(discriminate) m0 I). rewrite <- Z. apply norm2_same, Q. }
  assert (G : on_type (body1 (rnorm_sqr F n Real)) [a] settled /\ computed (body1 (unit F n Real)) [a] -> unit F n Real a = Some o ->
    o = Ovf \/ exists r u, o = Done r /\ int_object 63 r /\ u <> 0 /\ value r (scale u m) /\ norm2 e1 (scale u m) = 1).
  { intros [X1 X2] E'. destruct (unit_ok F n 63 Real ltac:(discriminate) Logic.I a m o Oa Va N2 X1 X2 E') as [->|(r & u & -> & Or & Vr & U)]; [left; reflexivity|right]. exists r, (/ u). split; [reflexivity|]. split; [exact Or|]. split; [exact (sqrt_nz u _ U N2)|]. split; [exact Vr|]. refine (unit_one u m U _ N2). rewrite <- (norm2_same _ _ Q). exact (norm_nonneg 63 m0 ltac:(discriminate) I). }
  unfold unit_exact, unit_em in *. destruct (cexpr a) as [| | | | | | | | |c b|] eqn:Ea; try exact (G X E). destruct b as [| | | | | | |[|p]| | |]; try exact (G X E). clear G.
  destruct (object_reads 63 a m Oa Va) as (M & m1 & EM & _ & _ & _ & R & _ & Q1 & _ & _). rewrite Ea in EM.
  assert (V1 : exists v, meq m [(v, 0%N)]).
  { destruct M as [|[k c'] [|? ?]]; [inversion R; subst; exists 0; intros j; rewrite <- (Q1 j); cbn [coef]; destruct (N.eqb 0 j); ring| |discriminate EM]. injection EM as _ <-. inversion R as [|k' v M' vs' m' R'|k' c'' v M' vs' m' N' _ R']; subst; inversion R'; subst; exists v; symmetry; exact Q1. }
  destruct V1 as (v & Qv). assert (Vv : v <> 0). { intros ->. apply Nz. intros j. rewrite (Qv j). cbn [coef]. destruct (N.eqb 0 j); ring. }
  destruct (unit_scalar_ok F n 63 a v o ltac:(discriminate) Oa (value_meq _ _ _ Va Qv) Vv X E) as [->|(r & -> & Or & Vr)]; [left; reflexivity|right]. exists r, (/ Rabs v). split; [reflexivity|]. split; [exact Or|]. split; [apply Rinv_neq_0_compat, Rabs_no_R0, Vv|].
  assert (QU : meq [(v / Rabs v, 0%N)] (scale (/ Rabs v) m)) by (intros j; rewrite cs_, (Qv j); cbn [coef]; destruct (N.eqb 0 j); unfold Rdiv; ring).
  split; [exact (value_meq _ _ _ Vr QU)|]. rewrite <- (norm2_same _ _ QU), norm2_scalar. unfold Rdiv. replace (v * / Rabs v * (v * / Rabs v)) with ((v * v) * / (Rabs v * Rabs v)) by (field; apply Rabs_no_R0, Vv). rewrite <- Rabs_mult, (Rabs_pos_eq (v * v)) by (apply Rle_0_sqr). field. exact Vv.
Qed.

(** ** Copies into a multivector whose coefficients are all stored *)
Definition store (l : list N) (vs : list R) : cliff := {| cexpr := stored_type l; cint := false; cvals := vs; cbits := [] |}.
Lemma reads_length : forall l vs m, reads (svs l) vs m -> length vs = length l.
Proof. induction l as [|b l IH]; intros vs m R; inversion R; subst; [reflexivity| |congruence]. cbn [length]. f_equal. eapply IH. eassumption. Qed.
Lemma stored_form l a m : l <> [] -> cexpr a = stored_type l -> cint a = false -> value a m -> exists vs, a = store l vs /\ length vs = length l.
Proof.
  intros Ne E I V. destruct (V no_env) as (m1 & S & _). destruct a as [e i vs bs]. cbn [cexpr cint] in *. subst e i. cbn [cexpr cvals cbits] in S. unfold stored_type in S. rewrite entries_comps in S. destruct l as [|b l]; [contradiction|].
  change (map (fun b0 : N => (b0, SV)) (b :: l)) with (svs (b :: l)) in S. destruct (scomps_reads no_env false (svs (b :: l)) (svs_exact _ _) vs bs m1 S) as [R ->]. exists vs. split; [reflexivity|]. exact (reads_length _ _ _ R).
Qed.
Definition slots (l : list N) : Prop := l <> [] /\ canonical (svs l) /\ Forall (fun b => (b < 2 ^ 63)%N) l.
Lemma store_object l vs : slots l -> int_object 63 (store l vs).
Proof. intros (Ne & C & B). apply stored_object; [exact C|exact B|discriminate]. Qed.
Lemma copy_join l vs w m tol : slots l -> int_object 63 w -> value w m -> 0 <= tol -> (forall k, coef m k <> 0 -> In k l) ->
  holds (fun j => exists vs', j = store l vs' /\ length vs' = length l /\ value j m) (copied_to (checked_trivial_copy w (store l vs) tol)).
Proof.
  intros S Ow Vw T H o E. destruct (checked_trivial_copy w (store l vs) tol) as [c|] eqn:Ec; [|discriminate E].
  destruct (C30_checked_partial 63 63 w (store l vs) m tol c Ow (store_object l vs S) Vw T Ec) as [(-> & k & Nk & Hk)|(r & m' & -> & E1 & E2 & Vr & H1 & H2)].
  - exfalso. cbn [store cexpr] in Nk. rewrite stored_names in Nk by apply S. apply Nk, H. intros Z. rewrite Z, Rabs_R0 in Hk. lra.
  - cbn [copied_to] in E. apply Some_inj in E as <-. right. exists r. split; [reflexivity|]. destruct (stored_form l r m' (proj1 S) E1 E2 Vr) as (vs' & -> & L). exists vs'. split; [reflexivity|]. split; [exact L|].
    refine (value_meq _ _ _ Vr _). intros k. cbn [store cexpr cint] in H1, H2. destruct (in_dec N.eq_dec k l) as [I|I].
    + apply (H1 k). apply stored_names; [apply S|exact I].
    + destruct (H2 k) as [_ ->]; [rewrite stored_names by apply S; exact I|]. destruct (Req_EM_T (coef m k) 0) as [Z|Z]; [symmetry; exact Z|]. exfalso. exact (I (H k Z)).
Qed.

(** ** The component with the largest absolute value *)
Definition pick_largest (st : N * R * nat * nat) (bv : N) (v : R) (s1 s2 : source) : N * R * nat * nat * bool :=
  let '(lb, lv, li, ci) := st in (if Rlt_dec lv (Rabs v) then (bv, Rabs v, ci, S ci) else (lb, lv, li, S ci), true).
Lemma pick_fold : forall (m : mv) (ss : list (source * source)) lb lv li ci, length ss = length m ->
  exists lb' lv' li' ci', fold_stop (visit pick_largest) (lb, lv, li, ci) (combine m ss) = (lb', lv', li', ci', true) /\
  lv <= lv' /\ Forall (fun p => Rabs (fst p) <= lv') m /\
  ((lb' = lb /\ lv' = lv /\ li' = li) \/ exists j v, nth_error m j = Some (v, lb') /\ lv' = Rabs v /\ li' = (ci + j)%nat).
Proof.
  induction m as [|[v b] m IH]; intros ss lb lv li ci L.
  - destruct ss; [|discriminate L]. exists lb, lv, li, ci. split; [reflexivity|]. split; [lra|]. split; [constructor|]. left. auto.
  - destruct ss as [|s ss]; [discriminate L|]. cbn [length] in L. cbn [combine fold_stop]. unfold visit at 1. cbn [fst snd pick_largest]. destruct (Rlt_dec lv (Rabs v)) as [Q|Q].
    + destruct (IH ss b (Rabs v) ci (S ci) ltac:(lia)) as (lb' & lv' & li' & ci' & -> & H1 & H2 & H3). exists lb', lv', li', ci'. split; [reflexivity|]. split; [lra|]. split; [constructor; [exact H1|exact H2]|]. right.
      destruct H3 as [(-> & -> & ->)|(j & w & H3 & H4 & H5)].
      * exists 0%nat, v. split; [reflexivity|]. split; [reflexivity|lia].
      * exists (S j), w. split; [exact H3|]. split; [exact H4|lia].
    + destruct (IH ss lb lv li (S ci) ltac:(lia)) as (lb' & lv' & li' & ci' & -> & H1 & H2 & H3). exists lb', lv', li', ci'. split; [reflexivity|]. split; [lra|]. split; [constructor; [cbn [fst]; lra|exact H2]|].
      destruct H3 as [H3|(j & w & H3 & H4 & H5)]; [left; exact H3|right]. exists (S j), w. split; [exact H3|]. split; [exact H4|lia].
Qed.
Lemma largest_ok d b m : int_object d b -> value b m -> ~ meq m [] ->
  holds (fun p => (fst p < 2 ^ d)%N /\ coef m (fst p) <> 0 /\ exists M, cexpr b = mv_of M /\ canonical M /\ Forall (fun q => (fst q < 2 ^ d)%N) M /\ cbits b = [] /\ (snd p < length M)%nat /\ nth (snd p) (map fst M) 0%N = fst p) (largest_component b).
Proof.
  intros O V Nz. destruct (object_reads d b m O V) as (M & m0 & E & C & B & X & R & Hb & Q & ND & I).
  assert (NM : M <> []). { intros ->. inversion R; subst. apply Nz. symmetry. exact Q. }
  pose proof (reads_blades _ _ _ R) as RB. assert (HC : components (cexpr b) = map entry M). { rewrite E, entries_comps. destruct M; [contradiction|reflexivity]. }
  assert (CV : component_values b m0). { intros g. rewrite HC, Hb. exact (reads_scomps g (cint b) M (cvals b) m0 X R []). }
  assert (HF : Forall (fun e => exact_comp (cint b) e = true) (components (cexpr b))) by (eapply Forall_impl; [|exact (int_exact d b O)]; cbn; tauto).
  assert (NC : components (cexpr b) <> []) by (rewrite HC; destruct M; [contradiction|discriminate]).
  assert (HN : existsb const_comp (components (cexpr b)) = false). { apply not_true_iff_false. rewrite existsb_exists. intros (e & Ie & Y). pose proof (int_exact d b O) as Z. rewrite Forall_forall in Z. destruct (Z e Ie) as [_ Z']. congruence. }
  unfold largest_component. destruct (visit_all pick_largest (0%N, -1, 0%nat, 0%nat) b m0 NC HF CV) as (r & Er & [[_ Y]|Dr]); [congruence|]. change (for_each_component _ (0%N, -1, 0%nat, 0%nat) b) with (for_each_component pick_largest (0%N, -1, 0%nat, 0%nat) b). rewrite Er, Dr.
  assert (LL : length m0 = length M) by (rewrite <- (map_length snd m0), RB, map_length; reflexivity).
  destruct (pick_fold m0 (map sources (components (cexpr b))) 0%N (-1) 0%nat 0%nat) as (lb & lv & li & ci & -> & H1 & H2 & H3); [rewrite map_length, HC, map_length; symmetry; exact LL|].
  cbn [ran obind fst]. apply holds_ret. cbn [fst snd].
  assert (NZ : exists p, In p m0 /\ fst p <> 0). { destruct (Exists_dec (fun p => fst p <> 0) m0) as [Y|Y]; [intros p; destruct (Req_EM_T (fst p) 0); [right|left]; tauto|apply Exists_exists in Y; exact Y|]. exfalso. apply Nz. refine (transitivity (symmetry Q) _). intros k. cbn [coef]. clear - Y. induction m0 as [|[v c] m0 IH]; [reflexivity|]. cbn [coef].
    assert (v = 0). { destruct (Req_EM_T v 0) as [Z|Z]; [exact Z|]. exfalso. apply Y. left. exact Z. } subst v. rewrite IH by (intros Z; apply Y; right; exact Z). destruct (N.eqb c k); ring. }
  destruct NZ as (p & Ip & Np). rewrite Forall_forall in H2. pose proof (H2 p Ip) as H4. assert (P0 : 0 < lv) by (apply Rlt_le_trans with (Rabs (fst p)); [apply Rabs_pos_lt, Np|exact H4]).
  destruct H3 as [(_ & H3 & _)|(j & v & H3 & H5 & H6)]; [lra|]. cbn [Nat.add] in H6. subst li. pose proof (nth_error_In _ _ H3) as Ij. assert (Lj : (j < length m0)%nat) by (apply nth_error_Some; rewrite H3; discriminate).
  split; [unfold in_space in I; rewrite Forall_forall in I; exact (I _ Ij)|]. split; [rewrite <- (Q lb); pose proof (coef_in m0 (v, lb) ND Ij) as CI; cbn [fst snd] in CI; rewrite CI; intros ->; rewrite Rabs_R0 in H5; lra|].
  exists M. split; [exact E|]. split; [exact C|]. split; [exact B|]. split; [exact Hb|]. split; [lia|]. rewrite <- RB. apply nth_error_nth. rewrite nth_error_map, H3. reflexivity.
Qed.
