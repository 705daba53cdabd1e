(** Correctness of the join of two blades. *)
From Coq Require Import NArith ZArith List Bool Lia Reals Lra Sorting.Sorted Morphisms Setoid RelationClasses.
From Verif Require Import Bits SpecBits BitsBase BitsOnes BitsProofs Visit VisitProofs Expr ExprBase Sem Wf SpecMv SpecAlg MvBase RPowProofs Simp SimpProofs SmartProofs Comp Mapping Ops CompProofs SpecOrder OrderProofs GradeProofs MappingProofs ProductProofs OuterProofs GumProofs AlgProofs AlgProofs2 Clifford Clifford2 Clifford3 Wick2 Clifford5 EvalC SpecEval Lazy SpecLazy LazyProofs LazyProofs2 CanonProofs PolyProofs Api Extra SpecApi SpecExtra ApiProofs ApiProofs2 ApiProofs3 ExtraProofs Grade SpecGrade General GenMul KeepProofs KeepProofs2 KeepProofs3 KeepProofs4 Norm SpecNorm NormProofs4 ForEach SpecUtil UtilProofs Copy CopyProofs Build BuildProofs UnitProofs PropApi PropGrade PropUtil SpecMeet Meet GaProofs JoinMath MeetProofs.
Import ListNotations.
Local Open Scope R_scope.

Local Opaque sign_of indices.

(** ** Basis vectors *)
Lemma vectors_sorted d : (d <= 63)%nat -> StronglySorted blade_lt (map (fun i => 2 ^ N.of_nat i)%N (seq 0 d)).
Proof.
  intros H. assert (G : forall d s, (s + d <= 63)%nat -> StronglySorted blade_lt (map (fun i => 2 ^ N.of_nat i)%N (seq s d))).
  { clear. induction d as [|d IH]; intros s L; cbn [seq map]; constructor; [apply IH; lia|]. apply Forall_map, Forall_forall. intros i Ii. apply in_seq in Ii. right. rewrite !grade_pow by lia. split; [reflexivity|]. apply N.pow_lt_mono_r; lia. }
  apply G. exact H.
Qed.
Lemma vectors_list dim l : (dim <= 63)%N -> BuildProofs.blades_of dim 1 1 l -> l = map (fun i => 2 ^ N.of_nat i)%N (seq 0 (N.to_nat dim)).
Proof.
  intros Hd [S H]. apply sorted_same; [exact S|apply vectors_sorted; lia|]. intros k. rewrite H, in_map_iff. split.
  - intros [L G]. destruct (indices_bits dim Hd k (pow2_64 dim k ltac:(lia) L) ltac:(lia)) as (a & La & ->). apply N.pow_lt_mono_r_iff in L; [|lia]. exists (N.to_nat a). rewrite N2Nat.id. split; [reflexivity|]. apply in_seq. lia.
  - intros (i & <- & Ii). apply in_seq in Ii. rewrite grade_pow by lia. split; [apply N.pow_lt_mono_r; lia|lia].
Qed.
Lemma slots_of dim first last l : (dim <= 63)%N -> BuildProofs.blades_of dim first last l -> l <> [] -> slots l.
Proof. intros Hd B Ne. split; [exact Ne|]. split; [exact (blades_canonical dim first last l Hd B)|]. destruct B as [_ B]. apply Forall_forall. intros b Ib. apply B in Ib. exact (small_blade dim b Hd (proj1 Ib)). Qed.
Lemma basis_ok F n fuel dim i f : (1 <= dim)%N -> (dim <= 63)%N -> (i < dim)%N -> basis_f F n fuel dim (N.succ i) = Some (Ret f) -> int_object 63 f /\ value f (basis i).
Proof.
  intros D1 Hd Hi E. unfold basis_f in E. destruct (full_multivector F n fuel dim 1 1) as [t|] eqn:Et; [|discriminate E]. cbn [typed obind] in E.
  destruct (full_some F n fuel dim 1 1 t ltac:(lia) D1 Hd Et) as (l & B & ->). pose proof (vectors_list dim l Hd B) as El.
  assert (Ne : l <> []). { intros ->. apply (f_equal (@length N)) in El. rewrite map_length, seq_length in El. cbn [length] in El. lia. }
  destruct (slots_of dim 1 1 l Hd B Ne) as (_ & C & S).
  assert (Z : zeros (stored_type l) true = {| cexpr := stored_type l; cint := true; cvals := repeat 0 (count_vals (stored_type l)); cbits := [] |}) by (unfold zeros; rewrite (proj2 (count_stored l Ne)); reflexivity).
  rewrite Z in E. destruct (onehot 63 l true _ f C S Ne E) as (L & O & V). split; [exact O|]. replace (nth (N.to_nat (N.succ i - 1)) l 0%N) with (2 ^ i)%N in V; [exact V|].
  replace (N.succ i - 1)%N with i by lia. rewrite El. rewrite (nth_indep _ 0%N ((fun i => 2 ^ N.of_nat i)%N 0%nat)) by (rewrite map_length, seq_length; lia). rewrite (map_nth (fun i => 2 ^ N.of_nat i)%N), seq_nth by lia. rewrite Nat.add_0_l, N2Nat.id. reflexivity.
Qed.
(** The object of the largest blade, and its reverse. *)
Lemma largest_one F n b M i l : cexpr b = mv_of M -> canonical M -> Forall (fun q => (fst q < 2 ^ 63)%N) M -> cbits b = [] -> (i < length M)%nat -> largest_blade F n b i = Some (Ret l) ->
  int_object 63 l /\ value l [(1, nth i (map fst M) 0%N)].
Proof.
  intros E C B Hb Li El. unfold largest_blade in El. rewrite E, Hb in El. destruct (derived F n (mv_of M)) as [t|] eqn:Et; [|discriminate El]. cbn [typed obind] in El.
  assert (NM : M <> []) by (intros ->; cbn in Li; lia). pose proof (derived_some F n M t C NM Et) as ->.
  assert (Ne : map fst M <> []) by (destruct M; [contradiction|discriminate]).
  assert (B' : Forall (fun b => (b < 2 ^ 63)%N) (map fst M)) by (apply Forall_map; exact B).
  destruct (onehot 63 (map fst M) true i l) as (_ & O & V); [apply svs_canonical; [exact (proj1 C)|exact B']|exact B'|exact Ne|exact El|]. auto.
Qed.
Lemma reverse_one F n l E o : int_object 63 l -> value l [(1, E)] -> reverse F n l = Some o -> o = Ovf \/ exists v r, o = Done v /\ int_object 63 v /\ r <> 0 /\ value v [(r, E)].
Proof.
  intros O V R. destruct (C24_reverse 63 F n l _ o ltac:(discriminate) O V R) as [->|(v & -> & Ov & Vv)]; [left; reflexivity|right]. set (s := if N.odd (grade_of E * (grade_of E - 1) / 2) then -1 else 1).
  exists v, s. split; [reflexivity|]. split; [exact Ov|]. split; [unfold s; destruct (N.odd _); lra|]. refine (value_meq _ _ _ Vv _). change (linear rev_blade [(1, E)]) with (scale 1 (rev_blade E) ++ []). unfold rev_blade. fold s. intros k. cbn [scale map app fst snd coef]. destruct (N.eqb E k); ring.
Qed.

(** ** Grades in types *)
Lemma high_grade k : (k < 64)%N -> match leftmost_set_bit (2 ^ k) with Some s => set_bit_index s | None => 0%N end = N.min k 7.
Proof.
  intros H. assert (A : forallb (fun k => N.eqb (match leftmost_set_bit (2 ^ k) with Some s => set_bit_index s | None => 0%N end) (N.min k 7)) (map N.of_nat (seq 0 64)) = true) by (vm_compute; reflexivity).
  rewrite forallb_forall in A. apply N.eqb_eq, A. rewrite <- (N2Nat.id k). apply in_map, in_seq. lia.
Qed.
Lemma low_grade k : (k < 64)%N -> set_bit_index (rightmost_set_bit (2 ^ k)) = k.
Proof.
  intros H. assert (A : forallb (fun k => N.eqb (set_bit_index (rightmost_set_bit (2 ^ k))) k) (map N.of_nat (seq 0 64)) = true) by (vm_compute; reflexivity).
  rewrite forallb_forall in A. apply N.eqb_eq, A. rewrite <- (N2Nat.id k). apply in_map, in_seq. lia.
Qed.
Lemma fold_max_in (l : list N) x : In x l -> (x <= fold_right N.max 0 l)%N.
Proof. induction l as [|y l IH]; [intros []|]. intros [->|I]; cbn [fold_right]; [lia|]. specialize (IH I). lia. Qed.
Lemma fold_min_in g (l : list N) x : x = g \/ In x l -> (fold_right N.min g l <= x)%N.
Proof. induction l as [|y l IH]; [intros [->|[]]; cbn; lia|]. intros [->|[->|I]]; cbn [fold_right]; [specialize (IH (or_introl eq_refl)); lia|lia|specialize (IH (or_intror I)); lia]. Qed.
Lemma type_grades M E : canonical M -> In E (map fst M) -> (smallest_grade (mv_of M) <= grade_of E)%N /\ (N.min (grade_of E) 7 <= largest_grade_of (mv_of M))%N.
Proof.
  intros [_ B] I. assert (NM : M <> []) by (intros ->; destruct I). apply in_map_iff in I. destruct I as ([k c] & <- & I). cbn [fst] in *. rewrite Forall_forall in B. pose proof (proj2 (B _ I)) as L. cbn [fst] in L.
  assert (HC : comps_of (mv_of M) = map entry M). { change (comps_of (mv_of M)) with (components (mv_of M)). rewrite entries_comps. destruct M; [contradiction|reflexivity]. }
  pose proof (GenMul.blade_grades k 63 L ltac:(lia)) as G. assert (G64 : (grade_of k < 64)%N) by (pose proof (grade_le k 63 ltac:(lia) L); lia).
  unfold smallest_grade, largest_grade_of. rewrite HC, !map_map. split.
  - set (f := fun x : N * expr => _). assert (If : In (f (k, c)) (map f M)) by (apply in_map, I). assert (Q : f (k, c) = grade_of k). { unfold f. cbn [entry fst snd]. rewrite G. apply low_grade, G64. }
    rewrite Q in If. destruct (map f M) as [|g l]; [destruct If|]. apply fold_min_in. destruct If; auto.
  - set (f := fun x : N * expr => _). assert (If : In (f (k, c)) (map f M)) by (apply in_map, I). assert (Q : f (k, c) = N.min (grade_of k) 7). { unfold f. cbn [entry fst snd]. rewrite G. apply high_grade, G64. }
    rewrite Q in If. apply fold_max_in, If.
Qed.
Lemma object_grades d a m E : int_object d a -> value a m -> coef m E <> 0 -> (smallest_grade (cexpr a) <= grade_of E)%N /\ (N.min (grade_of E) 7 <= largest_grade_of (cexpr a))%N.
Proof.
  intros O V C. destruct (object_reads d a m O V) as (M & m0 & Ea & CM & _ & _ & R & _ & Q & _ & _). rewrite Ea. apply type_grades; [exact CM|]. rewrite <- (reads_blades _ _ _ R). rewrite <- (Q E) in C.
  destruct (in_dec N.eq_dec E (map snd m0)) as [I|I]; [exact I|]. rewrite coef_out in C by exact I. contradiction.
Qed.

(** ** The loop *)
Lemma coef_any m : ~ meq m [] -> forall tol, (exists k, ~ Rabs (coef m k) <= tol) \/ forall k, Rabs (coef m k) <= tol.
Proof.
  intros _ tol. destruct (Exists_dec (fun p => ~ Rabs (coef m (snd p)) <= tol) m) as [X|X]; [intros p; destruct (Rle_dec (Rabs (coef m (snd p))) tol); [right|left]; tauto| |].
  - left. apply Exists_exists in X. destruct X as (p & _ & H). exists (snd p). exact H.
  - destruct (Rle_dec 0 tol) as [T|T].
    + right. intros k. destruct (in_dec N.eq_dec k (map snd m)) as [I|I]; [|rewrite coef_out by exact I; rewrite Rabs_R0; exact T]. apply in_map_iff in I. destruct I as (p & <- & Ip). destruct (Rle_dec (Rabs (coef m (snd p))) tol) as [L|L]; [exact L|]. exfalso. apply X, Exists_exists. eauto.
    + left. exists 0%N. intros L. pose proof (Rabs_pos (coef m 0)). lra.
Qed.
Lemma loop_ok {A} (f : A -> N -> option (out (A * bool))) (P : list N -> A -> Prop) x st : (x < 2 ^ 64)%N -> P [] st ->
  (forall done i rest s, indices x = done ++ i :: rest -> P done s -> holds (fun r => P (done ++ [i]) (fst r) /\ snd r = true) (f s (N.succ i))) ->
  holds (P (indices x)) (loop f st x).
Proof.
  intros Hx H0 HS. unfold loop. rewrite for_each_basis_vector_correct by exact Hx.
  assert (G : forall rest done s, indices x = done ++ rest -> P done s -> holds (P (indices x)) (fst (fold_stop (fun (s : option (out A)) i =>
          match obind s (fun a => f a i) with
          | Some (Ret (a, keep)) => (Some (Ret a), keep)
          | Some Thrown => (Some Thrown, false)
          | Some Overflow => (Some Overflow, false)
          | Some NoValue => (Some NoValue, false)
          | None => (None, false)
          end) (Some (Ret s)) (map N.succ rest)))).
  { induction rest as [|i rest IH]; intros done s E Ps.
    - cbn [map fold_stop fst]. apply holds_ret. rewrite E, app_nil_r. exact Ps.
    - cbn [map fold_stop obind]. pose proof (HS done i rest s E Ps) as HF. destruct (f s (N.succ i)) as [o|]; [|intros o Eo; discriminate Eo]. destruct (HF o eq_refl) as [->|([s' keep] & -> & P' & K)]; [intros o Eo; apply Some_inj in Eo as <-; left; reflexivity|].
      cbn [fst snd] in P', K. subst keep. apply (IH (done ++ [i]) s'); [rewrite <- app_assoc; exact E|exact P']. }
  specialize (G (indices x) [] st eq_refl H0). destruct (fold_stop _ _ _) as [s k]. exact G.
Qed.
Section Join.
Variables (F n fuel : nat) (dim : N) (a b : cliff) (av bv : list mv) (A B : mv) (tol : R) (l : list N).
Hypothesis Hdim : (dim <= 63)%N.
Hypothesis Oa : int_object dim a.
Hypothesis Ob : int_object dim b.
Hypothesis Va : value a A.
Hypothesis Vb : value b B.
Hypothesis Ba : blade_of dim av A.
Hypothesis Bb : blade_of dim bv B.
Hypothesis Grade : (length bv <= length av)%nat.
Hypothesis Small : (length av <= 7)%nat.
Hypothesis Htol : 0 <= tol.
Hypothesis Units : units_exact F n fuel dim a b.
Hypothesis Hl : join_type F n fuel dim (cexpr a) (cexpr b) = Some (stored_type l).
Hypothesis Bl : BuildProofs.blades_of dim (N.max (smallest_grade (cexpr a)) (smallest_grade (cexpr b))) (N.min (largest_grade_of (cexpr a) + largest_grade_of (cexpr b)) dim) l.

Lemma grade_bounds : (N.max (smallest_grade (cexpr a)) (smallest_grade (cexpr b)) <= N.of_nat (length av))%N /\ (N.of_nat (length av + length bv) <= largest_grade_of (cexpr a) + largest_grade_of (cexpr b))%N.
Proof.
  destruct (blade_coef dim Hdim av A Ba) as (E & CE). destruct (blade_coef dim Hdim bv B Bb) as (E' & CE'). destruct (blade_homog dim Hdim av A E Ba CE) as [_ G]. destruct (blade_homog dim Hdim bv B E' Bb CE') as [_ G'].
  destruct (object_grades dim a A E Oa Va CE) as [S1 L1]. destruct (object_grades dim b B E' Ob Vb CE') as [S2 L2]. lia.
Qed.
Lemma in_slots cs J k : blade_of dim cs J -> (length av <= length cs)%nat -> (length cs <= length av + length bv)%nat -> coef J k <> 0 -> In k l.
Proof.
  intros BJ L1 L2 C. destruct (blade_homog dim Hdim cs J k BJ C) as [Lk G]. apply Bl. pose proof (grade_le k dim ltac:(lia) Lk). destruct grade_bounds as [G1 G2]. split; [exact Lk|]. rewrite G in *. lia.
Qed.
Lemma l_slots : slots l.
Proof.
  apply (slots_of dim _ _ l Hdim Bl). destruct (blade_coef dim Hdim av A Ba) as (E & CE). pose proof (in_slots av A E Ba (Nat.le_refl _) ltac:(lia) CE) as I. intros Z. rewrite Z in I. exact I.
Qed.
Lemma l_object vs : int_object dim (store l vs).
Proof. apply stored_object; [exact (proj1 (proj2 l_slots))|apply Forall_forall; intros k Ik; apply Bl in Ik; tauto|discriminate]. Qed.

(** The state after the given basis vectors of the largest blade [E]. *)
Definition joined (E : N) (done : list N) (st : cliff * Z) : Prop :=
  exists vs cs J, fst st = store l vs /\ length vs = length l /\ value (fst st) J /\ (blade_of dim cs J /\ norm2 e1 J = 1) /\ snd st = Z.of_nat (length cs) /\
  (length av <= length cs <= length av + length done)%nat /\ Forall (in_span (av ++ bv)) cs /\ Forall (in_span cs) av /\ (tol = 0 -> Forall (in_span cs) (map (factor B E) done)).
Lemma join_step E j lb v r done i rest s : coef B E <> 0 -> largest_blade F n b j = Some (Ret lb) -> reverse F n lb = Some (Done v) -> int_object 63 v -> value v [(r, E)] -> r <> 0 ->
  indices E = done ++ i :: rest -> joined E done s ->
  holds (fun x => joined E (done ++ [i]) (fst x) /\ snd x = true) (fast_join_step F n fuel dim b v tol s (N.succ i)).
Proof.
  intros CE Elb Ev Ov Vv R0 Ei (vs & cs & J & Es & Lvs & VJ & [BJ NJ] & Eg & [L1 L2] & S1 & S2 & S3). destruct s as [join g]. cbn [fst snd] in *. subst join g.
  destruct (blade_homog dim Hdim bv B E Bb CE) as [HE GE]. assert (Ii : In i (indices E)) by (rewrite Ei; apply in_or_app; right; left; reflexivity). pose proof (indices_lt dim E i HE Ii) as Li.
  assert (Ob63 : int_object 63 b) by exact (object_mono _ dim 63 b Hdim Ob).
  assert (Ln : (S (length done) <= length bv)%nat). { unfold grade_of in GE. rewrite Ei, app_length in GE. cbn [length] in GE. lia. }
  unfold fast_join_step. apply (holds_bind (fun f => int_object 63 f /\ value f (basis i))).
  { intros o Eo. destruct o as [f| | |]; [right; exists f; split; [reflexivity|]; apply (basis_ok F n fuel dim i f); [lia|exact Hdim|exact Li|exact Eo]|exfalso|left; reflexivity|exfalso].
    - unfold basis_f in Eo. destruct (full_multivector F n fuel dim 1 1); [|discriminate Eo]. cbn [typed obind] in Eo. unfold put_one in Eo. destruct (Nat.ltb _ _); discriminate Eo.
    - unfold basis_f in Eo. destruct (full_multivector F n fuel dim 1 1) as [t|] eqn:Et; [|discriminate Eo]. cbn [typed obind] in Eo. unfold put_one in Eo. destruct (Nat.ltb_spec (N.to_nat (N.succ i - 1)) (length (cvals (zeros t true)))) as [Q|Q]; [discriminate Eo|].
      destruct (full_some F n fuel dim 1 1 t ltac:(lia) ltac:(lia) Hdim Et) as (l1 & B1 & ->). pose proof (vectors_list dim l1 Hdim B1) as El1. assert (Ne : l1 <> []). { intros ->. apply (f_equal (@length N)) in El1. rewrite map_length, seq_length in El1. cbn [length] in El1. lia. }
      cbn [zeros cvals] in Q. rewrite repeat_length, (proj1 (count_stored l1 Ne)), El1, map_length, seq_length in Q. lia. }
  intros f Ef [Of Vf]. set (X := factor B E i).
  assert (XS : exists x, vec dim x /\ meq X x /\ in_span bv x).
  { pose proof (blade_factor_in dim Hdim bv B E i Bb CE Ii) as SX. pose proof SX as [ds Q]. exists (combination ds bv). split; [apply comb_vec, (vectors_vec dim Hdim), Bb|]. split; [exact Q|]. exact (span_meq bv X _ Q SX). }
  destruct XS as (x & Vx & Qx & Sx). assert (Xnz : ~ meq x []). { intros Z. apply (blade_factor_nz dim Hdim bv B E i Bb CE Ii). exact (transitivity Qx Z). }
  apply (holds_bind (fun p => int_object 63 p /\ exists s, s <> 0 /\ value p (scale s x))).
  { apply holds_ran. intros o Eo. destruct (project_ok F n f b v _ _ _ o Of Ob63 Ov Vf Vb Vv Eo) as [->|(p & -> & Op & Vp)]; [left; reflexivity|right]. exists p. split; [reflexivity|]. split; [exact Op|].
    destruct (factor_lc dim Hdim B E i r HE Ii R0) as (s & S0 & Q). exists s. split; [exact S0|]. refine (value_meq _ _ _ Vp _). intros k. rewrite Clifford5.coef_grade_part, (Q k), !cs_. fold X. rewrite (Qx k).
    destruct (N.eqb_spec (grade_of k) 1) as [G|G]; [reflexivity|]. destruct (Req_EM_T (coef x k) 0) as [->|C]; [ring|]. exfalso. apply G. exact (coef_homog 1 x k (vec_homog dim (n64 dim Hdim) x Vx) C). }
  intros p Ep (Op & s & S0 & Vp). apply ran_done in Ep. destruct Units as [_ U]. destruct (U (N.succ i) j f lb v p Ef Elb Ev Ep) as [Up Uy].
  apply (holds_bind (fun u => int_object 63 u /\ exists c, c <> 0 /\ value u (scale c x))).
  { apply holds_ran. intros o Eo. destruct (unit_em_ok F n p _ o Op Vp (fun Z => Xnz (scale_nz s x S0 Z)) Up Eo) as [->|(u & c & -> & Ou & C0 & Vu & _)]; [left; reflexivity|right]. exists u. split; [reflexivity|]. split; [exact Ou|]. exists (c * s). split; [apply Rmult_integral_contrapositive; auto|].
    refine (value_meq _ _ _ Vu _). intros k. rewrite !cs_. ring. }
  intros u Eu (Ou & c & C0 & Vu). apply ran_done in Eu. set (U1 := scale c x) in *. assert (VU1 : vec dim U1) by (apply vec_scale, Vx).
  pose proof (store_object l vs l_slots) as Oj.
  apply (holds_bind (fun y => int_object 63 y /\ value y (mop J U1))).
  { apply holds_ran. intros o Eo. destruct (C24_outer 63 F n (store l vs) u J U1 o ltac:(discriminate) Oj Ou VJ Vu Eo) as [->|(y & -> & Oy & Vy)]; [left; reflexivity|right]. exists y. auto. }
  intros y Ey (Oy & Vy). apply ran_done in Ey. destruct (C35_is_zero_partial 63 y _ tol Oy Vy Htol) as (z & -> & Hz). cbn [ran obind].
  assert (Sav : in_span (av ++ bv) U1) by (apply span_scale, span_app_r, Sx).
  destruct z.
  - apply holds_ret. cbn [fst snd]. split; [|reflexivity]. exists vs, cs, J. rewrite app_length. cbn [fst snd length]. split; [reflexivity|]. split; [exact Lvs|]. split; [exact VJ|]. split; [split; [exact BJ|exact NJ]|]. split; [reflexivity|]. split; [lia|]. split; [exact S1|]. split; [exact S2|].
    intros T0. rewrite map_app. apply Forall_app. split; [exact (S3 T0)|]. cbn [map]. constructor; [|constructor]. fold X. apply (span_meq cs x); [symmetry; exact Qx|].
    assert (Z : meq (mop J U1) []). { intros k. cbn [coef]. pose proof (proj1 Hz eq_refl k) as H. rewrite T0 in H. pose proof (Rabs_pos (coef (mop J U1) k)). destruct (Req_EM_T (coef (mop J U1) k) 0) as [Q|Q]; [exact Q|]. pose proof (Rabs_pos_lt _ Q). lra. }
    pose proof (blade_absorbs dim Hdim cs J U1 BJ VU1 Z) as SU. apply (span_meq cs (scale (/ c) U1)); [intros k; unfold U1; rewrite !cs_; field; exact C0|apply span_scale, SU].
  - assert (NZ : ~ meq (mop J U1) []). { intros Z. assert (Q : false = true) by (apply Hz; intros k; rewrite (Z k); cbn [coef]; rewrite Rabs_R0; exact Htol). discriminate Q. }
    pose proof (blade_snoc dim Hdim cs J U1 BJ VU1 NZ) as BY.
    apply (holds_bind (fun w => int_object 63 w /\ exists d, d <> 0 /\ value w (scale d (mop J U1)) /\ norm2 e1 (scale d (mop J U1)) = 1)).
    { apply holds_ran. intros o Eo. refine (_ (unit_em_ok F n y _ o Oy Vy NZ (Uy (stored_type l) vs u y Hl _ Eu Ey) Eo)); [|rewrite (proj1 (count_stored l (proj1 l_slots))); exact Lvs].
      intros [->|(w & d & -> & Ow & D0 & Vw & NW)]; [left; reflexivity|right]. exists w. split; [reflexivity|]. split; [exact Ow|]. exists d. auto. }
    intros w Ew (Ow & d & D0 & Vw & NW). pose proof (blade_scale dim _ _ d D0 BY) as BW.
    assert (Lc : length (cs ++ [U1]) = S (length cs)) by (rewrite app_length; cbn [length]; lia).
    assert (Lcd : (S (length cs) <= N.to_nat dim)%nat). { destruct (blade_coef dim Hdim _ _ BW) as (k & Ck). destruct (blade_homog dim Hdim _ _ k BW Ck) as [Lk Gk]. pose proof (grade_le k dim ltac:(lia) Lk). rewrite Lc in Gk. lia. }
    apply (holds_bind (fun j' => exists vs', j' = store l vs' /\ length vs' = length l /\ value j' (scale d (mop J U1)))).
    { apply (copy_join l vs w _ tol l_slots Ow Vw Htol). intros k Ck. apply (in_slots _ _ k BW); [lia|lia|exact Ck]. }
    intros j' Ej (vs' & -> & Lv' & Vj'). apply holds_ret. cbn [fst snd]. split; [|apply Z.leb_le; lia].
    assert (IS : forall z, in_span cs z -> in_span (cs ++ [U1]) z) by (intros z; apply span_app_l).
    exists vs', (cs ++ [U1]), (scale d (mop J U1)). rewrite Lc, app_length. cbn [fst snd length]. split; [reflexivity|]. split; [exact Lv'|]. split; [exact Vj'|]. split; [split; [exact BW|exact NW]|]. split; [lia|]. split; [lia|]. split; [apply Forall_app; split; [exact S1|constructor; [exact Sav|constructor]]|]. split; [eapply Forall_impl; [|exact S2]; exact IS|].
    intros T0. rewrite map_app. apply Forall_app. split; [eapply Forall_impl; [|exact (S3 T0)]; exact IS|]. cbn [map]. constructor; [|constructor]. fold X. apply (span_meq _ x); [symmetry; exact Qx|].
    apply (span_meq _ (scale (/ c) U1)); [intros k; unfold U1; rewrite !cs_; field; exact C0|]. apply span_scale, span_in, in_or_app. right. left. reflexivity.
Qed.

Definition is_join (r : cliff) : Prop := exists J cs, int_object dim r /\ value r J /\ blade_of dim cs J /\ norm2 (fun _ => 1) J = 1 /\ Forall (in_span (av ++ bv)) cs /\ Forall (in_span cs) av /\ (tol = 0 -> Forall (in_span cs) (av ++ bv)).
Lemma join_loop flip : (length av <> 0)%nat -> forall j0 vs0 c0, j0 = store l vs0 -> length vs0 = length l -> c0 <> 0 -> value j0 (scale c0 A) -> norm2 e1 (scale c0 A) = 1 ->
  holds is_join (
      lc <~ largest_component b ;;
      largest <~ largest_blade F n b (snd lc) ;;
      inv_largest <~ ran (reverse F n largest) ;;
      r <~ loop (fast_join_step F n fuel dim b inv_largest tol) (j0, Z.of_nat (length av)) (fst lc) ;;
      if (flip && Z.odd (Z.of_nat (length av) * Z.of_nat (length bv)))%bool then ran (neg F n (fst r)) else Some (Ret (fst r))).
Proof.
  intros Nz j0 vs0 c0 Ej Lv C0 V0 N0. apply (holds_bind _ _ _ _ (largest_ok dim b B Ob Vb (proj2 (proj2 Bb)))). intros [E j] _ (LE & CE & M & EM & CM & BM & Hb & Lj & Ej'). cbn [fst snd] in *.
  assert (BM63 : Forall (fun q => (fst q < 2 ^ 63)%N) M) by (eapply Forall_impl; [|exact BM]; intros q Hq; exact (small_blade dim _ Hdim Hq)).
  apply (holds_bind (fun lb => largest_blade F n b j = Some (Ret lb) /\ int_object 63 lb /\ value lb [(1, E)])).
  { intros o Eo. destruct o as [lb| | |]; [right; exists lb; split; [reflexivity|]; split; [exact Eo|]; rewrite <- Ej'; exact (largest_one F n b M j lb EM CM BM63 Hb Lj Eo)|exfalso|left; reflexivity|exfalso].
    - unfold largest_blade in Eo. destruct (derived F n (cexpr b)); [|discriminate Eo]. cbn [typed obind] in Eo. unfold put_one in Eo. destruct (Nat.ltb _ _); discriminate Eo.
    - unfold largest_blade in Eo. rewrite EM in Eo. destruct (derived F n (mv_of M)) as [t|] eqn:Et; [|discriminate Eo]. cbn [typed obind] in Eo. unfold put_one in Eo. cbn [cvals] in Eo.
      assert (NM : M <> []) by (intros ->; cbn in Lj; lia). pose proof (derived_some F n M t CM NM Et) as ->. assert (Ne : map fst M <> []) by (destruct M; [contradiction|discriminate]). rewrite repeat_length, (proj1 (count_stored _ Ne)), map_length in Eo.
      destruct (Nat.ltb_spec j (length M)); [discriminate Eo|lia]. }
  intros lb _ (Elb & Olb & Vlb). apply (holds_bind (fun v => reverse F n lb = Some (Done v) /\ int_object 63 v /\ exists r, r <> 0 /\ value v [(r, E)])).
  { apply holds_ran. intros o Eo. destruct (reverse_one F n lb E o Olb Vlb Eo) as [->|(v & r & -> & Ov & R0 & Vv)]; [left; reflexivity|right]. exists v. split; [reflexivity|]. split; [exact Eo|]. split; [exact Ov|]. exists r. auto. }
  intros v _ (Ev & Ov & r & R0 & Vv). apply (holds_bind (joined E (indices E))).
  { apply loop_ok; [apply (pow2_64 dim); [lia|exact LE]| |].
    - exists vs0, av, (scale c0 A). cbn [fst snd length]. split; [exact Ej|]. split; [exact Lv|]. split; [exact V0|]. split; [split; [apply blade_scale; [exact C0|exact Ba]|exact N0]|]. split; [reflexivity|]. split; [lia|].
      split; [apply Forall_forall; intros z Iz; apply span_app_l, span_in, Iz|]. split; [apply Forall_forall; intros z Iz; apply span_in, Iz|]. intros _. constructor.
    - intros done i rest s Ei Hs. exact (join_step E j lb v r done i rest s CE Elb Ev Ov Vv R0 Ei Hs). }
  intros [join g] _ (vs & cs & J & Es & Lvs & VJ & [BJ NJ] & Eg & L & S1 & S2 & S3). cbn [fst snd] in *. subst join.
  assert (S4 : tol = 0 -> Forall (in_span cs) (av ++ bv)).
  { intros T0. apply Forall_app. split; [exact S2|]. pose proof (blade_factors_span dim Hdim bv B E Bb CE) as SF. eapply Forall_impl; [|exact SF]. intros z Sz. exact (span_trans cs _ z (S3 T0) Sz). }
  destruct (flip && _)%bool.
  - apply holds_ran. intros o Eo. destruct (C24_neg dim F n (store l vs) J o Hdim (l_object vs) VJ Eo) as [->|(x & -> & Ox & Vx)]; [left; reflexivity|right]. exists x. split; [reflexivity|]. exists (scale (-1) J), cs. split; [exact Ox|]. split; [exact Vx|]. split; [apply blade_scale; [lra|exact BJ]|]. split; [|auto]. change (norm2 (sig_of Real) (scale (-1) J) = 1). rewrite (norm2_scale Real). change (-1 * -1 * norm2 e1 J = 1). rewrite NJ. ring.
  - apply holds_ret. exists J, cs. split; [exact (l_object vs)|]. split; [exact VJ|]. split; [exact BJ|]. split; [exact NJ|]. auto.
Qed.
Lemma join_impl flip : (cint a && cint b)%bool = false -> holds is_join (fast_join_impl F n fuel dim flip a (Z.of_nat (length av)) b (Z.of_nat (length bv)) tol).
Proof.
  intros HI. unfold fast_join_impl. rewrite Hl, HI. cbn [typed obind]. assert (G : forall k, Z.eqb (Z.of_nat k) (-2) = false) by (intros k; apply Z.eqb_neq; lia). rewrite !G. cbn [orb].
  assert (Z : zeros (stored_type l) false = store l (repeat 0 (length l))). { unfold zeros, store. destruct (count_stored l (proj1 l_slots)) as [-> ->]. reflexivity. } rewrite Z.
  assert (Oa63 : int_object 63 a) by exact (object_mono _ dim 63 a Hdim Oa).
  apply (holds_bind (fun u => int_object 63 u /\ exists c, c <> 0 /\ value u (scale c A) /\ norm2 e1 (scale c A) = 1)).
  { apply holds_ran. intros o Eo. destruct (unit_em_ok F n a A o Oa63 Va (proj2 (proj2 Ba)) (proj1 Units) Eo) as [->|(u & c & -> & Ou & C0 & Vu & NU)]; [left; reflexivity|right]. exists u. split; [reflexivity|]. split; [exact Ou|]. exists c. auto. }
  intros u _ (Ou & c & C0 & Vu & NU). pose proof (blade_scale dim _ _ c C0 Ba) as BA.
  apply (holds_bind (fun j => exists vs', j = store l vs' /\ length vs' = length l /\ value j (scale c A))).
  { apply (copy_join l _ u _ tol l_slots Ou Vu Htol). intros k Ck. apply (in_slots _ _ k BA); [lia|lia|exact Ck]. }
  intros j _ (vs' & -> & Lv & Vj).
  assert (Early : av = [] \/ length av = N.to_nat dim -> is_join (store l vs')).
  { intros H. exists (scale c A), av. split; [exact (l_object vs')|]. split; [exact Vj|]. split; [exact BA|]. split; [exact NU|]. split; [apply Forall_forall; intros z Iz; apply span_app_l, span_in, Iz|]. assert (SA : Forall (in_span av) av) by (apply Forall_forall; intros z Iz; apply span_in, Iz). split; [exact SA|].
    intros _. apply Forall_app. split; [exact SA|]. destruct H as [->|H].
    - destruct bv; [constructor|cbn [length] in Grade; lia].
    - apply Forall_forall. intros z Iz. apply (blade_space dim Hdim av A z Ba); [pose proof (proj1 (vectors_vec dim Hdim bv) (proj1 Bb)) as VB; rewrite Forall_forall in VB; exact (VB z Iz)|].
      pose proof (proj1 (vectors_vec dim Hdim bv) (proj1 Bb)) as VB. rewrite Forall_forall in VB. specialize (VB z Iz). destruct (blade_inv dim Hdim av A Ba) as (VA & w & W0 & QA & _).
      assert (T : meq (mop z (wedge av)) []). { intros k. cbn [coef]. destruct (Req_EM_T (coef (mop z (wedge av)) k) 0) as [Q|Q]; [exact Q|]. exfalso.
        pose proof (coef_homog _ _ k (wedge_homog dim Hdim (z :: av) (Forall_cons _ VB VA)) Q) as Gk. pose proof (wedge_in dim (z :: av) (Forall_cons _ VB VA)) as Ik. cbn [wedge] in Ik.
        assert (Lk : (k < 2 ^ dim)%N). { destruct (in_dec N.eq_dec k (map snd (mop z (wedge av)))) as [I|I]; [|rewrite coef_out in Q by exact I; contradiction]. apply in_map_iff in I. destruct I as (p & <- & Ip). exact (proj1 (Forall_forall _ _) Ik p Ip). }
        pose proof (grade_le k dim ltac:(lia) Lk). cbn [length] in Gk. lia. }
      refine (transitivity (op_c _ _ _ _ (reflexivity z) QA) _). refine (transitivity (op_scl_r w z (wedge av)) _). apply meq_nil_scale, T. }
  destruct (Z.eqb_spec (Z.of_nat (length av)) 0) as [Q|Q]; cbn [orb]; [apply holds_ret, Early; left; destruct av; [reflexivity|cbn [length] in Q; lia]|].
  destruct (Z.eqb_spec (Z.of_nat (length av)) (Z.of_N dim)) as [Q'|Q']; [apply holds_ret, Early; right; lia|].
  exact (join_loop flip ltac:(lia) (store l vs') vs' c eq_refl Lv C0 Vj NU).
Qed.
End Join.

(** ** The grades of the arguments *)
Lemma number_value r k : value r [(IZR k, 0%N)] -> holds (fun z => z = k) (grade_number r).
Proof.
  intros V o E. unfold grade_number in E. destruct (V no_env) as (m & S & Q). specialize (Q 0%N). cbn [coef] in Q. rewrite N.eqb_refl, Rplus_0_r in Q.
  destruct r as [e i vs bs]. cbn [cexpr cvals cbits] in *. destruct e as [| | | | | | | | |c d|]; try discriminate E. destruct c as [z| | | | | | | | | |]; try discriminate E; (destruct d as [| | | | | | |[|?]| | |]; try discriminate E).
  - apply Some_inj in E as <-. right. exists z. split; [reflexivity|]. change (components (Comp (CV z) (CBlade 0))) with (map entry [(0%N, CV z)]) in S. destruct (scomps_reads no_env true [(0%N, CV z)] ltac:(constructor; [reflexivity|constructor]) vs bs m S) as [R _].
    inversion R as [| |k' c' v M vs' m' Nc Nu R']; subst. inversion R'; subst. cbn [coef] in Q. rewrite N.eqb_refl, Rplus_0_r in Q. injection Nu as Nu. apply eq_IZR. congruence.
  - destruct vs as [|v vs]; [discriminate E|]. apply Some_inj in E as <-. right. eexists. split; [reflexivity|]. change (components (Comp SV (CBlade 0))) with (map entry (svs [0%N])) in S. destruct (scomps_reads no_env true (svs [0%N]) (svs_exact _ _) (v :: vs) bs m S) as [R _].
    inversion R as [|k' v' M vs' m' R'|]; [subst|congruence]. inversion R'; subst. cbn [coef] in Q. rewrite N.eqb_refl, Rplus_0_r in Q. subst v. apply Int_part_IZR.
Qed.
Lemma blade_part dim av A : (dim <= 63)%N -> blade_of dim av A -> meq A (grade_part (N.of_nat (length av)) A).
Proof.
  intros H B k. rewrite Clifford5.coef_grade_part. destruct (N.eqb_spec (grade_of k) (N.of_nat (length av))) as [G|G]; [reflexivity|]. destruct (Req_EM_T (coef A k) 0) as [Z|Z]; [exact Z|]. destruct (blade_homog dim H av A k B Z). contradiction.
Qed.
Lemma grade_ok F n dim a av A tint tol : (dim <= 63)%N -> int_object dim a -> value a A -> blade_of dim av A -> (tint = true -> isint tol) -> 0 <= tol -> (exists k, tol < Rabs (coef A k)) ->
  holds (fun z => z = Z.of_nat (length av)) (grade_in F n a (scalar_obj tint tol)).
Proof.
  intros Hd O V B Ti T Hk. unfold grade_in. apply (holds_bind (fun r => value r [(IZR (Z.of_nat (length av)), 0%N)])).
  - apply holds_ran. intros o E. destruct (C29_grade_homogeneous F n dim a A (N.of_nat (length av)) tint tol o Hd O V Ti T (blade_part dim av A Hd B) Hk E) as [->|(r & -> & Vr)]; [left; reflexivity|right]. exists r. split; [reflexivity|]. rewrite nat_N_Z in Vr. exact Vr.
  - intros r _ Vr. exact (number_value r _ Vr).
Qed.
(** join_type is the list of all blades of its grades. *)
Lemma join_type_ok F n fuel dim a b av bv A B t : (dim <= 63)%N -> int_object dim a -> int_object dim b -> value a A -> value b B -> blade_of dim av A -> blade_of dim bv B -> (length bv <= length av)%nat -> (length av <= 7)%nat ->
  join_type F n fuel dim (cexpr a) (cexpr b) = Some t -> exists l, t = stored_type l /\ BuildProofs.blades_of dim (N.max (smallest_grade (cexpr a)) (smallest_grade (cexpr b))) (N.min (largest_grade_of (cexpr a) + largest_grade_of (cexpr b)) dim) l.
Proof.
  intros Hd Oa Ob Va Vb Ba Bb G S E. unfold join_type in E. destruct (grade_bounds dim a b av bv A B Hd Oa Ob Va Vb Ba Bb G S) as [G1 G2].
  destruct (blade_coef dim Hd av A Ba) as (k & Ck). destruct (blade_homog dim Hd av A k Ba Ck) as [Lk Gk]. pose proof (grade_le k dim ltac:(lia) Lk).
  set (lo := N.max _ _) in *. set (hi := N.min _ dim) in *. assert (H1 : (lo <= hi)%N) by (unfold hi; lia). assert (H2 : (hi <= dim)%N) by (unfold hi; lia). destruct (full_some F n fuel dim lo hi t H1 H2 Hd E) as (l & Bl & ->). exists l. auto.
Qed.
Theorem fast_join_ok F n fuel dim a b av bv A B tint tol : (dim <= 63)%N -> int_object dim a -> int_object dim b -> value a A -> value b B -> blade_of dim av A -> blade_of dim bv B ->
  (length av <= 7)%nat -> (length bv <= 7)%nat -> (cint a && cint b)%bool = false -> (tint = true -> isint tol) -> 0 <= tol -> (exists k, tol < Rabs (coef A k)) -> (exists k, tol < Rabs (coef B k)) ->
  (if (length bv <=? length av)%nat then units_exact F n fuel dim a b else units_exact F n fuel dim b a) ->
  holds (fun r => exists J cs, int_object dim r /\ value r J /\ blade_of dim cs J /\ norm2 (fun _ => 1) J = 1 /\ Forall (in_span (av ++ bv)) cs /\ Forall (in_span cs) (if (length bv <=? length av)%nat then av else bv) /\ (tol = 0 -> Forall (in_span cs) (av ++ bv)))
    (fast_join F n fuel dim a b tint tol).
Proof.
  intros Hd Oa Ob Va Vb Ba Bb Sa Sb HI Ti T Ka Kb U. unfold fast_join.
  apply (holds_bind _ _ _ _ (grade_ok F n dim a av A tint tol Hd Oa Va Ba Ti T Ka)). intros gl _ ->.
  apply (holds_bind _ _ _ _ (grade_ok F n dim b bv B tint tol Hd Ob Vb Bb Ti T Kb)). intros gr _ ->.
  destruct (Nat.leb_spec (length bv) (length av)) as [L|L].
  - replace (Z.leb (Z.of_nat (length bv)) (Z.of_nat (length av))) with true by (symmetry; apply Z.leb_le; lia).
    intros o E. destruct (join_type F n fuel dim (cexpr a) (cexpr b)) as [t|] eqn:Et; [|unfold fast_join_impl in E; rewrite Et in E; discriminate E]. destruct (join_type_ok F n fuel dim a b av bv A B t Hd Oa Ob Va Vb Ba Bb L Sa Et) as (l & -> & Bl).
    exact (join_impl F n fuel dim a b av bv A B tol l Hd Oa Ob Va Vb Ba Bb L Sa T U Et Bl false HI o E).
  - replace (Z.leb (Z.of_nat (length bv)) (Z.of_nat (length av))) with false by (symmetry; apply Z.leb_gt; lia).
    intros o E. destruct (join_type F n fuel dim (cexpr b) (cexpr a)) as [t|] eqn:Et; [|unfold fast_join_impl in E; rewrite Et in E; discriminate E]. destruct (join_type_ok F n fuel dim b a bv av B A t Hd Ob Oa Vb Va Bb Ba ltac:(lia) Sb Et) as (l & -> & Bl).
    destruct (join_impl F n fuel dim b a bv av B A tol l Hd Ob Oa Vb Va Bb Ba ltac:(lia) Sb T U Et Bl true ltac:(rewrite andb_comm; exact HI) o E) as [->|(r & -> & J & cs & O & V & BJ & NJ & S1 & S2 & S3)]; [left; reflexivity|right]. exists r. split; [reflexivity|]. exists J, cs.
    split; [exact O|]. split; [exact V|]. split; [exact BJ|]. split; [exact NJ|]. split; [eapply Forall_impl; [|exact S1]; intros z Sz; apply (span_trans (av ++ bv) (bv ++ av)); [|exact Sz]; apply Forall_forall; intros y Iy; apply span_in, in_or_app; apply in_app_or in Iy; tauto|].
    split; [exact S2|]. intros T0. specialize (S3 T0). rewrite Forall_app in *. tauto.
Qed.
