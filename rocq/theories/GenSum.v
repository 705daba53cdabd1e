(** Proofs: sums over the ways to split blades, rewritten as sums over enumerated combinations, and the
    sign used by the general products. *)
From Coq Require Import NArith ZArith List Bool Reals Lra Lia Permutation FinFun.
From Verif Require Import Bits BitsBase SpecBits BitsProofs BitsOnes Sem SpecMv MvBase GradeProofs SmartProofs Clifford Clifford2 Clifford3 Wick Wick2 SpecGeneral DetProofs GenDet.
Import ListNotations.
Local Open Scope R_scope.
Local Opaque sign_of indices idx.

(** ** Signs *)
Definition sg (k : nat) : R := if Nat.odd k then -1 else 1.
Lemma sg_add a b : sg (a + b) = sg a * sg b.
Proof. unfold sg. rewrite Nat.odd_add. destruct (Nat.odd a), (Nat.odd b); cbn [xorb]; lra. Qed.
Lemma sg_S a : sg (S a) = - sg a.
Proof. unfold sg. rewrite Nat.odd_succ, <- Nat.negb_odd. destruct (Nat.odd a); cbn [negb]; lra. Qed.
Lemma sg_sq a : sg a * sg a = 1.
Proof. unfold sg. destruct (Nat.odd a); lra. Qed.
Lemma alt_sg l : alt l = sg (length l). Proof. apply alt_odd. Qed.
Lemma incr_filter f l : incr l -> incr (filter f l).
Proof.
  induction l as [|x l IH]; intros I; cbn [filter]; [exact Logic.I|]. destruct (f x); [|apply IH, I]. cbn [incr]. split; [exact (proj1 I)|]. split; [|apply IH, I].
  intros y Y. apply filter_In in Y. apply (proj1 (proj2 I)), Y.
Qed.
Lemma filter_true {A} (f : A -> bool) l : (forall x, In x l -> f x = true) -> filter f l = l.
Proof. induction l as [|x l IH]; intros H; cbn [filter]; [reflexivity|]. rewrite (H x (or_introl eq_refl)), IH by (intros; apply H; right; assumption). reflexivity. Qed.
Lemma filter_false {A} (f : A -> bool) l : (forall x, In x l -> f x = false) -> filter f l = [].
Proof. induction l as [|x l IH]; intros H; cbn [filter]; [reflexivity|]. rewrite (H x (or_introl eq_refl)). apply IH. intros; apply H; right; assumption. Qed.
Lemma split_len x l : incr l -> In x l -> length l = S (length (filter (fun y => N.ltb y x) l) + length (filter (N.ltb x) l)).
Proof.
  induction l as [|y l IH]; intros I H; [destruct H|]. cbn [filter length]. destruct H as [->|H].
  - rewrite N.ltb_irrefl. rewrite (filter_true (N.ltb x) l) by (intros z Z; apply N.ltb_lt, (proj1 (proj2 I)), Z).
    rewrite (filter_false (fun y => N.ltb y x) l) by (intros z Z; apply N.ltb_ge, N.lt_le_incl, (proj1 (proj2 I)), Z). reflexivity.
  - pose proof (proj1 (proj2 I) x H) as L. rewrite (proj2 (N.ltb_lt y x) L). destruct (N.ltb_spec x y); [lia|]. cbn [length]. pose proof (IH (proj2 (proj2 I)) H). lia.
Qed.
Transparent sign_of.
Lemma sign_vec x Y : (x < 64)%N -> sign_of (2 ^ x) Y = sg (length (filter (fun y => N.ltb y x) (indices Y))).
Proof.
  intros H. unfold sign_of, inversions. rewrite indices_pow2 by exact H. cbn [list_prod]. rewrite app_nil_r. unfold sg.
  assert (E : forall L, length (filter (fun p => (snd p <? fst p)%N) (map (fun y => (x, y)) L)) = length (filter (fun y => N.ltb y x) L)).
  { induction L as [|y L IH]; cbn [map filter fst snd length]; [reflexivity|]. destruct (N.ltb y x); cbn [length]; congruence. }
  rewrite E. reflexivity.
Qed.
Opaque sign_of.
Lemma below_len n x : (x <= n)%N -> (n <= 63)%N -> length (filter (fun y => N.ltb y x) (indices (2 ^ n - 1))) = N.to_nat x.
Proof.
  intros H Hn. assert (E : filter (fun y => N.ltb y x) (indices (2 ^ n - 1)) = indices (2 ^ x - 1)).
  { apply incr_unique; [apply incr_filter, indices_incr|apply indices_incr|]. intros y. rewrite filter_In, !indices_spec, !testbit_mask, N.ltb_lt. destruct (N.ltb_spec y n), (N.ltb_spec y x); intuition (try lia; try discriminate). }
  rewrite E. pose proof (grade_mask x ltac:(lia)) as G. unfold grade_of in G. lia.
Qed.
Lemma per_element n l x : (n <= 63)%N -> (l < 2 ^ n)%N -> N.testbit l x = true ->
  alt (indices l) * (if N.even x then -1 else 1) * sign_of (2 ^ x) (N.lxor (2 ^ n - 1) l) = alt (filter (N.ltb x) (indices l)).
Proof.
  intros Hn Hl T. assert (Hx : (x < n)%N) by (destruct (N.ltb_spec x n); [assumption|rewrite (testbit_high l n x Hl) in T by assumption; discriminate]).
  rewrite sign_lxor_r, !sign_vec by lia. rewrite below_len by lia. rewrite !alt_sg.
  rewrite (split_len x (indices l) (indices_incr l)) by (apply indices_spec; split; [lia|exact T]). rewrite sg_S, sg_add.
  assert (Ex : sg (N.to_nat x) = if N.even x then 1 else -1). { unfold sg. rewrite <- (Nnat.N2Nat.id x) at 2. rewrite <- N.negb_odd. rewrite odd_of_nat. destruct (Nat.odd _); reflexivity. }
  rewrite Ex. generalize (sg_sq (length (filter (fun y => N.ltb y x) (indices l)))). generalize (sg (length (filter (fun y => N.ltb y x) (indices l)))) (sg (length (filter (N.ltb x) (indices l)))).
  intros u v U. transitivity (u * u * v); [destruct (N.even x); ring|rewrite U; ring].
Qed.

(** The sign of the code for a set of columns. *)
Definition csg (c : list N) : R := fold_right (fun x s => (if N.even x then -1 else 1) * s) 1 c.
Fixpoint rep (a : R) (c : list N) : R := match c with [] => 1 | _ :: c' => a * rep a c' end.
Lemma sign_columns n l c : (n <= 63)%N -> (l < 2 ^ n)%N -> (forall x, In x c -> N.testbit l x = true) ->
  rep (alt (indices l)) c * csg c * sign_of (bits c) (N.lxor (2 ^ n - 1) l) = wsg (indices l) c.
Proof.
  intros Hn Hl. induction c as [|x c IH]; intros H.
  - cbn [rep csg fold_right wsg]. change (bits []) with 0%N. rewrite sign_0_l. ring.
  - cbn [rep csg fold_right wsg]. fold (csg c). rewrite <- (per_element n l x Hn Hl) by (apply H; left; reflexivity). rewrite <- IH by (intros; apply H; right; assumption).
    rewrite bits_cons, sign_lxor_l. generalize (alt (indices l)) (rep (alt (indices l)) c) (csg c) (sign_of (2 ^ x) (N.lxor (2 ^ n - 1) l)) (sign_of (bits c) (N.lxor (2 ^ n - 1) l)) (if N.even x then -1 else 1). intros. ring.
Qed.
Lemma csg_len c : csg c = sg (length (filter N.even c)).
Proof. induction c as [|x c IH]; [reflexivity|]. cbn [csg fold_right filter]. fold (csg c). rewrite IH. destruct (N.even x); cbn [length]; [rewrite sg_S|]; ring. Qed.
Lemma csg_ones c : incr c -> csg c = if N.even (ones (N.land (bits c) 0x5555555555555555)) then 1 else -1.
Proof.
  intros I. assert (L : (N.land (bits c) 0x5555555555555555 < 2 ^ 64)%N) by (apply land_lt, bits_64, I). rewrite (ones_correct _ L). clear L. rewrite csg_len.
  assert (E : indices (N.land (bits c) 0x5555555555555555) = filter N.even c).
  { apply incr_unique; [apply indices_incr|apply incr_filter, I|]. intros y. rewrite indices_spec, filter_In, N.land_spec, andb_true_iff, (bits_bit c I).
    split.
    - intros (L & Y & T). rewrite (even_mask y L) in T. auto.
    - intros (Y & T). pose proof (incr_lt c I y Y) as L. rewrite (even_mask y L). auto. }
  unfold grade_of. rewrite E. rewrite <- N.negb_odd, odd_of_nat. unfold sg. destruct (Nat.odd _); reflexivity.
Qed.
Lemma odd_Z k : Z.odd (Z.of_nat k) = Nat.odd k.
Proof. induction k as [|k IH]; [reflexivity|]. rewrite Nat2Z.inj_succ, Z.odd_succ, <- Z.negb_odd, Nat.odd_succ, <- Nat.negb_odd, IH. reflexivity. Qed.
Lemma rep_pow a c : rep (alt a) c = if Z.eqb (Z.land (-2 * Z.of_nat (length c) + Z.of_nat (length c) * Z.of_nat (length a)) 1) 0 then 1 else -1.
Proof.
  assert (E : Z.land (-2 * Z.of_nat (length c) + Z.of_nat (length c) * Z.of_nat (length a)) 1 = Z.b2z (Z.odd (-2 * Z.of_nat (length c) + Z.of_nat (length c) * Z.of_nat (length a)))).
  { rewrite <- Z.bit0_odd, Z.bit0_mod. apply (Z.land_ones _ 1). lia. }
  rewrite E. clear E. rewrite Z.odd_add, !Z.odd_mul. replace (Z.odd (-2)) with false by reflexivity. cbn [andb]. rewrite xorb_false_l, !odd_Z.
  rewrite alt_sg. unfold sg at 1. generalize (Nat.odd (length a)). intros b. induction c as [|x c IH]; cbn [rep length]; [reflexivity|].
  rewrite IH. rewrite Nat.odd_succ, <- Nat.negb_odd. destruct (Nat.odd (length c)), b; cbn; lra.
Qed.

(** ** Splits as subsets *)
Lemma lsum_perm {A} (f : A -> R) l m : Permutation l m -> lsum f l = lsum f m.
Proof. induction 1; cbn [lsum]; lra. Qed.
Lemma lsum_filter {A} (t : A -> bool) (f : A -> R) l : lsum (fun x => if t x then f x else 0) l = lsum f (filter t l).
Proof. induction l as [|x l IH]; cbn [lsum filter]; [reflexivity|]. destruct (t x); cbn [lsum]; rewrite IH; ring. Qed.
Lemma splits_snd l : forall p, In p (splits l) -> bits (snd p) = N.lxor (bits l) (bits (fst p)).
Proof.
  induction l as [|x l IH]; intros p H; cbn [splits] in H.
  - destruct H as [<-|[]]. reflexivity.
  - apply in_app_or in H. destruct H as [H|H]; apply in_map_iff in H; destruct H as (q & <- & Q); cbn [fst snd]; rewrite !bits_cons, (IH q Q); apply N.bits_inj; intros k; rewrite !N.lxor_spec; destruct (N.testbit (bits l) k), (N.testbit (bits (fst q)) k), (N.testbit (2 ^ x) k); reflexivity.
Qed.
Lemma nodup_app {A} (l m : list A) : NoDup l -> NoDup m -> (forall x, In x l -> ~ In x m) -> NoDup (l ++ m).
Proof.
  induction 1 as [|x l Hx Hl IH]; intros M D; [exact M|]. cbn [app]. constructor.
  - intros H. apply in_app_or in H. destruct H as [H|H]; [exact (Hx H)|exact (D x (or_introl eq_refl) H)].
  - apply IH; [exact M|]. intros y Y. apply D. right; exact Y.
Qed.
Lemma splits_nodup l : incr l -> NoDup (map (fun p => bits (fst p)) (splits l)).
Proof.
  induction l as [|x l IH]; intros I; cbn [splits map]; [repeat constructor; intros []|]. rewrite map_app, !map_map. cbn [fst].
  pose proof (IH (proj2 (proj2 I))) as ND.
  assert (Z : forall p, In p (splits l) -> N.testbit (bits (fst p)) x = false).
  { intros p P. destruct (splits_in l p P) as [E S]. destruct (S (proj2 (proj2 I))) as [I1 _]. destruct (N.testbit (bits (fst p)) x) eqn:T; [|reflexivity]. apply (bits_bit _ I1) in T.
    assert (In x l) as X by (apply E; auto). pose proof (proj1 (proj2 I) x X). lia. }
  apply nodup_app; [exact ND| |].
  - apply (NoDup_map_inv (fun b => N.lxor b (2 ^ x))). rewrite map_map. rewrite (map_ext _ (fun p => bits (fst p))) by (intros p; apply drop_cons). exact ND.
  - intros b H1 H2. apply in_map_iff in H1. apply in_map_iff in H2. destruct H1 as (p & <- & P). destruct H2 as (q & E & Q). pose proof (Z p P) as Zp. pose proof (Z q Q) as Zq. rewrite <- E in Zp. rewrite bits_cons, bit_flip, Zq, N.eqb_refl in Zp. discriminate.
Qed.
Lemma splits_sub l : forall c, incr l -> incr c -> (forall y, In y c -> In y l) -> exists m, In (c, m) (splits l).
Proof.
  induction l as [|x l IH]; intros c Il Ic H; cbn [splits].
  - destruct c as [|y c]; [exists []; left; reflexivity|destruct (H y (or_introl eq_refl))].
  - destruct c as [|y c].
    + destruct (IH [] (proj2 (proj2 Il)) Logic.I) as [m M]; [intros ? []|]. exists (x :: m). apply in_or_app. left. apply in_map_iff. exists ([], m). auto.
    + destruct (N.eq_dec y x) as [->|Ne].
      * destruct (IH c (proj2 (proj2 Il)) (proj2 (proj2 Ic))) as [m M].
        { intros z Z. destruct (H z (or_intror Z)) as [->|Q]; [|exact Q]. pose proof (proj1 (proj2 Ic) z Z). lia. }
        exists m. apply in_or_app. right. apply in_map_iff. exists (c, m). auto.
      * destruct (IH (y :: c) (proj2 (proj2 Il)) Ic) as [m M].
        { intros z Z. destruct (H z Z) as [->|Q]; [|exact Q]. exfalso. destruct Z as [->|Z]; [congruence|]. destruct (H y (or_introl eq_refl)) as [->|Y]; [congruence|].
          pose proof (proj1 (proj2 Ic) z Z). pose proof (proj1 (proj2 Il) y Y). lia. }
        exists (x :: m). apply in_or_app. left. apply in_map_iff. exists (y :: c, m). auto.
Qed.
Lemma sub_bits l z : (z < 2 ^ 64)%N -> (N.land z l = z <-> forall y, In y (indices z) -> In y (indices l)).
Proof.
  intros Hz. split.
  - intros E y Y. rewrite <- E in Y. apply indices_spec in Y. rewrite N.land_spec, andb_true_iff in Y. apply indices_spec. tauto.
  - intros H. apply N.bits_inj. intros k. rewrite N.land_spec. destruct (N.testbit z k) eqn:T; [|reflexivity].
    assert (K : (k < 64)%N) by (destruct (N.ltb_spec k 64); [assumption|rewrite (testbit_high z 64 k Hz) in T by assumption; discriminate]).
    assert (In k (indices l)) as Q by (apply H, indices_spec; auto). apply indices_spec in Q. rewrite (proj2 Q). reflexivity.
Qed.
Lemma in_splits l z : (l < 2 ^ 64)%N -> (z < 2 ^ 64)%N -> (In z (map (fun p => bits (fst p)) (splits (indices l))) <-> N.land z l = z).
Proof.
  intros Hl Hz. rewrite (sub_bits l z Hz), in_map_iff. split.
  - intros (p & <- & P). destruct (splits_in _ p P) as [E S]. destruct (S (indices_incr l)) as [I1 _]. intros y. rewrite (indices_bits _ I1). intros Y. apply E. auto.
  - intros H. destruct (splits_sub (indices l) (indices z) (indices_incr l) (indices_incr z) H) as [m M]. exists (indices z, m). split; [apply bits_indices, Hz|exact M].
Qed.
Lemma split_len_fst l p : In p (splits (indices l)) -> length (fst p) = N.to_nat (grade_of (bits (fst p))).
Proof. intros P. destruct (splits_in _ p P) as [_ S]. destruct (S (indices_incr l)) as [I1 _]. unfold grade_of. rewrite (indices_bits _ I1). lia. Qed.
Lemma sub_lt l n z : (l < 2 ^ n)%N -> (N.land z l = z) -> (z < 2 ^ n)%N.
Proof. intros H <-. rewrite N.land_comm. apply land_lt, H. Qed.
Lemma filter_nodup {A} (f : A -> bool) l : NoDup l -> NoDup (filter f l).
Proof. apply NoDup_filter. Qed.
Lemma split_sum n l o Lo (F : N -> R) : (n <= 63)%N -> (l < 2 ^ n)%N -> NoDup Lo -> (forall z, In z Lo <-> (z < 2 ^ n)%N /\ grade_of z = N.of_nat o) ->
  lsum (fun p => if Nat.eqb (length (fst p)) o then F (bits (fst p)) else 0) (splits (indices l)) = lsum (fun z => if N.eqb (N.land z l) z then F z else 0) Lo.
Proof.
  intros Hn Hl ND HL. assert (L64 : (l < 2 ^ 64)%N) by (apply (pow2_64 n); [lia|exact Hl]).
  transitivity (lsum (fun z => if N.eqb (grade_of z) (N.of_nat o) then F z else 0) (map (fun p => bits (fst p)) (splits (indices l)))).
  - rewrite lsum_map. apply lsum_ext. intros p P. rewrite (split_len_fst l p P). destruct (Nat.eqb_spec (N.to_nat (grade_of (bits (fst p)))) o), (N.eqb_spec (grade_of (bits (fst p))) (N.of_nat o)); auto; lia.
  - rewrite !lsum_filter. apply lsum_perm, NoDup_Permutation; [apply NoDup_filter, splits_nodup, indices_incr|apply NoDup_filter, ND|].
    intros z. rewrite !filter_In, !N.eqb_eq, HL. split.
    + intros (Z & G). assert (Z64 : (z < 2 ^ 64)%N).
      { apply in_map_iff in Z. destruct Z as (p & <- & P). destruct (splits_in _ p P) as [_ S]. apply bits_64, (S (indices_incr l)). }
      apply (in_splits l z L64 Z64) in Z. split; [split; [exact (sub_lt l n z Hl Z)|exact G]|exact Z].
    + intros ((Z & G) & S). split; [|exact G]. apply in_splits; [exact L64|apply (pow2_64 n); [lia|exact Z]|exact S].
Qed.

(** Subsets selected by position. *)
Lemma sel_bits_in L T y : In y (sel L T) <-> exists i, In i T /\ nth (N.to_nat i) L 0%N = y.
Proof. unfold sel. rewrite in_map_iff. split; intros (i & H1 & H2); exists i; auto. Qed.
Lemma sel_inj L T T' : incr L -> incr T -> incr T' -> (forall i, In i T -> (N.to_nat i < length L)%nat) -> (forall i, In i T' -> (N.to_nat i < length L)%nat) -> sel L T = sel L T' -> T = T'.
Proof.
  intros I. revert T'. induction T as [|t T IH]; intros [|t' T'] IT IT' H H' E; try discriminate; [reflexivity|]. cbn [sel map] in E. injection E as E1 E2.
  assert (t = t').
  { pose proof (H t (or_introl eq_refl)) as B. pose proof (H' t' (or_introl eq_refl)) as B'. destruct (N.lt_trichotomy t t') as [L1|[L1|L1]]; [|exact L1|].
    - pose proof (incr_nth L I (N.to_nat t) (N.to_nat t') ltac:(lia) B'). lia.
    - pose proof (incr_nth L I (N.to_nat t') (N.to_nat t) ltac:(lia) B). lia. }
  subst t'. f_equal. apply IH; [exact (proj2 (proj2 IT))|exact (proj2 (proj2 IT'))|intros; apply H; right; assumption|intros; apply H'; right; assumption|exact E2].
Qed.
Lemma seq_incr k : forall m, (m + k <= 64)%nat -> incr (map N.of_nat (seq m k)).
Proof.
  induction k as [|k IH]; intros m H; cbn [seq map incr]; [exact Logic.I|]. split; [lia|]. split; [|apply IH; lia].
  intros y Y. apply in_map_iff in Y. destruct Y as (i & <- & Q). apply in_seq in Q. lia.
Qed.
Lemma sel_onto L c : incr L -> (length L <= 64)%nat -> incr c -> (forall y, In y c -> In y L) ->
  exists T, incr T /\ (forall i, In i T -> (N.to_nat i < length L)%nat) /\ sel L T = c.
Proof.
  intros I HL Ic H. set (T := filter (fun i => N.testbit (bits c) (nth (N.to_nat i) L 0%N)) (map N.of_nat (seq 0 (length L)))).
  assert (B : forall i, In i T -> (N.to_nat i < length L)%nat).
  { intros i Q. apply filter_In in Q. destruct Q as [Q _]. apply in_map_iff in Q. destruct Q as (k & <- & K). apply in_seq in K. lia. }
  assert (IT : incr T) by (apply incr_filter, seq_incr; lia).
  exists T. split; [exact IT|]. split; [exact B|]. apply incr_unique; [apply sel_incr; assumption|exact Ic|].
  intros y. rewrite sel_bits_in. split.
  - intros (i & Q & <-). apply filter_In in Q. apply (bits_bit c Ic), Q.
  - intros Y. destruct (In_nth L y 0%N (H y Y)) as (k & K & E). exists (N.of_nat k). rewrite Nnat.Nat2N.id. split; [|exact E]. apply filter_In. split; [apply in_map, in_seq; lia|].
    rewrite Nnat.Nat2N.id, E. apply (bits_bit c Ic), Y.
Qed.
Lemma sel_sum n r o Lo (F : N -> R) : (n <= 63)%N -> (r < 2 ^ n)%N -> NoDup Lo -> (forall z, In z Lo <-> (z < 2 ^ grade_of r)%N /\ grade_of z = N.of_nat o) ->
  lsum (fun p => if Nat.eqb (length (fst p)) o then F (bits (fst p)) else 0) (splits (indices r)) = lsum (fun t => F (bits (sel (indices r) (indices t)))) Lo.
Proof.
  intros Hn Hr ND HL. assert (R64 : (r < 2 ^ 64)%N) by (apply (pow2_64 n); [lia|exact Hr]). pose proof (grade_le r n ltac:(lia) Hr) as Gr.
  assert (Lr : length (indices r) = N.to_nat (grade_of r)) by (unfold grade_of; lia).
  assert (BT : forall z, In z Lo -> (z < 2 ^ 64)%N /\ forall i, In i (indices z) -> (N.to_nat i < length (indices r))%nat).
  { intros z Z. apply HL in Z. destruct Z as [Z _]. split; [apply (pow2_64 (grade_of r)); [lia|exact Z]|]. intros i Hi. pose proof (indices_below _ _ _ Z Hi). lia. }
  transitivity (lsum (fun z => if N.eqb (grade_of z) (N.of_nat o) then F z else 0) (map (fun p => bits (fst p)) (splits (indices r)))).
  - rewrite lsum_map. apply lsum_ext. intros p P. rewrite (split_len_fst r p P). destruct (Nat.eqb_spec (N.to_nat (grade_of (bits (fst p)))) o), (N.eqb_spec (grade_of (bits (fst p))) (N.of_nat o)); auto; lia.
  - rewrite lsum_filter, <- (lsum_map (fun t => bits (sel (indices r) (indices t))) F). apply lsum_perm, NoDup_Permutation; [apply NoDup_filter, splits_nodup, indices_incr| |].
    + clear HL Lr. induction ND as [|z L Hz ND IH]; cbn [map]; constructor.
      * intros Q. apply in_map_iff in Q. destruct Q as (w & E & W). apply Hz. destruct (BT z (or_introl eq_refl)) as [Z1 Z2]. destruct (BT w (or_intror W)) as [W1 W2].
        assert (E2 : indices w = indices z). { apply (sel_inj (indices r)); try apply indices_incr; auto. rewrite <- (indices_bits (sel (indices r) (indices w))), E, indices_bits; [reflexivity| |]; apply sel_incr; auto; apply indices_incr. }
        rewrite <- (bits_indices z Z1), <- E2, (bits_indices w W1). exact W.
      * apply IH. intros w W. apply BT. right; exact W.
    + intros z. rewrite filter_In, N.eqb_eq, (in_map_iff _ Lo). split.
      * intros (Z & G). assert (Z64 : (z < 2 ^ 64)%N).
        { apply in_map_iff in Z. destruct Z as (p & <- & P). destruct (splits_in _ p P) as [_ S]. apply bits_64, (S (indices_incr r)). }
        apply (in_splits r z R64 Z64) in Z. pose proof (proj1 (sub_bits r z Z64) Z) as Sub.
        destruct (sel_onto (indices r) (indices z) (indices_incr r) ltac:(lia) (indices_incr z) Sub) as (T & IT & BT' & E). exists (bits T). rewrite (indices_bits T IT), E. split; [apply bits_indices, Z64|].
        apply HL. split; [apply bits_lt; [exact IT|]; intros y Y; pose proof (BT' y Y); lia|]. unfold grade_of in *. rewrite (indices_bits T IT). rewrite <- G, <- E. unfold sel. rewrite map_length. reflexivity.
      * intros (t & <- & T). destruct (BT t T) as [T1 T2]. assert (IS : incr (sel (indices r) (indices t))) by (apply sel_incr; auto; apply indices_incr). split.
        -- apply in_splits; [exact R64|apply bits_64, IS|]. apply sub_bits; [apply bits_64, IS|]. intros y. rewrite (indices_bits _ IS), sel_bits_in. intros (i & Hi & <-). apply nth_In, T2, Hi.
        -- apply HL in T. destruct T as [_ G]. rewrite <- G. unfold grade_of. rewrite (indices_bits _ IS). unfold sel. rewrite map_length. reflexivity.
Qed.

(** ** The product of two blades by orders *)
Section Product.
Variables (B : N -> N -> R) (n l r : N) (h : N -> R).
Hypothesis Hn : (n <= 63)%N.
Hypothesis Hl : (l < 2 ^ n)%N.
Hypothesis Hr : (r < 2 ^ n)%N.
Definition wterm (c s : N) : R :=
  wsg (indices l) (indices c) * minor B (indices s) (indices c) * sign_of s (N.lxor r s) * sumf (op_blade (N.lxor l c) (N.lxor r s)) h.
(** The terms that remove [o] factors from each blade. *)
Definition order_part (o : nat) : R :=
  lsum (fun p => if Nat.eqb (length (fst p)) o then lsum (fun q => if Nat.eqb (length (fst q)) o then wterm (bits (fst p)) (bits (fst q)) else 0) (splits (indices r)) else 0) (splits (indices l)).
Lemma wterm_split p q : In p (splits (indices l)) -> In q (splits (indices r)) ->
  wsg (indices l) (fst p) * minor B (fst q) (fst p) * sgn (fst q) (snd q) * sumf (op_blade (bits (snd p)) (bits (snd q))) h = wterm (bits (fst p)) (bits (fst q)).
Proof.
  intros P Q. destruct (splits_in _ p P) as [_ S1]. destruct (splits_in _ q Q) as [_ S2]. destruct (S1 (indices_incr l)) as [I1 _]. destruct (S2 (indices_incr r)) as [I2 _].
  unfold wterm, sgn. rewrite (indices_bits _ I1), (indices_bits _ I2), (splits_snd _ p P), (splits_snd _ q Q), !bits_indices by (apply (pow2_64 n); [lia|assumption]). reflexivity.
Qed.
Lemma wterm_len c s : length (indices c) <> length (indices s) -> wterm c s = 0.
Proof. intros H. unfold wterm. rewrite minor_len by congruence. ring. Qed.
Lemma lsum_zero {A} (f : A -> R) L : (forall x, In x L -> f x = 0) -> lsum f L = 0.
Proof. intros H. rewrite (lsum_ext f (fun _ => 0) L H). apply lsum_0. Qed.
Lemma upto_pick (f : nat -> R) a K : upto (fun o => if Nat.eqb a o then f o else 0) K = if Nat.ltb a K then f a else 0.
Proof. induction K as [|K IH]; cbn [upto]; [reflexivity|]. rewrite IH. destruct (Nat.ltb_spec a K), (Nat.eqb_spec a K), (Nat.ltb_spec a (S K)); subst; try lia; ring. Qed.
Lemma upto_lsum {A} (f : A -> nat -> R) L K : upto (fun o => lsum (fun x => f x o) L) K = lsum (fun x => upto (f x) K) L.
Proof. induction K as [|K IH]; cbn [upto]; [symmetry; apply lsum_0|]. rewrite IH, <- lsum_plus. reflexivity. Qed.
Lemma split_fst_le m p : In p (splits (indices m)) -> (length (fst p) <= length (indices m))%nat.
Proof. intros P. revert p P. induction (indices m) as [|x L IH]; intros p P; cbn [splits] in P; [destruct P as [<-|[]]; reflexivity|]. apply in_app_or in P. destruct P as [P|P]; apply in_map_iff in P; destruct P as (q & <- & Q); cbn [fst length]; pose proof (IH q Q); lia. Qed.
Theorem by_orders K : (Nat.min (length (indices l)) (length (indices r)) < K)%nat -> M B l h r = upto order_part K.
Proof.
  intros HK. unfold M. pose proof (mulb_blades B (indices l) (indices r) h (indices_incr l) (indices_incr r)) as Q. rewrite (bits_indices r) in Q by (apply (pow2_64 n); [lia|assumption]). rewrite Q. clear Q.
  unfold order_part. rewrite upto_lsum. apply lsum_ext. intros p P. rewrite upto_pick.
  rewrite (lsum_ext _ (fun q => wterm (bits (fst p)) (bits (fst q)))) by (intros q Q; apply wterm_split; assumption).
  assert (Lp : length (indices (bits (fst p))) = length (fst p)) by (destruct (splits_in _ p P) as [_ S1]; rewrite indices_bits; [reflexivity|apply (S1 (indices_incr l))]).
  assert (Lq : forall q, In q (splits (indices r)) -> length (indices (bits (fst q))) = length (fst q)) by (intros q Q; destruct (splits_in _ q Q) as [_ S1]; rewrite indices_bits; [reflexivity|apply (S1 (indices_incr r))]).
  destruct (Nat.ltb_spec (length (fst p)) K) as [Lt|Ge].
  - apply lsum_ext. intros q Q. destruct (Nat.eqb_spec (length (fst q)) (length (fst p))) as [_|Ne]; [reflexivity|]. apply wterm_len. rewrite Lp, (Lq q Q). congruence.
  - apply lsum_zero. intros q Q. apply wterm_len. rewrite Lp, (Lq q Q). pose proof (split_fst_le l p P). pose proof (split_fst_le r q Q). lia.
Qed.
(** The terms of one order, by enumerated columns and rows. *)
Theorem order_enum o Lc Lt : NoDup Lc -> (forall z, In z Lc <-> (z < 2 ^ n)%N /\ grade_of z = N.of_nat o) ->
  NoDup Lt -> (forall z, In z Lt <-> (z < 2 ^ grade_of r)%N /\ grade_of z = N.of_nat o) ->
  order_part o = lsum (fun c => if N.eqb (N.land c l) c then lsum (fun t => wterm c (bits (sel (indices r) (indices t)))) Lt else 0) Lc.
Proof.
  intros N1 H1 N2 H2. unfold order_part.
  rewrite (split_sum n l o Lc (fun c => lsum (fun q => if Nat.eqb (length (fst q)) o then wterm c (bits (fst q)) else 0) (splits (indices r))) Hn Hl N1 H1).
  apply lsum_ext. intros c _. destruct (N.eqb (N.land c l) c); [|reflexivity]. exact (sel_sum n r o Lt (wterm c) Hn Hr N2 H2).
Qed.
End Product.
