From Coq Require Import NArith ZArith List Bool Lia Sorted.
From Verif Require Import Bits SpecBits BitsBase BitsOnes BitsProofs Visit.
Import ListNotations.
Local Open Scope N_scope.

(** ** Enumeration *)
Lemma kvector_bitsets_ok n : n <= 63 -> forall fuel x, 0 < x -> x < 2 ^ n ->
  (N.to_nat (2 ^ n - x) < fuel)%nat ->
  exists l, kvector_bitsets fuel (2 ^ n - 1) x = Some l /\
    StronglySorted N.lt l /\
    (forall z, In z l <-> x <= z /\ z < 2 ^ n /\ grade_of z = grade_of x).
Proof.
  intros Hn. induction fuel as [|f IH]; intros x Hp Hx Hf; [lia|].
  cbn [kvector_bitsets]. replace (x =? 0) with false by (symmetry; apply N.eqb_neq; lia).
  destruct (next_combination_correct x n Hp Hx Hn) as [y [-> [(Hy & H1 & H2 & H3 & H4)|[-> H4]]]].
  - destruct (IH y) as [l [-> [Hs Hi]]]; [lia|lia|lia|].
    exists (x :: l). split; [reflexivity|]. split.
    + constructor; [exact Hs|]. apply Forall_forall. intros z Hz. apply Hi in Hz. lia.
    + intros z. cbn [In]. rewrite Hi. split.
      * intros [<-|(Ha & Hb & Hc)]; [repeat split; lia|]. rewrite Hc, H3. repeat split; lia.
      * intros (Ha & Hb & Hc). destruct (N.eq_dec x z) as [|Hne]; [now left|right].
        destruct (N.lt_ge_cases z y) as [Hlt|]; [|rewrite H3; repeat split; auto].
        exfalso. apply (H4 z); auto; lia.
  - destruct f as [|f]; [lia|]. cbn. exists [x]. split; [reflexivity|]. split.
    + constructor; constructor.
    + intros z. cbn [In]. split.
      * intros [<-|[]]; repeat split; lia.
      * intros (Ha & Hb & Hc). left. destruct (N.eq_dec x z) as [|Hne]; auto.
        exfalso. apply (H4 z); auto; lia.
Qed.

Theorem kvector_enumeration k n : 1 <= k -> k <= n -> n <= 63 ->
  exists fuel l, kvector_bitsets fuel (2 ^ n - 1) (first_combination k) = Some l /\
    StronglySorted N.lt l /\
    (forall z, In z l <-> z < 2 ^ n /\ grade_of z = k).
Proof.
  intros Hk Hkn Hn. destruct (first_combination_correct k n Hkn Hn) as (G & L & M).
  assert (0 < first_combination k).
  { destruct (N.eq_dec (first_combination k) 0) as [E|]; [|lia]. rewrite E in G. vm_compute in G. lia. }
  destruct (kvector_bitsets_ok n Hn (S (N.to_nat (2 ^ n - first_combination k))) _ H L (le_n _)) as [l [E [Hs Hi]]].
  eexists _, l. split; [exact E|]. split; [exact Hs|].
  intros z. rewrite Hi, G. split; [tauto|]. intros [A B]. repeat split; auto.
  destruct (N.lt_ge_cases z (first_combination k)); auto. exfalso. apply (M z); auto.
Qed.

(** ** Basis-vector visitor *)
Definition idx_from (x : N) (s n : nat) := filter (N.testbit x) (map N.of_nat (seq s n)).

Lemma idx_from_ext x y s n : (forall i, (s <= i < s + n)%nat -> N.testbit x (N.of_nat i) = N.testbit y (N.of_nat i)) ->
  idx_from x s n = idx_from y s n.
Proof.
  revert s. induction n as [|n IH]; intros s H; [reflexivity|].
  unfold idx_from. cbn [seq map filter]. rewrite (H s) by lia.
  fold (idx_from x (S s) n) (idx_from y (S s) n). rewrite (IH (S s)); [reflexivity|]. intros i Hi. apply H; lia.
Qed.
Lemma idx_from_skip x s k n : (forall i, (s <= i < s + k)%nat -> N.testbit x (N.of_nat i) = false) ->
  idx_from x s (k + n) = idx_from x (s + k) n.
Proof.
  revert s. induction k as [|k IH]; intros s H.
  - rewrite Nat.add_0_r. reflexivity.
  - cbn [Nat.add]. unfold idx_from. cbn [seq map filter]. rewrite H by lia.
    fold (idx_from x (S s) (k + n)). rewrite IH by (intros; apply H; lia).
    replace (S s + k)%nat with (s + S k)%nat by lia. reflexivity.
Qed.

Lemma idx_len x s n : (length (idx_from x s n) <= n)%nat.
Proof.
  revert s. induction n as [|n IH]; intros s; [apply le_n|].
  unfold idx_from. cbn [seq map filter]. fold (idx_from x (S s) n). specialize (IH (S s)).
  destruct (N.testbit x (N.of_nat s)); cbn [length]; lia.
Qed.

Lemma idx_all x : indices x = idx_from x 0 64.
Proof. unfold indices, idx_from. reflexivity. Qed.

Lemma loop_ok {S} (f : S -> N -> S * bool) : forall m fuel st x, x < 2 ^ 64 ->
  (length (idx_from x 0 64) <= m)%nat -> (m < fuel)%nat ->
  for_each_basis_vector_loop fuel f st x true =
  Some (fold_stop f st (map N.succ (idx_from x 0 64))).
Proof.
  induction m as [|m IH]; intros fuel st x Hx Hm Hf; (destruct fuel as [|fuel]; [lia|]);
    cbn [for_each_basis_vector_loop]; (destruct (N.eq_dec x 0) as [->|Hne];
    [reflexivity|]);
    destruct (rightmost_set_bit_correct x) as [i [E [T L]]]; try lia;
    assert (Hi : (N.to_nat i < 64)%nat) by
      (destruct (N.lt_ge_cases i 64); [lia|]; rewrite (testbit_high x 64) in T by auto; discriminate);
    assert (D : idx_from x 0 64 = i :: idx_from x (1 + N.to_nat i) (63 - N.to_nat i)) by
     (replace 64%nat with (N.to_nat i + (1 + (63 - N.to_nat i)))%nat by lia;
      rewrite idx_from_skip by (intros j Hj; apply L; lia);
      unfold idx_from at 1; cbn [Nat.add seq map filter]; rewrite N2Nat.id, T; do 2 f_equal; f_equal; lia).
  - rewrite D in Hm. cbn [length] in Hm. lia.
  - replace (x =? 0) with false by (symmetry; apply N.eqb_neq; lia). cbn [negb andb].
    rewrite E, set_bit_index_correct by lia. rewrite D in *. cbn [map fold_stop].
    rewrite N.add_1_r. destruct (f st (N.succ i)) as [st' kg]. cbn [length] in Hm.
    assert (D' : idx_from (N.lxor x (2 ^ i)) 0 64 = idx_from x (1 + N.to_nat i) (63 - N.to_nat i)).
    { replace 64%nat with ((1 + N.to_nat i) + (63 - N.to_nat i))%nat at 1 by lia.
      rewrite idx_from_skip.
      - rewrite Nat.add_0_l. apply idx_from_ext. intros j Hj. rewrite N.lxor_spec, N.pow2_bits_false by lia. apply xorb_false_r.
      - intros j Hj. rewrite N.lxor_spec. destruct (N.eq_dec (N.of_nat j) i) as [->|Hn].
        + rewrite T, N.pow2_bits_true. reflexivity.
        + rewrite N.pow2_bits_false by auto. rewrite L by lia. reflexivity. }
    destruct kg.
    + rewrite IH; [rewrite D'; reflexivity| |rewrite D'; lia|lia].
      apply lxor_lt; auto. apply N.pow_lt_mono_r; lia.
    + destruct fuel; [lia|]. cbn [for_each_basis_vector_loop]. rewrite andb_false_r. reflexivity.
Qed.

Theorem for_each_basis_vector_correct {S} (f : S -> N -> S * bool) st x : x < 2 ^ 64 ->
  for_each_basis_vector f st x = Some (fold_stop f st (map N.succ (indices x))).
Proof.
  intros Hx. unfold for_each_basis_vector. rewrite idx_all.
  assert (H : forall fuel, (64 < fuel)%nat -> (length (idx_from x 0 64) <= 64)%nat ->
    for_each_basis_vector_loop fuel f st x true = Some (fold_stop f st (map N.succ (idx_from x 0 64)))).
  { intros fuel Hf Hl. apply (loop_ok f 64 fuel st x Hx Hl Hf). }
  apply H; [lia|apply idx_len].
Qed.
