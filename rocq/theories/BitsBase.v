(** Generic facts on binary digits of [N] and counting (no import of the model). *)
From Coq Require Import NArith ZArith List Bool Lia Arith.
From Verif Require Import SpecBits.
Import ListNotations.
Local Open Scope N_scope.

Definition tb (x : N) (i : nat) : bool := N.testbit x (N.of_nat i).
Definition b2n (b : bool) : nat := if b then 1%nat else 0%nat.

Fixpoint cnt (n : nat) (f : nat -> bool) : nat :=
  match n with O => 0%nat | S m => (cnt m f + b2n (f m))%nat end.

Lemma cnt_ext n f g : (forall i, (i < n)%nat -> f i = g i) -> cnt n f = cnt n g.
Proof.
  induction n; intros H; simpl; auto.
  rewrite IHn by (intros; apply H; lia). rewrite H by lia. auto.
Qed.

Lemma cnt_split n m f : cnt (n + m) f = (cnt n f + cnt m (fun i => f (n + i)%nat))%nat.
Proof.
  induction m; simpl.
  - rewrite Nat.add_0_r. lia.
  - rewrite Nat.add_succ_r. simpl. rewrite IHm. lia.
Qed.

Lemma cnt_S_first n f : cnt (S n) f = (b2n (f O) + cnt n (fun i => f (S i)))%nat.
Proof. replace (S n) with (1 + n)%nat by lia. rewrite cnt_split. simpl. reflexivity. Qed.

Lemma cnt_false n : cnt n (fun _ => false) = 0%nat.
Proof. induction n; simpl; auto. rewrite IHn. auto. Qed.

Lemma cnt_le n f : (cnt n f <= n)%nat.
Proof. induction n; simpl; auto. destruct (f n); simpl; lia. Qed.

Lemma filter_seq_cnt n k (f : nat -> bool) :
  length (filter f (seq k n)) = cnt n (fun i => f (k + i)%nat).
Proof.
  revert k. induction n; intros k. { reflexivity. }
  cbn [seq filter]. rewrite cnt_S_first.
  rewrite Nat.add_0_r.
  assert (E : cnt n (fun i => f (S k + i)%nat) = cnt n (fun i => f (k + S i)%nat))
    by (apply cnt_ext; intros; f_equal; lia).
  destruct (f k); cbn [length b2n]; rewrite IHn; lia.
Qed.

Lemma filter_map_length {A B} (g : A -> B) (f : B -> bool) l :
  length (filter f (map g l)) = length (filter (fun x => f (g x)) l).
Proof. induction l; simpl; auto. destruct (f (g a)); simpl; auto. Qed.

Lemma grade_of_cnt x : grade_of x = N.of_nat (cnt 64 (tb x)).
Proof.
  unfold grade_of, indices. rewrite filter_map_length.
  rewrite filter_seq_cnt. reflexivity.
Qed.

Lemma testbit_high a k i : a < 2 ^ k -> k <= i -> N.testbit a i = false.
Proof.
  intros Ha Hi. destruct (N.eq_dec a 0) as [->|Hz].
  - apply N.bits_0.
  - apply N.bits_above_log2.
    apply N.log2_lt_pow2 in Ha; lia.
Qed.

(** Digits of [a * 2^k + b] with [b < 2^k]. *)
Lemma testbit_split a b k i : b < 2 ^ k ->
  N.testbit (a * 2 ^ k + b) i = if i <? k then N.testbit b i else N.testbit a (i - k).
Proof.
  intros Hb.
  destruct (N.ltb_spec i k).
  - rewrite <- (N.mod_pow2_bits_low (a * 2 ^ k + b) k i) by auto.
    rewrite N.add_comm, N.mod_add by (apply N.pow_nonzero; lia).
    rewrite N.mod_small by auto. reflexivity.
  - replace i with ((i - k) + k) at 1 by lia.
    rewrite <- N.div_pow2_bits.
    rewrite N.div_add_l by (apply N.pow_nonzero; lia).
    rewrite (N.div_small b) by auto. rewrite N.add_0_r. reflexivity.
Qed.

Lemma tb_split a b k i : b < 2 ^ N.of_nat k ->
  tb (a * 2 ^ N.of_nat k + b) i = if (i <? k)%nat then tb b i else tb a (i - k).
Proof.
  intros Hb. unfold tb. rewrite testbit_split by auto.
  destruct (Nat.ltb_spec i k).
  - rewrite (proj2 (N.ltb_lt _ _)) by lia. reflexivity.
  - rewrite (proj2 (N.ltb_ge _ _)) by lia. f_equal. lia.
Qed.

Lemma land_lt a b k : a < 2 ^ k -> N.land a b < 2 ^ k.
Proof.
  intros Ha.
  destruct (N.eq_dec (N.land a b) 0) as [->|Hz].
  - apply N.neq_0_lt_0, N.pow_nonzero; lia.
  - apply N.log2_lt_pow2; [lia|].
    destruct (N.lt_ge_cases (N.log2 (N.land a b)) k); auto.
    assert (N.testbit (N.land a b) (N.log2 (N.land a b)) = true) by (apply N.bit_log2; auto).
    rewrite N.land_spec in H0. rewrite (testbit_high a k) in H0 by auto. discriminate.
Qed.

Lemma lxor_lt a b k : a < 2 ^ k -> b < 2 ^ k -> N.lxor a b < 2 ^ k.
Proof.
  intros Ha Hb.
  destruct (N.eq_dec (N.lxor a b) 0) as [->|Hz].
  - apply N.neq_0_lt_0, N.pow_nonzero; lia.
  - apply N.log2_lt_pow2; [lia|].
    destruct (N.lt_ge_cases (N.log2 (N.lxor a b)) k); auto.
    assert (N.testbit (N.lxor a b) (N.log2 (N.lxor a b)) = true) by (apply N.bit_log2; auto).
    rewrite N.lxor_spec, (testbit_high a k), (testbit_high b k) in H0 by auto. discriminate.
Qed.

Lemma lor_lt a b k : a < 2 ^ k -> b < 2 ^ k -> N.lor a b < 2 ^ k.
Proof.
  intros Ha Hb.
  destruct (N.eq_dec (N.lor a b) 0) as [->|Hz].
  - apply N.neq_0_lt_0, N.pow_nonzero; lia.
  - apply N.log2_lt_pow2; [lia|].
    destruct (N.lt_ge_cases (N.log2 (N.lor a b)) k); auto.
    assert (N.testbit (N.lor a b) (N.log2 (N.lor a b)) = true) by (apply N.bit_log2; auto).
    rewrite N.lor_spec, (testbit_high a k), (testbit_high b k) in H0 by auto. discriminate.
Qed.

Lemma land_split a b c d k : b < 2 ^ k -> d < 2 ^ k ->
  N.land (a * 2 ^ k + b) (c * 2 ^ k + d) = N.land a c * 2 ^ k + N.land b d.
Proof.
  intros Hb Hd. apply N.bits_inj; intro i.
  rewrite N.land_spec, !testbit_split by (auto; apply land_lt; auto).
  destruct (i <? k); rewrite N.land_spec; reflexivity.
Qed.

Lemma lxor_split a b c d k : b < 2 ^ k -> d < 2 ^ k ->
  N.lxor (a * 2 ^ k + b) (c * 2 ^ k + d) = N.lxor a c * 2 ^ k + N.lxor b d.
Proof.
  intros Hb Hd. apply N.bits_inj; intro i.
  rewrite N.lxor_spec, !testbit_split by (auto; apply lxor_lt; auto).
  destruct (i <? k); rewrite N.lxor_spec; reflexivity.
Qed.

(** Number of ones of a number below [2^n]. *)
Definition pop (x : N) : nat := cnt 64 (tb x).

Lemma cnt_high x n m : x < 2 ^ N.of_nat n -> (n <= m)%nat -> cnt m (tb x) = cnt n (tb x).
Proof.
  intros Hx Hm. replace m with (n + (m - n))%nat by lia.
  rewrite cnt_split.
  rewrite (cnt_ext (m - n) _ (fun _ => false)). { rewrite cnt_false. lia. }
  intros i Hi. unfold tb. apply (testbit_high x (N.of_nat n)); auto. lia.
Qed.

Lemma cnt_pack hi lo k n : lo < 2 ^ N.of_nat k ->
  cnt (k + n) (tb (hi * 2 ^ N.of_nat k + lo)) = (cnt k (tb lo) + cnt n (tb hi))%nat.
Proof.
  intros Hl. rewrite cnt_split. f_equal; apply cnt_ext; intros i Hi; rewrite tb_split by auto.
  - rewrite (proj2 (Nat.ltb_lt _ _)) by lia. reflexivity.
  - rewrite (proj2 (Nat.ltb_ge _ _)) by lia. f_equal. lia.
Qed.

Lemma pop_0 : pop 0 = 0%nat.
Proof. reflexivity. Qed.

Lemma pop_le_64 x : (pop x <= 64)%nat.
Proof. apply cnt_le. Qed.

Lemma grade_of_pop x : grade_of x = N.of_nat (pop x).
Proof. apply grade_of_cnt. Qed.
