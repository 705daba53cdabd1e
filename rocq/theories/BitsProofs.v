(** Proofs about the bit tricks and integer helpers of core/constexpr.hpp. *)
From Coq Require Import NArith ZArith List Bool Lia Arith.
From Verif Require Import SpecBits BitsBase Bits BitsOnes.
Import ListNotations.
Local Open Scope N_scope.

(** ** Sums over an initial segment of nat *)
Fixpoint sumn (n : nat) (f : nat -> nat) : nat :=
  match n with O => 0%nat | S m => (sumn m f + f m)%nat end.

Lemma sumn_ext n f g : (forall i, (i < n)%nat -> f i = g i) -> sumn n f = sumn n g.
Proof.
  induction n; intros H; simpl; auto.
  rewrite IHn by (intros; apply H; lia). rewrite H by lia. auto.
Qed.
Lemma sumn_S_first n f : sumn (S n) f = (f O + sumn n (fun i => f (S i)))%nat.
Proof. induction n; simpl in *; lia. Qed.
Lemma sumn_add n f g : sumn n (fun i => (f i + g i)%nat) = (sumn n f + sumn n g)%nat.
Proof. induction n; simpl; lia. Qed.
Lemma sumn_0 n : sumn n (fun _ => 0%nat) = 0%nat.
Proof. induction n; simpl; lia. Qed.
Lemma sumn_cnt n f : sumn n (fun i => b2n (f i)) = cnt n f.
Proof. induction n; simpl; auto. Qed.

(** ** Swap count *)
Definition swsum (n : nat) (l r : N) : nat :=
  sumn n (fun p => if tb l p then cnt (S p) (tb r) else 0%nat).

Lemma tb_land l r i : tb (N.land l r) i = tb l i && tb r i.
Proof. apply N.land_spec. Qed.
Lemma tb_lxor l r i : tb (N.lxor l r) i = xorb (tb l i) (tb r i).
Proof. apply N.lxor_spec. Qed.
Lemma tb_lor l r i : tb (N.lor l r) i = tb l i || tb r i.
Proof. apply N.lor_spec. Qed.
Lemma tb_shiftr1 l i : tb (N.shiftr l 1) i = tb l (S i).
Proof. unfold tb. rewrite N.shiftr_spec'. f_equal. lia. Qed.

Lemma shiftr1_lt l n : l < 2 ^ N.of_nat (S n) -> N.shiftr l 1 < 2 ^ N.of_nat n.
Proof.
  intros H. rewrite N.shiftr_div_pow2. apply N.div_lt_upper_bound; [discriminate|].
  rewrite Nat2N.inj_succ, N.pow_succ_r' in H. exact H.
Qed.

Lemma swaps_fuel_sum n l r : (n <= 64)%nat -> l < 2 ^ N.of_nat n -> r < 2 ^ 64 ->
  swaps_count_fuel (S n) l r = N.of_nat (swsum n l r).
Proof.
  revert l. induction n; intros l Hn Hl Hr.
  - assert (l = 0) by (cbn in Hl; lia). subst. reflexivity.
  - cbn [swaps_count_fuel]. destruct (N.eqb_spec l 0) as [->|Hz].
    + unfold swsum. rewrite (sumn_ext _ _ (fun _ => 0%nat)); [rewrite sumn_0; reflexivity|].
      intros. unfold tb. rewrite N.bits_0. reflexivity.
    + fold (swaps_count_fuel (S n) (N.shiftr l 1) r).
      change (swaps_count_fuel (S n) (N.shiftr l 1) r) with
        (match S n with O => 0 | S f => if N.shiftr l 1 =? 0 then 0 else ones (N.land (N.shiftr l 1) r) + swaps_count_fuel f (N.shiftr (N.shiftr l 1) 1) r end).
      cbn [swaps_count_fuel] in IHn. rewrite IHn; [|lia|apply shiftr1_lt; auto|auto].
      assert (Hl64 : l < 2 ^ 64).
      { eapply N.lt_le_trans; [exact Hl|]. apply N.pow_le_mono_r; lia. }
      rewrite ones_cnt by (apply land_lt; auto).
      rewrite (cnt_high _ (S n) 64) by (try lia; apply land_lt; auto).
      rewrite <- Nat2N.inj_add. f_equal.
      unfold swsum.
      rewrite (sumn_ext (S n) _ (fun p => (b2n (tb l p && tb r p) + (if tb l p then cnt p (tb r) else 0))%nat)).
      2:{ intros i Hi. simpl. destruct (tb l i), (tb r i); simpl; lia. }
      rewrite sumn_add. rewrite sumn_cnt.
      rewrite (sumn_S_first n (fun p => if tb l p then cnt p (tb r) else 0%nat)).
      rewrite (cnt_ext (S n) (tb (N.land l r)) (fun i => tb l i && tb r i)) by (intros; apply tb_land).
      rewrite (sumn_ext n (fun p => if tb (N.shiftr l 1) p then cnt (S p) (tb r) else 0%nat)
                 (fun i => if tb l (S i) then cnt (S i) (tb r) else 0%nat)).
      2:{ intros. rewrite tb_shiftr1. reflexivity. }
      destruct (tb l 0); simpl; lia.
Qed.

Lemma filter_list_prod_len {A B} (f : A * B -> bool) la lb :
  length (filter f (list_prod la lb)) =
  list_sum (map (fun a => length (filter (fun b => f (a, b)) lb)) la).
Proof.
  induction la; simpl; auto.
  rewrite filter_app, app_length, IHla, filter_map_length. reflexivity.
Qed.

Lemma list_sum_filter_seq (g : nat -> nat) (f : nat -> bool) k n :
  list_sum (map g (filter f (seq k n))) = sumn n (fun i => if f (k + i)%nat then g (k + i)%nat else 0%nat).
Proof.
  revert k. induction n; intros k; auto.
  cbn [seq filter]. rewrite sumn_S_first, Nat.add_0_r.
  rewrite (sumn_ext n _ (fun i => if f (S k + i)%nat then g (S k + i)%nat else 0%nat)).
  2:{ intros. replace (k + S i)%nat with (S k + i)%nat by lia. reflexivity. }
  rewrite <- IHn. destruct (f k); simpl; lia.
Qed.

Lemma filter_map_comm {A B} (f : B -> bool) (g : A -> B) l :
  filter f (map g l) = map g (filter (fun x => f (g x)) l).
Proof. induction l; simpl; auto. destruct (f (g a)); simpl; rewrite IHl; auto. Qed.

Lemma filter_filter {A} (f g : A -> bool) l : filter f (filter g l) = filter (fun x => g x && f x) l.
Proof.
  induction l; simpl; auto. destruct (g a); simpl; [destruct (f a); rewrite IHl; auto|auto].
Qed.

Lemma cnt_lt_mask n p f : (p <= n)%nat ->
  cnt n (fun q => f q && (q <? p)%nat) = cnt p f.
Proof.
  intros H. replace n with (p + (n - p))%nat by lia. rewrite cnt_split.
  rewrite (cnt_ext p _ f). 2:{ intros. rewrite (proj2 (Nat.ltb_lt _ _)) by lia. apply andb_true_r. }
  rewrite (cnt_ext (n - p) _ (fun _ => false)). { rewrite cnt_false. lia. }
  intros. rewrite (proj2 (Nat.ltb_ge _ _)) by lia. apply andb_false_r.
Qed.

Lemma inversions_sum l r :
  inversions l r = sumn 64 (fun p => if tb l p then cnt p (tb r) else 0%nat).
Proof.
  unfold inversions. rewrite filter_list_prod_len.
  unfold indices at 2. rewrite filter_map_comm, map_map.
  rewrite list_sum_filter_seq. apply sumn_ext. intros i Hi. cbn [Nat.add].
  fold (tb l i). destruct (tb l i); auto.
  unfold indices. cbn [fst snd]. rewrite filter_filter, filter_map_length, filter_seq_cnt.
  rewrite <- (cnt_lt_mask 64 i (tb r)) by lia.
  apply cnt_ext. intros q Hq. cbn [Nat.add]. fold (tb r q). f_equal.
  destruct (Nat.ltb_spec q i); [apply N.ltb_lt|apply N.ltb_ge]; lia.
Qed.

Theorem swaps_count_correct l r : l < 2 ^ 64 -> r < 2 ^ 64 ->
  swaps_count (N.shiftr l 1) r = N.of_nat (inversions l r).
Proof.
  intros Hl Hr. unfold swaps_count.
  assert (Hs : N.shiftr l 1 < 2 ^ N.of_nat 64).
  { apply shiftr1_lt. change (2 ^ N.of_nat 65) with (2 * 2 ^ 64). lia. }
  rewrite (swaps_fuel_sum 64 _ _ (le_n _) Hs Hr).
  rewrite inversions_sum. f_equal. unfold swsum.
  rewrite (sumn_S_first 63 (fun p => if tb l p then cnt p (tb r) else 0%nat)).
  assert (E1 : forall f, sumn 64 f = (sumn 63 f + f 63%nat)%nat) by reflexivity.
  rewrite E1, tb_shiftr1.
  assert (E : tb l 64 = false) by (apply (testbit_high l 64); auto; lia).
  rewrite E. 
  rewrite (sumn_ext 63 _ (fun i => if tb l (S i) then cnt (S i) (tb r) else 0%nat)).
  2:{ intros. rewrite tb_shiftr1. reflexivity. }
  change (cnt 0 (tb r)) with 0%nat. destruct (tb l 0); lia.
Qed.

(** ** Lowest and highest set bit *)
Lemma odd_part x : 0 < x -> exists A i, x = (2 * A + 1) * 2 ^ i.
Proof.
  destruct x as [|p]; [lia|]. intros _. induction p as [p IH|p IH|].
  - exists (N.pos p), 0. change (2 ^ 0) with 1. lia.
  - destruct IH as [A [i E]]. exists A, (i + 1). 
    change (N.pos p~0) with (2 * N.pos p). rewrite E, N.pow_add_r. change (2^1) with 2. lia.
  - exists 0, 0. reflexivity.
Qed.

Lemma pow2_pos k : 0 < 2 ^ k.
Proof. apply N.neq_0_lt_0, N.pow_nonzero. discriminate. Qed.

Lemma land_compl A k : A < 2 ^ k -> N.land A (2 ^ k - 1 - A) = 0.
Proof.
  intros H. destruct (N.eq_dec A 0) as [->|Hz]. { apply N.land_0_l. }
  assert (L : N.log2 A < k) by (apply N.log2_lt_pow2; lia).
  pose proof (N.add_lnot_diag_low A k L) as E. rewrite N.ones_equiv in E.
  replace (2 ^ k - 1 - A) with (N.lnot A k) by lia.
  apply N.land_lnot_diag_low; auto.
Qed.

Lemma land_mul_pow2 a b i : N.land (a * 2 ^ i) (b * 2 ^ i) = N.land a b * 2 ^ i.
Proof.
  pose proof (land_split a 0 b 0 i (pow2_pos i) (pow2_pos i)) as E.
  rewrite !N.add_0_r in E. exact E.
Qed.

Lemma rightmost_odd A i : (2 * A + 1) * 2 ^ i < 2 ^ 64 ->
  rightmost_set_bit ((2 * A + 1) * 2 ^ i) = 2 ^ i.
Proof.
  intros H. pose proof (pow2_pos i) as Pi.
  assert (Hi : i < 64).
  { destruct (N.lt_ge_cases i 64); auto.
    assert (2 ^ 64 <= 2 ^ i) by (apply N.pow_le_mono_r; lia). nia. }
  assert (E64 : 2 ^ 64 = 2 * 2 ^ (63 - i) * 2 ^ i).
  { rewrite <- N.mul_assoc, <- N.pow_add_r. replace (63 - i + i) with 63 by lia. reflexivity. }
  unfold rightmost_set_bit, neg64. rewrite (wrap_small _ H).
  assert (HA : A < 2 ^ (63 - i)) by nia.
  set (B := 2 ^ (63 - i) - 1 - A).
  assert (E : 2 ^ 64 - (2 * A + 1) * 2 ^ i = (2 * B + 1) * 2 ^ i).
  { rewrite E64, <- N.mul_sub_distr_r. f_equal. unfold B. lia. }
  rewrite E. rewrite wrap_small by (rewrite <- E; nia).
  rewrite land_mul_pow2.
  pose proof (land_split A 1 B 1 1 eq_refl eq_refl) as L.
  change (2 ^ 1) with 2 in L. rewrite (N.mul_comm A 2), (N.mul_comm B 2) in L. rewrite L.
  unfold B. rewrite land_compl by auto. change (N.land 1 1) with 1. lia.
Qed.

Theorem rightmost_set_bit_correct x : 0 < x -> x < 2 ^ 64 ->
  exists i, rightmost_set_bit x = 2 ^ i /\ N.testbit x i = true /\
            (forall j, j < i -> N.testbit x j = false).
Proof.
  intros Hp Hx. destruct (odd_part x Hp) as [A [i ->]].
  exists i. split; [apply rightmost_odd; auto|].
  pose proof (testbit_split (2 * A + 1) 0 i) as T. 
  split.
  - specialize (T i (pow2_pos i)). rewrite N.add_0_r in T. rewrite T.
    rewrite (proj2 (N.ltb_ge _ _)) by lia. rewrite N.sub_diag. apply N.testbit_odd_0.
  - intros j Hj. specialize (T j (pow2_pos i)). rewrite N.add_0_r in T. rewrite T.
    rewrite (proj2 (N.ltb_lt _ _)) by lia. apply N.bits_0.
Qed.

Lemma tb_ones_mask i j : tb (2 ^ N.of_nat i - 1) j = (j <? i)%nat.
Proof.
  unfold tb. rewrite <- N.pred_sub, <- N.ones_equiv.
  destruct (Nat.ltb_spec j i).
  - apply N.ones_spec_low. lia.
  - apply N.ones_spec_high. lia.
Qed.

Lemma cnt_ltb n i : (i <= n)%nat -> cnt n (fun j => (j <? i)%nat) = i.
Proof.
  intros H. rewrite (cnt_ext n _ (fun j => true && (j <? i)%nat)) by reflexivity.
  rewrite (cnt_lt_mask n i (fun _ => true)) by auto.
  clear. induction i; simpl; lia.
Qed.

Lemma pop_mask k : (k <= 64)%nat -> pop (2 ^ N.of_nat k - 1) = k.
Proof.
  intros H. unfold pop. rewrite (cnt_ext 64 _ (fun j => (j <? k)%nat)) by (intros; apply tb_ones_mask).
  apply cnt_ltb; auto.
Qed.

Lemma dec64_pos x : 0 < x -> x <= 2 ^ 64 -> dec64 x = x - 1.
Proof.
  intros Hp Hx. unfold dec64, wrap.
  replace (x + (2 ^ 64 - 1)) with ((x - 1) + 1 * 2 ^ 64) by lia.
  rewrite N.mod_add by discriminate. apply N.mod_small. lia.
Qed.

Theorem set_bit_index_correct i : i < 64 -> set_bit_index (2 ^ i) = i.
Proof.
  intros H. unfold set_bit_index.
  assert (2 ^ i < 2 ^ 64) by (apply N.pow_lt_mono_r; lia).
  pose proof (pow2_pos i).
  rewrite dec64_pos by lia.
  rewrite ones_cnt by lia. fold (pop (2 ^ i - 1)).
  replace i with (N.of_nat (N.to_nat i)) at 1 by lia.
  rewrite pop_mask by lia. lia.
Qed.

(** Highest set bit: right for arguments below 2^8 ... *)
Lemma leftmost_small_check :
  forallb (fun x => match leftmost_set_bit x with Some y => y =? 2 ^ N.log2 x | None => false end)
          (map N.of_nat (seq 1 255)) = true.
Proof. vm_compute. reflexivity. Qed.

Theorem leftmost_set_bit_small x : 0 < x -> x < 2 ^ 8 -> leftmost_set_bit x = Some (2 ^ N.log2 x).
Proof.
  intros Hp Hx. pose proof leftmost_small_check as C. rewrite forallb_forall in C.
  assert (I : In x (map N.of_nat (seq 1 255))).
  { apply in_map_iff. exists (N.to_nat x). split; [lia|]. apply in_seq. cbn in Hx. lia. }
  specialize (C x I). destruct (leftmost_set_bit x); [|discriminate].
  apply N.eqb_eq in C. subst; auto.
Qed.

(** ... and wrong for every power of two from 2^8 on. *)
Lemma leftmost_big_check :
  forallb (fun k => match leftmost_set_bit (2 ^ k) with Some y => negb (y =? 2 ^ k) | None => true end)
          (map N.of_nat (seq 8 56)) = true.
Proof. vm_compute. reflexivity. Qed.

Theorem leftmost_set_bit_wrong k : 8 <= k -> k < 64 -> leftmost_set_bit (2 ^ k) <> Some (2 ^ k).
Proof.
  intros H1 H2. pose proof leftmost_big_check as C. rewrite forallb_forall in C.
  assert (I : In k (map N.of_nat (seq 8 56))).
  { apply in_map_iff. exists (N.to_nat k). split; [lia|]. apply in_seq. lia. }
  specialize (C k I). intros E. rewrite E in C. rewrite N.eqb_refl in C. discriminate.
Qed.

(** ** gcd, ipow, isqrt *)
Lemma gcd_fuel_ok n l r : (0 <= l)%Z -> (0 <= r < 2 ^ Z.of_nat n)%Z ->
  gcd_fuel (2 * n + 1) l r = Some (Z.gcd l r).
Proof.
  revert l r. induction n; intros l r Hl Hr.
  - assert (r = 0)%Z by (cbn in Hr; lia). subst. cbn. f_equal. rewrite Z.gcd_0_r. lia.
  - replace (2 * S n + 1)%nat with (S (S (2 * n + 1))) by lia. cbn [gcd_fuel].
    destruct (Z.eqb_spec r 0) as [->|Hz]. { f_equal. rewrite Z.gcd_0_r. lia. }
    assert (E : Z.rem l r = (l mod r)%Z) by (apply Z.rem_mod_nonneg; lia). rewrite E.
    pose proof (Z.mod_pos_bound l r ltac:(lia)) as B.
    assert (G : Z.gcd l r = Z.gcd r (l mod r)).
    { rewrite Z.gcd_comm. rewrite <- Z.gcd_mod by lia. rewrite Z.gcd_comm. reflexivity. }
    destruct (Z.eqb_spec (l mod r) 0) as [E0|E0].
    { f_equal. rewrite G, E0, Z.gcd_0_r. lia. }
    assert (E2 : Z.rem r (l mod r) = (r mod (l mod r))%Z) by (apply Z.rem_mod_nonneg; lia). rewrite E2.
    pose proof (Z.mod_pos_bound r (l mod r) ltac:(lia)) as B2.
    rewrite IHn.
    + f_equal. rewrite G. rewrite (Z.gcd_comm (l mod r)), Z.gcd_mod by lia. rewrite Z.gcd_comm. reflexivity.
    + lia.
    + split; [lia|].
      assert (2 * (r mod (l mod r)) < r)%Z.
      { pose proof (Z.div_mod r (l mod r) ltac:(lia)).
        assert (1 <= r / (l mod r))%Z by (apply Z.div_le_lower_bound; lia). nia. }
      rewrite Nat2Z.inj_succ, Z.pow_succ_r in Hr by lia. lia.
Qed.

Lemma gcd_fuel_mono n m l r g : (n <= m)%nat -> gcd_fuel n l r = Some g -> gcd_fuel m l r = Some g.
Proof.
  revert m l r. induction n; intros m l r H E; [discriminate|].
  destruct m; [lia|]. cbn in *. destruct (r =? 0)%Z; auto. apply IHn; auto. lia.
Qed.

Theorem gcd_correct l r : (0 <= l)%Z -> (0 <= r)%Z -> gcd l r = Some (Z.gcd l r).
Proof.
  intros Hl Hr. unfold gcd. rewrite (Z.abs_eq r) by auto.
  apply (gcd_fuel_mono (2 * S (Z.to_nat (Z.log2 r)) + 1)). { lia. }
  apply gcd_fuel_ok; auto. split; auto.
  destruct (Z.eq_dec r 0) as [->|]. { cbn. lia. }
  rewrite Nat2Z.inj_succ, Z2Nat.id by apply Z.log2_nonneg.
  apply Z.log2_spec. lia.
Qed.

Lemma ipow_fuel_ok n b e : (0 <= e < 2 ^ Z.of_nat (S n))%Z -> ipow_fuel (S n) b e = Some (b ^ e)%Z.
Proof.
  revert e. induction n; intros e He.
  - cbn in He. assert (e = 0 \/ e = 1)%Z as [->| ->] by lia; cbn; f_equal; lia.
  - remember (S n) as m. cbn [ipow_fuel].
    destruct (Z.eqb_spec e 1) as [->|]. { f_equal. lia. }
    destruct (Z.eqb_spec e 0) as [->|]. { reflexivity. }
    rewrite Z.shiftr_div_pow2 by lia. change (2 ^ 1)%Z with 2%Z.
    rewrite Z.rem_mod_nonneg by lia.
    pose proof (Z.mod_pos_bound e 2 ltac:(lia)).
    rewrite IHn.
    2:{ split; [apply Z.div_pos; lia|]. apply Z.div_lt_upper_bound; [lia|].
        rewrite Nat2Z.inj_succ, Z.pow_succ_r in He by lia. lia. }
    rewrite IHn.
    2:{ split; [lia|]. apply Z.lt_le_trans with 2%Z; [lia|]. subst m.
        rewrite Nat2Z.inj_succ, Z.pow_succ_r by lia.
        assert (0 < 2 ^ Z.of_nat n)%Z by (apply Z.pow_pos_nonneg; lia). lia. }
    assert (0 <= e / 2)%Z by (apply Z.div_pos; lia).
    f_equal. rewrite <- !Z.pow_add_r by lia.
    f_equal. pose proof (Z.div_mod e 2 ltac:(lia)). lia.
Qed.

Theorem ipow_correct b e : (0 <= e)%Z -> ipow b e = Some (b ^ e)%Z.
Proof.
  intros He. unfold ipow. apply ipow_fuel_ok. split; auto.
  destruct (Z.eq_dec e 0) as [->|]. { cbn. lia. }
  apply Z.lt_le_trans with (2 ^ Z.succ (Z.log2 e))%Z. { apply Z.log2_spec; lia. }
  apply Z.pow_le_mono_r; [lia|]. pose proof (Z.log2_nonneg e). lia.
Qed.

Lemma isqrt_impl_ok n k a : (1 <= k)%Z -> (k - 1 <= Z.sqrt a)%Z -> (0 <= a)%Z ->
  (Z.sqrt a < k + Z.of_nat n)%Z ->
  isqrt_impl (S n) (k * k) (2 * k + 1) a = Some (Z.sqrt a).
Proof.
  revert k. induction n; intros k Hk Hlo Ha Hhi.
  - cbn [isqrt_impl]. pose proof (Z.sqrt_spec a Ha).
    destruct (Z.leb_spec (k * k) a).
    + exfalso. assert (k <= Z.sqrt a)%Z by (apply Z.sqrt_le_square; lia). lia.
    + f_equal. rewrite Z.shiftr_div_pow2 by lia. change (2 ^ 1)%Z with 2%Z.
      replace (2 * k + 1)%Z with (1 + k * 2)%Z by lia. rewrite Z.div_add by lia.
      change (1 / 2)%Z with 0%Z. lia.
  - remember (S n) as m. cbn [isqrt_impl]. 
    destruct (Z.leb_spec (k * k) a).
    + assert (k <= Z.sqrt a)%Z by (apply Z.sqrt_le_square; lia).
      replace (k * k + (2 * k + 1))%Z with ((k + 1) * (k + 1))%Z by ring.
      replace (2 * k + 1 + 2)%Z with (2 * (k + 1) + 1)%Z by lia.
      apply IHn; lia.
    + f_equal. rewrite Z.shiftr_div_pow2 by lia. change (2 ^ 1)%Z with 2%Z.
      replace (2 * k + 1)%Z with (1 + k * 2)%Z by lia. rewrite Z.div_add by lia.
      change (1 / 2)%Z with 0%Z.
      assert (Z.sqrt a < k)%Z by (apply Z.sqrt_lt_square; lia). lia.
Qed.

Theorem isqrt_correct a : (0 <= a)%Z -> isqrt a = Some (Z.sqrt a).
Proof.
  intros Ha. unfold isqrt. pose proof (Z.sqrt_nonneg a).
  apply (isqrt_impl_ok _ 1); auto; lia.
Qed.

(** ** Gosper's successor *)
Lemma pop_pack hi lo k : (k <= 64)%nat -> lo < 2 ^ N.of_nat k -> hi < 2 ^ N.of_nat (64 - k) ->
  pop (hi * 2 ^ N.of_nat k + lo) = (pop hi + pop lo)%nat.
Proof.
  intros Hk Hlo Hhi. unfold pop.
  replace 64%nat with (k + (64 - k))%nat at 1 by lia.
  rewrite cnt_pack by auto.
  rewrite (cnt_high lo k 64) by (auto; lia). rewrite (cnt_high hi (64 - k) 64) by (auto; lia). lia.
Qed.

Lemma pop_lt_mask z m : (m <= 64)%nat -> z < 2 ^ N.of_nat m - 1 -> (pop z < m)%nat.
Proof.
  intros Hm Hz. unfold pop. rewrite (cnt_high z m 64) by (auto; lia).
  pose proof (cnt_le m (tb z)).
  destruct (Nat.eq_dec (cnt m (tb z)) m) as [E|]; [|lia]. exfalso.
  assert (forall i, (i < m)%nat -> tb z i = true).
  { clear - E. induction m; intros i Hi; [lia|]. cbn in E. pose proof (cnt_le m (tb z)).
    destruct (tb z m) eqn:T; cbn in E; [|lia].
    destruct (Nat.eq_dec i m); [subst; auto|]. apply IHm; lia. }
  assert (z = 2 ^ N.of_nat m - 1); [|lia].
  apply N.bits_inj; intro j. replace j with (N.of_nat (N.to_nat j)) by lia.
  fold (tb z (N.to_nat j)). fold (tb (2 ^ N.of_nat m - 1) (N.to_nat j)). rewrite tb_ones_mask.
  destruct (Nat.ltb_spec (N.to_nat j) m); auto.
  apply (testbit_high z (N.of_nat m)); lia.
Qed.

Lemma pop_pos_of z : 0 < z -> z < 2 ^ 64 -> (0 < pop z)%nat.
Proof.
  intros Hp Hz. destruct (rightmost_set_bit_correct z Hp Hz) as [i [_ [T _]]].
  assert (Hi : (N.to_nat i < 64)%nat).
  { destruct (N.lt_ge_cases i 64); [lia|]. rewrite (testbit_high z 64) in T by auto. discriminate. }
  unfold pop. replace 64%nat with (N.to_nat i + (1 + (63 - N.to_nat i)))%nat by lia.
  rewrite !cnt_split. cbn [cnt]. rewrite Nat.add_0_r.
  unfold tb at 2. rewrite N2Nat.id, T. cbn. lia.
Qed.

(** Every positive word is [A] above a zero above [j >= 1] ones above [i] zeros. *)
Lemma block_form x : 0 < x -> exists A i j, 0 < j /\ x = (A * 2 ^ (j + 1) + (2 ^ j - 1)) * 2 ^ i.
Proof.
  intros Hp. destruct (odd_part x Hp) as [B [i ->]].
  (* B + 1 = odd * 2^k : number of trailing ones of 2B+1 is k+1 *)
  destruct (odd_part (2 * B + 2)) as [A [j E]]; [lia|].
  assert (Hj : 0 < j).
  { destruct (N.eq_dec j 0) as [->|]; [|lia]. change (2 ^ 0) with 1 in E. lia. }
  exists A, i, j. split; auto. f_equal.
  rewrite N.pow_add_r. change (2 ^ 1) with 2.
  pose proof (pow2_pos j). nia.
Qed.

Lemma land_mask_wrap y n : n <= 64 -> N.land y (2 ^ n - 1) = y mod 2 ^ n.
Proof. intros. rewrite <- N.pred_sub, <- N.ones_equiv. apply N.land_ones. Qed.

Lemma pow_split a b : 2 ^ (a + b) = 2 ^ a * 2 ^ b.
Proof. apply N.pow_add_r. Qed.

Lemma lxor_mul_pow2 a b i : N.lxor (a * 2 ^ i) (b * 2 ^ i) = N.lxor a b * 2 ^ i.
Proof.
  pose proof (lxor_split a 0 b 0 i (pow2_pos i) (pow2_pos i)) as E.
  rewrite !N.add_0_r in E. exact E.
Qed.

Lemma ar1 I J1 T x : 0 < J1 -> (2 * J1 - 1) * I <= x -> x < T -> 2 * T <= I * (2 * J1) -> False.
Proof.
  intros H1 H2 H3 H4. assert (J1 * I <= (2 * J1 - 1) * I) by (apply N.mul_le_mono_r; lia). nia.
Qed.
Lemma ar2 A I J T : 0 < I -> 0 < J -> A <> 0 -> (A * (2 * J) + (J - 1)) * I < T -> T = I * J -> False.
Proof.
  intros H1 H2 H3 H4 ->.
  assert (J * I <= (A * (2 * J) + (J - 1)) * I).
  { apply N.mul_le_mono_r. assert (1 * (2 * J) <= A * (2 * J)) by (apply N.mul_le_mono_r; lia). lia. }
  lia.
Qed.
Lemma ar3 A I J C : 0 < I -> 0 < J -> C <= A -> (A * (2 * J) + (J - 1)) * I < 2 * C * (I * J) -> False.
Proof.
  intros H1 H2 H3 H4.
  assert (C * (2 * J) * I <= (A * (2 * J) + (J - 1)) * I).
  { apply N.mul_le_mono_r. assert (C * (2 * J) <= A * (2 * J)) by (apply N.mul_le_mono_r; lia). lia. }
  nia.
Qed.
Lemma ar4 A M C P : A < C -> M = 2 * C * P -> 0 < P -> (2 * A + 1) * P < M.
Proof. intros H -> HP. apply N.mul_lt_mono_pos_r; lia. Qed.
Lemma ar5 A I J : 0 < J -> (A * (2 * J) + (J - 1)) * I = A * 2 * (I * J) + (J - 1) * I.
Proof. intros. rewrite N.mul_add_distr_r. lia. Qed.
Lemma ar6 J I : 0 < J -> 0 < I -> (J - 1) * I < I * J.
Proof. intros. rewrite (N.mul_comm I J). apply N.mul_lt_mono_pos_r; lia. Qed.

Lemma ar7 J I : 0 < J -> (J - 1) * I + I = I * J.
Proof. intros. assert (E : J = (J - 1) + 1) by lia. rewrite E at 2. ring. Qed.

Definition gosper (A i j : N) : N := (2 * A + 1) * 2 ^ (i + j) + (2 ^ (j - 1) - 1).

Lemma next_combination_block A i j n : 0 < j -> n <= 63 ->
  let x := (A * 2 ^ (j + 1) + (2 ^ j - 1)) * 2 ^ i in
  x < 2 ^ n ->
  next_combination x (2 ^ n - 1) =
  Some (if i + j =? n then 0 else gosper A i j) /\
  (i + j = n -> A = 0) /\ (i + j <> n -> i + j < n /\ (2 * A + 1) * 2 ^ (i + j) < 2 ^ n).
Proof.
  intros Hj Hn x Hx.
  pose proof (pow2_pos i) as Pi. pose proof (pow2_pos j) as Pj.
  assert (Ej : 2 ^ j = 2 * 2 ^ (j - 1)).
  { replace j with (1 + (j - 1)) at 1 by lia. rewrite pow_split. reflexivity. }
  assert (Ej1 : 2 ^ (j + 1) = 2 * 2 ^ j) by (rewrite N.add_1_r, N.pow_succ_r'; lia).
  assert (Hn64 : 2 ^ n <= 2 ^ 63) by (apply N.pow_le_mono_r; lia).
  assert (Hx63 : x < 2 ^ 63) by lia.
  set (B := A * 2 ^ j + (2 ^ (j - 1) - 1)).
  pose proof (pow2_pos (j - 1)) as Pj1.
  assert (Ex : x = (2 * B + 1) * 2 ^ i).
  { unfold x, B. f_equal. rewrite Ej1. nia. }
  assert (Er : rightmost_set_bit x = 2 ^ i).
  { rewrite Ex. apply rightmost_odd. rewrite <- Ex. change (2 ^ 64) with (2 * 2 ^ 63). lia. }
  assert (Hi63 : 2 ^ i <= x) by (rewrite Ex; nia).
  assert (Es : 2 ^ i + x = (2 * A + 1) * 2 ^ (i + j)).
  { unfold x. rewrite Ej1, (pow_split i j). nia. }
  assert (Eij : 2 ^ (i + j) = 2 ^ i * 2 ^ j) by apply pow_split.
  assert (Hxlow : (2 ^ j - 1) * 2 ^ i <= x) by (unfold x; apply N.mul_le_mono_r; lia).
  assert (Hijn : i + j <= n).
  { destruct (N.le_gt_cases (i + j) n); auto. exfalso.
    assert (2 ^ (n + 1) <= 2 ^ (i + j)) by (apply N.pow_le_mono_r; lia).
    rewrite N.add_1_r, N.pow_succ_r' in H0. rewrite Eij, Ej in H0. rewrite Ej in Hxlow.
    exact (ar1 _ _ _ _ Pj1 Hxlow Hx H0). }
  unfold next_combination, next_combination_impl_a. rewrite Er.
  rewrite wrap_small by (change (2 ^ 64) with (2 * 2 ^ 63); lia).
  rewrite land_mask_wrap by lia. rewrite Es.
  destruct (N.eqb_spec (i + j) n) as [E|E].
  - assert (A = 0).
    { destruct (N.eq_dec A 0) as [|NA]; auto. exfalso. subst n. unfold x in Hx.
      rewrite Ej1 in Hx. exact (ar2 _ _ _ _ Pi Pj NA Hx Eij). }
    subst A. rewrite E. change (2 * 0 + 1) with 1. rewrite N.mul_1_l, N.mod_same by (apply N.pow_nonzero; discriminate).
    cbn. split; [reflexivity|]. split; auto. intros; congruence.
  - assert (Hlt : i + j < n) by lia.
    assert (Hs : (2 * A + 1) * 2 ^ (i + j) < 2 ^ n).
    { assert (En : 2 ^ n = 2 * 2 ^ (n - (i + j) - 1) * 2 ^ (i + j)).
      { rewrite <- N.mul_assoc, <- pow_split.
        replace (n - (i + j) - 1 + (i + j)) with (n - 1) by lia.
        replace n with (1 + (n - 1)) at 1 by lia. rewrite pow_split. reflexivity. }
      assert (A < 2 ^ (n - (i + j) - 1)).
      { destruct (N.lt_ge_cases A (2 ^ (n - (i + j) - 1))); auto. exfalso.
        rewrite En, Eij in Hx. unfold x in Hx. rewrite Ej1 in Hx. exact (ar3 _ _ _ _ Pi Pj H Hx). }
      exact (ar4 _ _ _ _ H En (pow2_pos _)). }
    split; [|split; [congruence|auto]].
    rewrite N.mod_small by auto.
    unfold next_combination_impl_b.
    assert ((2 * A + 1) * 2 ^ (i + j) <> 0) by (pose proof (pow2_pos (i + j)); apply N.neq_mul_0; lia).
    rewrite (proj2 (N.eqb_neq _ _)) by auto. cbn [negb].
    rewrite (proj2 (N.eqb_neq (2 ^ i) 0)) by lia.
    f_equal.
    assert (X : N.lxor ((2 * A + 1) * 2 ^ (i + j)) x = (2 ^ (j + 1) - 1) * 2 ^ i).
    { replace ((2 * A + 1) * 2 ^ (i + j)) with ((A * 2 ^ (j + 1) + 2 ^ j) * 2 ^ i) by (rewrite Eij, Ej1; ring).
      unfold x. rewrite lxor_mul_pow2. f_equal.
      rewrite lxor_split by (rewrite Ej1; lia). rewrite N.lxor_nilpotent, N.mul_0_l, N.add_0_l.
      pose proof (lxor_split 1 0 0 (2 ^ j - 1) j ltac:(lia) ltac:(lia)) as L.
      rewrite N.lxor_0_l, N.lxor_0_r in L.
      replace (1 * 2 ^ j + 0) with (2 ^ j) in L by lia.
      replace (0 * 2 ^ j + (2 ^ j - 1)) with (2 ^ j - 1) in L by lia.
      rewrite L. lia. }
    rewrite X. rewrite N.div_mul by lia.
    assert (Sh : N.shiftr (2 ^ (j + 1) - 1) 2 = 2 ^ (j - 1) - 1).
    { rewrite N.shiftr_div_pow2. change (2 ^ 2) with 4.
      symmetry. apply (N.div_unique _ 4 _ 3); lia. }
    rewrite Sh. unfold gosper. apply wrap_small.
    change (2 ^ 64) with (2 * 2 ^ 63).
    assert (2 ^ (j - 1) <= 2 ^ 63) by (apply N.pow_le_mono_r; lia).
    lia.
Qed.

(** The successor is the least larger word with as many ones, if it fits below [2^n]. *)
Theorem next_combination_correct x n : 0 < x -> x < 2 ^ n -> n <= 63 ->
  exists y, next_combination x (2 ^ n - 1) = Some y /\
  ((y <> 0 /\ x < y /\ y < 2 ^ n /\ grade_of y = grade_of x /\
    (forall z, x < z -> z < y -> grade_of z <> grade_of x)) \/
   (y = 0 /\ forall z, x < z -> z < 2 ^ n -> grade_of z <> grade_of x)).
Proof.
  intros Hp Hx Hn.
  destruct (block_form x Hp) as [A [i [j [Hj ->]]]].
  destruct (next_combination_block A i j n Hj Hn Hx) as [E [Z0 NZ]].
  pose proof (pow2_pos i) as Pi. pose proof (pow2_pos j) as Pj. pose proof (pow2_pos (j - 1)) as Pj1.
  assert (Ej : 2 ^ j = 2 * 2 ^ (j - 1)).
  { replace j with (1 + (j - 1)) at 1 by lia. rewrite pow_split. reflexivity. }
  assert (Ej1 : 2 ^ (j + 1) = 2 * 2 ^ j) by (rewrite N.add_1_r, N.pow_succ_r'; lia).
  assert (Eij : 2 ^ (i + j) = 2 ^ i * 2 ^ j) by apply pow_split.
  assert (Hn64 : 2 ^ n <= 2 ^ 63) by (apply N.pow_le_mono_r; lia).
  change (2 ^ 63) with 9223372036854775808 in Hn64.
  set (x := (A * 2 ^ (j + 1) + (2 ^ j - 1)) * 2 ^ i) in *.
  assert (Exx : x = A * 2 * 2 ^ (i + j) + (2 ^ j - 1) * 2 ^ i).
  { unfold x. rewrite Ej1, Eij. apply ar5; auto. }
  assert (Hij64 : (N.to_nat (i + j) <= 63)%nat).
  { destruct (N.eq_dec (i + j) n); [lia|]. destruct (NZ n0). lia. }
  set (k := N.to_nat (i + j)). assert (Ek : N.of_nat k = i + j) by (unfold k; lia).
  assert (Pij := pow2_pos (i + j)).
  assert (HA : A * 2 < 2 ^ N.of_nat (64 - k) /\ A * 2 + 1 < 2 ^ N.of_nat (64 - k)).
  { assert (A * 2 + 1 < 2 ^ N.of_nat (64 - k)); [|lia].
    assert (E64 : 2 ^ 64 = 2 ^ N.of_nat (64 - k) * 2 ^ (i + j)).
    { rewrite <- pow_split. f_equal. unfold k. lia. }
    destruct (N.eq_dec (i + j) n) as [Q|Q].
    - rewrite (Z0 Q). change (0 * 2 + 1) with 1. apply N.pow_gt_1; lia.
    - destruct (NZ Q) as [_ L].
      assert (L2 : (A * 2 + 1) * 2 ^ (i + j) < 2 ^ N.of_nat (64 - k) * 2 ^ (i + j)).
      { rewrite <- E64. change (2 ^ 64) with 18446744073709551616. lia. }
      apply N.mul_lt_mono_pos_r in L2; auto. }
  assert (Hmi : (2 ^ j - 1) * 2 ^ i < 2 ^ N.of_nat k) by (rewrite Ek, Eij; apply ar6; auto).
  assert (Gx : pop x = (pop (A * 2) + N.to_nat j)%nat).
  { rewrite Exx, <- Ek. rewrite pop_pack by (try apply HA; auto; lia). f_equal.
    replace ((2 ^ j - 1) * 2 ^ i) with ((2 ^ j - 1) * 2 ^ N.of_nat (N.to_nat i) + 0) by (rewrite N2Nat.id; lia).
    rewrite pop_pack; try lia.
    - rewrite pop_0, Nat.add_0_r. replace j with (N.of_nat (N.to_nat j)) at 1 by lia. apply pop_mask. lia.
    - apply N.lt_le_trans with (2 ^ j); [lia|]. apply N.pow_le_mono_r; lia. }
  assert (Pop_one : forall C, C * 2 + 1 < 2 ^ N.of_nat (64 - k) -> pop (C * 2 + 1) = (pop (C * 2) + 1)%nat).
  { intros C HC.
    assert (HC63 : C < 2 ^ N.of_nat (64 - 1)).
    { assert (2 ^ N.of_nat (64 - k) <= 2 ^ 64) by (apply N.pow_le_mono_r; lia).
      change (2 ^ N.of_nat (64 - 1)) with 9223372036854775808. change (2 ^ 64) with 18446744073709551616 in H. lia. }
    assert (P1 : pop (C * 2 + 1) = (pop C + pop 1)%nat).
    { change (C * 2 + 1) with (C * 2 ^ N.of_nat 1 + 1). apply pop_pack; auto; [lia|reflexivity]. }
    assert (P0 : pop (C * 2) = (pop C + pop 0)%nat).
    { replace (C * 2) with (C * 2 ^ N.of_nat 1 + 0) by (change (2 ^ N.of_nat 1) with 2; lia).
      apply pop_pack; auto; [lia|reflexivity]. }
    rewrite P1, P0. change (pop 1) with 1%nat. change (pop 0) with 0%nat. lia. }
  assert (Mid : forall z, x < z -> z < (A * 2 + 1) * 2 ^ (i + j) -> pop z <> pop x).
  { intros z Hz1 Hz2. set (y := z - A * 2 * 2 ^ (i + j)).
    assert (A * 2 * 2 ^ (i + j) <= x) by (rewrite Exx; apply N.le_add_r).
    assert (Ez : z = A * 2 * 2 ^ N.of_nat k + y) by (rewrite Ek; unfold y; lia).
    assert (Hy : y < 2 ^ N.of_nat k) by (rewrite Ek; unfold y; lia).
    rewrite Ez, pop_pack by (try apply HA; auto; lia). rewrite Gx.
    (* y has its j top digits set and something below *)
    set (w := y - (2 ^ j - 1) * 2 ^ i).
    assert (Hw : 0 < w /\ w < 2 ^ i).
    { unfold w, y. rewrite Ek, Eij in Hy. unfold y in Hy. rewrite Exx in Hz1. rewrite Eij in Hz1, Hz2, H |- *.
      assert ((2 ^ j - 1) * 2 ^ i + 2 ^ i = 2 ^ i * 2 ^ j) by (apply ar7; auto). lia. }
    assert (Ey : y = (2 ^ j - 1) * 2 ^ N.of_nat (N.to_nat i) + w) by (rewrite N2Nat.id; unfold w; lia).
    rewrite Ey, pop_pack.
    - replace j with (N.of_nat (N.to_nat j)) at 1 by lia. rewrite pop_mask by lia.
      assert (0 < pop w)%nat; [|lia]. apply pop_pos_of; [lia|].
      apply N.lt_trans with (2 ^ i); [lia|]. apply N.pow_lt_mono_r; lia.
    - lia.
    - rewrite N2Nat.id. lia.
    - apply N.lt_le_trans with (2 ^ j); [lia|]. apply N.pow_le_mono_r; lia. }
  destruct (N.eqb_spec (i + j) n) as [Q|Q].
  - exists 0. split; auto. right. split; auto. intros z Hz1 Hz2 G.
    rewrite !grade_of_pop in G. apply Nat2N.inj in G. revert G. apply Mid; auto.
    rewrite (Z0 Q), Q. lia.
  - destruct (NZ Q) as [Q1 Q2].
    exists (gosper A i j). split; auto. left.
    assert (Hm : 2 ^ (j - 1) - 1 < 2 ^ N.of_nat k).
    { assert (2 ^ (j - 1) <= 2 ^ N.of_nat k); [apply N.pow_le_mono_r; lia|lia]. }
    assert (Ey : gosper A i j = (A * 2 + 1) * 2 ^ N.of_nat k + (2 ^ (j - 1) - 1)).
    { unfold gosper. rewrite Ek. f_equal. f_equal. lia. }
    assert (Gy : pop (gosper A i j) = (pop (A * 2) + N.to_nat j)%nat).
    { rewrite Ey, pop_pack by (try apply HA; auto; lia). rewrite Pop_one by apply HA.
      replace (j - 1) with (N.of_nat (N.to_nat (j - 1))) by lia. rewrite pop_mask by lia. lia. }
    assert (Hlt : gosper A i j < 2 ^ n).
    { assert (En : 2 ^ n = 2 ^ (n - (i + j)) * 2 ^ (i + j)).
      { rewrite <- pow_split. f_equal. lia. }
      rewrite Ey, Ek. rewrite Ek in Hm. rewrite En in Q2 |- *.
      apply N.mul_lt_mono_pos_r in Q2; auto.
      apply N.lt_le_trans with ((A * 2 + 1 + 1) * 2 ^ (i + j)); [lia|]. apply N.mul_le_mono_r. lia. }
    repeat split.
    + rewrite Ey, Ek. assert (1 * 2 ^ (i + j) <= (A * 2 + 1) * 2 ^ (i + j)) by (apply N.mul_le_mono_r; lia). lia.
    + rewrite Ey, Ek, Exx. rewrite Ek in Hmi. lia.
    + auto.
    + rewrite !grade_of_pop. f_equal. congruence.
    + intros z Hz1 Hz2 G. rewrite !grade_of_pop in G. apply Nat2N.inj in G.
      destruct (N.lt_ge_cases z ((A * 2 + 1) * 2 ^ (i + j))) as [Lz|Lz].
      { revert G. apply Mid; auto. }
      set (w := z - (A * 2 + 1) * 2 ^ (i + j)).
      assert (Hw : w < 2 ^ (j - 1) - 1) by (unfold w; rewrite Ey, Ek in Hz2; lia).
      assert (Ez : z = (A * 2 + 1) * 2 ^ N.of_nat k + w) by (rewrite Ek; unfold w; lia).
      rewrite Ez, pop_pack in G by (try apply HA; try lia). rewrite Pop_one, Gx in G by apply HA.
      assert (pop w < N.to_nat (j - 1))%nat; [|lia].
      apply pop_lt_mask; [lia|]. replace (N.of_nat (N.to_nat (j - 1))) with (j - 1) by lia. auto.
Qed.

Theorem first_combination_correct k n : k <= n -> n <= 63 ->
  grade_of (first_combination k) = k /\ first_combination k < 2 ^ n /\
  (forall z, z < first_combination k -> grade_of z <> k).
Proof.
  intros Hk Hn.
  assert (2 ^ k <= 2 ^ 63) by (apply N.pow_le_mono_r; lia). change (2 ^ 63) with 9223372036854775808 in H.
  pose proof (pow2_pos k).
  assert (E : first_combination k = 2 ^ k - 1).
  { unfold first_combination. rewrite N.shiftl_mul_pow2, N.mul_1_l.
    rewrite wrap_small by (change (2 ^ 64) with 18446744073709551616; lia).
    apply dec64_pos; auto. change (2 ^ 64) with 18446744073709551616; lia. }
  rewrite E. repeat split.
  - rewrite grade_of_pop. replace k with (N.of_nat (N.to_nat k)) at 1 by lia. rewrite pop_mask; lia.
  - assert (2 ^ k <= 2 ^ n) by (apply N.pow_le_mono_r; lia). lia.
  - intros z Hz G. rewrite grade_of_pop in G.
    assert (pop z < N.to_nat k)%nat; [|lia]. apply pop_lt_mask; [lia|].
    replace (N.of_nat (N.to_nat k)) with k by lia. auto.
Qed.
