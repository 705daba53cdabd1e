(** The grades the graded products declare for their result cover the grades that can occur. *)
From Coq Require Import NArith ZArith List Bool Lia.
From Verif Require Import Bits SpecBits BitsBase BitsOnes BitsProofs Mapping.
Import ListNotations.
Local Open Scope N_scope.

(** ** Grades of unions, intersections and differences *)
Lemma cnt_add n f g h k : (forall i, (i < n)%nat -> (b2n (f i) + b2n (g i) = b2n (h i) + b2n (k i))%nat) ->
  (cnt n f + cnt n g = cnt n h + cnt n k)%nat.
Proof. induction n; intros H; cbn [cnt]; [reflexivity|]. specialize (IHn (fun i L => H i (Nat.lt_lt_succ_r _ _ L))). specialize (H n (Nat.lt_succ_diag_r n)). lia. Qed.
Lemma cnt_mono n f g : (forall i, (i < n)%nat -> f i = true -> g i = true) -> (cnt n f <= cnt n g)%nat.
Proof.
  induction n; intros H; cbn [cnt]; [lia|]. specialize (IHn (fun i L => H i (Nat.lt_lt_succ_r _ _ L))). specialize (H n (Nat.lt_succ_diag_r n)).
  destruct (f n), (g n); cbn [b2n]; lia.
Qed.
Lemma pop_lxor a b : (pop (N.lxor a b) + 2 * pop (N.land a b) = pop a + pop b)%nat.
Proof.
  unfold pop. cut (cnt 64 (tb (N.lxor a b)) + cnt 64 (tb (N.land a b)) = cnt 64 (tb (N.lor a b)) + cnt 64 (fun _ => false))%nat.
  - cut (cnt 64 (tb (N.lor a b)) + cnt 64 (tb (N.land a b)) = cnt 64 (tb a) + cnt 64 (tb b))%nat; [rewrite (cnt_false 64); lia|].
    apply cnt_add. intros i _. rewrite tb_lor, tb_land. destruct (tb a i), (tb b i); reflexivity.
  - apply cnt_add. intros i _. rewrite tb_lor, tb_land, tb_lxor. destruct (tb a i), (tb b i); reflexivity.
Qed.
Lemma pop_lor a b : (pop (N.lor a b) + pop (N.land a b) = pop a + pop b)%nat.
Proof. apply cnt_add. intros i _. rewrite tb_lor, tb_land. destruct (tb a i), (tb b i); reflexivity. Qed.
Lemma pop_land_l a b : (pop (N.land a b) <= pop a)%nat.
Proof. apply cnt_mono. intros i _. rewrite tb_land. destruct (tb a i); auto. Qed.
Lemma pop_land_r a b : (pop (N.land a b) <= pop b)%nat.
Proof. apply cnt_mono. intros i _. rewrite tb_land. destruct (tb b i); auto. rewrite andb_false_r. auto. Qed.
Lemma pop_le x n : (n <= 64) -> x < 2 ^ n -> (pop x <= N.to_nat n)%nat.
Proof. intros H Hx. unfold pop. rewrite (cnt_high x (N.to_nat n) 64); [apply cnt_le|now rewrite N2Nat.id|lia]. Qed.
Lemma pop_0_inv x : x < 2 ^ 64 -> pop x = 0%nat -> x = 0.
Proof. intros H P. destruct (N.eq_dec x 0) as [|Z]; [auto|]. pose proof (pop_pos_of x ltac:(lia) H). lia. Qed.
Lemma pop_full x n : n <= 64 -> x < 2 ^ n -> pop x = N.to_nat n -> x = 2 ^ n - 1.
Proof.
  intros H Hx P. destruct (N.eq_dec x (2 ^ n - 1)) as [|Z]; [auto|].
  pose proof (pop_lt_mask x (N.to_nat n) ltac:(lia)) as Q. rewrite N2Nat.id in Q. pose proof (pow2_pos n). specialize (Q ltac:(lia)). lia.
Qed.
Lemma grade_lxor a b : grade_of (N.lxor a b) + 2 * grade_of (N.land a b) = grade_of a + grade_of b.
Proof. rewrite !grade_of_pop. pose proof (pop_lxor a b). lia. Qed.
Lemma grade_lor a b : grade_of (N.lor a b) + grade_of (N.land a b) = grade_of a + grade_of b.
Proof. rewrite !grade_of_pop. pose proof (pop_lor a b). lia. Qed.
Lemma grade_land_l a b : grade_of (N.land a b) <= grade_of a.
Proof. rewrite !grade_of_pop. pose proof (pop_land_l a b). lia. Qed.
Lemma grade_land_r a b : grade_of (N.land a b) <= grade_of b.
Proof. rewrite !grade_of_pop. pose proof (pop_land_r a b). lia. Qed.
Lemma grade_le x n : n <= 64 -> x < 2 ^ n -> grade_of x <= n.
Proof. intros H Hx. rewrite grade_of_pop. pose proof (pop_le x n H Hx). lia. Qed.
Lemma grade_0 x : x < 2 ^ 64 -> grade_of x = 0 -> x = 0.
Proof. intros H. rewrite grade_of_pop. intros P. apply pop_0_inv; [exact H|lia]. Qed.
Lemma grade_full x n : n <= 64 -> x < 2 ^ n -> grade_of x = n -> x = 2 ^ n - 1.
Proof. intros H Hx. rewrite grade_of_pop. intros P. apply pop_full; auto. lia. Qed.
Lemma grade_of_0 : grade_of 0 = 0. Proof. reflexivity. Qed.
Lemma grade_mask n : n <= 64 -> grade_of (2 ^ n - 1) = n.
Proof. intros H. rewrite grade_of_pop. pose proof (pop_mask (N.to_nat n) ltac:(lia)) as P. rewrite N2Nat.id in P. rewrite P. lia. Qed.

(** ** Masks *)
Lemma pow_le_mono a b : a <= b -> 2 ^ a <= 2 ^ b.
Proof. intros. apply N.pow_le_mono_r; [discriminate|auto]. Qed.
Lemma all_ones_shift k : k <= 64 -> safe_rshift all_ones (digits - k) = 2 ^ k - 1.
Proof.
  intros H. unfold safe_rshift, digits, all_ones. destruct (N.ltb_spec (64 - k) 64) as [L|L].
  - apply N.bits_inj. intros i. rewrite N.shiftr_spec'. rewrite <- !N.pred_sub, <- !N.ones_equiv.
    destruct (N.lt_ge_cases i k) as [Q|Q].
    + rewrite !N.ones_spec_low by lia. reflexivity.
    + rewrite !N.ones_spec_high by lia. reflexivity.
  - assert (k = 0) by lia. subst. reflexivity.
Qed.
Lemma testbit_mask n k : N.testbit (2 ^ n - 1) k = (k <? n).
Proof.
  rewrite <- N.pred_sub, <- N.ones_equiv. destruct (N.ltb_spec k n).
  - apply N.ones_spec_low. lia.
  - apply N.ones_spec_high. lia.
Qed.
Lemma bit_pow k : k < 64 -> bit k = 2 ^ k.
Proof. intros H. unfold bit. rewrite N.shiftl_1_l. apply wrap_small. apply N.pow_lt_mono_r; [reflexivity|auto]. Qed.
Lemma wrap_bits x k : N.testbit (wrap x) k = if k <? 64 then N.testbit x k else false.
Proof.
  unfold wrap. destruct (N.ltb_spec k 64).
  - apply N.mod_pow2_bits_low. auto.
  - apply N.mod_pow2_bits_high. auto.
Qed.

(** ** Removing the lowest element *)
Lemma low_bit L : L <> 0 -> L < 2 ^ 64 -> exists i, i < 64 /\ rightmost_set_bit L = 2 ^ i /\ set_bit_index (2 ^ i) = i /\
  N.testbit L i = true /\ (forall j, j < i -> N.testbit L j = false) /\ N.lxor L (2 ^ i) < 2 ^ 64 /\
  (S (pop (N.lxor L (2 ^ i))) = pop L)%nat /\ (forall k, k <> i -> N.testbit (N.lxor L (2 ^ i)) k = N.testbit L k).
Proof.
  intros Z H. destruct (rightmost_set_bit_correct L ltac:(lia) H) as (i & R & T & J).
  assert (I : i < 64). { destruct (N.lt_ge_cases i 64) as [|Q]; [auto|]. rewrite (testbit_high L 64 i H Q) in T. discriminate. }
  exists i. split; [exact I|]. split; [exact R|]. split; [apply set_bit_index_correct; exact I|]. split; [exact T|]. split; [exact J|].
  assert (P : 2 ^ i < 2 ^ 64) by (apply N.pow_lt_mono_r; [reflexivity|exact I]).
  split; [apply lxor_lt; auto|]. split.
  - assert (A : N.land L (2 ^ i) = 2 ^ i).
    { apply N.bits_inj. intros k. rewrite N.land_spec, N.pow2_bits_eqb. destruct (N.eqb_spec i k); [subst; rewrite T; reflexivity|apply andb_false_r]. }
    pose proof (pop_lxor L (2 ^ i)) as Q. rewrite A in Q. assert (B : pop (2 ^ i) = 1%nat); [|lia].
    unfold pop. rewrite (cnt_ext 64 _ (fun k => (k =? N.to_nat i)%nat)).
    + assert (K : forall n a, cnt n (fun k => (k =? a)%nat) = if (a <? n)%nat then 1%nat else 0%nat).
      { induction n as [|n IH]; intros a; cbn [cnt]; [reflexivity|]. rewrite IH.
        destruct (Nat.ltb_spec a n), (Nat.ltb_spec a (S n)), (Nat.eqb_spec n a); cbn [b2n]; lia. }
      rewrite K. destruct (Nat.ltb_spec (N.to_nat i) 64); [reflexivity|lia].
    + intros k _. unfold tb. rewrite N.pow2_bits_eqb. destruct (N.eqb_spec i (N.of_nat k)), (Nat.eqb_spec k (N.to_nat i)); auto; lia.
  - intros k K. rewrite N.lxor_spec, N.pow2_bits_eqb. destruct (N.eqb_spec i k); [congruence|apply xorb_false_r].
Qed.
Lemma nonzero_bit L k : N.testbit L k = true -> L <> 0.
Proof. intros T ->. rewrite N.bits_0 in T. discriminate. Qed.
Lemma pop_pos_bit L k : L < 2 ^ 64 -> N.testbit L k = true -> (0 < pop L)%nat.
Proof. intros H T. apply pop_pos_of; auto. apply nonzero_bit in T. lia. Qed.

(** ** Geometric product *)
Lemma even_mask k : k < 64 -> N.testbit 0x5555555555555555 k = N.even k.
Proof.
  intros H. assert (C : forallb (fun k => Bool.eqb (N.testbit 0x5555555555555555 k) (N.even k)) (map N.of_nat (seq 0 64)) = true) by (vm_compute; reflexivity).
  rewrite forallb_forall in C. specialize (C k). apply Bool.eqb_prop, C. apply in_map_iff. exists (N.to_nat k). split; [lia|]. apply in_seq. lia.
Qed.
Lemma gp_bits_ok l r k : l < 64 -> r < 64 -> k < 64 -> l - r <= k -> r - l <= k -> k <= l + r -> N.even (k + l + r) = true ->
  N.testbit (gp_bits l r) k = true.
Proof.
  intros Hl Hr Hk H1 H2 H3 E. unfold gp_bits.
  set (mn := if l <=? r then r - l else l - r). set (mx := if l + r <? digits then l + r else digits - 1).
  assert (Mn : mn <= k) by (unfold mn; destruct (l <=? r); auto).
  assert (Mx : k <= mx /\ mx < 64) by (unfold mx, digits; destruct (N.ltb_spec (l + r) 64); lia).
  assert (Q : digits - mx - 1 = digits - (mx + 1)) by lia. rewrite Q, all_ones_shift by lia. clear Q.
  rewrite wrap_bits. destruct (N.ltb_spec k 64) as [_|]; [|lia]. rewrite N.shiftl_spec_high' by auto. rewrite N.land_spec, even_mask by lia.
  unfold safe_rshift. destruct (N.ltb_spec mn 64) as [_|]; [|lia]. rewrite N.shiftr_spec', testbit_mask.
  destruct (N.ltb_spec (k - mn + mn) (mx + 1)) as [_|]; [|lia]. cbn [andb].
  rewrite N.even_sub by auto. unfold mn. rewrite !N.even_add in E. destruct (N.leb_spec l r).
  - rewrite N.even_sub by auto. destruct (N.even k), (N.even l), (N.even r); cbn in *; congruence.
  - rewrite N.even_sub by lia. destruct (N.even k), (N.even l), (N.even r); cbn in *; congruence.
Qed.
Lemma gp_right_ok l r k : N.testbit (gp_bits l r) k = true -> forall fuel R, (pop R <= fuel)%nat -> R < 2 ^ 64 -> N.testbit R r = true ->
  N.testbit (gp_right fuel l R) k = true.
Proof.
  intros B. induction fuel as [|f IH]; intros R P HR T.
  - pose proof (pop_pos_bit _ _ HR T). lia.
  - cbn [gp_right]. destruct (N.eqb_spec R 0) as [->|Z]; [rewrite N.bits_0 in T; discriminate|].
    destruct (low_bit R Z HR) as (i & Hi & -> & -> & Ti & J & Hx & Px & K). rewrite N.lor_spec.
    destruct (N.eq_dec r i) as [->|Q]; [rewrite B; apply orb_true_r|]. rewrite IH; [reflexivity|lia|auto|rewrite K; auto].
Qed.
Lemma gp_left_ok l r k R : N.testbit (gp_bits l r) k = true -> R < 2 ^ 64 -> N.testbit R r = true -> forall fuel L, (pop L <= fuel)%nat -> L < 2 ^ 64 ->
  N.testbit L l = true -> N.testbit (gp_left fuel L R) k = true.
Proof.
  intros B HR TR. induction fuel as [|f IH]; intros L P HL T.
  - pose proof (pop_pos_bit _ _ HL T). lia.
  - cbn [gp_left]. destruct (N.eqb_spec L 0) as [->|Z]; [rewrite N.bits_0 in T; discriminate|].
    destruct (low_bit L Z HL) as (i & Hi & -> & -> & Ti & J & Hx & Px & K). rewrite N.lor_spec.
    destruct (N.eq_dec l i) as [->|Q].
    + rewrite (gp_right_ok i r k B 64 R); auto using pop_le_64, orb_true_r.
    + rewrite IH; [reflexivity|lia|auto|rewrite K; auto].
Qed.
Lemma gp_grades_ok L R n l r k : n <= 63 -> L < 2 ^ 64 -> R < 2 ^ 64 -> N.testbit L l = true -> N.testbit R r = true ->
  k <= n -> l - r <= k -> r - l <= k -> k <= l + r -> N.even (k + l + r) = true ->
  N.testbit (gp_grades L R n) k = true.
Proof.
  intros Hn HL HR TL TR Kn H1 H2 H3 E. unfold gp_grades. rewrite N.land_spec, all_ones_shift, testbit_mask by lia.
  destruct (N.ltb_spec k (n + 1)) as [_|]; [|lia]. rewrite andb_true_r.
  assert (B : forall x i, x < 2 ^ 64 -> N.testbit x i = true -> i < 64).
  { intros x i Hx T. destruct (N.lt_ge_cases i 64) as [|Q]; [auto|]. rewrite (testbit_high x 64 i Hx Q) in T. discriminate. }
  apply (gp_left_ok l r); auto using pop_le_64. apply gp_bits_ok; auto; [exact (B L l HL TL)|exact (B R r HR TR)|lia].
Qed.

(** ** Contractions *)
Lemma div_pow_bit R i k : N.testbit (R / 2 ^ i) k = N.testbit R (k + i).
Proof. rewrite <- N.shiftr_div_pow2. apply N.shiftr_spec'. Qed.
Lemma lcont_rec_ok l r R : R < 2 ^ 64 -> N.testbit R r = true -> l <= r -> forall fuel L, (pop L <= fuel)%nat -> L < 2 ^ 64 ->
  N.testbit L l = true -> N.testbit (lcont_grades_rec fuel L R) (r - l) = true.
Proof.
  intros HR TR LR. induction fuel as [|f IH]; intros L P HL T.
  - pose proof (pop_pos_bit _ _ HL T). lia.
  - cbn [lcont_grades_rec]. destruct (N.eqb_spec L 0) as [->|Z]; [rewrite N.bits_0 in T; discriminate|].
    destruct (low_bit L Z HL) as (i & Hi & -> & _ & Ti & J & Hx & Px & K). rewrite N.lor_spec, div_pow_bit.
    assert (Li : i <= l). { destruct (N.le_gt_cases i l) as [|Q]; [auto|]. rewrite (J l Q) in T. discriminate. }
    destruct (N.eq_dec l i) as [->|Q].
    + replace (r - i + i) with r by lia. rewrite TR. apply orb_true_r.
    + destruct (N.eqb_spec (R / 2 ^ i) 0) as [E|E].
      * exfalso. assert (B : N.testbit (R / 2 ^ i) (r - i) = true) by (rewrite div_pow_bit; replace (r - i + i) with r by lia; auto).
        rewrite E, N.bits_0 in B. discriminate.
      * cbn [negb]. rewrite IH; [reflexivity|lia|auto|rewrite K; auto].
Qed.
Lemma rcont_rec_ok l r L : L < 2 ^ 64 -> N.testbit L l = true -> r <= l -> forall fuel R, (pop R <= fuel)%nat -> R < 2 ^ 64 ->
  N.testbit R r = true -> N.testbit (rcont_grades_rec fuel L R) (l - r) = true.
Proof.
  intros HR TR LR. induction fuel as [|f IH]; intros R P HL T.
  - pose proof (pop_pos_bit _ _ HL T). lia.
  - cbn [rcont_grades_rec]. destruct (N.eqb_spec R 0) as [->|Z]; [rewrite N.bits_0 in T; discriminate|].
    destruct (low_bit R Z HL) as (i & Hi & -> & _ & Ti & J & Hx & Px & K). rewrite N.lor_spec, div_pow_bit.
    assert (Li : i <= r). { destruct (N.le_gt_cases i r) as [|Q]; [auto|]. rewrite (J r Q) in T. discriminate. }
    destruct (N.eq_dec r i) as [->|Q].
    + replace (l - i + i) with l by lia. rewrite TR. apply orb_true_r.
    + destruct (N.eqb_spec (L / 2 ^ i) 0) as [E|E].
      * exfalso. assert (B : N.testbit (L / 2 ^ i) (l - i) = true) by (rewrite div_pow_bit; replace (l - i + i) with l by lia; auto).
        rewrite E, N.bits_0 in B. discriminate.
      * cbn [negb]. rewrite IH; [reflexivity|lia|auto|rewrite K; auto].
Qed.

(** ** Exterior product *)
Lemma op_rec_ok n l r R : n <= 63 -> R < 2 ^ 64 -> N.testbit R r = true -> l + r <= n -> forall fuel L, (pop L <= fuel)%nat -> L < 2 ^ 64 ->
  N.testbit L l = true -> N.testbit (op_grades_rec fuel (op_all n) L R) (l + r) = true.
Proof.
  intros Hn HR TR LR. induction fuel as [|f IH]; intros L P HL T.
  - pose proof (pop_pos_bit _ _ HL T). lia.
  - cbn [op_grades_rec]. destruct (N.eqb_spec L 0) as [->|Z]; [rewrite N.bits_0 in T; discriminate|].
    destruct (low_bit L Z HL) as (i & Hi & -> & _ & Ti & J & Hx & Px & K).
    assert (Li : i <= l). { destruct (N.le_gt_cases i l) as [|Q]; [auto|]. rewrite (J l Q) in T. discriminate. }
    assert (B : N.testbit (N.land (wrap (2 ^ i * R)) (op_all n)) (i + r) = true).
    { unfold op_all. rewrite all_ones_shift by lia. rewrite N.land_spec, wrap_bits, testbit_mask.
      destruct (N.ltb_spec (i + r) 64); [|lia]. destruct (N.ltb_spec (i + r) (n + 1)); [|lia].
      rewrite N.mul_comm, N.mul_pow2_bits_high by lia. replace (i + r - i) with r by lia. rewrite TR. reflexivity. }
    rewrite N.lor_spec. destruct (N.eq_dec l i) as [->|Q].
    + rewrite B. apply orb_true_r.
    + destruct (N.eqb_spec (N.land (wrap (2 ^ i * R)) (op_all n)) 0) as [E|E].
      * rewrite E, N.bits_0 in B. discriminate.
      * cbn [negb]. rewrite IH; [reflexivity|lia|auto|rewrite K; auto].
Qed.

(** ** Regressive product *)
Lemma rp_bits_ok n l r : n <= 63 -> l <= n -> r <= n -> n <= l + r -> N.testbit (rp_bits n l r) (l + r - n) = true.
Proof.
  intros Hn Hl Hr H. unfold rp_bits. destruct (Z.leb_spec 0 (Z.of_N l + Z.of_N r - Z.of_N n)) as [A|A]; [|lia].
  destruct (Z.leb_spec (Z.of_N l + Z.of_N r - Z.of_N n) (Z.of_N n)) as [B|B]; [|lia]. cbn [andb].
  replace (Z.to_N (Z.of_N l + Z.of_N r - Z.of_N n)) with (l + r - n) by lia. rewrite bit_pow by lia. apply N.pow2_bits_true.
Qed.
Lemma rp_right_ok n l r k : N.testbit (rp_bits n l r) k = true -> forall fuel R, (pop R <= fuel)%nat -> R < 2 ^ 64 -> N.testbit R r = true ->
  N.testbit (rp_right fuel n l R) k = true.
Proof.
  intros B. induction fuel as [|f IH]; intros R P HR T.
  - pose proof (pop_pos_bit _ _ HR T). lia.
  - cbn [rp_right]. destruct (N.eqb_spec R 0) as [->|Z]; [rewrite N.bits_0 in T; discriminate|].
    destruct (low_bit R Z HR) as (i & Hi & -> & -> & Ti & J & Hx & Px & K). rewrite N.lor_spec.
    destruct (N.eq_dec r i) as [->|Q]; [rewrite B; apply orb_true_r|]. rewrite IH; [reflexivity|lia|auto|rewrite K; auto].
Qed.
Lemma rp_rec_ok n l r R : n <= 63 -> l <= n -> r <= n -> n <= l + r -> R < 2 ^ 64 -> N.testbit R r = true -> forall fuel L, (pop L <= fuel)%nat -> L < 2 ^ 64 ->
  N.testbit L l = true -> N.testbit (rp_grades_rec fuel n L R) (l + r - n) = true.
Proof.
  intros Hn Hl Hr LR HR TR. induction fuel as [|f IH]; intros L P HL T.
  - pose proof (pop_pos_bit _ _ HL T). lia.
  - cbn [rp_grades_rec]. destruct (N.eqb_spec L 0) as [->|Z]; [rewrite N.bits_0 in T; discriminate|].
    destruct (low_bit L Z HL) as (i & Hi & -> & -> & Ti & J & Hx & Px & K). rewrite N.lor_spec.
    destruct (N.eq_dec l i) as [->|Q].
    + rewrite (rp_right_ok n i r _ (rp_bits_ok n i r Hn Hl Hr LR) 64); auto using pop_le_64, orb_true_r.
      * apply N.mod_lt. discriminate.
      * rewrite wrap_bits. destruct (N.ltb_spec r 64); [|lia]. rewrite N.shiftl_spec_high' by lia.
        unfold safe_rshift. destruct (N.ltb_spec (n - i) 64); [|lia]. rewrite N.shiftr_spec'. replace (r - (n - i) + (n - i)) with r by lia. auto.
    + rewrite IH; [reflexivity|lia|auto|rewrite K; auto].
Qed.
