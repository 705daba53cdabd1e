(** Exactly which words leftmost_set_bit handles. *)
From Coq Require Import NArith List Bool Lia.
From Verif Require Import SpecBits BitsBase Bits BitsOnes BitsProofs.
Local Open Scope N_scope.

Definition smear (x : N) : N := N.lor x (N.shiftr x 1).

Lemma smear_bit x i : N.testbit (smear x) i = true <-> N.testbit x i = true \/ N.testbit x (i + 1) = true.
Proof. unfold smear. rewrite N.lor_spec, N.shiftr_spec', orb_true_iff. reflexivity. Qed.

Fixpoint smears (n : nat) (x : N) : N := match n with O => x | S m => smears m (smear x) end.

Lemma smears_bit n : forall x i, N.testbit (smears n x) i = true <->
  exists j, i <= j /\ j <= i + N.of_nat n /\ N.testbit x j = true.
Proof.
  induction n; intros x i; cbn [smears].
  - split.
    + intros H. exists i. repeat split; auto; lia.
    + intros (j & A & B & C). replace i with j by lia. exact C.
  - rewrite IHn. split.
    + intros (j & A & B & C). apply smear_bit in C. destruct C as [C|C].
      * exists j. repeat split; auto; lia.
      * exists (j + 1). repeat split; auto; lia.
    + intros (j & A & B & C). destruct (N.eq_dec j (i + N.of_nat (S n))) as [->|D].
      * exists (i + N.of_nat n). split; [lia|]. split; [lia|]. apply smear_bit. right.
        rewrite <- C. f_equal. lia.
      * exists j. split; [lia|]. split; [lia|]. apply smear_bit. left. exact C.
Qed.

Lemma leftmost_smears x : x <> 0 ->
  leftmost_set_bit x = Some (wrap (N.shiftr (smears 6 x) 1 + 1)).
Proof.
  intros H. unfold leftmost_set_bit. rewrite (proj2 (N.eqb_neq _ _) H). reflexivity.
Qed.

Lemma smears_lt n k : forall x, x < 2 ^ k -> smears n x < 2 ^ k.
Proof.
  induction n; intros x H; cbn [smears]; auto. apply IHn. unfold smear.
  apply lor_lt; auto. rewrite N.shiftr_div_pow2. eapply N.le_lt_trans; [|exact H].
  apply N.div_le_upper_bound; [discriminate|]. change (2 ^ 1) with 2. lia.
Qed.

Theorem leftmost_exact x : 0 < x -> x < 2 ^ 64 ->
  (leftmost_set_bit x = Some (2 ^ N.log2 x) <->
   forall i, 0 < i -> i <= N.log2 x -> exists j, i <= j /\ j <= i + 6 /\ N.testbit x j = true).
Proof.
  intros Hp Hx. rewrite leftmost_smears by lia.
  set (L := N.log2 x).
  assert (HL : x < 2 ^ (L + 1)).
  { rewrite N.add_1_r. apply (N.log2_spec x Hp). }
  pose proof (smears_lt 6 _ x HL) as HS. pose proof (smears_bit 6 x) as SB. change (N.of_nat 6) with 6 in SB.
  set (y := smears 6 x) in *.
  assert (L64 : L < 64) by (apply N.log2_lt_pow2; auto).
  assert (Hs : N.shiftr y 1 < 2 ^ L).
  { rewrite N.shiftr_div_pow2. apply N.div_lt_upper_bound; [discriminate|].
    rewrite <- N.pow_add_r, N.add_comm. exact HS. }
  assert (P : 2 ^ L <= 2 ^ 63) by (apply N.pow_le_mono_r; lia).
  assert (W : wrap (N.shiftr y 1 + 1) = N.shiftr y 1 + 1).
  { unfold wrap. apply N.mod_small. eapply N.le_lt_trans; [|apply (N.pow_lt_mono_r 2 63 64); lia]. lia. }
  rewrite W. split.
  - intros E i Hi Hl. assert (E' : N.shiftr y 1 + 1 = 2 ^ L) by congruence.
    apply SB. assert (E2 : N.shiftr y 1 = N.ones L) by (rewrite N.ones_equiv; lia).
    replace i with (N.pred i + 1) by lia. rewrite <- N.shiftr_spec', E2. apply N.ones_spec_low. lia.
  - intros A. assert (E2 : N.shiftr y 1 = N.ones L).
    { apply N.bits_inj. intros i. destruct (N.lt_ge_cases i L) as [Q|Q].
      - rewrite N.ones_spec_low by auto. rewrite N.shiftr_spec'. apply SB. apply A; lia.
      - rewrite N.ones_spec_high by auto. rewrite N.shiftr_spec'.
        destruct (N.testbit y (i + 1)) eqn:T; auto. apply SB in T. destruct T as (j & J & _ & T).
        exfalso. assert (L < j) by lia. rewrite N.bits_above_log2 in T; [discriminate|exact H]. }
    f_equal. rewrite E2, N.ones_equiv. pose proof (pow2_pos L). lia.
Qed.
