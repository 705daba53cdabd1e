(** The SWAR population count is the number of ones. *)
From Coq Require Import NArith ZArith List Bool Lia Arith.
From Verif Require Import SpecBits BitsBase Bits.
Import ListNotations.
Local Open Scope N_scope.

Fixpoint pack (l : list N) : N := match l with [] => 0 | b :: t => pack t * 2 ^ 8 + b end.
Definition byte (b : N) := b < 2 ^ 8.

Lemma pack_lt l : Forall byte l -> pack l < 2 ^ (8 * N.of_nat (length l)).
Proof.
  induction 1; cbn [pack length]. { reflexivity. }
  replace (8 * N.of_nat (S (length l))) with (8 * N.of_nat (length l) + 8) by lia.
  rewrite N.pow_add_r. unfold byte in H. nia.
Qed.

Lemma step_shift b Y s m M : b < 2 ^ 8 -> s <= 8 -> m < 2 ^ (8 - s) ->
  N.land (N.shiftr (Y * 2 ^ 8 + b) s) (M * 2 ^ 8 + m)
  = N.land (N.shiftr Y s) M * 2 ^ 8 + N.land (N.shiftr b s) m.
Proof.
  intros Hb Hs Hm.
  assert (Hm8 : m < 2 ^ 8).
  { apply N.lt_le_trans with (2 ^ (8 - s)); auto. apply N.pow_le_mono_r; lia. }
  assert (Hl : N.land (N.shiftr b s) m < 2 ^ 8) by (rewrite N.land_comm; apply land_lt; auto).
  apply N.bits_inj; intro i.
  rewrite testbit_split by auto.
  rewrite N.land_spec, N.shiftr_spec', !testbit_split by auto.
  destruct (N.ltb_spec i 8).
  - rewrite N.land_spec, N.shiftr_spec'.
    destruct (N.ltb_spec (i + s) 8); auto.
    rewrite (testbit_high m (8 - s)) by (auto; lia).
    rewrite !andb_false_r. reflexivity.
  - rewrite (proj2 (N.ltb_ge _ _)) by lia.
    rewrite N.land_spec, N.shiftr_spec'. do 2 f_equal. lia.
Qed.

Lemma step_bytes s m l : s <= 8 -> m < 2 ^ (8 - s) -> Forall byte l ->
  N.land (pack l) (pack (map (fun _ => m) l)) + N.land (N.shiftr (pack l) s) (pack (map (fun _ => m) l))
  = pack (map (fun b => N.land b m + N.land (N.shiftr b s) m) l).
Proof.
  intros Hs Hm H. induction H; cbn [pack map].
  - rewrite !N.land_0_r. reflexivity.
  - rewrite <- IHForall.
    assert (Hm8 : m < 2 ^ 8).
    { apply N.lt_le_trans with (2 ^ (8 - s)); auto. apply N.pow_le_mono_r; lia. }
    rewrite step_shift by auto. rewrite land_split by auto. nia.
Qed.

Definition all_bytes : list N := map N.of_nat (seq 0 256).
Lemma all_bytes_in b : byte b -> In b all_bytes.
Proof.
  intros H. unfold all_bytes. rewrite in_map_iff. exists (N.to_nat b).
  split; [lia|]. apply in_seq. unfold byte in H. cbn in H. lia.
Qed.

Definition bfun (b : N) : N :=
  let a := N.land b 0x55 + N.land (N.shiftr b 1) 0x55 in
  let c := N.land a 0x33 + N.land (N.shiftr a 2) 0x33 in
  N.land c 0x0F + N.land (N.shiftr c 4) 0x0F.

Lemma byte_check :
  forallb (fun b =>
    (N.land b 0x55 + N.land (N.shiftr b 1) 0x55 <? 2 ^ 8) &&
    (let a := N.land b 0x55 + N.land (N.shiftr b 1) 0x55 in
     N.land a 0x33 + N.land (N.shiftr a 2) 0x33 <? 2 ^ 8) &&
    (bfun b <? 2 ^ 8) && (bfun b =? N.of_nat (cnt 8 (tb b)))) all_bytes = true.
Proof. vm_compute. reflexivity. Qed.

Lemma byte_facts b : byte b ->
  byte (N.land b 0x55 + N.land (N.shiftr b 1) 0x55) /\
  (let a := N.land b 0x55 + N.land (N.shiftr b 1) 0x55 in
     byte (N.land a 0x33 + N.land (N.shiftr a 2) 0x33)) /\
  byte (bfun b) /\ bfun b = N.of_nat (cnt 8 (tb b)).
Proof.
  intros H. pose proof byte_check as C. rewrite forallb_forall in C.
  specialize (C b (all_bytes_in b H)).
  rewrite !andb_true_iff, !N.ltb_lt, N.eqb_eq in C. unfold byte. cbv zeta in *. tauto.
Qed.

Definition bytes_of (x : N) : list N :=
  map (fun i => N.shiftr x (8 * i) mod 2 ^ 8) [0;1;2;3;4;5;6;7].

Lemma bytes_of_byte x : Forall byte (bytes_of x).
Proof.
  unfold bytes_of. apply Forall_forall. intros b Hb. apply in_map_iff in Hb as [i [<- _]].
  apply N.mod_lt. discriminate.
Qed.

Lemma pack_bytes_of x : x < 2 ^ 64 -> pack (bytes_of x) = x.
Proof.
  intros Hx. unfold bytes_of. cbn [map pack].
  rewrite !N.shiftr_div_pow2.
  change (8 * 0) with 0. change (8*1) with 8. change (8*2) with (8+8). change (8*3) with (8+8+8).
  change (8*4) with (8+8+8+8). change (8*5) with (8+8+8+8+8).
  change (8*6) with (8+8+8+8+8+8). change (8*7) with (8+8+8+8+8+8+8).
  rewrite !N.pow_add_r, N.pow_0_r, N.div_1_r.
  change (2^8) with 256.
  rewrite <- !N.div_div by discriminate.
  change (2^64) with (256*256*256*256*256*256*256*256) in Hx.
  assert (D : forall y, y = 256 * (y / 256) + y mod 256) by (intro; apply N.div_mod; discriminate).
  pose proof (D x). pose proof (D (x/256)). pose proof (D (x/256/256)). pose proof (D (x/256/256/256)).
  pose proof (D (x/256/256/256/256)). pose proof (D (x/256/256/256/256/256)).
  pose proof (D (x/256/256/256/256/256/256)). 
  assert (x/256/256/256/256/256/256/256 < 256).
  { repeat apply N.div_lt_upper_bound; try discriminate. lia. }
  rewrite (N.mod_small (x/256/256/256/256/256/256/256)) by auto.
  lia.
Qed.

Lemma wrap_small x : x < 2 ^ 64 -> wrap x = x.
Proof. intros. apply N.mod_small. auto. Qed.

Lemma Forall_map_byte f l : (forall b, byte b -> byte (f b)) -> Forall byte l -> Forall byte (map f l).
Proof. intros Hf. induction 1; simpl; constructor; auto. Qed.

Lemma ones_cnt x : x < 2 ^ 64 -> ones x = N.of_nat (cnt 64 (tb x)).
Proof.
  intros Hx.
  set (l := bytes_of x).
  assert (Hl : Forall byte l) by apply bytes_of_byte.
  assert (Hlen : length l = 8%nat) by reflexivity.
  set (f1 := fun b => N.land b 0x55 + N.land (N.shiftr b 1) 0x55).
  set (f2 := fun a => N.land a 0x33 + N.land (N.shiftr a 2) 0x33).
  set (f3 := fun c => N.land c 0x0F + N.land (N.shiftr c 4) 0x0F).
  assert (B1 : Forall byte (map f1 l)).
  { apply Forall_map_byte; auto. intros. apply byte_facts; auto. }
  assert (B2 : Forall byte (map f2 (map f1 l))).
  { rewrite map_map. apply Forall_map_byte; auto. intros b Hb. apply (byte_facts b); auto. }
  assert (B3 : Forall byte (map f3 (map f2 (map f1 l)))).
  { rewrite !map_map. apply Forall_map_byte; auto. intros b Hb. apply (byte_facts b); auto. }
  assert (E1 : ones_impl_a x = pack (map f1 l)).
  { unfold ones_impl_a.
    pose proof (step_bytes 1 0x55 l ltac:(lia) eq_refl Hl) as E.
    change (pack (map (fun _ => 0x55) l)) with 0x5555555555555555 in E.
    assert (Ex : pack l = x) by (apply pack_bytes_of; auto). rewrite Ex in E. rewrite E.
    apply wrap_small. pose proof (pack_lt _ B1) as P. rewrite !map_length, Hlen in P. exact P. }
  assert (E2 : ones_impl_b (ones_impl_a x) = pack (map f2 (map f1 l))).
  { unfold ones_impl_b. rewrite E1.
    pose proof (step_bytes 2 0x33 _ ltac:(lia) eq_refl B1) as E.
    change (pack (map (fun _ => 0x33) (map f1 l))) with 0x3333333333333333 in E. rewrite E.
    apply wrap_small. pose proof (pack_lt _ B2) as P. rewrite !map_length, Hlen in P. exact P. }
  assert (E3 : ones_impl_c (ones_impl_b (ones_impl_a x)) = pack (map f3 (map f2 (map f1 l)))).
  { unfold ones_impl_c. rewrite E2.
    pose proof (step_bytes 4 0x0F _ ltac:(lia) eq_refl B2) as E.
    change (pack (map (fun _ => 0x0F) (map f2 (map f1 l)))) with 0x0F0F0F0F0F0F0F0F in E. rewrite E.
    apply wrap_small. pose proof (pack_lt _ B3) as P. rewrite !map_length, Hlen in P. exact P. }
  unfold ones. rewrite E3. rewrite !map_map.
  assert (E4 : map (fun x0 => f3 (f2 (f1 x0))) l = map (fun b => N.of_nat (cnt 8 (tb b))) l).
  { apply map_ext_in. intros b Hb. rewrite Forall_forall in Hl. apply (byte_facts b); auto. }
  rewrite E4. clear E1 E2 E3 E4 B1 B2 B3.
  rewrite <- (pack_bytes_of x Hx). fold l.
  unfold l, bytes_of in *. cbn [map] in *.
  repeat match goal with |- context [N.shiftr x ?k mod 2 ^ 8] =>
    let b := fresh "b" in set (b := N.shiftr x k mod 2 ^ 8) in * end.
  inversion Hl as [|? ? Hb0 H0]; subst. inversion H0 as [|? ? Hb1 H1]; subst.
  inversion H1 as [|? ? Hb2 H2]; subst. inversion H2 as [|? ? Hb3 H3]; subst.
  inversion H3 as [|? ? Hb4 H4]; subst. inversion H4 as [|? ? Hb5 H5]; subst.
  inversion H5 as [|? ? Hb6 H6]; subst. inversion H6 as [|? ? Hb7 H7]; subst.
  clear H0 H1 H2 H3 H4 H5 H6 H7 Hl Hlen l f1 f2 f3.
  unfold byte in *.
  assert (P : forall q lo n, lo < 2 ^ 8 -> cnt (8 + n) (tb (q * 2 ^ 8 + lo)) = (cnt 8 (tb lo) + cnt n (tb q))%nat).
  { intros q lo n Hlo. apply (cnt_pack q lo 8 n). exact Hlo. }
  cbn [pack].
  change 64%nat with (8 + (8 + (8 + (8 + (8 + (8 + (8 + 8)))))))%nat at 1.
  rewrite !P by assumption.
  change (0 * 2 ^ 8) with 0. rewrite !N.add_0_l.
  repeat match goal with |- context [cnt 8 (tb ?b)] =>
    let c := fresh "c" in let Hc := fresh "Hc" in
    pose proof (cnt_le 8 (tb b)) as Hc; set (c := cnt 8 (tb b)) in *; clearbody c end.
  unfold wrap. rewrite N.shiftr_div_pow2.
  change (2 ^ 8) with 256.
  match goal with |- context [?X * 0x0101010101010101] => set (K := X) end.
  rename c into d7, c0 into d6, c1 into d5, c2 into d4, c3 into d3, c4 into d2, c5 into d1, c6 into d0.
  assert (EK : exists q r, K * 0x0101010101010101 = q * 2 ^ 64 + (N.of_nat (d7+d6+d5+d4+d3+d2+d1+d0) * 2 ^ 56 + r) /\ r < 2 ^ 56).
  { unfold K.
    exists (N.of_nat d7 * 0x01010101010101 + N.of_nat d6 * 0x010101010101 + N.of_nat d5 * 0x0101010101
            + N.of_nat d4 * 0x01010101 + N.of_nat d3 * 0x010101 + N.of_nat d2 * 0x0101 + N.of_nat d1 * 0x01).
    exists (N.of_nat d0 * 0x01010101010101 + N.of_nat d1 * 0x01010101010100 + N.of_nat d2 * 0x01010101010000
            + N.of_nat d3 * 0x01010101000000 + N.of_nat d4 * 0x01010100000000 + N.of_nat d5 * 0x01010000000000
            + N.of_nat d6 * 0x01000000000000).
    change (2 ^ 64) with 18446744073709551616. change (2 ^ 56) with 72057594037927936. lia. }
  destruct EK as [q [r [EK Hr]]]. rewrite EK.
  rewrite N.add_comm, N.mod_add by discriminate.
  rewrite N.mod_small.
  2:{ change (2 ^ 64) with 18446744073709551616. change (2 ^ 56) with 72057594037927936 in *. lia. }
  rewrite N.div_add_l by discriminate. rewrite (N.div_small r) by auto. lia.
Qed.

Theorem ones_correct x : x < 2 ^ 64 -> ones x = grade_of x.
Proof. intros. rewrite ones_cnt, grade_of_cnt by auto. reflexivity. Qed.
