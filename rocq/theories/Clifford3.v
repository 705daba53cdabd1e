(** Contractions, the pseudoscalar, and the regressive product (specification side only). *)
From Coq Require Import NArith ZArith List Bool Reals Lra Lia Setoid Morphisms.
From Verif Require Import Bits SpecBits BitsBase BitsOnes BitsProofs Sem SpecMv SpecAlg MvBase GradeProofs SmartProofs Clifford Clifford2.
Import ListNotations.
Local Open Scope R_scope.

(** ** The left contraction of blades *)
Lemma land_sub a b : (a < 2 ^ 64)%N -> grade_of (N.land a b) = grade_of a -> N.land a b = a.
Proof.
  intros Ha G. symmetry. apply N.lxor_eq. apply grade_0; [apply lxor_lt; [auto|apply land_lt; auto]|].
  pose proof (grade_lxor a (N.land a b)) as E. replace (N.land a (N.land a b)) with (N.land a b) in E by (rewrite N.land_assoc, N.land_diag; reflexivity). lia.
Qed.
Lemma lcont_eq q a b : (a < 2 ^ 64)%N -> lcont_blade q a b = if N.eqb (N.land a b) a then [(sign_of a b * squares q a, N.lxor a b)] else [].
Proof.
  intros Ha. unfold lcont_blade, gp_blade. rewrite grade_part_1. pose proof (grade_lxor a b) as X. pose proof (grade_land_r a b) as R. pose proof (grade_land_l a b) as L.
  destruct (N.eqb_spec (N.land a b) a) as [E|E].
  - rewrite E in *. destruct (N.leb_spec (grade_of a) (grade_of b)) as [_|]; [|lia]. destruct (N.eqb_spec (grade_of (N.lxor a b)) (grade_of b - grade_of a)) as [_|F]; [reflexivity|exfalso; apply F; lia].
  - destruct (N.leb_spec (grade_of a) (grade_of b)) as [L2|]; [|reflexivity]. destruct (N.eqb_spec (grade_of (N.lxor a b)) (grade_of b - grade_of a)) as [F|_]; [|reflexivity].
    exfalso. apply E. apply land_sub; [exact Ha|lia].
Qed.
Lemma rcont_eq q a b : (b < 2 ^ 64)%N -> rcont_blade q a b = if N.eqb (N.land a b) b then [(sign_of a b * squares q b, N.lxor a b)] else [].
Proof.
  intros Hb. unfold rcont_blade, gp_blade. rewrite grade_part_1. pose proof (grade_lxor a b) as X. pose proof (grade_land_r a b) as R. pose proof (grade_land_l a b) as L.
  destruct (N.eqb_spec (N.land a b) b) as [E|E].
  - rewrite E in *. destruct (N.leb_spec (grade_of b) (grade_of a)) as [_|]; [|lia]. destruct (N.eqb_spec (grade_of (N.lxor a b)) (grade_of a - grade_of b)) as [_|F]; [reflexivity|exfalso; apply F; lia].
  - destruct (N.leb_spec (grade_of b) (grade_of a)) as [L2|]; [|reflexivity]. destruct (N.eqb_spec (grade_of (N.lxor a b)) (grade_of a - grade_of b)) as [F|_]; [|reflexivity].
    exfalso. apply E. rewrite N.land_comm. apply land_sub; [exact Hb|]. rewrite N.land_comm. lia.
Qed.
Lemma land_eq_iff a b : N.land a b = a <-> forall i, N.testbit a i = true -> N.testbit b i = true.
Proof.
  split.
  - intros E i H. rewrite <- E, N.land_spec in H. apply andb_true_iff in H. tauto.
  - intros H. apply N.bits_inj. intros i. rewrite N.land_spec. destruct (N.testbit a i) eqn:T; [|reflexivity]. rewrite (H i T). reflexivity.
Qed.
Lemma land_0_iff a b : N.land a b = 0%N <-> forall i, N.testbit a i = true -> N.testbit b i = false.
Proof.
  split.
  - intros E i H. assert (Q : N.testbit (N.land a b) i = false) by (rewrite E; apply N.bits_0). rewrite N.land_spec, H in Q. exact Q.
  - intros H. apply N.bits_inj. intros i. rewrite N.land_spec, N.bits_0. destruct (N.testbit a i) eqn:T; [|reflexivity]. rewrite (H i T). reflexivity.
Qed.
Lemma squares_lxor q a b : N.land a b = 0%N -> squares q (N.lxor a b) = squares q a * squares q b.
Proof.
  intros H. rewrite !squares_prod, prodn_mul. apply prodn_ext. intros i _. rewrite tb_lxor.
  assert (E : tb (N.land a b) i = false) by (rewrite H; unfold tb; apply N.bits_0). rewrite tb_land in E. destruct (tb a i), (tb b i); try discriminate; cbn [xorb]; lra.
Qed.
Theorem lcont_op q n a b c : (n <= 64)%N -> in_space n a -> in_space n b -> in_space n c ->
  meq (bilinear (lcont_blade q) (bilinear op_blade a b) c) (bilinear (lcont_blade q) a (bilinear (lcont_blade q) b c)).
Proof.
  intros Hn Ia Ib Ic. apply (bilinear_assoc_in _ _ _ _ n); auto. intros i j k h Hi Hj Hk. pose proof (pow_le_mono n 64 Hn) as P.
  rewrite (lcont_eq q j k) by lia. unfold op_blade.
  assert (L1 : sumf (if N.eqb (N.land i j) 0 then [(sign_of i j, N.lor i j)] else []) (fun m => sumf (lcont_blade q m k) h) =
    if (N.eqb (N.land i j) 0 && N.eqb (N.land (N.lor i j) k) (N.lor i j))%bool then sign_of i j * (sign_of (N.lor i j) k * squares q (N.lor i j) * h (N.lxor (N.lor i j) k)) else 0).
  { destruct (N.eqb (N.land i j) 0); cbn [andb]; [|reflexivity]. rewrite sumf1, lcont_eq by (pose proof (lor_lt _ _ _ Hi Hj); lia).
    destruct (N.eqb (N.land (N.lor i j) k) (N.lor i j)); [rewrite sumf1; reflexivity|apply Rmult_0_r]. }
  assert (L2 : sumf (if N.eqb (N.land j k) j then [(sign_of j k * squares q j, N.lxor j k)] else []) (fun m => sumf (lcont_blade q i m) h) =
    if (N.eqb (N.land j k) j && N.eqb (N.land i (N.lxor j k)) i)%bool then sign_of j k * squares q j * (sign_of i (N.lxor j k) * squares q i * h (N.lxor i (N.lxor j k))) else 0).
  { destruct (N.eqb (N.land j k) j); cbn [andb]; [|reflexivity]. rewrite sumf1, lcont_eq by lia.
    destruct (N.eqb (N.land i (N.lxor j k)) i); [rewrite sumf1; reflexivity|apply Rmult_0_r]. }
  rewrite L1, L2. clear L1 L2.
  assert (C : (N.eqb (N.land i j) 0 && N.eqb (N.land (N.lor i j) k) (N.lor i j))%bool = (N.eqb (N.land j k) j && N.eqb (N.land i (N.lxor j k)) i)%bool).
  { apply eq_true_iff_eq. rewrite !andb_true_iff, !N.eqb_eq, !land_eq_iff, land_0_iff. split.
    - intros [A B]. split; intros t T; [apply B; rewrite N.lor_spec, T; apply orb_true_r|]. rewrite N.lxor_spec, (A t T), (B t); [reflexivity|]. rewrite N.lor_spec, T. reflexivity.
    - intros [A B]. split; intros t T.
      + specialize (B t T). rewrite N.lxor_spec in B. destruct (N.testbit j t) eqn:J; [|reflexivity]. rewrite (A t J) in B. discriminate.
      + rewrite N.lor_spec in T. apply orb_true_iff in T as [T|T]; [|auto]. specialize (B t T). rewrite N.lxor_spec in B. destruct (N.testbit j t) eqn:J; [auto|]. rewrite xorb_false_l in B. exact B. }
  rewrite <- C. destruct (_ && _)%bool eqn:D; [|reflexivity]. apply andb_true_iff in D as [C1 _]. apply N.eqb_eq in C1.
  rewrite (lor_lxor i j C1). pose proof (sign_lxor_l i j k) as S1. pose proof (sign_lxor_r i j k) as S2. pose proof (squares_lxor q i j C1) as S3.
  revert S1 S2 S3. generalize sign_of (squares q). clear. intros s sq S1 S2 S3. rewrite S1, S2, S3, N.lxor_assoc. ring.
Qed.

(** ** The pseudoscalar *)
Lemma land_mask a n : (a < 2 ^ n)%N -> N.land a (2 ^ n - 1) = a.
Proof. intros H. replace (2 ^ n - 1)%N with (N.ones n) by (rewrite N.ones_equiv; lia). rewrite N.land_ones. apply N.mod_small. exact H. Qed.
Theorem lcont_ps q n a : (n <= 64)%N -> in_space n a -> meq (bilinear (lcont_blade q) a (ps n)) (bilinear (gp_blade q) a (ps n)).
Proof.
  intros Hn Ia. pose proof (pow_le_mono n 64 Hn) as P. apply bilinear_ext_in. intros p r Hp [<-|[]]. unfold in_space in Ia. rewrite Forall_forall in Ia. specialize (Ia _ Hp). cbn [snd].
  rewrite lcont_eq by lia. unfold gp_blade. rewrite (land_mask _ _ Ia), N.eqb_refl. reflexivity.
Qed.

(** ** Regressive product: the exterior product of complements, in reverse order *)
Definition compl (n a : N) : N := N.lxor (2 ^ n - 1) a.
Definition cpl (n : N) (m : mv) : mv := map (fun p => (fst p, compl n (snd p))) m.
Lemma compl_compl n a : compl n (compl n a) = a.
Proof. unfold compl. rewrite <- N.lxor_assoc, N.lxor_nilpotent, N.lxor_0_l. reflexivity. Qed.
Lemma mask_lt n : (2 ^ n - 1 < 2 ^ n)%N. Proof. pose proof (pow2_pos n). lia. Qed.
Lemma compl_lt n a : (a < 2 ^ n)%N -> (compl n a < 2 ^ n)%N.
Proof. intros H. apply lxor_lt; [apply mask_lt|exact H]. Qed.
Lemma compl_bit n a i : (a < 2 ^ n)%N -> N.testbit (compl n a) i = ((i <? n)%N && negb (N.testbit a i))%bool.
Proof.
  intros H. unfold compl. rewrite N.lxor_spec, testbit_mask. destruct (N.ltb_spec i n); [reflexivity|]. cbn [andb]. rewrite xorb_false_l.
  destruct (N.eq_dec a 0) as [E|]; [rewrite E; apply N.bits_0|]. apply N.bits_above_log2. apply N.log2_lt_pow2 in H; lia.
Qed.
Lemma bits_lt a n : (a < 2 ^ n)%N -> forall i, N.testbit a i = true -> (i < n)%N.
Proof.
  intros H i T. destruct (N.ltb_spec i n); [auto|]. exfalso. destruct (N.eq_dec a 0) as [E|]; [rewrite E, N.bits_0 in T; discriminate|].
  rewrite N.bits_above_log2 in T; [discriminate|]. apply N.log2_lt_pow2 in H; lia.
Qed.
Theorem rp_eq n a b : (a < 2 ^ n)%N -> (b < 2 ^ n)%N -> rp_blade n a b = cpl n (op_blade (compl n b) (compl n a)).
Proof.
  intros Ha Hb. unfold rp_blade, op_blade.
  assert (C : N.eqb (N.lor a b) (2 ^ n - 1) = N.eqb (N.land (compl n b) (compl n a)) 0).
  { apply eq_true_iff_eq. rewrite !N.eqb_eq, land_0_iff. split.
    - intros E i. rewrite !compl_bit by auto. assert (T : N.testbit (N.lor a b) i = (i <? n)%N) by (rewrite E; apply testbit_mask). rewrite N.lor_spec in T.
      destruct (i <? n)%N; [|discriminate]. destruct (N.testbit a i), (N.testbit b i); cbn in *; auto.
    - intros H. apply N.bits_inj. intros i. rewrite N.lor_spec, testbit_mask. specialize (H i). rewrite !compl_bit in H by auto.
      destruct (N.ltb_spec i n) as [L|L]; cbn [andb] in H.
      + destruct (N.testbit a i), (N.testbit b i); auto; try (specialize (H eq_refl); discriminate).
      + destruct (N.testbit a i) eqn:A; [apply (bits_lt a n Ha) in A; lia|]. destruct (N.testbit b i) eqn:B; [apply (bits_lt b n Hb) in B; lia|]. reflexivity. }
  rewrite C. destruct (N.eqb_spec (N.land (compl n b) (compl n a)) 0) as [E|]; [|reflexivity]. cbn [cpl map fst snd].
  rewrite land_0_iff in E.
  assert (X1 : N.lxor a (N.land a b) = compl n b).
  { apply N.bits_inj. intros i. specialize (E i). rewrite !compl_bit in * by auto. rewrite N.lxor_spec, N.land_spec. destruct (N.ltb_spec i n) as [L|L]; cbn [andb] in *.
    - destruct (N.testbit a i), (N.testbit b i); auto; try (specialize (E eq_refl); discriminate).
    - destruct (N.testbit a i) eqn:A; [apply (bits_lt a n Ha) in A; lia|]. reflexivity. }
  assert (X2 : N.lxor b (N.land a b) = compl n a).
  { apply N.bits_inj. intros i. specialize (E i). rewrite !compl_bit in * by auto. rewrite N.lxor_spec, N.land_spec. destruct (N.ltb_spec i n) as [L|L]; cbn [andb] in *.
    - destruct (N.testbit a i), (N.testbit b i); auto; try (specialize (E eq_refl); discriminate).
    - destruct (N.testbit b i) eqn:B; [apply (bits_lt b n Hb) in B; lia|]. destruct (N.testbit a i); reflexivity. }
  rewrite X1, X2. do 2 f_equal. apply N.bits_inj. intros i. rewrite N.land_spec. rewrite (compl_bit n (N.lor _ _)) by (apply lor_lt; apply compl_lt; auto).
  rewrite N.lor_spec, !compl_bit by auto. destruct (N.ltb_spec i n) as [L|L]; cbn [andb].
  - destruct (N.testbit a i), (N.testbit b i); reflexivity.
  - destruct (N.testbit a i) eqn:A; [apply (bits_lt a n Ha) in A; lia|]. reflexivity.
Qed.
Lemma sumf_cpl n m h : sumf (cpl n m) h = sumf m (fun b => h (compl n b)).
Proof. unfold cpl. induction m as [|[c b] m IH]; [reflexivity|]. cbn [map fst snd sumf]. rewrite IH. reflexivity. Qed.
Global Instance cpl_meq n : Proper (meq ==> meq) (cpl n).
Proof. intros a a' E. apply meq_sumf. intros h. rewrite !sumf_cpl. apply sumf_meq, E. Qed.
Lemma cpl_cpl n m : cpl n (cpl n m) = m.
Proof. unfold cpl. rewrite map_map. rewrite <- (map_id m) at 2. apply map_ext. intros [c b]. cbn [fst snd]. rewrite compl_compl. reflexivity. Qed.
Lemma in_space_cpl n m : in_space n m -> in_space n (cpl n m).
Proof. intros H. apply Forall_map. eapply Forall_impl; [|exact H]. intros [c b]. cbn [snd]. apply compl_lt. Qed.
Theorem rp_dual n a b : in_space n a -> in_space n b -> meq (bilinear (rp_blade n) a b) (cpl n (bilinear op_blade (cpl n b) (cpl n a))).
Proof.
  intros Ia Ib. apply meq_sumf. intros h. rewrite sumf_cpl, !sumf_bilinear, sumf_cpl. unfold in_space in *. rewrite Forall_forall in Ia, Ib. rewrite sumf_exch.
  apply sumf_ext_in. intros [y j] Hj. specialize (Ib _ Hj). rewrite sumf_cpl. apply sumf_ext_in. intros [x i] Hi. specialize (Ia _ Hi). cbn [snd] in *.
  rewrite rp_eq by auto. rewrite sumf_cpl. reflexivity.
Qed.
Lemma in_space_bilinear f n a b : (forall i j, (i < 2 ^ n)%N -> (j < 2 ^ n)%N -> in_space n (f i j)) -> in_space n a -> in_space n b -> in_space n (bilinear f a b).
Proof.
  intros H Ha Hb. unfold bilinear, linear, in_space in *. rewrite Forall_forall in *. intros p Hp. apply in_flat_map in Hp as ([x i] & Hi & Hp).
  unfold scale in Hp. cbn [fst snd] in Hp. apply in_map_iff in Hp as (p' & <- & Hp'). apply in_flat_map in Hp' as ([y j] & Hj & Hp'). cbn [fst snd] in *.
  apply in_map_iff in Hp' as (p'' & <- & Hp''). cbn [snd]. specialize (H i j (Ha _ Hi) (Hb _ Hj)). rewrite Forall_forall in H. exact (H _ Hp'').
Qed.
Lemma rp_in_space n a b : in_space n a -> in_space n b -> in_space n (bilinear (rp_blade n) a b).
Proof.
  apply in_space_bilinear. intros i j Hi Hj. unfold rp_blade. destruct (N.eqb _ _); [|constructor]. constructor; [apply land_lt; exact Hi|constructor].
Qed.
Theorem rp_assoc n a b c : in_space n a -> in_space n b -> in_space n c ->
  meq (bilinear (rp_blade n) (bilinear (rp_blade n) a b) c) (bilinear (rp_blade n) a (bilinear (rp_blade n) b c)).
Proof.
  intros Ia Ib Ic. rewrite (rp_dual n (bilinear (rp_blade n) a b) c), (rp_dual n a (bilinear (rp_blade n) b c)) by auto using rp_in_space.
  apply cpl_meq. rewrite (rp_dual n a b), (rp_dual n b c) by auto. rewrite !cpl_cpl. symmetry. apply op_assoc.
Qed.
Theorem rp_ps_l n a : in_space n a -> meq (bilinear (rp_blade n) (ps n) a) a.
Proof.
  intros Ia. assert (Ip : in_space n (ps n)) by (constructor; [apply mask_lt|constructor]). rewrite rp_dual by auto.
  replace (cpl n (ps n)) with one by (unfold cpl, ps, one, compl; cbn [map fst snd]; rewrite N.lxor_nilpotent; reflexivity). rewrite op_one_r, cpl_cpl. reflexivity.
Qed.
Theorem rp_ps_r n a : in_space n a -> meq (bilinear (rp_blade n) a (ps n)) a.
Proof.
  intros Ia. assert (Ip : in_space n (ps n)) by (constructor; [apply mask_lt|constructor]). rewrite rp_dual by auto.
  replace (cpl n (ps n)) with one by (unfold cpl, ps, one, compl; cbn [map fst snd]; rewrite N.lxor_nilpotent; reflexivity). rewrite op_one_l, cpl_cpl. reflexivity.
Qed.
