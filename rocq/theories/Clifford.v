(** The specified products satisfy the laws of Clifford and Grassmann algebra
    (specification side only: no mention of the code). *)
From Coq Require Import NArith ZArith List Bool Reals Lra Lia Setoid Morphisms.
From Verif Require Import Bits SpecBits BitsBase BitsProofs Sem SpecMv SpecAlg MvBase GradeProofs SmartProofs.
Import ListNotations.
Local Open Scope R_scope.

(** ** Signs *)
Lemma odd_add a b : Nat.odd (a + b) = xorb (Nat.odd a) (Nat.odd b).
Proof. apply Nat.odd_add. Qed.
Lemma odd_cnt_xor n f g : Nat.odd (cnt n (fun i => xorb (f i) (g i))) = xorb (Nat.odd (cnt n f)) (Nat.odd (cnt n g)).
Proof.
  induction n; cbn [cnt]; [reflexivity|]. rewrite !odd_add, IHn. destruct (f n), (g n); cbn [b2n xorb]; 
  destruct (Nat.odd (cnt n f)), (Nat.odd (cnt n g)); reflexivity.
Qed.
Lemma odd_sumn_xor n f g h : (forall i, (i < n)%nat -> Nat.odd (f i) = xorb (Nat.odd (g i)) (Nat.odd (h i))) ->
  Nat.odd (sumn n f) = xorb (Nat.odd (sumn n g)) (Nat.odd (sumn n h)).
Proof.
  induction n; intros H; [reflexivity|]. change (sumn (S n) f) with (sumn n f + f n)%nat. change (sumn (S n) g) with (sumn n g + g n)%nat. change (sumn (S n) h) with (sumn n h + h n)%nat.
  rewrite !odd_add, IHn by (intros; apply H; lia). rewrite (H n) by lia.
  destruct (Nat.odd (sumn n g)), (Nat.odd (sumn n h)), (Nat.odd (g n)), (Nat.odd (h n)); reflexivity.
Qed.
Lemma par_lxor_l a b c : Nat.odd (inversions (N.lxor a b) c) = xorb (Nat.odd (inversions a c)) (Nat.odd (inversions b c)).
Proof.
  rewrite !inversions_sum. apply odd_sumn_xor. intros i _. rewrite tb_lxor. destruct (tb a i), (tb b i); cbn [xorb Nat.odd]; destruct (Nat.odd (cnt i (tb c))); reflexivity.
Qed.
Lemma par_lxor_r a b c : Nat.odd (inversions a (N.lxor b c)) = xorb (Nat.odd (inversions a b)) (Nat.odd (inversions a c)).
Proof.
  rewrite !inversions_sum. apply odd_sumn_xor. intros i _. destruct (tb a i); [|reflexivity].
  rewrite (cnt_ext i (tb (N.lxor b c)) (fun j => xorb (tb b j) (tb c j))) by (intros; apply tb_lxor). apply odd_cnt_xor.
Qed.
Lemma sign_lxor_l a b c : sign_of (N.lxor a b) c = sign_of a c * sign_of b c.
Proof. unfold sign_of. rewrite par_lxor_l. destruct (Nat.odd (inversions a c)), (Nat.odd (inversions b c)); cbn; lra. Qed.
Lemma sign_lxor_r a b c : sign_of a (N.lxor b c) = sign_of a b * sign_of a c.
Proof. unfold sign_of. rewrite par_lxor_r. destruct (Nat.odd (inversions a b)), (Nat.odd (inversions a c)); cbn; lra. Qed.
Lemma sign_sq a b : sign_of a b * sign_of a b = 1.
Proof. unfold sign_of. destruct (Nat.odd _); lra. Qed.
Lemma sign_nz a b : sign_of a b <> 0.
Proof. unfold sign_of. destruct (Nat.odd _); lra. Qed.
Lemma sign_0_l b : sign_of 0 b = 1. Proof. reflexivity. Qed.
Lemma sign_0_r a : sign_of a 0 = 1.
Proof. unfold sign_of. rewrite inversions_sum. rewrite (sumn_ext 64 _ (fun _ => 0%nat)); [rewrite sumn_0; reflexivity|].
  intros i _. destruct (tb a i); [|reflexivity]. rewrite (cnt_ext i _ (fun _ => false)); [apply cnt_false|]. intros. unfold tb. apply N.bits_0. Qed.

(** Exchanging the two factors of a blade product. *)
Lemma inversions_swap a b : (inversions a b + inversions b a + pop (N.land a b) = pop a * pop b)%nat.
Proof.
  rewrite !inversions_sum. unfold pop. rewrite (cnt_ext 64 (tb (N.land a b)) (fun i => tb a i && tb b i)) by (intros; apply tb_land).
  generalize 64%nat as n. intros n.
  induction n as [|n IH]; [reflexivity|].
  change (sumn (S n) (fun p => if tb a p then cnt p (tb b) else 0%nat)) with (sumn n (fun p => if tb a p then cnt p (tb b) else 0%nat) + (if tb a n then cnt n (tb b) else 0))%nat.
  change (sumn (S n) (fun p => if tb b p then cnt p (tb a) else 0%nat)) with (sumn n (fun p => if tb b p then cnt p (tb a) else 0%nat) + (if tb b n then cnt n (tb a) else 0))%nat.
  cbn [cnt]. destruct (tb a n), (tb b n); cbn [b2n andb]; lia.
Qed.

(** ** Squares *)
Fixpoint prodn (n : nat) (f : nat -> R) : R := match n with O => 1 | S m => prodn m f * f m end.
Lemma prodn_ext n f g : (forall i, (i < n)%nat -> f i = g i) -> prodn n f = prodn n g.
Proof. induction n; intros H; cbn [prodn]; [reflexivity|]. rewrite IHn, H by (intros; try apply H; lia). reflexivity. Qed.
Lemma prodn_mul n f g : prodn n f * prodn n g = prodn n (fun i => f i * g i).
Proof. induction n; cbn [prodn]; [lra|]. rewrite <- IHn. lra. Qed.
Lemma prodn_S_first n f : prodn (S n) f = f O * prodn n (fun i => f (S i)).
Proof. induction n; [cbn; lra|]. cbn [prodn] in *. rewrite IHn. lra. Qed.
Lemma prodn_1 n : prodn n (fun _ => 1) = 1.
Proof. induction n; cbn [prodn]; [reflexivity|rewrite IHn; lra]. Qed.
Lemma squares_prod q b : squares q b = prodn 64 (fun i => if tb b i then q (N.of_nat i) else 1).
Proof.
  unfold squares, indices. rewrite filter_map_comm, map_map. fold (tb b).
  assert (G : forall n k, fold_right Rmult 1 (map (fun x => q (N.of_nat x)) (filter (tb b) (seq k n))) = prodn n (fun i => if tb b (k + i) then q (N.of_nat (k + i)) else 1)).
  { induction n as [|n IH]; intros k; [reflexivity|]. cbn [seq filter]. rewrite prodn_S_first, Nat.add_0_r.
    rewrite (prodn_ext n _ (fun i => if tb b (S k + i) then q (N.of_nat (S k + i)) else 1)) by (intros; replace (k + S i)%nat with (S k + i)%nat by lia; reflexivity).
    rewrite <- IH. destruct (tb b k); cbn [map fold_right]; lra. }
  exact (G 64%nat 0%nat).
Qed.
Lemma squares_assoc q a b c :
  squares q (N.land a b) * squares q (N.land (N.lxor a b) c) = squares q (N.land b c) * squares q (N.land a (N.lxor b c)).
Proof.
  rewrite !squares_prod, !prodn_mul. apply prodn_ext. intros i _. rewrite !tb_land, !tb_lxor.
  destruct (tb a i), (tb b i), (tb c i); cbn [andb xorb]; lra.
Qed.
Lemma squares_0 q : squares q 0 = 1.
Proof. rewrite squares_prod. rewrite (prodn_ext _ _ (fun _ => 1)); [apply prodn_1|]. intros. unfold tb. rewrite N.bits_0. reflexivity. Qed.
Lemma squares_nz q b : (forall i, q i <> 0) -> squares q b <> 0.
Proof.
  intros H. unfold squares. induction (indices b) as [|i l IH]; cbn [map fold_right]; [lra|]. apply Rmult_integral_contrapositive. auto.
Qed.
Lemma squares_pow2 q i : (i < 64)%N -> squares q (2 ^ i) = q i.
Proof.
  intros H. rewrite squares_prod.
  assert (G : forall n, prodn n (fun j => if tb (2 ^ i) j then q (N.of_nat j) else 1) = if (N.to_nat i <? n)%nat then q i else 1).
  { induction n as [|n IH]; [reflexivity|]. cbn [prodn]. rewrite IH. unfold tb. rewrite N.pow2_bits_eqb.
    destruct (N.eqb_spec i (N.of_nat n)) as [->|Ne].
    - rewrite Nat2N.id. destruct (Nat.ltb_spec n n); [lia|]. destruct (Nat.ltb_spec n (S n)); [lra|lia].
    - destruct (Nat.ltb_spec (N.to_nat i) n), (Nat.ltb_spec (N.to_nat i) (S n)); try lra; lia. }
  rewrite G. destruct (Nat.ltb_spec (N.to_nat i) 64); [reflexivity|lia].
Qed.

(** ** Associativity of bilinear extensions *)
Lemma bilinear_assoc f g f' g' a b c :
  (forall i j k h, sumf (f i j) (fun m => sumf (g m k) h) = sumf (f' j k) (fun m => sumf (g' i m) h)) ->
  meq (bilinear g (bilinear f a b) c) (bilinear g' a (bilinear f' b c)).
Proof.
  intros H. apply meq_sumf. intros h. rewrite !sumf_bilinear. apply sumf_ext. intros i.
  rewrite sumf_bilinear. apply sumf_ext. intros j. rewrite sumf_exch. apply sumf_ext. intros k. apply H.
Qed.
Lemma bilinear_assoc_in f g f' g' n a b c : in_space n a -> in_space n b -> in_space n c ->
  (forall i j k h, (i < 2 ^ n)%N -> (j < 2 ^ n)%N -> (k < 2 ^ n)%N -> sumf (f i j) (fun m => sumf (g m k) h) = sumf (f' j k) (fun m => sumf (g' i m) h)) ->
  meq (bilinear g (bilinear f a b) c) (bilinear g' a (bilinear f' b c)).
Proof.
  intros Ia Ib Ic H. apply meq_sumf. intros h. rewrite !sumf_bilinear. unfold in_space in *. rewrite Forall_forall in Ia, Ib, Ic.
  apply sumf_ext_in. intros [x i] Hi. cbn [snd]. specialize (Ia _ Hi). cbn [snd] in Ia.
  rewrite sumf_bilinear. apply sumf_ext_in. intros [y j] Hj. specialize (Ib _ Hj). cbn [snd] in *. rewrite sumf_exch.
  apply sumf_ext_in. intros [z k] Hk. specialize (Ic _ Hk). cbn [snd] in *. apply H; auto.
Qed.
Lemma bilinear_ext f g a b : (forall i j, meq (f i j) (g i j)) -> meq (bilinear f a b) (bilinear g a b).
Proof. intros H. apply meq_sumf. intros h. rewrite !sumf_bilinear. apply sumf_ext. intros i. apply sumf_ext. intros j. apply sumf_meq, H. Qed.
Lemma bilinear_ext_in f g a b : (forall p r, In p a -> In r b -> meq (f (snd p) (snd r)) (g (snd p) (snd r))) -> meq (bilinear f a b) (bilinear g a b).
Proof. intros H. apply meq_sumf. intros h. rewrite !sumf_bilinear. apply sumf_ext_in. intros i Hi. apply sumf_ext_in. intros j Hj. apply sumf_meq, H; auto. Qed.
Lemma bilinear_scale_l f c a b : meq (bilinear f (scale c a) b) (scale c (bilinear f a b)).
Proof. apply meq_sumf. intros h. rewrite sumf_scale, !sumf_bilinear, sumf_scale. reflexivity. Qed.
Lemma bilinear_scale_r f c a b : meq (bilinear f a (scale c b)) (scale c (bilinear f a b)).
Proof. apply meq_sumf. intros h. rewrite sumf_scale, !sumf_bilinear, <- sumf_mult. apply sumf_ext. intros. apply sumf_scale. Qed.
Lemma bilinear_flip f a b : meq (bilinear f a b) (bilinear (fun i j => f j i) b a).
Proof. apply meq_sumf. intros h. rewrite !sumf_bilinear. apply sumf_exch. Qed.
Lemma linear_scale f c a : meq (linear f (scale c a)) (scale c (linear f a)).
Proof. apply meq_sumf. intros h. rewrite sumf_scale, !sumf_linear, sumf_scale. reflexivity. Qed.
Lemma scale_scale c d m : meq (scale c (scale d m)) (scale (c * d) m).
Proof. apply meq_sumf. intros h. rewrite !sumf_scale. lra. Qed.
Lemma scale_1 m : meq (scale 1 m) m.
Proof. apply meq_sumf. intros h. rewrite !sumf_scale. lra. Qed.
Lemma scale_app c a b : scale c (a ++ b) = scale c a ++ scale c b.
Proof. apply map_app. Qed.

(** ** Geometric product *)
Lemma sumf1 c b h : sumf [(c, b)] h = c * h b. Proof. cbn [sumf]. lra. Qed.
Theorem gp_assoc q a b c : meq (bilinear (gp_blade q) (bilinear (gp_blade q) a b) c) (bilinear (gp_blade q) a (bilinear (gp_blade q) b c)).
Proof.
  apply bilinear_assoc. intros i j k h. unfold gp_blade. rewrite !sumf1, sign_lxor_l, sign_lxor_r, N.lxor_assoc.
  pose proof (squares_assoc q i j k) as E.
  generalize dependent (squares q (N.land (N.lxor i j) k)). generalize dependent (squares q (N.land i (N.lxor j k))).
  generalize (squares q (N.land i j)) (squares q (N.land j k)) (sign_of i j) (sign_of i k) (sign_of j k) (h (N.lxor i (N.lxor j k))).
  clear. intros A B s t u hh C D E.
  transitivity (s * t * u * (A * D) * hh); [ring|]. rewrite E. ring.
Qed.
Theorem gp_one_l q a : meq (bilinear (gp_blade q) one a) a.
Proof.
  apply meq_sumf. intros h. rewrite sumf_bilinear. unfold one. rewrite sumf1, Rmult_1_l. apply sumf_ext. intros j. unfold gp_blade.
  rewrite sumf1, sign_0_l, N.land_0_l, squares_0, N.lxor_0_l. lra.
Qed.
Theorem gp_one_r q a : meq (bilinear (gp_blade q) a one) a.
Proof.
  apply meq_sumf. intros h. rewrite sumf_bilinear. apply sumf_ext. intros j. unfold one, gp_blade.
  rewrite !sumf1, sign_0_r, N.land_0_r, squares_0, N.lxor_0_r. lra.
Qed.
Lemma indices_pow2 k : (k < 64)%N -> indices (2 ^ k) = [k].
Proof.
  intros Hk. assert (Q : forallb (fun k => match indices (2 ^ k) with [x] => N.eqb x k | _ => false end) (map N.of_nat (seq 0 64)) = true) by reflexivity.
  rewrite forallb_forall in Q. specialize (Q k). destruct (indices (2 ^ k)) as [|x [|]].
  - discriminate Q. apply in_map_iff. exists (N.to_nat k). split; [lia|apply in_seq; lia].
  - f_equal. apply N.eqb_eq. apply Q. apply in_map_iff. exists (N.to_nat k). split; [lia|apply in_seq; lia].
  - discriminate Q. apply in_map_iff. exists (N.to_nat k). split; [lia|apply in_seq; lia].
Qed.
Lemma sign_pow2 i j : (i < 64)%N -> (j < 64)%N -> sign_of (2 ^ i) (2 ^ j) = if (j <? i)%N then -1 else 1.
Proof.
  intros Hi Hj. unfold sign_of, inversions. rewrite !indices_pow2 by auto. cbn [list_prod map app filter fst snd]. destruct (j <? i)%N; reflexivity.
Qed.
Lemma land_pow2 i j : i <> j -> N.land (2 ^ i) (2 ^ j) = 0%N.
Proof.
  intros H. apply N.bits_inj. intros k. rewrite N.land_spec, !N.pow2_bits_eqb, N.bits_0. destruct (N.eqb_spec i k), (N.eqb_spec j k); auto; congruence.
Qed.
(** The basis vector of (0-based) index [i]. *)
Theorem gp_square q i : (i < 64)%N -> meq (bilinear (gp_blade q) (basis i) (basis i)) [(q i, 0%N)].
Proof.
  intros H. unfold basis. rewrite bilinear_1. unfold gp_blade. rewrite N.lxor_nilpotent, N.land_diag, squares_pow2, sign_pow2 by auto. rewrite N.ltb_irrefl.
  apply meq_sumf. intros h. cbn [scale map fst snd sumf]. lra.
Qed.
Theorem gp_anticomm q i j : (i < 64)%N -> (j < 64)%N -> i <> j ->
  meq (bilinear (gp_blade q) (basis i) (basis j)) (scale (-1) (bilinear (gp_blade q) (basis j) (basis i))).
Proof.
  intros Hi Hj N. unfold basis. rewrite !bilinear_1. unfold gp_blade. rewrite (N.lxor_comm (2 ^ j)), !land_pow2, squares_0, !sign_pow2 by auto.
  apply meq_sumf. intros h. cbn [scale map fst snd sumf]. destruct (N.ltb_spec i j), (N.ltb_spec j i); try lra; lia.
Qed.

(** ** Grade-1 multivectors *)

(** ** Exterior product *)
Lemma lor_lxor a b : N.land a b = 0%N -> N.lor a b = N.lxor a b.
Proof.
  intros H. apply N.bits_inj. intros i. rewrite N.lor_spec, N.lxor_spec. assert (E : N.testbit (N.land a b) i = false) by (rewrite H; apply N.bits_0).
  rewrite N.land_spec in E. destruct (N.testbit a i), (N.testbit b i); auto; discriminate.
Qed.
Lemma land_lor_0 a b c : N.land (N.lor a b) c = 0%N <-> N.land a c = 0%N /\ N.land b c = 0%N.
Proof. rewrite N.land_lor_distr_l, N.lor_eq_0_iff. reflexivity. Qed.
Theorem op_assoc a b c : meq (bilinear op_blade (bilinear op_blade a b) c) (bilinear op_blade a (bilinear op_blade b c)).
Proof.
  apply bilinear_assoc. intros i j k h. unfold op_blade. pose proof (sign_lxor_l i j k) as S1. pose proof (sign_lxor_r i j k) as S2.
  revert S1 S2. generalize sign_of. intros s S1 S2.
  destruct (N.eqb_spec (N.land i j) 0) as [Eij|Nij], (N.eqb_spec (N.land j k) 0) as [Ejk|Njk]; rewrite ?sumf1; cbn [sumf].
  - destruct (N.eqb_spec (N.land (N.lor i j) k) 0) as [E|E], (N.eqb_spec (N.land i (N.lor j k)) 0) as [E'|E']; rewrite ?sumf1; cbn [sumf]; try lra.
    + rewrite N.lor_assoc. rewrite (lor_lxor i j Eij), (lor_lxor j k Ejk). rewrite S1, S2. ring.
    + exfalso. apply land_lor_0 in E. apply E'. rewrite N.land_comm. apply land_lor_0. rewrite (N.land_comm j), (N.land_comm k). tauto.
    + exfalso. rewrite N.land_comm in E'. apply land_lor_0 in E'. apply E. apply land_lor_0. rewrite (N.land_comm i k). tauto.
  - destruct (N.eqb_spec (N.land (N.lor i j) k) 0) as [E|E]; [apply land_lor_0 in E; tauto|]. cbn [sumf]. lra.
  - destruct (N.eqb_spec (N.land i (N.lor j k)) 0) as [E|E]; [rewrite N.land_comm in E; apply land_lor_0 in E; rewrite (N.land_comm j i) in E; tauto|]. cbn [sumf]. lra.
  - reflexivity.
Qed.
Theorem op_one_l a : meq (bilinear op_blade one a) a.
Proof.
  apply meq_sumf. intros h. rewrite sumf_bilinear. unfold one. rewrite sumf1, Rmult_1_l. apply sumf_ext. intros j. unfold op_blade.
  rewrite N.land_0_l, N.eqb_refl, sumf1, sign_0_l, N.lor_0_l. lra.
Qed.
Theorem op_one_r a : meq (bilinear op_blade a one) a.
Proof.
  apply meq_sumf. intros h. rewrite sumf_bilinear. apply sumf_ext. intros j. unfold one, op_blade.
  rewrite sumf1, N.land_0_r, N.eqb_refl, sumf1, sign_0_r, N.lor_0_r. lra.
Qed.
Lemma sign_swap a b : sign_of b a = sign_of a b * (if Nat.odd (pop a * pop b + pop (N.land a b)) then -1 else 1).
Proof.
  pose proof (inversions_swap a b) as E. rewrite <- E. unfold sign_of.
  replace (inversions a b + inversions b a + pop (N.land a b) + pop (N.land a b))%nat with ((inversions a b + inversions b a) + 2 * pop (N.land a b))%nat by lia.
  rewrite Nat.odd_add_mul_2, odd_add. destruct (Nat.odd (inversions a b)), (Nat.odd (inversions b a)); cbn; lra.
Qed.
(** Graded commutativity: B ^ A = (-1)^(rs) A ^ B for grades r and s. *)
Theorem op_comm r s a b : homog r a -> homog s b -> meq (bilinear op_blade b a) (scale (if N.odd (r * s) then -1 else 1) (bilinear op_blade a b)).
Proof.
  intros Ha Hb. apply meq_sumf. intros h. rewrite sumf_scale, !sumf_bilinear, sumf_exch, <- sumf_mult. unfold homog in *. rewrite Forall_forall in Ha, Hb.
  apply sumf_ext_in. intros [x i] Hi. specialize (Ha _ Hi). cbn [snd] in *. rewrite <- sumf_mult. apply sumf_ext_in. intros [y j] Hj. specialize (Hb _ Hj). cbn [snd] in *.
  unfold op_blade. rewrite (N.land_comm j i). destruct (N.eqb_spec (N.land i j) 0) as [E|]; [|cbn [sumf]; lra]. rewrite !sumf1, (sign_swap i j), E, (N.lor_comm j i).
  change (pop 0) with 0%nat. rewrite Nat.add_0_r. rewrite <- Ha, <- Hb, !grade_of_pop.
  rewrite <- Nat2N.inj_mul, odd_of_nat. generalize (sign_of i j) (h (N.lor i j)) (Nat.odd (pop i * pop j)). intros. destruct b0; lra.
Qed.
