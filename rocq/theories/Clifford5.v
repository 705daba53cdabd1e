(** Norms, inverses, duality, versor sandwiches and commutators (specification side only). *)
From Coq Require Import NArith ZArith List Bool Lia Reals Lra Setoid Morphisms FinFun.
From Verif Require Import Bits SpecBits BitsBase BitsOnes BitsProofs Sem SpecMv SpecAlg MvBase GradeProofs SmartProofs Clifford Clifford2 Clifford3 SpecExtra AlgProofs Clifford4.
Import ListNotations.
Local Open Scope R_scope.

Section Alg.
Variable q : N -> R.
Notation "a ** b" := (mgp q a b) (at level 40, left associativity).

(** ** Scalar parts *)
Lemma re_meq a b : meq a b -> re a = re b. Proof. intros H. apply H. Qed.
Lemma re_gp a b : re (a ** b) = sumf a (fun i => sumf b (fun j => if N.eqb i j then sign_of i i * squares q i else 0)).
Proof.
  unfold re, mgp. rewrite coef_sumf, sumf_bilinear. apply sumf_ext. intros i. apply sumf_ext. intros j. unfold gp_blade. rewrite sumf1. unfold delta.
  destruct (N.eqb_spec i j) as [<-|Ne]; [rewrite N.lxor_nilpotent, N.land_diag; cbn [N.eqb]; apply Rmult_1_r|].
  assert (X : N.eqb (N.lxor i j) 0 = false) by (apply N.eqb_neq; intros Q; apply N.lxor_eq in Q; auto). rewrite X. apply Rmult_0_r.
Qed.
Lemma re_comm a b : re (a ** b) = re (b ** a).
Proof. rewrite !re_gp, sumf_exch. apply sumf_ext. intros i. apply sumf_ext. intros j. rewrite N.eqb_sym. destruct (N.eqb_spec i j) as [->|]; reflexivity. Qed.
Lemma grade_0 : grade_of 0 = 0%N. Proof. reflexivity. Qed.
Lemma coef_grade_part k a b : coef (grade_part k a) b = if N.eqb (grade_of b) k then coef a b else 0.
Proof.
  rewrite !coef_sumf, sumf_grade_part. induction a as [|[c i] a IH]; cbn [sumf]; [destruct (N.eqb _ _); reflexivity|]. rewrite IH. unfold delta.
  destruct (N.eqb_spec i b) as [->|]; destruct (N.eqb (grade_of b) k); try (destruct (N.eqb (grade_of i) k)); lra.
Qed.
Lemma re_sp a b : re (msp q a b) = re (a ** b).
Proof. unfold re, msp. rewrite (sp_part q a b 0%N), coef_grade_part, grade_0. reflexivity. Qed.
Lemma lxor_grade0 n i j : (n <= 64)%N -> (i < 2 ^ n)%N -> (j < 2 ^ n)%N -> grade_of (N.lxor i j) = 0%N -> i = j.
Proof. intros Hn Hi Hj G. pose proof (pow_le_mono n 64 Hn). apply (grade_gp_eq i j G); lia. Qed.
Lemma sp_scalar n a b : (n <= 64)%N -> in_space n a -> in_space n b -> meq (msp q a b) [(re (a ** b), 0%N)].
Proof.
  intros Hn Ia Ib. assert (Z : forall k, k <> 0%N -> coef (msp q a b) k = 0).
  { intros k Hk. unfold msp. rewrite coef_sumf, sumf_bilinear. rewrite (sumf_ext_in a _ (fun _ => 0)); [apply sumf_0|]. intros p Hp. rewrite (sumf_ext_in b _ (fun _ => 0)); [apply sumf_0|]. intros r Hr.
    unfold sp_blade, gp_blade. rewrite grade_part_1. destruct (N.eqb_spec (grade_of (N.lxor (snd p) (snd r))) 0) as [G|]; [|reflexivity].
    unfold in_space in *. rewrite Forall_forall in *. rewrite (lxor_grade0 n _ _ Hn (Ia _ Hp) (Ib _ Hr) G), N.lxor_nilpotent, sumf1. unfold delta. destruct (N.eqb_spec 0 k); [congruence|apply Rmult_0_r]. }
  intros k. destruct (N.eq_dec k 0) as [->|Nk]; [|rewrite (Z k Nk); cbn [coef]; destruct (N.eqb_spec 0 k); [congruence|lra]].
  pose proof (re_sp a b) as H. unfold re in H. rewrite H. unfold re. change (coef (a ** b) 0 = (if N.eqb 0 0 then coef (a ** b) 0 else 0) + 0). rewrite N.eqb_refl. ring.
Qed.

(** ** Norm *)
Lemma rev_self i : sg (Nat.odd (tri (pop i))) * sign_of i i = 1.
Proof.
  unfold sign_of. pose proof (inversions_swap i i) as S. rewrite N.land_diag in S. pose proof (tri_2 (pop i)) as T.
  assert (E : inversions i i = tri (pop i)). { generalize dependent (inversions i i). generalize dependent (tri (pop i)). generalize (pop i). intros p t T v S. assert (p * p = p * (p - 1) + p)%nat by (destruct p; [reflexivity|cbn [Nat.sub]; rewrite Nat.sub_0_r; lia]). lia. }
  rewrite E. destruct (Nat.odd (tri (pop i))); cbn [sg]; lra.
Qed.
Lemma norm2_sumf a : norm2 q a = sumf a (fun i => squares q i * coef a i).
Proof.
  unfold norm2. rewrite re_sp, re_gp. apply sumf_ext. intros i. unfold mrev. rewrite sumf_rev, coef_sumf, <- sumf_mult. apply sumf_ext. intros j. unfold delta. rewrite N.eqb_sym.
  destruct (N.eqb_spec j i) as [->|]; [|rewrite !Rmult_0_r; reflexivity]. rewrite <- Rmult_assoc, rev_self, Rmult_1_l, Rmult_1_r. reflexivity.
Qed.
Lemma suml_total L h : suml L h = total (map h L). Proof. induction L; [reflexivity|]. cbn [suml map total fold_right]. rewrite IHL. reflexivity. Qed.
Lemma suml_sq L (c s : N -> R) : suml L (fun k => c k * (s k * c k)) = total (map (fun k => s k * (c k * c k)) L).
Proof. rewrite suml_total. f_equal. apply map_ext. intros k. ring. Qed.
Lemma blades_nodup n : NoDup (blades_of n).
Proof. unfold blades_of. apply FinFun.Injective_map_NoDup; [intros x y; lia|apply seq_NoDup]. Qed.
Lemma blades_in n k : In k (blades_of n) <-> (k < 2 ^ n)%N.
Proof. unfold blades_of. rewrite in_map_iff. split; [intros (x & <- & H); apply in_seq in H; lia|]. intros H. exists (N.to_nat k). split; [lia|]. apply in_seq. lia. Qed.
Theorem norm2_sum n a : in_space n a -> norm2 q a = total (map (fun k => squares q k * (coef a k * coef a k)) (blades_of n)).
Proof.
  intros Ia. rewrite norm2_sumf, (sumf_coef (blades_of n)); [|apply blades_nodup|intros p Hp; apply blades_in; unfold in_space in Ia; rewrite Forall_forall in Ia; auto].
  apply suml_sq.
Qed.
Lemma total_nonneg l : Forall (fun x => 0 <= x) l -> 0 <= total l.
Proof. induction 1; cbn; [lra|]. unfold total in IHForall. lra. Qed.
Lemma total_zero l : Forall (fun x => 0 <= x) l -> total l = 0 -> Forall (fun x => x = 0) l.
Proof. induction 1 as [|x l Hx Hl IH]; intros Z; [constructor|]. cbn [total fold_right] in Z. pose proof (total_nonneg l Hl) as P. fold (total l) in Z. constructor; [lra|apply IH; lra]. Qed.

(** ** Inverse *)
Definition unit_norm (v : mv) (s : R) : Prop := meq (v ** mrev v) [(s, 0%N)].
Lemma norm2_of v s : unit_norm v s -> norm2 q v = s.
Proof. intros H. unfold norm2. rewrite re_sp, (re_meq _ _ H). unfold re. cbn. lra. Qed.
Lemma scale_one c : meq (scale c one) [(c, 0%N)].
Proof. intros k. cbn. destruct k; cbn; lra. Qed.
Theorem inv_r v s : s <> 0 -> unit_norm v s -> meq (v ** minv q v) one.
Proof. intros Hs H. unfold minv. rewrite mSr, (norm2_of v s H). unfold unit_norm in H. rewrite H, <- scale_one, scale_scale, Rinv_l, scale_1 by exact Hs. reflexivity. Qed.
Lemma in_linear1 n (f : N -> mv) a : (forall i, (i < 2 ^ n)%N -> in_space n (f i)) -> in_space n a -> in_space n (linear f a).
Proof. intros H. induction 1 as [|[c i] a Hi _ IH]; [constructor|]. unfold linear in *. cbn [flat_map fst snd] in *. apply Forall_app. split; [apply in_space_scale; auto|exact IH]. Qed.
Lemma in_rev n a : in_space n a -> in_space n (mrev a).
Proof. apply in_linear1. intros i Hi. rewrite rev_sg. constructor; [exact Hi|constructor]. Qed.
Lemma in_inv n a : in_space n a -> in_space n (minv q a).
Proof. intros. apply in_space_scale, in_rev. assumption. Qed.
Theorem inv_l n v s : s <> 0 -> in_space n v -> unit_norm v s -> meq (minv q v ** v) one.
Proof. intros Hs Iv H. apply (left_inverse q n (minv q v) v (in_inv n v Iv) (inv_r v s Hs H)). Qed.

(** ** Duality *)
Lemma rev_ps_scale n c : exists d, d * d = 1 /\ meq (mrev [(c, (2 ^ n - 1)%N)]) (scale (d * c) (ps n)).
Proof.
  exists (sg (Nat.odd (tri (pop (2 ^ n - 1))))). split; [apply sg_sq|]. unfold mrev. rewrite linear_1, rev_sg. generalize (sg (Nat.odd (tri (pop (2 ^ n - 1))))). intros d k. cbn. destruct (N.eqb _ _); ring.
Qed.
Lemma ps_scale n c : meq [(c, (2 ^ n - 1)%N)] (scale c (ps n)).
Proof. intros k. cbn. destruct (N.eqb _ _); ring. Qed.
Lemma in_ps n : in_space n (ps n). Proof. constructor; [apply mask_lt|constructor]. Qed.
Lemma lcont_pseudo n c a : (n <= 64)%N -> in_space n a -> meq (mlcont q a (scale c (ps n))) (a ** scale c (ps n)).
Proof. intros Hn Ia. unfold mlcont. rewrite bilinear_scale_r, (lcont_ps q n a Hn Ia), mSr. reflexivity. Qed.
Lemma inv_pseudo n c : exists d, meq (minv q [(c, (2 ^ n - 1)%N)]) (scale d (ps n)).
Proof. destruct (rev_ps_scale n c) as (d & _ & H). eexists. unfold minv. rewrite H, scale_scale. reflexivity. Qed.
Lemma gp_ps n : meq (ps n ** ps n) [(sign_of (2 ^ n - 1) (2 ^ n - 1) * squares q (2 ^ n - 1), 0%N)].
Proof. unfold mgp, ps. rewrite bilinear_1. unfold gp_blade. rewrite N.land_diag, N.lxor_nilpotent. generalize (sign_of (2 ^ n - 1) (2 ^ n - 1) * squares q (2 ^ n - 1)). intros s k. cbn. destruct k; ring. Qed.
Lemma ps_norm n c : unit_norm [(c, (2 ^ n - 1)%N)] (c * c * squares q (2 ^ n - 1)).
Proof.
  unfold unit_norm, mrev. rewrite linear_1, rev_sg, mSr, ps_scale, mSl. intros k. rewrite !coef_scale.
  assert (E : coef (ps n ** [(sg (Nat.odd (tri (pop (2 ^ n - 1)))), (2 ^ n - 1)%N)]) k = coef [(squares q (2 ^ n - 1), 0%N)] k).
  { rewrite (mgp_meq q _ _ (reflexivity (ps n)) _ _ (ps_scale n _) k), (mSr q _ _ _ k), coef_scale, (gp_ps n k). pose proof (rev_self (2 ^ n - 1)) as H. revert H. generalize (sg (Nat.odd (tri (pop (2 ^ n - 1))))) (sign_of (2 ^ n - 1) (2 ^ n - 1)) (squares q (2 ^ n - 1)). intros x y z H. cbn [coef]. destruct (N.eqb 0 k); [|ring]. transitivity (x * y * z); [ring|rewrite H; ring]. }
  rewrite E. generalize (squares q (2 ^ n - 1)). intros z. cbn [coef]. destruct (N.eqb 0 k); ring.
Qed.
Lemma in_lcont n a b : (n <= 64)%N -> in_space n a -> in_space n b -> in_space n (mlcont q a b).
Proof.
  intros Hn Ia Ib. apply in_space_bilinear; auto. intros i j Hi Hj. pose proof (pow_le_mono n 64 Hn). rewrite lcont_eq by lia. destruct (N.eqb _ _); constructor; [|constructor]. apply lxor_lt; assumption.
Qed.
Lemma in_I n c : in_space n [(c, (2 ^ n - 1)%N)]. Proof. constructor; [apply mask_lt|constructor]. Qed.
Theorem undual_dual n c a : (n <= 64)%N -> c <> 0 -> squares q (2 ^ n - 1) <> 0 -> in_space n a ->
  meq (mlcont q (mlcont q a (minv q [(c, (2 ^ n - 1)%N)])) [(c, (2 ^ n - 1)%N)]) a.
Proof.
  intros Hn Hc Hq Ia. set (I := [(c, (2 ^ n - 1)%N)]). destruct (inv_pseudo n c) as (d & Ed). fold I in Ed.
  assert (A : meq (mlcont q a (minv q I)) (a ** minv q I)). { unfold mlcont. rewrite Ed. apply lcont_pseudo; assumption. }
  assert (B : forall b, in_space n b -> meq (mlcont q b I) (b ** I)). { intros b Ib. unfold mlcont, I. rewrite ps_scale. apply lcont_pseudo; assumption. }
  assert (M : meq (minv q I ** I) one). { apply (inv_l n I (c * c * squares q (2 ^ n - 1))); [|apply in_I|apply ps_norm]. apply Rmult_integral_contrapositive_currified; [apply Rmult_integral_contrapositive_currified|]; assumption. }
  rewrite B by (apply in_lcont; [exact Hn|exact Ia|apply in_inv, in_I]). rewrite A, mA, M. apply m1r.
Qed.
Theorem dual_undual n c a : (n <= 64)%N -> c <> 0 -> squares q (2 ^ n - 1) <> 0 -> in_space n a ->
  meq (mlcont q (mlcont q a [(c, (2 ^ n - 1)%N)]) (minv q [(c, (2 ^ n - 1)%N)])) a.
Proof.
  intros Hn Hc Hq Ia. set (I := [(c, (2 ^ n - 1)%N)]). destruct (inv_pseudo n c) as (d & Ed). fold I in Ed.
  assert (A : forall b, in_space n b -> meq (mlcont q b (minv q I)) (b ** minv q I)). { intros b Ib. unfold mlcont. rewrite Ed. apply lcont_pseudo; assumption. }
  assert (B : meq (mlcont q a I) (a ** I)). { unfold mlcont, I. rewrite ps_scale. apply lcont_pseudo; assumption. }
  assert (M : meq (I ** minv q I) one). { apply (inv_r I (c * c * squares q (2 ^ n - 1))); [|apply ps_norm]. apply Rmult_integral_contrapositive_currified; [apply Rmult_integral_contrapositive_currified|]; assumption. }
  rewrite A by (apply in_lcont; [exact Hn|exact Ia|apply in_I]). rewrite B, mA, M. apply m1r.
Qed.
Theorem dual_op n c a b : (n <= 64)%N -> in_space n a -> in_space n b -> in_space n c -> meq (mlcont q (mop a b) c) (mlcont q a (mlcont q b c)).
Proof. intros. apply (lcont_op q n); assumption. Qed.
Theorem dual_lcont n c a b : (n <= 64)%N -> c <> 0 -> squares q (2 ^ n - 1) <> 0 -> in_space n a -> in_space n b ->
  meq (mlcont q (mlcont q a b) (minv q [(c, (2 ^ n - 1)%N)])) (mop a (mlcont q b (minv q [(c, (2 ^ n - 1)%N)]))).
Proof.
  intros Hn Hc Hq Ia Ib. set (I := [(c, (2 ^ n - 1)%N)]). assert (Iv : in_space n (minv q I)) by apply in_inv, in_I.
  set (b' := mlcont q b (minv q I)). assert (Ib' : in_space n b') by (apply in_lcont; auto).
  assert (E : meq b (mlcont q b' I)). { symmetry. apply undual_dual; assumption. }
  assert (E1 : meq (mlcont q a b) (mlcont q (mop a b') I)). { rewrite (dual_op n I a b' Hn Ia Ib' (in_I n c)). unfold mlcont at 1 3. rewrite E at 1. reflexivity. }
  unfold mlcont at 1. rewrite E1. apply dual_undual; auto. apply in_space_bilinear; auto. intros i j Hi Hj. unfold op_blade. destruct (N.eqb _ _); constructor; [|constructor]. apply lor_lt; assumption.
Qed.

(** ** Versors *)
Definition sandwich (v w a : mv) : mv := v ** a ** w.
Theorem sandwich_lin v w c d a b : meq (sandwich v w (scale c a ++ scale d b)) (scale c (sandwich v w a) ++ scale d (sandwich v w b)).
Proof. unfold sandwich. rewrite mDr, !mSr, mDl, !mSl. reflexivity. Qed.
Theorem sandwich_one v w : meq (v ** w) one -> meq (sandwich v w one) one.
Proof. intros H. unfold sandwich. rewrite m1r. exact H. Qed.
Theorem sandwich_gp v w a b : meq (w ** v) one -> meq (sandwich v w (a ** b)) (sandwich v w a ** sandwich v w b).
Proof. intros H. unfold sandwich. rewrite !mA. rewrite <- (mA q w v (b ** w)), H, m1l. reflexivity. Qed.
Theorem sandwich_re v w a : meq (w ** v) one -> re (sandwich v w a) = re a.
Proof. intros H. unfold sandwich. rewrite re_comm. apply re_meq. rewrite <- mA, H. apply m1l. Qed.
Theorem sandwich_sp v w a b : meq (w ** v) one -> re (msp q (sandwich v w a) (sandwich v w b)) = re (msp q a b).
Proof. intros H. rewrite !re_sp. rewrite <- (re_meq _ _ (sandwich_gp v w a b H)). apply sandwich_re. exact H. Qed.
Lemma invol_gp a b : meq (minvol (a ** b)) (minvol a ** minvol b). Proof. apply inv_gp. Qed.
Lemma invol_re a : re (minvol a) = re a.
Proof. unfold re, minvol. rewrite !coef_sumf, sumf_inv. apply sumf_ext. intros i. unfold delta. destruct (N.eqb_spec i 0) as [->|]; [|rewrite Rmult_0_r; reflexivity]. change (sg (Nat.odd (pop 0))) with 1. ring. Qed.
Lemma invol_one : meq (minvol one) one.
Proof. apply meq_sumf. intros h. unfold minvol, one. rewrite sumf_inv, !sumf1. change (sg (Nat.odd (pop 0))) with 1. ring. Qed.

(** ** Commutators *)
Lemma coef_cp a b k : coef (mcp q a b) k = (coef (a ** b) k - coef (b ** a) k) / 2.
Proof. unfold mcp, msub. rewrite coef_scale, coef_app, coef_scale. field. Qed.
Theorem cp_anti a b : meq (mcp q a b) (scale (-1) (mcp q b a)).
Proof. intros k. rewrite coef_scale, !coef_cp. field. Qed.
Global Instance mcp_meq : Proper (meq ==> meq ==> meq) (mcp q).
Proof. intros a a' E b b' E' k. rewrite !coef_cp. rewrite (mgp_meq q _ _ E _ _ E' k), (mgp_meq q _ _ E' _ _ E k). reflexivity. Qed.
Lemma cp_lin c d a b x : meq (mcp q x (scale c a ++ scale d b)) (scale c (mcp q x a) ++ scale d (mcp q x b)).
Proof.
  intros k. rewrite coef_app, !coef_scale, !coef_cp, (mDr q _ _ _ k), (mDl q _ _ _ k), !coef_app, (mSr q c _ _ k), (mSr q d _ _ k), (mSl q c _ _ k), (mSl q d _ _ k), !coef_scale. field.
Qed.
Lemma cp_cp a b c k : coef (mcp q a (mcp q b c)) k = (coef (a ** (b ** c)) k - coef (a ** (c ** b)) k - coef (b ** (c ** a)) k + coef (c ** (b ** a)) k) / 4.
Proof.
  rewrite coef_cp.
  assert (L : coef (a ** mcp q b c) k = (coef (a ** (b ** c)) k - coef (a ** (c ** b)) k) / 2).
  { unfold mcp, msub. rewrite (mSr q _ _ _ k), coef_scale, (mDr q _ _ _ k), coef_app, (mSr q _ _ _ k), coef_scale. field. }
  assert (R0 : coef (mcp q b c ** a) k = (coef (b ** (c ** a)) k - coef (c ** (b ** a)) k) / 2).
  { unfold mcp, msub. rewrite (mSl q _ _ _ k), coef_scale, (mDl q _ _ _ k), coef_app, (mSl q _ _ _ k), coef_scale, (mA q b c a k), (mA q c b a k). field. }
  rewrite L, R0. field.
Qed.
Theorem jacobi a b c : meq (mcp q a (mcp q b c) ++ mcp q b (mcp q c a) ++ mcp q c (mcp q a b)) [].
Proof. intros k. rewrite !coef_app, !cp_cp. change (coef [] k) with 0. lra. Qed.
(** The commutator with a fixed multivector is a derivation of the geometric product. *)
Theorem cp_leibniz x a b : meq (mcp q x (a ** b)) (mcp q x a ** b ++ a ** mcp q x b).
Proof.
  intros k. rewrite coef_app, coef_cp.
  assert (L : coef (mcp q x a ** b) k = (coef (x ** (a ** b)) k - coef (a ** (x ** b)) k) / 2).
  { unfold mcp, msub. rewrite (mSl q _ _ _ k), coef_scale, (mDl q _ _ _ k), coef_app, (mSl q _ _ _ k), coef_scale, (mA q x a b k), (mA q a x b k). field. }
  assert (R0 : coef (a ** mcp q x b) k = (coef (a ** (x ** b)) k - coef (a ** (b ** x)) k) / 2).
  { unfold mcp, msub. rewrite (mSr q _ _ _ k), coef_scale, (mDr q _ _ _ k), coef_app, (mSr q _ _ _ k), coef_scale. field. }
  rewrite L, R0, (mA q a b x k). field.
Qed.
End Alg.

(** ** Euclidean spaces *)
Lemma squares_pos q n k : (n <= 64)%N -> (forall i, (i < n)%N -> q i = 1) -> (k < 2 ^ n)%N -> squares q k = 1.
Proof.
  intros Hn Hq Hk. rewrite squares_prod, (prodn_ext 64 _ (fun _ => 1)); [apply prodn_1|]. intros i _. unfold tb. destruct (N.testbit k (N.of_nat i)) eqn:T; [|reflexivity]. apply Hq. apply (bits_lt k n Hk _ T).
Qed.
Lemma squares_nonzero q n k : (forall i, (i < n)%N -> q i <> 0) -> (k < 2 ^ n)%N -> squares q k <> 0.
Proof.
  intros Hq Hk. rewrite squares_prod. generalize 64%nat. intros m. induction m as [|m IH]; cbn [prodn]; [lra|]. apply Rmult_integral_contrapositive_currified; [exact IH|].
  unfold tb. destruct (N.testbit k (N.of_nat m)) eqn:T; [|lra]. apply Hq. apply (bits_lt k n Hk _ T).
Qed.
Theorem euclid_norm n Q a : (n <= 64)%N -> in_space n a -> norm2 (signature n Q) a = total (map (fun k => coef a k * coef a k) (blades_of n)).
Proof.
  intros Hn Ia. rewrite (norm2_sum _ n a Ia). f_equal. apply map_ext_in. intros k Hk. apply blades_in in Hk. rewrite (squares_pos _ n k Hn); [ring| |exact Hk].
  intros i Hi. unfold signature. apply N.ltb_lt in Hi. rewrite Hi. reflexivity.
Qed.
Theorem euclid_pos n Q a : (n <= 64)%N -> in_space n a -> 0 <= norm2 (signature n Q) a.
Proof. intros Hn Ia. rewrite (euclid_norm n Q a Hn Ia). apply total_nonneg. apply Forall_map. apply Forall_forall. intros k _. nra. Qed.
Theorem euclid_zero n Q a : (n <= 64)%N -> in_space n a -> (norm2 (signature n Q) a = 0 <-> meq a []).
Proof.
  intros Hn Ia. rewrite (euclid_norm n Q a Hn Ia). split.
  - intros Z. apply total_zero in Z; [|apply Forall_map, Forall_forall; intros; nra]. rewrite Forall_map, Forall_forall in Z. intros k. change (coef [] k) with 0.
    destruct (N.ltb_spec k (2 ^ n)) as [L|L]; [|apply (coef_big n a k Ia L)]. apply blades_in in L. specialize (Z k L). cbn in Z. nra.
  - intros Z. induction (blades_of n) as [|k l IH]; [reflexivity|]. cbn [map total fold_right]. unfold total in IH. rewrite IH, (Z k). cbn. ring.
Qed.
