(** The products of two compile-time blades always have a result. *)
From Coq Require Import NArith ZArith List Bool Lia Sorting.Sorted.
From Verif Require Import Bits SpecBits BitsBase BitsOnes BitsProofs GradeProofs Expr ExprBase Simp SpecOrder OrderProofs Comp Mapping CanonProofs OuterProofs TotalProofs.
Import ListNotations.

Definition small (z : Z) : Prop := (- 2 ^ 20 <= z <= 2 ^ 20)%Z.
Lemma cv_small z : (- 2 ^ 45 <= z <= 2 ^ 45)%Z -> cv z = Some (CV z).
Proof. intros H. unfold cv. rewrite (proj2 (Z.leb_le _ _)), (proj2 (Z.ltb_lt _ _)); [reflexivity| |]; change (2 ^ 63)%Z with 9223372036854775808%Z; change (2 ^ 45)%Z with 35184372088832%Z in H; lia. Qed.
Lemma cv_mul a b : small a -> small b -> cv (a * b) = Some (CV (a * b)).
Proof. intros Ha Hb. apply cv_small. unfold small in *. change (2 ^ 20)%Z with 1048576%Z in *. change (2 ^ 45)%Z with 35184372088832%Z. nia. Qed.
Lemma cv_add a b : small a -> small b -> cv (a + b) = Some (CV (a + b)).
Proof. intros Ha Hb. apply cv_small. unfold small in *. change (2 ^ 20)%Z with 1048576%Z in *. change (2 ^ 45)%Z with 35184372088832%Z. lia. Qed.
Lemma ipow2 a : ipow a (iabs 2) = Some (a * a * 1)%Z. Proof. reflexivity. Qed.
Lemma square_cv F a : small a -> a <> 0%Z -> a <> 1%Z -> eng (S F) OPow (CV a) (CV 2) = Some (CV (a * a)).
Proof.
  intros H N0 N1. cbn [eng]. unfold power_step. cbn [apply_rules].
  assert (P1 : pow_misc1 (CV a) (CV 2) = no) by (destruct a as [|[]|]; try reflexivity; congruence). rewrite P1. change (pow_misc2 (CV a) (CV 2)) with no. unfold no. cbn [pow_misc3].
  change (expr_eqb (CV 2) half) with false. rewrite ipow2, Z.mul_1_r, (cv_mul a a H H). destruct (Z.eqb_spec a (-1)) as [->|]; reflexivity.
Qed.
Lemma mul_small F a b : small a -> small b -> eng (S (S F)) OMul (CV a) (CV b) = Some (CV (a * b)).
Proof.
  intros Ha Hb. change (product_step (eng (S F)) (CV a) (CV b) = Some (CV (a * b))). destruct (Z.eq_dec a 0) as [->|A0]; [reflexivity|].
  destruct (Z.eq_dec b 0) as [->|B0]; [destruct a; reflexivity|]. destruct (Z.eq_dec a 1) as [->|A1]; [destruct b; reflexivity|]. destruct (Z.eq_dec b 1) as [->|B1]; [rewrite Z.mul_1_r; destruct a as [|[]|]; reflexivity|].
  unfold product_step. cbn [apply_rules]. assert (Z0 : mul_zero (CV a) (CV b) = no) by (destruct a, b; try congruence; reflexivity).
  assert (Z1 : mul_one (CV a) (CV b) = no) by (destruct a as [|[]|], b as [|[]|]; try congruence; reflexivity). rewrite Z0, Z1. change (mul_distr (eng (S F)) (CV a) (CV b)) with no. unfold no at 1 2 3.
  unfold mul_helper at 1. cbn [split_mul]. unfold mul_collect1. destruct (Z.eq_dec a b) as [<-|Nab].
  - rewrite expr_eqb_refl, (square_cv F a Ha A0 A1). reflexivity.
  - rewrite eqb_false by congruence. change (mul_helper (eng (S F)) (mul_collect2 (eng (S F))) (CV a) (CV b)) with no. change (mul_helper (eng (S F)) (mul_collect3 (eng (S F))) (CV a) (CV b)) with no. unfold no.
    unfold mul_helper. cbn [split_mul mul_const1]. rewrite (cv_mul a b Ha Hb). reflexivity.
Qed.
Lemma add_small F a b : small a -> small b -> eng (S (S (S F))) OAdd (CV a) (CV b) = Some (CV (a + b)).
Proof.
  intros Ha Hb. change (addition_step (eng (S (S F))) (CV a) (CV b) = Some (CV (a + b))). destruct (Z.eq_dec a 0) as [->|A0]; [reflexivity|]. destruct (Z.eq_dec b 0) as [->|B0]; [rewrite Z.add_0_r; destruct a; reflexivity|].
  rewrite step_split. unfold head_rules. cbn [map app apply_rules]. assert (Z0 : add_zero (CV a) (CV b) = no) by (destruct a, b; try congruence; reflexivity). rewrite Z0. unfold no at 1.
  unfold add_helper at 1. cbn [split_add]. unfold add_collect1. destruct (Z.eq_dec a b) as [<-|Nab].
  - rewrite expr_eqb_refl, (mul_small F 2 a ltac:(unfold small; lia) Ha). cbn [yes]. do 2 f_equal. lia.
  - rewrite eqb_false by congruence. set (rec := eng (S (S F))).
    change (add_helper rec (add_collect2 rec) (CV a) (CV b)) with no. change (add_helper rec (add_collect3 rec) (CV a) (CV b)) with no. change (add_helper rec (add_collect4 rec) (CV a) (CV b)) with no.
    change (add_helper rec (add_collect5 rec) (CV a) (CV b)) with no. change (add_helper rec (add_collect6 rec) (CV a) (CV b)) with no. change (add_helper rec (add_collect7 rec) (CV a) (CV b)) with no. unfold no at 1 2 3 4 5 6 7.
    unfold add_helper at 1. cbn [split_add add_const1]. rewrite (cv_add a b Ha Hb). reflexivity.
Qed.
Lemma minus_small F a b : (0 <= a <= 64)%Z -> (0 <= b <= 64)%Z -> minus_t (S (S (S F))) (CV a) (CV b) = Some (CV (a - b)).
Proof. intros Ha Hb. unfold minus_t. rewrite mul_small by (unfold small; lia). rewrite add_small by (unfold small; lia). do 2 f_equal. Qed.
Lemma count_range x : (x < 2 ^ 63)%N -> exists z, mk_count (CBits x) = CV z /\ (0 <= z <= 64)%Z.
Proof. intros H. exists (Z.of_N (ones x)). split; [reflexivity|]. rewrite (ones_correct x (lt63_64 x H)). pose proof (grade_lt64 x H). lia. Qed.
Lemma fit_grades n x y : (n <= 63)%N -> (x < 2 ^ n)%N -> (y < 2 ^ n)%N -> grades_fit n (CBlade x) (CBlade y) = true.
Proof.
  intros Hn X Y. assert (W : forall x, (x < 2 ^ n)%N -> (x < 2 ^ 63)%N) by (intros z Hz; apply (N.lt_le_trans _ _ _ Hz), N.pow_le_mono_r; lia).
  unfold grades_fit. rewrite (proj1 (grades_wrap x (W x X))), (proj1 (grades_wrap y (W y Y))). unfold safe_rshift. destruct (N.ltb (n + 1) 64); [|reflexivity].
  apply N.eqb_eq. rewrite N.shiftr_div_pow2. apply N.div_small. apply lor_lt; apply N.pow_lt_mono_r; try lia; [pose proof (grade_le x n ltac:(lia) X)|pose proof (grade_le y n ltac:(lia) Y)]; lia.
Qed.
(** The tests of the grades have a result. *)
Definition valid_total (valid : valid_t) : Prop := forall a b c, (0 <= a <= 64)%Z -> (0 <= b <= 64)%Z -> (0 <= c <= 64)%Z -> valid (CV a) (CV b) (CV c) <> None.
Lemma gp_vt F : valid_total (gp_valid F). Proof. intros a b c _ _ _. discriminate. Qed.
Lemma lcont_vt F : valid_total (lcont_valid (S (S (S F)))). Proof. intros a b c A B _. unfold lcont_valid. rewrite minus_small by assumption. discriminate. Qed.
Lemma rcont_vt F : valid_total (rcont_valid (S (S (S F)))). Proof. intros a b c A B _. unfold rcont_valid. rewrite minus_small by assumption. discriminate. Qed.
Lemma sp_vt F : valid_total (sp_valid F). Proof. intros a b c _ _ _. discriminate. Qed.
Lemma dot_vt F : valid_total (dot_valid (S (S (S F)))). Proof. intros a b c A B _. unfold dot_valid. rewrite !minus_small by assumption. discriminate. Qed.
Lemma hip_vt F : valid_total (hip_valid (S (S (S F)))). Proof. intros a b c A B _. unfold hip_valid. rewrite !minus_small by assumption. discriminate. Qed.
Lemma sign_small a b : exists z, mk_sign (CBits a) (CBits b) = CV z /\ small z.
Proof. exists (if N.odd (swaps_count (N.shiftr a 1) b) then -1 else 1)%Z. split; [destruct a; reflexivity|]. unfold small. destruct (N.odd _); lia. Qed.
Lemma factor_small P Q R c : exists z, signed_factor P Q R (CBits c) = CV z /\ small z.
Proof.
  unfold signed_factor. rewrite !and_bits. cbn [mk_count]. rewrite and_cv. destruct (equal_cbits (N.land c (zero_mask P Q R)) 0) as [t ->]. destruct (equal_cv (Z.land (Z.of_N (ones (N.land c (neg_mask P Q)))) 1) 0) as [u ->].
  destruct t, u; cbn [mk_if]; eexists; (split; [reflexivity|unfold small; lia]).
Qed.
Definition total_mult (dim : N) (mult : expr -> expr -> option expr) : Prop :=
  forall x y, (x < 2 ^ 63)%N -> (y < 2 ^ 63)%N -> (x < 2 ^ dim)%N -> (y < 2 ^ dim)%N -> mult (CBlade x) (CBlade y) <> None.
Lemma orth_total F n grades valid factor : (n <= 63)%N -> valid_total valid -> (forall c, exists z, factor (CBits c) = CV z /\ small z) -> total_mult n (orth (S (S (S F))) n grades valid factor).
Proof.
  intros Hn HV HF x y X Y Xd Yd. unfold orth. rewrite (fit_grades n x y Hn Xd Yd). cbn [basis_vectors]. rewrite xor_bits, and_bits. cbn [deduce_blade].
  destruct (count_range x X) as (a & -> & Ha). destruct (count_range y Y) as (b & -> & Hb). destruct (count_range (N.lxor x y) (lxor_lt x y 63 X Y)) as (c & -> & Hc).
  pose proof (HV a b c Ha Hb Hc) as V. destruct (valid (CV a) (CV b) (CV c)) as [v|]; [|congruence]. destruct (sign_small x y) as (s & -> & Hs). destruct (HF (N.land x y)) as (f & -> & Hf). rewrite (mul_small (S F) s f Hs Hf). discriminate.
Qed.
Lemma op_total F n : (n <= 63)%N -> total_mult n (op_map (S (S (S F))) n).
Proof.
  intros Hn x y X Y Xd Yd. unfold op_map. rewrite (fit_grades n x y Hn Xd Yd). cbn [basis_vectors]. rewrite or_bits. cbn [deduce_blade].
  destruct (count_range x X) as (a & -> & Ha). destruct (count_range y Y) as (b & -> & Hb). rewrite add_small by (unfold small; lia). discriminate.
Qed.
Lemma rp_total F n : (n <= 63)%N -> total_mult n (rp_map (S (S (S F))) n).
Proof.
  intros Hn x y X Y Xd Yd. unfold rp_map. rewrite (fit_grades n x y Hn Xd Yd). cbn [basis_vectors]. rewrite and_bits. cbn [deduce_blade].
  destruct (count_range x X) as (a & -> & Ha). destruct (count_range y Y) as (b & -> & Hb). destruct (count_range (N.land x y) (land_lt x y 63 X)) as (c & -> & Hc).
  rewrite add_small by (unfold small; lia). rewrite mul_small by (unfold small; lia). rewrite add_small by (unfold small; lia). discriminate.
Qed.
