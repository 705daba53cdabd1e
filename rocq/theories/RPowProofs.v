(** Facts on the real power of the specification. *)
From Coq Require Import NArith ZArith List Bool Reals Lra Lia.
From Verif Require Import Sem Wf.
Local Open Scope R_scope.

Lemma Int_part_IZR k : Int_part (IZR k) = k.
Proof.
  destruct (base_Int_part (IZR k)) as [A B].
  assert (H1 : (Int_part (IZR k) <= k)%Z) by (apply le_IZR; lra).
  assert (H2 : (k < Int_part (IZR k) + 1)%Z) by (apply lt_IZR; rewrite plus_IZR; lra).
  lia.
Qed.
Lemma Zof_IZR k : Zof (IZR k) = Some k.
Proof. unfold Zof. rewrite Int_part_IZR. destruct (Req_EM_T _ _); [reflexivity|lra]. Qed.
Lemma Zof_Some r k : Zof r = Some k -> r = IZR k.
Proof. unfold Zof. destruct (Req_EM_T _ _); [|discriminate]. intros [= <-]. auto. Qed.

Lemma isint_mult a b : isint a -> isint b -> isint (a * b).
Proof. intros [p ->] [q ->]. exists (p * q)%Z. symmetry. apply mult_IZR. Qed.
Lemma isint_plus a b : isint a -> isint b -> isint (a + b).
Proof. intros [p ->] [q ->]. exists (p + q)%Z. symmetry. apply plus_IZR. Qed.

Lemma rpow_pos a b : 0 < a -> rpow a b = Some (Rpower a b).
Proof. intros. unfold rpow. destruct (Rlt_dec 0 a); [reflexivity|lra]. Qed.
Lemma rpow_zero b : 0 < b -> rpow 0 b = Some 0.
Proof. intros. unfold rpow. destruct (Rlt_dec 0 0); [lra|]. destruct (Req_EM_T 0 0); [|lra]. destruct (Rlt_dec 0 b); [reflexivity|lra]. Qed.
Lemma rpow_zero_inv b v : rpow 0 b = Some v -> 0 < b /\ v = 0.
Proof.
  unfold rpow. destruct (Rlt_dec 0 0); [lra|]. destruct (Req_EM_T 0 0); [|lra].
  destruct (Rlt_dec 0 b); [|discriminate]. intros [= <-]. auto.
Qed.
Lemma rpow_int a k : a <> 0 -> rpow a (IZR k) = Some (powerRZ a k).
Proof.
  intros. unfold rpow. destruct (Rlt_dec 0 a).
  - f_equal. symmetry. apply powerRZ_Rpower. auto.
  - destruct (Req_EM_T a 0); [lra|]. rewrite Zof_IZR. reflexivity.
Qed.
Lemma rpow_neg_inv a b v : a < 0 -> rpow a b = Some v -> exists k, b = IZR k /\ v = powerRZ a k.
Proof.
  intros H. unfold rpow. destruct (Rlt_dec 0 a); [lra|]. destruct (Req_EM_T a 0); [lra|].
  destruct (Zof b) as [k|] eqn:E; [|discriminate]. intros [= <-]. exists k. split; auto. apply Zof_Some; auto.
Qed.
Lemma rpow_nonzero a b v : a <> 0 -> rpow a b = Some v -> v <> 0.
Proof.
  intros H E. destruct (Rtotal_order a 0) as [L|[L|L]]; [|lra|].
  - destruct (rpow_neg_inv _ _ _ L E) as [k [_ ->]]. apply powerRZ_NOR; auto.
  - rewrite rpow_pos in E by auto. injection E as <-. apply Rgt_not_eq. apply exp_pos.
Qed.

Lemma rpow_1 a : rpow a 1 = Some a.
Proof.
  destruct (Req_EM_T a 0) as [->|H]. { apply rpow_zero; lra. }
  rewrite (rpow_int a 1) by auto. f_equal. apply powerRZ_1.
Qed.
Lemma rpow_0 a v : rpow a 0 = Some v -> v = 1.
Proof.
  destruct (Req_EM_T a 0) as [->|H]. { intros E. apply rpow_zero_inv in E. lra. }
  rewrite (rpow_int a 0) by auto. intros [= <-]. reflexivity.
Qed.
Lemma rpow_base_1 b v : rpow 1 b = Some v -> v = 1.
Proof. rewrite rpow_pos by lra. intros [= <-]. unfold Rpower. rewrite ln_1, Rmult_0_r. apply exp_0. Qed.

Lemma rpow_plus a p q x y : rpow a p = Some x -> rpow a q = Some y -> rpow a (p + q) = Some (x * y).
Proof.
  destruct (Rtotal_order a 0) as [L|[->|L]]; intros H1 H2.
  - apply rpow_neg_inv in H1 as [i [-> ->]]; auto. apply rpow_neg_inv in H2 as [j [-> ->]]; auto.
    rewrite <- plus_IZR, rpow_int by lra. f_equal. apply powerRZ_add. lra.
  - apply rpow_zero_inv in H1 as [? ->]. apply rpow_zero_inv in H2 as [? ->].
    rewrite rpow_zero by lra. f_equal; lra.
  - rewrite rpow_pos in H1, H2 by auto. injection H1 as <-; injection H2 as <-.
    rewrite rpow_pos by auto. f_equal. apply Rpower_plus.
Qed.

Lemma powerRZ_powerRZ a i j : a <> 0 -> powerRZ (powerRZ a i) j = powerRZ a (i * j).
Proof.
  intros H. assert (N : forall n, powerRZ (powerRZ a i) (Z.of_nat n) = powerRZ a (i * Z.of_nat n)).
  { induction n as [|n IH].
    - rewrite Z.mul_0_r. reflexivity.
    - rewrite Nat2Z.inj_succ. unfold Z.succ. rewrite powerRZ_add by (apply powerRZ_NOR; auto).
      rewrite IH, powerRZ_1, <- powerRZ_add by auto. f_equal. lia. }
  destruct (Z_le_gt_dec 0 j) as [L|L].
  - rewrite <- (Z2Nat.id j) by auto. apply N.
  - replace j with (- Z.of_nat (Z.to_nat (- j)))%Z by lia.
    rewrite powerRZ_neg' by (apply powerRZ_NOR; auto).
    rewrite N, Z.mul_opp_r, powerRZ_neg' by auto. reflexivity.
Qed.

Lemma rpow_rpow b p c x v : rpow b p = Some x -> rpow x c = Some v -> (isint c \/ 0 <= b) -> rpow b (p * c) = Some v.
Proof.
  intros H1 H2 H3. destruct (Rtotal_order b 0) as [L|[->|L]].
  - destruct H3 as [[k ->]|]; [|lra]. apply rpow_neg_inv in H1 as [i [-> ->]]; auto.
    rewrite rpow_int in H2 by (apply powerRZ_NOR; lra). injection H2 as <-.
    rewrite <- mult_IZR, rpow_int by lra. f_equal. symmetry. apply powerRZ_powerRZ. lra.
  - apply rpow_zero_inv in H1 as [? ->]. apply rpow_zero_inv in H2 as [? ->].
    apply rpow_zero. apply Rmult_lt_0_compat; auto.
  - rewrite rpow_pos in H1 by auto. injection H1 as <-.
    rewrite rpow_pos in H2 by apply exp_pos. injection H2 as <-.
    rewrite rpow_pos by auto. f_equal. symmetry. apply Rpower_mult.
Qed.

Lemma rpow_mult a b c v : rpow (a * b) c = Some v -> (isint c \/ (0 <= a /\ 0 <= b)) ->
  exists x y, rpow a c = Some x /\ rpow b c = Some y /\ v = x * y.
Proof.
  intros H1 H2. destruct (Req_EM_T (a * b) 0) as [E|E].
  - rewrite E in H1. apply rpow_zero_inv in H1 as [P ->].
    assert (Q : forall z, (isint c \/ 0 <= z) -> exists x, rpow z c = Some x /\ (z = 0 -> x = 0)).
    { intros z Hz. destruct (Req_EM_T z 0) as [->|Nz].
      - exists 0. split; [apply rpow_zero; auto|auto].
      - destruct Hz as [[k ->]|Hz].
        + eexists. split; [apply rpow_int; auto|]. intros; contradiction.
        + eexists. split; [apply rpow_pos; lra|]. intros; contradiction. }
    destruct (Q a) as [x [Hx Zx]]; [tauto|]. destruct (Q b) as [y [Hy Zy]]; [tauto|].
    exists x, y. repeat split; auto. apply Rmult_integral in E as [Ea|Eb].
    + rewrite (Zx Ea); lra.
    + rewrite (Zy Eb); lra.
  - assert (Na : a <> 0) by (intros ->; apply E; lra). assert (Nb : b <> 0) by (intros ->; apply E; lra).
    destruct H2 as [[k ->]|[Ha Hb]].
    + rewrite rpow_int in H1 by auto. injection H1 as <-.
      exists (powerRZ a k), (powerRZ b k). rewrite !rpow_int by auto. repeat split; auto.
      apply powerRZ_mult.
    + assert (0 < a) by lra. assert (0 < b) by lra. assert (0 < a * b) by (apply Rmult_lt_0_compat; auto).
      rewrite rpow_pos in H1 by auto. injection H1 as <-.
      exists (Rpower a c), (Rpower b c). rewrite !rpow_pos by auto. repeat split; auto.
      symmetry. apply Rpower_mult_distr; auto.
Qed.

Lemma rpow_half n v : rpow (IZR n) (/ 2) = Some v -> v = sqrt (IZR n).
Proof.
  intros H. destruct (Rtotal_order (IZR n) 0) as [L|[E|L]].
  - destruct (rpow_neg_inv _ _ _ L H) as [k [E _]].
    exfalso. assert (E2 : IZR (2 * k) = IZR 1) by (rewrite mult_IZR; lra). apply eq_IZR in E2. lia.
  - rewrite E in *. apply rpow_zero_inv in H as [_ ->]. symmetry. apply sqrt_0.
  - rewrite rpow_pos in H by auto. injection H as <-. apply Rpower_sqrt; auto.
Qed.
Lemma powerRZ_m1 a : powerRZ a (-1) = / a.
Proof. unfold powerRZ. change (Pos.to_nat 1) with 1%nat. rewrite pow_1. reflexivity. Qed.
Lemma rpow_m1 a v : rpow a (-1) = Some v -> a <> 0 /\ v = / a.
Proof.
  intros H. destruct (Req_EM_T a 0) as [->|N]. { apply rpow_zero_inv in H. lra. }
  split; auto. rewrite (rpow_int a (-1)) in H by auto. rewrite powerRZ_m1 in H. congruence.
Qed.
Lemma rpow_m1' a : a <> 0 -> rpow a (-1) = Some (/ a).
Proof. intros N. rewrite (rpow_int a (-1)) by auto. rewrite powerRZ_m1. reflexivity. Qed.
