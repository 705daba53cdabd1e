(** The closed form of the exponential of a blade is the sum of its power series. *)
From Coq Require Import NArith ZArith List Bool Lia Reals Lra.
From Verif Require Import Bits SpecMv SpecAlg MvBase AlgProofs AlgProofs2 Clifford SpecApi SpecExtra SpecNorm.
Import ListNotations.
Local Open Scope R_scope.

(** ** Series *)
Lemma sum_ext f h l : (forall k, f k = h k) -> infinite_sum f l -> infinite_sum h l.
Proof. intros E H eps He. destruct (H eps He) as [N HN]. exists N. intros n Hn. rewrite (sum_eq h f) by auto. auto. Qed.
Lemma sum_scale c f l : infinite_sum f l -> infinite_sum (fun k => c * f k) (c * l).
Proof.
  intros H eps He. destruct (H (eps / (Rabs c + 1))) as [N HN]; [apply Rdiv_lt_0_compat; [exact He|pose proof (Rabs_pos c); lra]|]. exists N. intros n Hn. specialize (HN n Hn). unfold R_dist in *.
  rewrite (sum_eq _ (fun k => f k * c)) by (intros; ring). rewrite <- scal_sum, <- Rmult_minus_distr_l, Rabs_mult. pose proof (Rabs_pos c) as Pc.
  apply Rle_lt_trans with (Rabs c * (eps / (Rabs c + 1))); [apply Rmult_le_compat_l; lra|]. apply Rlt_le_trans with ((Rabs c + 1) * (eps / (Rabs c + 1))); [|right; field; lra].
  apply Rmult_lt_compat_r; [apply Rdiv_lt_0_compat; lra|lra].
Qed.
Lemma sum_plus f h l l' : infinite_sum f l -> infinite_sum h l' -> infinite_sum (fun k => f k + h k) (l + l').
Proof.
  intros H H' eps He. destruct (H (eps / 2) ltac:(lra)) as [N HN]. destruct (H' (eps / 2) ltac:(lra)) as [N' HN']. exists (max N N'). intros n Hn. specialize (HN n ltac:(lia)). specialize (HN' n ltac:(lia)). unfold R_dist in *.
  rewrite sum_plus. replace (sum_f_R0 f n + sum_f_R0 h n - (l + l')) with ((sum_f_R0 f n - l) + (sum_f_R0 h n - l')) by ring. eapply Rle_lt_trans; [apply Rabs_triang|lra].
Qed.
(** The two halves of a series. *)
Lemma sum_split (f : nat -> R) N : sum_f_R0 f (2 * N + 1) = sum_f_R0 (fun i => f (2 * i)%nat) N + sum_f_R0 (fun i => f (2 * i + 1)%nat) N.
Proof.
  induction N as [|N IH]; [cbn; reflexivity|]. replace (2 * S N + 1)%nat with (S (S (2 * N + 1))) by lia. cbn [sum_f_R0]. rewrite IH. replace (S (2 * N + 1)) with (2 * S N)%nat by lia. replace (S (2 * S N)) with (2 * S N + 1)%nat by lia. ring.
Qed.
Lemma interleave (f : nat -> R) C D : infinite_sum (fun i => f (2 * i)%nat) C -> infinite_sum (fun i => f (2 * i + 1)%nat) D -> infinite_sum f (C + D).
Proof.
  intros HC HD eps He. destruct (HC (eps / 2) ltac:(lra)) as [N1 H1]. destruct (HD (eps / 2) ltac:(lra)) as [N2 H2]. exists (2 * max N1 N2 + 3)%nat. intros n Hn. unfold R_dist in *.
  destruct (Nat.Even_or_Odd n) as [[k ->]|[k ->]].
  - destruct k as [|k]; [lia|]. replace (2 * S k)%nat with (S (2 * k + 1)) by lia. cbn [sum_f_R0]. rewrite sum_split. replace (S (2 * k + 1)) with (2 * S k)%nat by lia.
    pose proof (H1 (S k) ltac:(lia)) as A. pose proof (H2 k ltac:(lia)) as B. cbn [sum_f_R0] in A.
    replace (sum_f_R0 (fun i => f (2 * i)%nat) k + sum_f_R0 (fun i => f (2 * i + 1)%nat) k + f (2 * S k)%nat - (C + D)) with ((sum_f_R0 (fun i => f (2 * i)%nat) k + f (2 * S k)%nat - C) + (sum_f_R0 (fun i => f (2 * i + 1)%nat) k - D)) by ring.
    eapply Rle_lt_trans; [apply Rabs_triang|lra].
  - rewrite sum_split. pose proof (H1 k ltac:(lia)) as A. pose proof (H2 k ltac:(lia)) as B.
    replace (sum_f_R0 (fun i => f (2 * i)%nat) k + sum_f_R0 (fun i => f (2 * i + 1)%nat) k - (C + D)) with ((sum_f_R0 (fun i => f (2 * i)%nat) k - C) + (sum_f_R0 (fun i => f (2 * i + 1)%nat) k - D)) by ring.
    eapply Rle_lt_trans; [apply Rabs_triang|lra].
Qed.
Lemma zero_series f : (forall k, f k = 0) -> forall n, sum_f_R0 f n = 0.
Proof. intros H. induction n; cbn; rewrite H; lra. Qed.
Lemma even_half (f : nat -> R) l : (forall i, f (2 * i + 1)%nat = 0) -> infinite_sum f l -> infinite_sum (fun i => f (2 * i)%nat) l.
Proof. intros Z H eps He. destruct (H eps He) as [N HN]. exists N. intros n Hn. specialize (HN (2 * n + 1)%nat ltac:(lia)). rewrite sum_split, (zero_series _ Z), Rplus_0_r in HN. exact HN. Qed.
Lemma odd_half (f : nat -> R) l : (forall i, f (2 * i)%nat = 0) -> infinite_sum f l -> infinite_sum (fun i => f (2 * i + 1)%nat) l.
Proof. intros Z H eps He. destruct (H eps He) as [N HN]. exists N. intros n Hn. specialize (HN (2 * n + 1)%nat ltac:(lia)). rewrite sum_split, (zero_series _ Z), Rplus_0_l in HN. exact HN. Qed.

(** ** The hyperbolic and trigonometric series *)
Lemma exp_series x : infinite_sum (fun k => x ^ k / INR (fact k)) (exp x).
Proof. unfold exp. destruct (exist_exp x) as [l H]. cbn [proj1_sig]. apply (sum_ext (fun i => / INR (fact i) * x ^ i)); [intros k; unfold Rdiv; ring|exact H]. Qed.
Lemma pow_opp x k : (- x) ^ k = (if Nat.odd k then -1 else 1) * x ^ k.
Proof. induction k as [|k IH]; [cbn; ring|]. rewrite Nat.odd_succ, <- Nat.negb_odd. cbn [pow]. rewrite IH. destruct (Nat.odd k); cbn [negb]; ring. Qed.
Lemma odd_2 i : Nat.odd (2 * i) = false. Proof. rewrite <- Nat.negb_even, Nat.even_mul. reflexivity. Qed.
Lemma odd_21 i : Nat.odd (2 * i + 1) = true. Proof. rewrite Nat.add_1_r, Nat.odd_succ, Nat.even_mul. reflexivity. Qed.
Lemma cosh_series x : infinite_sum (fun i => x ^ (2 * i) / INR (fact (2 * i))) (cosh x).
Proof.
  pose proof (sum_plus _ _ _ _ (sum_scale (/ 2) _ _ (exp_series x)) (sum_scale (/ 2) _ _ (exp_series (- x)))) as H. cbv beta in H. replace (/ 2 * exp x + / 2 * exp (- x)) with (cosh x) in H by (unfold cosh; field).
  apply even_half in H; [|intros i; rewrite pow_opp, odd_21; unfold Rdiv; ring]. cbv beta in H. refine (sum_ext _ _ _ _ H). intros i. rewrite pow_opp, odd_2. field. apply INR_fact_neq_0.
Qed.
Lemma sinh_series x : infinite_sum (fun i => x ^ (2 * i + 1) / INR (fact (2 * i + 1))) (sinh x).
Proof.
  pose proof (sum_plus _ _ _ _ (sum_scale (/ 2) _ _ (exp_series x)) (sum_scale (- / 2) _ _ (exp_series (- x)))) as H. cbv beta in H. replace (/ 2 * exp x + - / 2 * exp (- x)) with (sinh x) in H by (unfold sinh; field).
  apply odd_half in H; [|intros i; rewrite pow_opp, odd_2; unfold Rdiv; field; apply INR_fact_neq_0]. cbv beta in H. refine (sum_ext _ _ _ _ H). intros i. rewrite pow_opp, odd_21. field. apply INR_fact_neq_0.
Qed.
Lemma cos_series r s : r * r = - s -> infinite_sum (fun i => s ^ i / INR (fact (2 * i))) (cos r).
Proof.
  intros E. unfold cos. destruct (exist_cos (Rsqr r)) as [l H]. apply (sum_ext (fun i => cos_n i * Rsqr r ^ i)); [|exact H]. intros i. unfold Rsqr. rewrite E. unfold cos_n. replace (s ^ i) with ((-1) ^ i * (- s) ^ i); [unfold Rdiv; ring|]. rewrite <- Rpow_mult_distr. f_equal. ring.
Qed.
Lemma sin_series r s : r <> 0 -> r * r = - s -> infinite_sum (fun i => s ^ i / INR (fact (2 * i + 1))) (sin r / r).
Proof.
  intros Nr E. unfold sin. destruct (exist_sin (Rsqr r)) as [l H]. replace (r * l / r) with l by (field; exact Nr). apply (sum_ext (fun i => sin_n i * Rsqr r ^ i)); [|exact H]. intros i. unfold Rsqr. rewrite E. unfold sin_n. replace (s ^ i) with ((-1) ^ i * (- s) ^ i); [unfold Rdiv; ring|]. rewrite <- Rpow_mult_distr. f_equal. ring.
Qed.
Lemma cosh_square r s : r * r = s -> infinite_sum (fun i => s ^ i / INR (fact (2 * i))) (cosh r).
Proof. intros E. refine (sum_ext _ _ _ _ (cosh_series r)). intros i. rewrite pow_mult. cbn [pow]. rewrite Rmult_1_r, E. reflexivity. Qed.
Lemma sinh_square r s : r <> 0 -> r * r = s -> infinite_sum (fun i => s ^ i / INR (fact (2 * i + 1))) (sinh r / r).
Proof.
  intros Nr E. pose proof (sum_scale (/ r) _ _ (sinh_series r)) as H. cbv beta in H. replace (sinh r / r) with (/ r * sinh r) by (unfold Rdiv; ring). refine (sum_ext _ _ _ _ H). intros i. rewrite pow_add, pow_mult. cbn [pow]. rewrite !Rmult_1_r, E. field. split; [apply INR_fact_neq_0|exact Nr].
Qed.
Lemma const_series f a : f 0%nat = a -> (forall i, f (S i) = 0) -> infinite_sum f a.
Proof. intros H0 H eps He. exists 0%nat. intros n _. assert (E : sum_f_R0 f n = a) by (induction n as [|n IH]; cbn; [exact H0|rewrite IH, H; lra]). rewrite E. unfold R_dist. rewrite Rminus_diag_eq, Rabs_R0; auto. Qed.

(** ** Powers of a multivector whose square is a scalar *)
Section Square.
Variables (q : N -> R) (m : mv) (s : R).
Hypothesis Sq : meq (mgp q m m) [(s, 0%N)].
Notation "a ** b" := (mgp q a b) (at level 40, left associativity).
Lemma mgp_meq a b c d : meq a b -> meq c d -> meq (a ** c) (b ** d). Proof. intros H K. unfold mgp. rewrite H, K. intros x. reflexivity. Qed.
Lemma mpow_even : forall i, meq (mpow q m (2 * i)) [(s ^ i, 0%N)] /\ meq (mpow q m (2 * i + 1)) (scale (s ^ i) m).
Proof.
  assert (Odd : forall i, meq (mpow q m (2 * i)) [(s ^ i, 0%N)] -> meq (mpow q m (2 * i + 1)) (scale (s ^ i) m)).
  { intros i H. rewrite Nat.add_1_r. cbn [mpow]. intros b. rewrite (mgp_meq _ _ m m H (fun _ => eq_refl) b). apply scalar_gp. }
  induction i as [|i [IH1 IH2]]; [split; [intros b; reflexivity|apply Odd; intros b; reflexivity]|].
  assert (H : meq (mpow q m (2 * S i)) [(s ^ S i, 0%N)]); [|split; [exact H|apply Odd, H]].
  replace (2 * S i)%nat with (S (2 * i + 1)) by lia. cbn [mpow]. intros b. rewrite (mgp_meq _ _ m m IH2 (fun _ => eq_refl) b). unfold mgp. rewrite (bilinear_scale_l (gp_blade q) (s ^ i) m m b), coef_scale. pose proof (Sq b) as E. unfold mgp in E. rewrite E. cbn [coef pow]. destruct (N.eqb 0 b); ring.
Qed.
Lemma exp_halves C D : infinite_sum (fun i => s ^ i / INR (fact (2 * i))) C -> infinite_sum (fun i => s ^ i / INR (fact (2 * i + 1))) D -> is_exp q m ((C, 0%N) :: scale D m).
Proof.
  intros HC HD b. cbn [coef]. rewrite coef_scale. apply interleave.
  - replace (if N.eqb 0 b then C else 0) with ((if N.eqb 0 b then 1 else 0) * C) by (destruct (N.eqb 0 b); ring). refine (sum_ext _ _ _ _ (sum_scale (if N.eqb 0 b then 1 else 0) _ _ HC)). intros i. cbv beta. destruct (mpow_even i) as [E _]. rewrite (E b). cbn [coef]. destruct (N.eqb 0 b); unfold Rdiv; ring.
  - rewrite Rmult_comm. refine (sum_ext _ _ _ _ (sum_scale (coef m b) _ _ HD)). intros i. cbv beta. destruct (mpow_even i) as [_ E]. rewrite (E b), coef_scale. unfold Rdiv. ring.
Qed.
Theorem mexp_series : is_exp q m (mexp 0 s m).
Proof.
  unfold mexp. destruct (Rle_dec (Rabs s) 0) as [L|L].
  - assert (Z : s = 0). { pose proof (Rabs_pos s) as P. assert (Q : Rabs s = 0) by lra. destruct (Req_dec s 0) as [E|E]; [exact E|]. apply Rabs_no_R0 in E. contradiction. }
    assert (H : is_exp q m ((1, 0%N) :: scale 1 m)).
    { apply exp_halves; (apply const_series; [cbn; lra|intros i; rewrite Z; cbn [pow]; unfold Rdiv; ring]). }
    intros b. specialize (H b). cbn [coef] in *. rewrite coef_scale in H. replace (1 * coef m b) with (coef m b) in H by ring. exact H.
  - assert (Nz : 0 < Rabs s) by lra. assert (Nr : sqrt (Rabs s) <> 0) by (pose proof (sqrt_lt_R0 _ Nz); lra). pose proof (sqrt_sqrt (Rabs s) (Rabs_pos s)) as Sr. destruct (Rle_dec s 0) as [L0|L0].
    + rewrite Rabs_left1 in * by exact L0. apply exp_halves; [apply cos_series; exact Sr|apply sin_series; assumption].
    + rewrite Rabs_right in * by lra. apply exp_halves; [apply cosh_square; exact Sr|apply sinh_square; assumption].
Qed.
(** exp(m) exp(-m) = 1. *)
Lemma cosh_sinh x : cosh x * cosh x - sinh x * sinh x = 1.
Proof. unfold cosh, sinh. assert (E : exp x * exp (- x) = 1) by (rewrite <- exp_plus, Rplus_opp_r; apply exp_0). nra. Qed.
Lemma mul_pair c d c' d' : meq (((c, 0%N) :: scale d m) ** ((c', 0%N) :: scale d' m)) ((c * c' + d * d' * s, 0%N) :: scale (c * d' + d * c') m).
Proof.
  set (y := [(c', 0%N)] ++ scale d' m). change ((c', 0%N) :: scale d' m) with y. change ((c, 0%N) :: scale d m) with ([(c, 0%N)] ++ scale d m). intros b. unfold mgp. rewrite (bilinear_app_l (gp_blade q) [(c, 0%N)] (scale d m) y b), coef_app.
  rewrite (scalar_gp q c y b), coef_scale. rewrite (bilinear_scale_l (gp_blade q) d m y b), coef_scale. unfold y. rewrite (bilinear_app_r (gp_blade q) m [(c', 0%N)] (scale d' m) b), !coef_app. rewrite (gp_scalar_r q c' m b), (bilinear_scale_r (gp_blade q) d' m m b), !coef_scale.
  pose proof (Sq b) as E. unfold mgp in E. rewrite E. cbn [coef]. rewrite coef_scale. destruct (N.eqb 0 b); ring.
Qed.
End Square.
Lemma neg_scale d (m : mv) : meq (scale d (scale (-1) m)) (scale (- d) m).
Proof. intros b. rewrite !coef_scale. ring. Qed.
Theorem mexp_inverse q m s tol : meq (mgp q m m) [(s, 0%N)] -> (Rabs s <= tol -> s = 0) -> meq (mgp q (mexp tol s m) (mexp tol s (scale (-1) m))) [(1, 0%N)].
Proof.
  intros Sq Ht. assert (K : forall c d, c * c - d * d * s = 1 -> meq (mgp q ((c, 0%N) :: scale d m) ((c, 0%N) :: scale d (scale (-1) m))) [(1, 0%N)]).
  { intros c d E b. transitivity (coef (mgp q ((c, 0%N) :: scale d m) ((c, 0%N) :: scale (- d) m)) b); [apply mgp_meq; [intros x; reflexivity|intros x; cbn [coef]; rewrite neg_scale; reflexivity]|].
    rewrite (mul_pair q m s Sq c d c (- d) b). cbn [coef]. rewrite coef_scale. replace (c * c + d * - d * s) with 1 by (rewrite <- E; ring). destruct (N.eqb 0 b); ring. }
  unfold mexp. destruct (Rle_dec (Rabs s) tol) as [L|L].
  - specialize (Ht L). subst s. intros b. transitivity (coef (mgp q ((1, 0%N) :: scale 1 m) ((1, 0%N) :: scale 1 (scale (-1) m))) b); [|apply K; ring].
    apply mgp_meq; intros x; cbn [coef]; rewrite !coef_scale; ring.
  - destruct (Req_dec s 0) as [Z|Z].
    + subst s. rewrite Rabs_R0, sqrt_0. destruct (Rle_dec 0 0) as [_|N0]; [|lra]. apply K. rewrite cos_0. ring.
    + assert (Nr : sqrt (Rabs s) <> 0) by (pose proof (sqrt_lt_R0 _ (Rabs_pos_lt s Z)); lra). pose proof (sqrt_sqrt (Rabs s) (Rabs_pos s)) as Sr. destruct (Rle_dec s 0) as [L0|L0].
      * apply K. rewrite Rabs_left1 in * by exact L0. set (r := sqrt (- s)) in *. replace s with (- (r * r)) by lra. pose proof (sin2_cos2 r) as E. unfold Rsqr in E. transitivity (cos r * cos r + sin r * sin r); [field; exact Nr|lra].
      * apply K. rewrite Rabs_right in * by lra. set (r := sqrt s) in *. replace s with (r * r) by lra. transitivity (cosh r * cosh r - sinh r * sinh r); [field; exact Nr|apply cosh_sinh].
Qed.
Lemma mexp_tol tol s m : tol < Rabs s \/ s = 0 -> 0 <= tol -> mexp tol s m = mexp 0 s m.
Proof.
  intros H Ht. unfold mexp. destruct H as [H| ->].
  - destruct (Rle_dec (Rabs s) tol); [lra|]. destruct (Rle_dec (Rabs s) 0); [lra|]. reflexivity.
  - rewrite Rabs_R0. destruct (Rle_dec 0 tol); [|lra]. destruct (Rle_dec 0 0); [|lra]. reflexivity.
Qed.
