From Coq Require Import NArith ZArith List Bool Reals Lra Lia.
From Verif Require Import Bits SpecBits BitsProofs Expr ExprBase Sem Wf RPowProofs Simp SimpProofs.
Import ListNotations.
Local Open Scope R_scope.

(** ** Merging *)
Lemma forallb_cons x xs : wf x = true -> forallb wf xs = true -> forallb wf (x :: xs) = true.
Proof. intros. cbn. rewrite H, H0. reflexivity. Qed.
Lemma forallb_nil : forallb wf [] = true.
Proof. reflexivity. Qed.
#[export] Hint Resolve forallb_cons forallb_nil : wfdb.

Lemma num_add2 g a b va vb : num g a va -> num g b vb -> num g (Fn NAdd [a; b]) (va + vb).
Proof.
  intros. apply num_add_cons. exists va, vb. repeat split; auto. apply num_add_cons. exists vb, 0.
  rewrite num_add_nil. repeat split; auto; lra.
Qed.
Lemma num_mul2 g a b va vb : num g a va -> num g b vb -> num g (Fn NMul [a; b]) (va * vb).
Proof.
  intros. apply num_mul_cons. exists va, vb. repeat split; auto. apply num_mul_cons. exists vb, 1.
  rewrite num_mul_nil. repeat split; auto; lra.
Qed.
Lemma num_addc g a l va vb : num g a va -> num g (Fn NAdd l) vb -> num g (Fn NAdd (a :: l)) (va + vb).
Proof. intros. apply num_add_cons. eauto. Qed.
Lemma num_mulc g a l va vb : num g a va -> num g (Fn NMul l) vb -> num g (Fn NMul (a :: l)) (va * vb).
Proof. intros. apply num_mul_cons. eauto. Qed.

Ltac mk_facts :=
  repeat match goal with
  | H : mk_add ?l = Some ?t |- _ =>
      lazymatch goal with
      | _ : wf t = true |- _ => fail
      | _ => assert (wf t = true) by (refine (mk_add_wf l t _ H); auto with wfdb)
      end
  | H : mk_mul ?l = Some ?t |- _ =>
      lazymatch goal with
      | _ : wf t = true |- _ => fail
      | _ => assert (wf t = true) by (refine (mk_mul_wf l t _ H); auto with wfdb)
      end
  end.
Ltac go_add :=
  first [ eassumption
        | (eapply mk_add_num; [eassumption|]; go_add)
        | (apply num_add2; go_add) | (apply num_addc; go_add)
        | match goal with N : forall g va vb, num g _ va -> _ -> num g ?t _ |- num _ ?t _ => apply N; go_add end ].
Ltac go_mul :=
  first [ eassumption
        | (eapply mk_mul_num; [eassumption| |]; [first [assumption|discriminate]|]; go_mul)
        | (apply num_mul2; go_mul) | (apply num_mulc; go_mul)
        | match goal with N : forall g va vb, num g _ va -> _ -> num g ?t _ |- num _ ?t _ => apply N; go_mul end ].

Ltac merge_add S :=
  let a := fresh "a" in let b := fresh "b" in let r := fresh "r" in
  intros a b r Wa Wb H;
  destruct (split_add a) as [x xs] eqn:Ea; destruct (split_add b) as [y ys] eqn:Eb;
  destruct (split_add_ok _ _ _ Ea Wa) as (Wx & Wxs & Xa & Xa' & Na);
  destruct (split_add_ok _ _ _ Eb Wb) as (Wy & Wys & Xb & Xb' & Nb);
  try (destruct (lt _ _); [|discriminate]);
  destruct xs as [xs|]; destruct ys as [ys|]; cbn [tail_wf tail_sum] in *; unbind;
  try destruct Wxs as [Wxs ?]; try destruct Wys as [Wys ?];
  try specialize (Xa eq_refl); try specialize (Xb eq_refl); subst;
  mk_facts; fwd S; mk_facts; split; auto; intros g va vb Ha Hb;
  pose proof (Na _ _ Ha) as (u & v & Hu & Hv & ?); pose proof (Nb _ _ Hb) as (u' & v' & Hu' & Hv' & ?); subst;
  first [clear Na Nb Xa Xb | idtac].

Lemma add_merge_eq_ok rec : sound rec -> rule_ok Rplus (add_merge_eq rec).
Proof.
  intros S. unfold add_merge_eq. merge_add S; (eapply num_eq; [go_add|]); lra.
Qed.
Lemma add_merge_lt_ok rec : sound rec -> rule_ok Rplus (add_merge_lt rec).
Proof.
  intros S. unfold add_merge_lt. merge_add S; (eapply num_eq; [go_add|]); lra.
Qed.
Lemma add_merge_gt_ok rec : sound rec -> rule_ok Rplus (add_merge_gt rec).
Proof.
  intros S. unfold add_merge_gt. merge_add S; (eapply num_eq; [go_add|]); lra.
Qed.

Ltac merge_mul S :=
  let a := fresh "a" in let b := fresh "b" in let r := fresh "r" in
  intros a b r Wa Wb H;
  destruct (split_mul a) as [x xs] eqn:Ea; destruct (split_mul b) as [y ys] eqn:Eb;
  destruct (split_mul_ok _ _ _ Ea Wa) as (Wx & Wxs & Xa & Xa' & Na);
  destruct (split_mul_ok _ _ _ Eb Wb) as (Wy & Wys & Xb & Xb' & Nb);
  try (destruct (lt _ _); [|discriminate]);
  destruct xs as [xs|]; destruct ys as [ys|]; cbn [tail_wf tail_prod] in *; unbind;
  try destruct Wxs as [Wxs ?]; try destruct Wys as [Wys ?];
  try specialize (Xa eq_refl); try specialize (Xb eq_refl); subst;
  mk_facts; fwd S; mk_facts; split; auto; intros g va vb Ha Hb;
  pose proof (Na _ _ Ha) as (u & v & Hu & Hv & ?); pose proof (Nb _ _ Hb) as (u' & v' & Hu' & Hv' & ?); subst;
  first [clear Na Nb Xa Xb | idtac].

Lemma mul_merge_eq_ok rec : sound rec -> rule_ok Rmult (mul_merge_eq rec).
Proof.
  intros S. unfold mul_merge_eq. merge_mul S; (eapply num_eq; [go_mul|]); ring.
Qed.
Lemma mul_merge_lt_ok rec : sound rec -> rule_ok Rmult (mul_merge_lt rec).
Proof.
  intros S. unfold mul_merge_lt. merge_mul S; (eapply num_eq; [go_mul|]); ring.
Qed.
Lemma mul_merge_gt_ok rec : sound rec -> rule_ok Rmult (mul_merge_gt rec).
Proof.
  intros S. unfold mul_merge_gt. merge_mul S; (eapply num_eq; [go_mul|]); ring.
Qed.

(** ** Product rules *)
Lemma mul_zero_inv a b r : mul_zero a b = Some (Some r) -> r = CV 0 /\ (a = CV 0 \/ b = CV 0).
Proof.
  unfold mul_zero. destruct a as [[]| | | | | | | | | |]; destruct b as [[]| | | | | | | | | |]; intros H; unbind; auto.
Qed.
Lemma mul_zero_ok : rule_ok Rmult mul_zero.
Proof.
  intros a b r Wa Wb H. apply mul_zero_inv in H as [-> [-> | ->]]; split; auto; intros g va vb Ha Hb.
  - apply num_cv_inv in Ha as ->. rewrite Rmult_0_l. apply num_cv.
  - apply num_cv_inv in Hb as ->. rewrite Rmult_0_r. apply num_cv.
Qed.
Lemma mul_one_inv a b r : mul_one a b = Some (Some r) -> (a = CV 1 /\ r = b) \/ (b = CV 1 /\ r = a).
Proof.
  unfold mul_one. intros H.
  destruct a as [[|[]|]| | | | | | | | | |]; destruct b as [[|[]|]| | | | | | | | | |]; unbind; auto.
Qed.
Lemma mul_one_ok : rule_ok Rmult mul_one.
Proof.
  intros a b r Wa Wb H. apply mul_one_inv in H as [[-> ->]|[-> ->]]; split; auto; intros g va vb Ha Hb.
  - apply num_cv_inv in Ha as ->. rewrite Rmult_1_l. auto.
  - apply num_cv_inv in Hb as ->. rewrite Rmult_1_r. auto.
Qed.

Lemma mul_distr_ok rec : sound rec -> rule_ok Rmult (mul_distr rec).
Proof.
  intros S a b r Wa Wb H. unfold mul_distr in H.
  destruct (split_add a) as [x xs] eqn:Ea; destruct (split_add b) as [y ys] eqn:Eb.
  destruct (split_add_ok _ _ _ Ea Wa) as (Wx & Wxs & Xa & Xa' & Na).
  destruct (split_add_ok _ _ _ Eb Wb) as (Wy & Wys & Xb & Xb' & Nb).
  destruct xs as [xs|]; destruct ys as [ys|]; cbn [tail_wf tail_sum] in *; try discriminate; unbind;
  try destruct Wxs as [Wxs ?]; try destruct Wys as [Wys ?];
  try specialize (Xa eq_refl); try specialize (Xb eq_refl); subst;
  mk_facts; fwd S; mk_facts; split; auto; intros g va vb Ha Hb;
  pose proof (Na _ _ Ha) as (u & v & Hu & Hv & ?); pose proof (Nb _ _ Hb) as (u' & v' & Hu' & Hv' & ?); subst.
  - eapply num_eq; [go_add|]. ring.
  - clear Hb Nb. eapply num_eq; [go_add|]. ring.
  - clear Ha Na. eapply num_eq; [go_add|]. ring.
Qed.

Lemma rpow_2 a : rpow a 2 = Some (a * a).
Proof.
  pose proof (rpow_plus a 1 1 a a (rpow_1 a) (rpow_1 a)) as H. rewrite <- H. f_equal.
Qed.
Lemma isint_IZR k : isint (IZR k). Proof. exists k. reflexivity. Qed.
#[export] Hint Resolve isint_IZR : wfdb.

Lemma mul_collect1_ok rec : sound rec -> rule_ok Rmult (mul_collect1 rec).
Proof.
  intros S a b r Wa Wb H. unfold mul_collect1 in H. destruct (expr_eqb a b) eqn:E; [|discriminate].
  apply expr_eqb_eq in E as <-. unbind. fwd S. split; auto. intros g va vb Ha Hb.
  rewrite (num_fun _ _ _ _ Hb Ha). eapply N; [exact Ha|apply num_cv|apply rpow_2|]. right; left; auto with wfdb.
Qed.

Definition half_collect2 (rec : rec_t) : rule := fun a b =>
  match a with
  | Fn NPow [c; p] => if expr_eqb c b then yes (match rec OAdd p (CV 1) with Some e => rec OPow b e | None => None end) else no
  | _ => no
  end.

Lemma is_pow_dec e : (exists c p, e = Fn NPow [c; p]) \/ (forall c p, e <> Fn NPow [c; p]).
Proof.
  destruct e as [| | | | | | | | | |[] [|c [|p [|]]]]; try (right; intros; discriminate). left; eauto.
Qed.

Lemma mul_collect2_ok rec : sound rec -> rule_ok Rmult (mul_collect2 rec).
Proof.
  intros S a b r Wa Wb H. unfold mul_collect2 in H.
  assert (D : (exists p e, a = Fn NPow [b; p] /\ rec OAdd p (CV 1) = Some e /\ rec OPow b e = Some r) \/
              (exists p e, b = Fn NPow [a; p] /\ rec OAdd (CV 1) p = Some e /\ rec OPow a e = Some r)).
  { destruct (match a with
     | Fn NPow [c; p] => if expr_eqb c b then yes (match rec OAdd p (CV 1) with Some e => rec OPow b e | None => None end) else no
     | _ => no end) as [[z|]|] eqn:E; [| |discriminate].
    - injection H as <-. left. destruct a as [| | | | | | | | | |[] [|c [|p [|]]]]; try discriminate.
      destruct (expr_eqb c b) eqn:C; [|discriminate]. apply expr_eqb_eq in C as ->. unbind. eauto.
    - right. destruct b as [| | | | | | | | | |[] [|c [|p [|]]]]; try discriminate.
      destruct (expr_eqb c a) eqn:C; [|discriminate]. apply expr_eqb_eq in C as ->. unbind. eauto. }
  clear H. destruct D as [(p & e & -> & E1 & E2)|(p & e & -> & E1 & E2)].
  - apply wf_pow_inv in Wa as (A & _ & Wp). fwd S. split; auto. intros g va vb Ha Hb.
    apply num_pow in Ha as (x & y & Hx & Hy & P). rewrite (num_fun _ _ _ _ Hx Hb) in P.
    eapply N0; [exact Hb|apply N; [exact Hy|apply num_cv]|apply rpow_plus; [exact P|apply rpow_1]|left; exact A].
  - apply wf_pow_inv in Wb as (A & _ & Wp). fwd S. split; auto. intros g va vb Ha Hb.
    apply num_pow in Hb as (x & y & Hx & Hy & P). rewrite (num_fun _ _ _ _ Hx Ha) in P.
    eapply N0; [exact Ha|apply N; [apply num_cv|exact Hy]|apply rpow_plus; [apply rpow_1|exact P]|left; exact A].
Qed.

Lemma mul_collect3_ok rec : sound rec -> rule_ok Rmult (mul_collect3 rec).
Proof.
  intros S a b r Wa Wb H. unfold mul_collect3 in H.
  destruct a as [| | | | | | | | | |[] [|c [|p [|]]]]; try discriminate.
  destruct b as [| | | | | | | | | |[] [|d [|q [|]]]]; try discriminate.
  destruct (expr_eqb c d) eqn:C; [|discriminate]. apply expr_eqb_eq in C as <-. unbind.
  apply wf_pow_inv in Wa as (A & Wc & Wp). apply wf_pow_inv in Wb as (_ & _ & Wq). fwd S.
  split; auto. intros g va vb Ha Hb.
  apply num_pow in Ha as (x & y & Hx & Hy & P). apply num_pow in Hb as (x' & y' & Hx' & Hy' & P').
  rewrite (num_fun _ _ _ _ Hx' Hx) in P'.
  eapply N0; [exact Hx|apply N; [exact Hy|exact Hy']|apply rpow_plus; [exact P|exact P']|left; exact A].
Qed.

Lemma mul_const1_ok rec : sound rec -> rule_ok Rmult (mul_const1 rec).
Proof.
  intros S a b r Wa Wb H. unfold mul_const1 in H. pat_const H; unbind.
  - apply cv_Some in E as ->. split; auto. intros g va vb Ha Hb. const_vals. rewrite <- mult_IZR. apply num_cv.
  - apply cv_Some in E0 as ->. fwd S. split; auto. intros g va vb Ha Hb. const_vals.
    eapply N; [apply num_cv|apply num_cv| |left; reflexivity].
    rewrite rpow_m1', mult_IZR; [|rewrite mult_IZR; apply Rmult_integral_contrapositive; auto].
    f_equal. field. auto.
Qed.

Lemma sign_iabs_real z : IZR (sign z) * IZR (iabs z) = IZR z.
Proof. rewrite <- mult_IZR. f_equal. unfold sign, iabs. destruct (Z.leb_spec 0 z); destruct (Z.ltb_spec 0 z); destruct (Z.ltb_spec z 0); lia. Qed.
Lemma iabs_abs z : iabs z = Z.abs z.
Proof. unfold iabs. destruct (Z.leb_spec 0 z); destruct (Z.ltb_spec 0 z); destruct (Z.ltb_spec z 0); lia. Qed.
Lemma sign_pm z : z <> 0%Z -> sign z = 1%Z \/ sign z = (-1)%Z.
Proof. unfold sign. destruct (Z.ltb_spec z 0); destruct (Z.ltb_spec 0 z); auto; lia. Qed.

Lemma simpler_rational_ok rec n d r : sound rec -> simpler_rational rec n d = Some r ->
  wf r = true /\ (IZR d <> 0 -> forall g, num g r (IZR n * / IZR d)).
Proof.
  intros S H. unfold simpler_rational in H. unbind.
  apply cv_Some in E as ->. apply cv_Some in E0 as ->.
  rewrite gcd_correct in E1 by (rewrite iabs_abs; lia). injection E1 as <-.
  set (g0 := Z.gcd (iabs n) (iabs d)) in *.
  assert (Q : forall nn dd, (IZR d <> 0 -> IZR dd <> 0 /\ IZR (iabs n) * IZR dd = IZR nn * IZR (iabs d)) ->
    IZR d <> 0 -> IZR (sign n * sign d * nn) * / IZR dd = IZR n * / IZR d).
  { intros nn dd K D. destruct (K D) as [K1 K2].
    assert (D0 : d <> 0%Z) by (intros ->; apply D; reflexivity).
    rewrite !mult_IZR. rewrite <- (sign_iabs_real n). rewrite <- (sign_iabs_real d).
    assert (A0 : IZR (iabs d) <> 0). { rewrite iabs_abs. apply IZR_neq. lia. }
    assert (T : IZR nn * / IZR dd = IZR (iabs n) * / IZR (iabs d)).
    { apply (Rmult_eq_reg_r (IZR dd * IZR (iabs d))); [|apply Rmult_integral_contrapositive; auto].
      transitivity (IZR nn * IZR (iabs d)); [field; auto|]. rewrite <- K2. field; auto. }
    assert (Sd : / (IZR (sign d) * IZR (iabs d)) = IZR (sign d) * / IZR (iabs d)).
    { destruct (sign_pm d D0) as [-> | ->]; field; auto. }
    rewrite Sd. rewrite Rmult_assoc, T. ring. }
  destruct (Z.eqb_spec g0 1).
  - unbind. fwd S. mk_facts. split; auto. intros D g.
    assert (A0 : IZR (iabs d) <> 0). { rewrite iabs_abs. apply IZR_neq. intros K. apply D. f_equal. lia. }
    eapply mk_mul_num; [eassumption|discriminate|].
    rewrite <- (Q (iabs n) (iabs d)); auto. apply num_mul2; [apply num_cv|].
    eapply N; [apply num_cv|apply num_cv|apply rpow_m1'; auto|left; reflexivity].
  - destruct (Z.eqb_spec g0 0); [discriminate|]. unbind. fwd S. split; auto. intros D g.
    assert (Pg : (0 < g0)%Z) by (pose proof (Z.gcd_nonneg (iabs n) (iabs d)); lia).
    destruct (Z.gcd_divide_l (iabs n) (iabs d)) as [kn Kn]. destruct (Z.gcd_divide_r (iabs n) (iabs d)) as [kd Kd].
    fold g0 in Kn, Kd.
    assert (Qn : Z.quot (iabs n) g0 = kn) by (rewrite Kn; apply Z.quot_mul; lia).
    assert (Qd : Z.quot (iabs d) g0 = kd) by (rewrite Kd; apply Z.quot_mul; lia).
    rewrite Qn, Qd in *.
    assert (D0 : d <> 0%Z) by (intros ->; apply D; reflexivity).
    assert (kd <> 0%Z). { intros ->. rewrite iabs_abs in Kd. lia. }
    rewrite <- (Q kn kd); auto.
    + apply N0; [apply num_cv|].
      eapply N; [apply num_cv|apply num_cv|apply rpow_m1'; apply IZR_neq; auto|left; reflexivity].
    + intros _. split; [apply IZR_neq; auto|]. rewrite <- !mult_IZR. f_equal. rewrite Kn, Kd. ring.
Qed.

Lemma mul_const2_ok rec : sound rec -> rule_ok Rmult (mul_const2 rec).
Proof.
  intros S a b r Wa Wb H. unfold mul_const2 in H. pat_const H; unbind;
  destruct (simpler_rational_ok _ _ _ _ S E) as [W N]; split; auto; intros g va vb Ha Hb; const_vals.
  - apply N; auto.
  - rewrite Rmult_comm. apply N; auto.
Qed.

(** ** Power rules *)
Definition prule_ok (k : rule) : Prop :=
  forall a b r, wf a = true -> wf b = true -> k a b = Some (Some r) ->
  wf r = true /\ (forall g va vb v, num g a va -> num g b vb -> rpow va vb = Some v -> cond g a vb -> num g r v).

Lemma pow_misc1_inv a b r : pow_misc1 a b = Some (Some r) -> (a = CV 0 /\ r = CV 0) \/ (a = CV 1 /\ r = CV 1).
Proof.
  unfold pow_misc1. destruct a as [[|[]|]| | | | | | | | | |]; intros H; try discriminate; unbind; auto.
  destruct b; try (destruct (Z.ltb _ _)); try (destruct (_ || _)%bool); unbind; auto.
Qed.
Lemma pow_misc1_ok : prule_ok pow_misc1.
Proof.
  intros a b r Wa Wb H. apply pow_misc1_inv in H as [[-> ->]|[-> ->]]; split; auto; intros g va vb v Ha Hb P _.
  - apply num_cv_inv in Ha as ->. apply rpow_zero_inv in P as [_ ->]. apply num_cv.
  - apply num_cv_inv in Ha as ->. apply rpow_base_1 in P as ->. apply num_cv.
Qed.
Lemma pow_misc2_inv a b r : pow_misc2 a b = Some (Some r) -> (b = CV 0 /\ r = CV 1) \/ (b = CV 1 /\ r = a).
Proof.
  unfold pow_misc2. destruct b as [[|[]|]| | | | | | | | | |]; intros H; try discriminate; unbind; auto.
  destruct (is_cv 0 a); unbind; auto.
Qed.
Lemma pow_misc2_ok : prule_ok pow_misc2.
Proof.
  intros a b r Wa Wb H. apply pow_misc2_inv in H as [[-> ->]|[-> ->]]; split; auto; intros g va vb v Ha Hb P _.
  - apply num_cv_inv in Hb as ->. apply rpow_0 in P as ->. apply num_cv.
  - apply num_cv_inv in Hb as ->. rewrite rpow_1 in P. injection P as <-. auto.
Qed.

Lemma num_half g v : num g half v -> v = / 2.
Proof. intros H. apply num_inv_cv in H as [_ ->]. reflexivity. Qed.

Lemma powerRZ_IZR a k : (0 <= k)%Z -> powerRZ (IZR a) k = IZR (a ^ k).
Proof.
  intros H. rewrite <- (Z2Nat.id k) by auto. rewrite <- pow_powerRZ. rewrite pow_IZR.  reflexivity.
Qed.
Lemma pow_misc3_ok : prule_ok pow_misc3.
Proof.
  intros a b r Wa Wb H. unfold pow_misc3 in H. destruct a as [x| | | | | | | | | |]; try discriminate.
  destruct (expr_eqb b half) eqn:B.
  - apply expr_eqb_eq in B as ->. unbind. unfold simpler_isqrt in E.
    destruct (Z.ltb_spec 0 x); [|discriminate]. unbind. rewrite isqrt_correct in E0 by lia. injection E0 as <-.
    destruct (Z.eqb_spec (Z.sqrt x * Z.sqrt x) x) as [Q|Q]; unbind; (split; [reflexivity|]); intros g va vb v Ha Hb P _.
    + apply num_cv_inv in Ha as ->. apply num_half in Hb as ->. apply rpow_half in P as ->.
      rewrite <- Q, mult_IZR. rewrite sqrt_square; [rewrite Q; apply num_cv|]. apply IZR_le. apply Z.sqrt_nonneg.
    + apply num_pow. eauto.
  - destruct b as [k| | | | | | | | | |]; try discriminate. unbind.
    rewrite ipow_correct in E0 by (rewrite iabs_abs; lia). injection E0 as <-. apply cv_Some in E1 as ->.
    assert (K : wf e = true /\ forall v, rpow (IZR x) (IZR k) = Some v -> forall g, num g e v).
    { destruct (Z.eqb_spec x (-1)) as [->|X].
      - unbind. split; [destruct (Z.even k); reflexivity|]. intros v P g. rewrite rpow_int in P by (apply IZR_neq; lia).
        assert (M : powerRZ (-1) k = if Z.even k then 1 else -1).
        { assert (E2 : powerRZ (-1) 2 = 1) by (simpl; ring).
          destruct (Z.even k) eqn:Ev.
          - apply Z.even_spec in Ev as [j ->]. rewrite <- powerRZ_powerRZ by lra.
            rewrite E2. apply powerRZ_R1.
          - assert (O : Z.odd k = true) by (rewrite <- Z.negb_even, Ev; reflexivity).
            apply Z.odd_spec in O as [j ->]. rewrite powerRZ_add by lra. rewrite <- powerRZ_powerRZ by lra.
            rewrite E2, powerRZ_R1. simpl. ring. }
        rewrite M in P. destruct (Z.even k); injection P as <-; apply num_cv.
      - destruct (Z.ltb_spec 0 k); unbind.
        + split; auto. intros v P g. rewrite iabs_abs, Z.abs_eq by lia.
          destruct (Z.eq_dec x 0) as [->|N].
          * apply rpow_zero_inv in P as [_ ->]. rewrite Z.pow_0_l by lia. apply num_cv.
          * rewrite rpow_int in P by (apply IZR_neq; auto). injection P as <-. rewrite powerRZ_IZR by lia. apply num_cv.
        + split; auto. intros v P g. rewrite iabs_abs, Z.abs_neq by lia.
          destruct (Z.eq_dec x 0) as [->|N].
          * apply rpow_zero_inv in P as [L _]. apply (lt_IZR 0) in L. lia.
          * rewrite rpow_int in P by (apply IZR_neq; auto). injection P as <-.
            apply num_pow. exists (IZR (x ^ (- k))), (-1). repeat split.
            rewrite rpow_m1'; [|apply IZR_neq; apply Z.pow_nonzero; lia].
            f_equal. rewrite <- powerRZ_IZR by lia. rewrite <- powerRZ_m1, powerRZ_powerRZ by (apply IZR_neq; auto).
            f_equal. ring. }
    destruct K as [K1 K2]. split; auto. intros g va vb v Ha Hb P _. const_vals. auto.
Qed.

(** Non-negative factors give a non-negative value. *)
Lemma rpow_nonneg a b v : 0 <= a -> rpow a b = Some v -> 0 <= v.
Proof.
  intros H P. destruct (Req_EM_T a 0) as [->|N].
  - apply rpow_zero_inv in P. lra.
  - rewrite rpow_pos in P by lra. injection P as <-. apply Rlt_le, exp_pos.
Qed.
Lemma nonneg_factors_val g : forall e v, wf e = true -> nonneg_factors g e -> num g e v -> 0 <= v.
Proof.
  induction e as [| | | | | | | | | |f l IH] using expr_ind'; intros v W P H;
    try (destruct P as (r & Hr & L); rewrite (num_fun _ _ _ _ H Hr); exact L).
  destruct f; try (destruct P as (r & Hr & L); rewrite (num_fun _ _ _ _ H Hr); exact L).
  - destruct l as [|b [|p [|]]]; try discriminate W. destruct P as (r & Hr & L).
    apply num_pow in H as (x & y & Hx & Hy & Q). rewrite (num_fun _ _ _ _ Hr Hx) in L.
    eapply rpow_nonneg; eauto.
  - assert (W' : forallb wf l = true) by (cbn [wf] in W; apply andb_true_iff in W; tauto).
    clear W. revert v H. induction l as [|x xs IHl]; intros v H.
    + apply num_mul_nil in H as ->. lra.
    + inversion IH; subst. cbn in P, W'. destruct P as [P1 P2]. apply andb_true_iff in W' as [W1 W2].
      apply num_mul_cons in H as (a & b & Ha & Hb & ->). apply Rmult_le_pos; eauto.
Qed.

Lemma nonneg_mk_mul g xs t : mk_mul xs = Some t -> xs <> [] ->
  fold_right (fun x P => nonneg_factors g x /\ P) True xs -> nonneg_factors g t.
Proof.
  destruct xs as [|x [|y ys]]; cbn [mk_mul].
  - congruence.
  - intros [= <-] _ [H _]. exact H.
  - destruct (existsb _ _); [discriminate|]. intros [= <-] _ H. exact H.
Qed.

Lemma atomic_inv a : wf a = true -> atomic a = true \/ (exists x xs, a = Fn NMul (x :: xs)) \/ (exists x p, a = Fn NPow [x; p]).
Proof.
  destruct a as [| | | | | | | | | |[] l]; auto; intros W.
  - destruct l as [|? [|? [|]]]; try discriminate. eauto.
  - destruct l as [|? ?]; try discriminate. eauto.
Qed.

Lemma pow_distr_ok rec : sound rec -> prule_ok (pow_distr rec).
Proof.
  intros S a b r Wa Wb H. destruct (atomic_inv a Wa) as [A|[(x & xs & ->)|(x & p & ->)]].
  - assert (R : r = Fn NPow [a; b]).
    { unfold pow_distr in H. destruct a as [| | | | | | | | | |[] l]; try discriminate A; unbind; reflexivity. }
    subst r. split. { cbn [wf]. rewrite A, Wa, Wb. reflexivity. }
    intros g va vb v Ha Hb P _. apply num_pow. eauto.
  - cbn [pow_distr] in H. unbind. destruct (wf_mul_inv _ _ Wa) as (Wx & Wxs & Nxs). fwd S. mk_facts. fwd S.
    split; auto. intros g va vb v Ha Hb P C.
    apply num_mul_cons in Ha as (u & w & Hu & Hw & ->).
    assert (C' : isint vb \/ (nonneg_factors g x /\ nonneg_factors g e1)).
    { destruct C as [C|[C|C]]; [discriminate|auto|]. right. destruct C as [C1 C2]. split; auto.
      eapply nonneg_mk_mul; eauto. }
    assert (Hw' : num g e1 w) by (eapply mk_mul_num; eauto).
    destruct (rpow_mult u w vb v P) as (v1 & v2 & P1 & P2 & ->).
    { destruct C' as [C'|[C1 C2]]; auto. right. split; [exact (nonneg_factors_val g x u Wx C1 Hu)|exact (nonneg_factors_val g e1 w ltac:(assumption) C2 Hw')]. }
    apply N1.
    + eapply N0; eauto. unfold cond. tauto.
    + eapply N; eauto. unfold cond. tauto.
  - cbn [pow_distr] in H. unbind. apply wf_pow_inv in Wa as (A & Wx & Wp). fwd S.
    split; auto. intros g va vb v Ha Hb P C.
    apply num_pow in Ha as (u & w & Hu & Hw & Q).
    eapply N0; [exact Hu|apply N; eauto| |left; exact A].
    eapply rpow_rpow; eauto. destruct C as [C|[C|(z & Hz & C)]]; [discriminate|auto|].
    rewrite (num_fun _ _ _ _ Hu Hz). auto.
Qed.

(** ** The engine *)
Lemma apply_rules_ok f rs : Forall (rule_ok f) rs -> binop_ok f (apply_rules rs).
Proof.
  intros F a b r Wa Wb H. induction F as [|k rs K F IH]; [discriminate|].
  cbn in H. destruct (k a b) as [[x|]|] eqn:E; [|auto|discriminate]. injection H as <-. apply (K a b); auto.
Qed.
Lemma apply_prules_ok rs : Forall prule_ok rs -> pow_ok (apply_rules rs).
Proof.
  intros F a b r Wa Wb H. induction F as [|k rs K F IH]; [discriminate|].
  cbn in H. destruct (k a b) as [[x|]|] eqn:E; [|auto|discriminate]. injection H as <-. apply (K a b); auto.
Qed.

Lemma eng_step_ok rec : sound rec -> sound (fun o => match o with
  | OAdd => addition_step rec | OMul => product_step rec | OPow => power_step rec end).
Proof.
  intros S. split.
  - apply apply_rules_ok. repeat (apply Forall_cons || apply Forall_nil);
      auto using add_zero_ok, add_helper_ok, add_collect1_ok, add_collect2_ok, add_collect3_ok, add_collect4_ok,
      add_collect5_ok, add_collect6_ok, add_collect7_ok, add_const1_ok, add_const2_ok, add_const3_ok, add_const4_ok,
      add_const5_ok, add_merge_lt_ok, add_merge_gt_ok, add_merge_eq_ok.
  - apply apply_rules_ok. repeat (apply Forall_cons || apply Forall_nil);
      auto using mul_zero_ok, mul_one_ok, mul_distr_ok, mul_helper_ok, mul_collect1_ok, mul_collect2_ok, mul_collect3_ok,
      mul_const1_ok, mul_const2_ok, mul_merge_lt_ok, mul_merge_gt_ok, mul_merge_eq_ok.
  - apply apply_prules_ok. repeat (apply Forall_cons || apply Forall_nil); auto using pow_misc1_ok, pow_misc2_ok, pow_misc3_ok, pow_distr_ok.
Qed.

Theorem eng_ok n : sound (eng n).
Proof.
  induction n as [|n IH].
  - split; intros a b r _ _ H; discriminate.
  - apply eng_step_ok in IH. destruct IH as [A B C]. split; assumption.
Qed.
