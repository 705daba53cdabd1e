From Coq Require Import NArith ZArith List Bool Reals Lra Lia.
From Verif Require Import Bits Expr ExprBase Sem Wf RPowProofs Simp SimpProofs SimpProofs2 SpecRat SpecAbs EvalCProofs.
Import ListNotations.
Local Open Scope R_scope.

Lemma sure_is_nonneg e : sure_nonneg e = true -> is_non_negative e = true.
Proof.
  induction e as [| | | | | | | | | |f l IH] using expr_ind'; try discriminate; cbn [sure_nonneg is_non_negative]; auto.
  destruct f; auto; try discriminate.
  - destruct l as [|t [|x [|y [|]]]]; try discriminate. inversion IH as [|? ? Ht IH1]; subst. inversion IH1 as [|? ? Hx IH2]; subst. inversion IH2 as [|? ? Hy IH3]; subst.
    intros HH. apply andb_true_iff in HH as [A B]. rewrite Hx, Hy; auto.
  - destruct l as [|x [|y [|]]]; try discriminate. inversion IH as [|? ? Hx IH1]; subst.
    intros HH. apply orb_true_iff in HH as [A|B]; [rewrite Hx; auto|]. destruct y; try discriminate. cbn [is_even]. rewrite B. apply orb_true_r.
  - intros H. induction IH as [|x xs Hx _ IHl]; [reflexivity|]. cbn in *. apply andb_true_iff in H as [A B]. rewrite Hx; auto.
Qed.

Lemma rpow_nonneg a b v : 0 <= a -> rpow a b = Some v -> 0 <= v.
Proof.
  intros A H. destruct (Req_dec a 0) as [->|N].
  - apply rpow_zero_inv in H as [_ ->]. lra.
  - rewrite rpow_pos in H by lra. injection H as <-. unfold Rpower. left. apply exp_pos.
Qed.
Lemma powerRZ_even_nonneg a k : a <> 0 -> Z.even k = true -> 0 <= powerRZ a k.
Proof.
  intros N E. apply Z.even_spec in E as [m ->]. replace (2 * m)%Z with (m + m)%Z by lia.
  rewrite powerRZ_add by auto. pose proof (Rle_0_sqr (powerRZ a m)). exact H.
Qed.
Lemma rpow_even_nonneg a k v : Z.even k = true -> rpow a (IZR k) = Some v -> 0 <= v.
Proof.
  intros E H. destruct (Req_dec a 0) as [->|N].
  - apply rpow_zero_inv in H as [_ ->]. lra.
  - rewrite rpow_int in H by auto. assert (v = powerRZ a k) as -> by congruence. apply powerRZ_even_nonneg; auto.
Qed.

Lemma sure_ok g e : forall r, sure_nonneg e = true -> num g e r -> 0 <= r.
Proof.
  induction e as [z| | | | | | | | | |f l IH] using expr_ind'; intros r H N; try discriminate.
  - apply num_cv_inv in N as ->. cbn in H. apply Z.leb_le in H. apply IZR_le. exact H.
  - cbn [sure_nonneg] in H. destruct f; try discriminate H.
    + unfold num in N. cbn [sem fn_sem] in N. destruct (map (sem g) l) as [|[[|b|]|] [|]]; try discriminate. injection N as <-.
      apply IZR_le. lia.
    + destruct l as [|t [|x [|y [|]]]]; try discriminate. inversion IH as [|? ? Ht IH1]; subst. inversion IH1 as [|? ? Hx IH2]; subst. inversion IH2 as [|? ? Hy IH3]; subst.
      apply andb_true_iff in H as [A B]. unfold num in N. cbn [sem map fn_sem] in N.
      destruct (sem g t) as [[| |[|]]|]; try discriminate; [apply Hx|apply Hy]; auto.
    + unfold num in N. cbn [sem fn_sem] in N. destruct (map (sem g) l) as [|[[a|b|]|] [|]]; try discriminate. injection N as <-. apply Rabs_pos.
    + destruct l as [|x [|y [|]]]; try discriminate. inversion IH as [|? ? Hx IH1]; subst.
      apply num_pow in N as (a & b & Na & Nb & P). apply orb_true_iff in H as [A|B].
      * eapply rpow_nonneg; [|exact P]. apply Hx; auto.
      * destruct y; try discriminate. apply num_cv_inv in Nb as ->. eapply rpow_even_nonneg; eauto.
    + revert r N. induction IH as [|x xs Hx _ IHl]; intros r N.
      * apply num_mul_nil in N as ->. lra.
      * apply num_mul_cons in N as (a & b & Na & Nb & ->). cbn in H. apply andb_true_iff in H as [A B].
        apply Rmult_le_pos; [apply Hx|apply IHl]; auto.
Qed.

Theorem abs_ok fuel v r : wf v = true -> abs_covered v -> mk_abs fuel v = Some r ->
  forall g x, num g v x -> num g r (Rabs x).
Proof.
  intros W C H g x N. unfold mk_abs in H. destruct (eng fuel OMul (CV (-1)) v) as [m|] eqn:E; [|discriminate]. injection H as <-.
  destruct (s_mul _ (eng_ok fuel) _ _ _ (eq_refl : wf (CV (-1)) = true) W E) as [_ M]. specialize (M g (-1) x (num_cv g (-1)) N).
  assert (A : num g (Fn NAbs [v]) (Rabs x)) by (unfold num in *; cbn [sem map fn_sem]; rewrite N; reflexivity).
  destruct C as [S|[L|[Cn Nn]]].
  - rewrite (sure_is_nonneg _ S). rewrite Rabs_pos_eq; [exact N|]. eapply sure_ok; eauto.
  - assert (P : is_non_negative v = true -> sure_nonneg v = true).
    { destruct L as [(n & ->)|[(d & D & ->)|(n & d & D & _ & _ & _ & ->)]]; auto. }
    destruct (is_non_negative v) eqn:Q.
    + rewrite Rabs_pos_eq; [exact N|]. eapply sure_ok; eauto.
    + assert (Neg : x <= 0).
      { destruct L as [(n & ->)|[(d & D & ->)|(n & d & D & _ & _ & _ & ->)]].
        - cbn in Q. apply Z.leb_gt in Q. apply num_cv_inv in N as ->. apply IZR_le. lia.
        - cbn in Q. apply orb_false_iff in Q as [Q _]. apply Z.leb_gt in Q. lia.
        - apply num_frac_cv in N as [D' ->]. cbn in Q. assert (Z.leb 0 d = true) as T by (apply Z.leb_le; lia). rewrite T in Q.
          cbn in Q. rewrite andb_true_r in Q. apply Z.leb_gt in Q.
          apply Rmult_le_reg_r with (IZR d); [apply IZR_lt; lia|]. unfold Rdiv. rewrite Rmult_assoc, Rinv_l, Rmult_0_l, Rmult_1_r by auto.
          apply IZR_le. lia. }
      assert (K : is_constant v && negb (is_fn NAdd v || is_fn NIf v) = true).
      { destruct L as [(n & ->)|[(d & D & ->)|(n & d & D & _ & _ & _ & ->)]]; reflexivity. }
      rewrite K. rewrite Rabs_left1 by auto. eapply num_eq; [exact M|lra].
  - rewrite Nn, Cn. exact A.
Qed.
