(** Polynomial and Laurent coefficients: integers, getters, sums, products and powers with constant
    integer exponents. *)
From Coq Require Import NArith ZArith List Bool Lia Reals.
From Verif Require Import Bits Expr ExprBase Sem Wf Simp SimpProofs SimpProofs2 PresProofs Comp EvalC SpecEval EvalCProofs SpecOrder OrderProofs Lazy SpecLazy LazyProofs LazyProofs2 CanonProofs.
Import ListNotations.

(** [X]: the exponents. *)
Fixpoint ipoly (X : expr -> bool) (lo hi : N) (e : expr) : bool :=
  match e with
  | CV _ => true
  | GV t _ => N.leb lo t && N.leb t hi
  | Fn NAdd l | Fn NMul l => forallb (ipoly X lo hi) l
  | Fn NPow [b; p] => ipoly X lo hi b && X p
  | _ => false
  end.
Definition is_pos (e : expr) : bool := match e with CV z => Z.ltb 0 z | _ => false end.

Record exps (X : expr -> bool) : Prop := {
  e_1 : X (CV 1) = true;
  e_2 : X (CV 2) = true;
  e_neg : forall k, Z.ltb 0 k = false -> X (CV k) = true -> X (CV (-1)) = true;
  e_int : forall p, X p = true -> exists z, p = CV z;
  e_add : forall n a b r, eng n OAdd a b = Some r -> X a = true -> X b = true -> X r = true;
  e_mul : forall n a b r, eng n OMul a b = Some r -> X a = true -> X b = true -> X r = true }.

Lemma eng_add_cv n a b r : eng n OAdd (CV a) (CV b) = Some r -> r = CV (a + b).
Proof.
  intros E. destruct (eng_cv n OAdd a b r ltac:(discriminate) E) as [z ->]. destruct (s_add _ (eng_ok n) (CV a) (CV b) (CV z) eq_refl eq_refl E) as [_ V].
  specialize (V {| ev := fun _ _ => None; eb := fun _ _ => None |} (IZR a) (IZR b) eq_refl eq_refl). unfold num in V. cbn in V. injection V as V. rewrite <- plus_IZR in V. apply eq_IZR in V as ->. reflexivity.
Qed.
Lemma eng_mul_cv n a b r : eng n OMul (CV a) (CV b) = Some r -> r = CV (a * b).
Proof.
  intros E. destruct (eng_cv n OMul a b r ltac:(discriminate) E) as [z ->]. destruct (s_mul _ (eng_ok n) (CV a) (CV b) (CV z) eq_refl eq_refl E) as [_ V].
  specialize (V {| ev := fun _ _ => None; eb := fun _ _ => None |} (IZR a) (IZR b) eq_refl eq_refl). unfold num in V. cbn in V. injection V as V. rewrite <- mult_IZR in V. apply eq_IZR in V as ->. reflexivity.
Qed.
Lemma exps_int : exps is_int.
Proof.
  split; try reflexivity; [apply int_inv|intros n a b r E A B; apply int_inv in A as [x ->]; apply int_inv in B as [y ->]..].
  - rewrite (eng_add_cv _ _ _ _ E). reflexivity.
  - rewrite (eng_mul_cv _ _ _ _ E). reflexivity.
Qed.
Lemma pos_inv e : is_pos e = true -> exists z, e = CV z /\ (0 < z)%Z.
Proof. destruct e; try discriminate. cbn. intros H. apply Z.ltb_lt in H. eauto. Qed.
Lemma exps_pos : exps is_pos.
Proof.
  split; try reflexivity; [intros k H K; cbn in K; congruence|intros p H; apply pos_inv in H as (z & -> & _); eauto|intros n a b r E A B; apply pos_inv in A as (x & -> & A); apply pos_inv in B as (y & -> & B)..].
  - rewrite (eng_add_cv _ _ _ _ E). cbn. apply Z.ltb_lt. lia.
  - rewrite (eng_mul_cv _ _ _ _ E). cbn. apply Z.ltb_lt. nia.
Qed.

Section Class.
Variable X : expr -> bool.
Hypothesis HX : exps X.
Lemma ipoly_eng lo hi : forall n o a b r, eng n o a b = Some r -> ipoly X lo hi a = true ->
  (if match o with OPow => true | _ => false end then X b else ipoly X lo hi b) = true -> ipoly X lo hi r = true.
Proof.
  induction n as [|n IH]; intros o a b r E Pa Pb; [discriminate|].
  assert (R : pres_rec (ipoly X lo hi) X (eng n)).
  { split; intros x y z Hx X1 X2.
    - apply (IH OAdd x y z Hx X1 X2).
    - apply (IH OMul x y z Hx X1 X2).
    - apply (IH OPow x y z Hx X1 X2).
    - exact (e_add X HX n x y z Hx X1 X2).
    - exact (e_mul X HX n x y z Hx X1 X2). }
  destruct o; cbn [eng] in E.
  - eapply (p_addition_step (ipoly X lo hi) X); try reflexivity; eauto using e_1, e_2, e_neg.
  - eapply (p_product_step (ipoly X lo hi) X); try reflexivity; eauto using e_1, e_2, e_neg.
  - eapply (p_power_step (ipoly X lo hi) X); try reflexivity; eauto using e_1, e_2, e_neg.
Qed.
Lemma ipoly_sub lo hi f l x : ipoly X lo hi (Fn f l) = true -> In x l -> ipoly X lo hi x = true \/ X x = true.
Proof.
  intros H I. destruct f; try discriminate H; cbn [ipoly] in H; try (left; rewrite forallb_forall in H; apply H; exact I).
  destruct l as [|b [|p [|]]]; try discriminate H. apply andb_prop in H as [H1 H2]. destruct I as [<-|[<-|[]]]; auto.
Qed.
Lemma ipoly_numeric lo hi e : ipoly X lo hi e = true -> numeric lo hi e = true.
Proof.
  induction e as [z|t i| |z|t i| |z|z|pg x IH|c x IHc IHx|f l IH] using expr_ind'; intros H; try discriminate H; try exact H.
  rewrite Forall_forall in IH. destruct f; try discriminate H; cbn [ipoly numeric] in *.
  - destruct l as [|b [|p [|]]]; try discriminate H. apply andb_prop in H as [H1 H2]. apply (e_int X HX) in H2 as [z ->]. rewrite (IH b); cbn; auto.
  - apply forallb_forall. intros x I. rewrite forallb_forall in H. auto.
  - apply forallb_forall. intros x I. rewrite forallb_forall in H. auto.
Qed.
Lemma ipoly_mono lo hi e : ipoly X 1 0 e = true -> ipoly X lo hi e = true.
Proof.
  induction e as [z|t i| |z|t i| |z|z|pg x IH|c x IHc IHx|f l IH] using expr_ind'; intros H; try discriminate H; try exact H.
  - exfalso. exact (no_tag t H).
  - rewrite Forall_forall in IH. destruct f; try discriminate H; cbn [ipoly] in *.
    + destruct l as [|b [|p [|]]]; try discriminate H. apply andb_prop in H as [H1 H2]. rewrite (IH b), H2; cbn; auto.
    + apply forallb_forall. intros x I. rewrite forallb_forall in H. auto.
    + apply forallb_forall. intros x I. rewrite forallb_forall in H. auto.
Qed.
Lemma ipoly_closed lo hi e : ipoly X lo hi e = true -> has_getter e = false -> ipoly X 1 0 e = true.
Proof.
  induction e as [z|t i| |z|t i| |z|z|pg x IH|c x IHc IHx|f l IH] using expr_ind'; intros H G; try discriminate H; try discriminate G; try exact H.
  rewrite Forall_forall in IH. cbn [has_getter] in G. assert (G' : forall x, In x l -> has_getter x = false).
  { intros x I. destruct (has_getter x) eqn:E; [|reflexivity]. rewrite <- G. symmetry. apply existsb_exists. eauto. }
  destruct f; try discriminate H; cbn [ipoly] in *.
  - destruct l as [|b [|p [|]]]; try discriminate H. apply andb_prop in H as [H1 H2]. rewrite (IH b), H2; cbn; auto. apply G'. cbn. auto.
  - apply forallb_forall. intros x I. rewrite forallb_forall in H. auto.
  - apply forallb_forall. intros x I. rewrite forallb_forall in H. auto.
Qed.
Lemma ipoly_arith e : ipoly X 1 0 e = true -> arith_const e = true.
Proof.
  induction e as [z|t i| |z|t i| |z|z|pg x IH|c x IHc IHx|f l IH] using expr_ind'; intros H; try discriminate H; try exact H.
  - exfalso. exact (no_tag t H).
  - rewrite Forall_forall in IH. destruct f; try discriminate H; cbn [ipoly arith_const] in *.
    + destruct l as [|b [|p [|]]]; try discriminate H. apply andb_prop in H as [H1 H2]. apply (e_int X HX) in H2 as [z ->]. rewrite (IH b); cbn [In arith_const is_integer andb]; auto using orb_true_r.
    + apply forallb_forall. intros x I. rewrite forallb_forall in H. auto.
    + apply forallb_forall. intros x I. rewrite forallb_forall in H. auto.
Qed.
Lemma ipoly_coefficient lo hi e : wf e = true -> ipoly X lo hi e = true -> coefficient_ok lo hi e.
Proof.
  intros W H. split; [exact W|]. destruct (has_getter e) eqn:G; [left; split; [exact (query_numeric _ _ _ (ipoly_numeric _ _ _ H))|reflexivity]|right; apply ipoly_arith, (ipoly_closed lo hi); auto].
Qed.

(** [K]: a class of constants closed under the operations. *)
Section Closed.
Variables (F n : nat) (lo hi : N) (K : expr -> bool).
Hypothesis Kcv : forall z, K (CV z) = true.
Hypothesis Kadd : forall a b r, eng F OAdd a b = Some r -> K a = true -> K b = true -> K r = true.
Hypothesis Kmul : forall a b r, eng F OMul a b = Some r -> K a = true -> K b = true -> K r = true.
Hypothesis Kpow : forall a b r, eng F OPow a b = Some r -> K a = true -> X b = true -> K r = true.
Hypothesis Kconst : forall a, K a = true -> const a = true.
Notation evt := (eval_t F n lo hi).
Lemma ev_closed e : ipoly X 1 0 e = true -> wf e = true -> forall t c, evt e = Some (t, c) -> K t = true.
Proof.
  induction e as [z|t i| |z|t i| |z|z|pg x IH|c x IHc IHx|f l IH] using expr_ind'; intros H W t' c' E; try discriminate H.
  - cbn in E. injection E as <- _. apply Kcv.
  - exfalso. exact (no_tag t H).
  - rewrite Forall_forall in IH.
    assert (N : forall f mk op, (forall x y r, op x y = Some r -> K x = true -> K y = true -> K r = true) ->
      forall l, l <> [] -> (forall x, In x l -> forall t c, evt x = Some (t, c) -> K t = true) -> forall t c, eval_nary f mk op evt l = Some (t, c) -> K t = true).
    { clear -Kconst. intros f mk op Hop. induction l as [|x l IHl]; intros Nl HF t c E; [congruence|]. destruct l as [|y l].
      - cbn in E. apply (HF x (or_introl eq_refl) _ _ E).
      - assert (HF' : forall z, In z (y :: l) -> forall t c, evt z = Some (t, c) -> K t = true) by (intros z I; apply HF; right; exact I).
        specialize (IHl ltac:(discriminate) HF'). specialize (HF x (or_introl eq_refl)). cbn [eval_nary] in E. fold (eval_nary f mk op evt) in E. destruct (mk (y :: l)); [|discriminate].
        destruct (evt x) as [[x' cx]|] eqn:Ex; [|discriminate].
        change (match eval_nary f mk op evt (y :: l) with Some (y', cy) => if store_v2 x' y' then store_value (Fn f (x :: y :: l)) else move (op x' y') (cx ++ cy) | None => None end = Some (t, c)) in E.
        destruct (eval_nary f mk op evt (y :: l)) as [[y' cy]|]; [|discriminate]. specialize (IHl _ _ eq_refl). specialize (HF _ _ eq_refl).
        destruct (const_shape _ (Kconst _ HF)) as (_ & S1 & _). destruct (const_shape _ (Kconst _ IHl)) as (_ & S3 & _). unfold store_v2 in E. rewrite S1, S3, andb_false_r in E. cbn [andb orb] in E.
        unfold move in E. destruct (op x' y') as [r|] eqn:Er; [|discriminate]. injection E as <- _. eauto. }
    assert (I1 : forall x, In x l -> ipoly X 1 0 x = true -> wf x = true -> forall t c, evt x = Some (t, c) -> K t = true) by (intros x I; apply IH, I).
    destruct f; try discriminate H.
    + cbn [ipoly] in H. destruct l as [|b [|p [|]]]; try discriminate H. apply andb_prop in H as [H1 H2]. pose proof (e_int X HX _ H2) as [z ->]. apply wf_pow_inv in W as (_ & Wb & _). cbn [eval_t do_nothing] in E.
      destruct (evt b) as [[b' k]|] eqn:Eb; [|discriminate]. pose proof (I1 b (or_introl eq_refl) H1 Wb _ _ Eb) as Kb. destruct (const_shape _ (Kconst _ Kb)) as (_ & S1 & _).
      unfold store_v2 in E. rewrite S1 in E. cbn [andb is_sv orb] in E. rewrite andb_false_r in E. unfold move in E. destruct (eng F OPow b' (CV z)) as [r|] eqn:Er; [|discriminate]. injection E as <- _. eauto.
    + cbn [wf] in W. apply andb_prop in W as [W1 W2]. destruct l as [|x [|y l]]; try discriminate W1. cbn [ipoly] in H. rewrite forallb_forall in H, W2.
      refine (N NMul mk_mul (eng F OMul) Kmul (x :: y :: l) ltac:(discriminate) _ t' c' E). intros u Iu. exact (I1 u Iu (H u Iu) (W2 u Iu)).
    + cbn [wf] in W. apply andb_prop in W as [W1 W2]. destruct l as [|x [|y l]]; try discriminate W1. cbn [ipoly] in H. rewrite forallb_forall in H, W2.
      refine (N NAdd mk_add (add_any F n) _ (x :: y :: l) ltac:(discriminate) _ t' c' E); [|intros u Iu; exact (I1 u Iu (H u Iu) (W2 u Iu))].
      intros u v r Er Ku Kv. unfold add_any in Er. destruct (const_shape _ (Kconst _ Ku)) as (_ & _ & _ & Su & _). rewrite Su in Er. eauto.
Qed.
End Closed.
End Class.

Lemma pos_no_int_div i lo hi e : ipoly is_pos lo hi e = true -> no_int_div i e = true.
Proof.
  induction e as [z|t k| |z|t k| |z|z|pg x IH|c x IHc IHx|f l IH] using expr_ind'; intros H; try discriminate H; try reflexivity.
  rewrite Forall_forall in IH. destruct f; try discriminate H; cbn [ipoly no_int_div] in *.
  - destruct l as [|b [|p [|]]]; try discriminate H. apply andb_prop in H as [H1 H2]. apply pos_inv in H2 as (z & -> & _). cbn [forallb no_int_div]. rewrite (IH b); cbn; auto.
  - rewrite forallb_forall in H. apply andb_true_intro. split; [apply forallb_forall; auto|]. clear IH. induction l as [|x l IHl]; [reflexivity|].
    assert (Z : (match l with [Fn NPow [r; CV (-1)]] => False | _ => True end) -> no_div_last (integral i) (x :: l) = no_div_last (integral i) l).
    { cbn [no_div_last]. destruct l as [|y rest]; [reflexivity|]. scan_inv y rest. intros []. }
    rewrite Z; [apply IHl; intros; apply H; right; auto|]. destruct l as [|y rest]; [exact I|].
    destruct y as [| | | | | | | | | |f l]; try exact I. destruct f; try exact I. destruct l as [|a [|b [|]]]; try exact I.
    2: { destruct b as [[| |[]]| | | | | | | | | |]; exact I. }
    destruct b as [[| |[]]| | | | | | | | | |]; try exact I. destruct rest; [|exact I]. specialize (H _ (or_intror (or_introl eq_refl))). cbn [ipoly is_pos] in H. rewrite andb_false_r in H. discriminate H.
  - rewrite forallb_forall in H. apply forallb_forall. auto.
Qed.
Lemma int_pow F a b r : eng F OPow a b = Some r -> is_int a = true -> is_pos b = true -> is_int r = true.
Proof. intros E A B. apply int_inv in A as [x ->]. apply pos_inv in B as (z & -> & B). apply (proj2 (eng_int F) x z r); [apply Z.ltb_lt, B|exact E]. Qed.
