(** Lazy evaluation of multivectors with compile-time blades. *)
From Coq Require Import NArith ZArith List Bool Reals Lra Lia Sorting.Sorted.
From Verif Require Import Bits Expr ExprBase Sem Wf SpecBits SpecMv MvBase Simp SimpProofs SimpProofs2 PresProofs SpecAlg
  SpecOrder OrderProofs EvalC SpecEval EvalCProofs Comp CompProofs AlgProofs Lazy SpecLazy.
Import ListNotations.
Local Open Scope R_scope.

(** ** Constants *)
Definition const := numeric 1 0.
Lemma no_tag t : (N.leb 1 t && N.leb t 0)%bool = true -> False.
Proof. rewrite andb_true_iff, !N.leb_le. lia. Qed.
Lemma const_getter e : const e = true -> has_getter e = false.
Proof.
  induction e as [z|t i| |z|t i| |z|z|pg x IH|c x IHc IHx|f l IH] using expr_ind'; intros H; try discriminate; [reflexivity|exfalso; exact (no_tag t H)|].
  assert (K : forallb const l = true -> existsb has_getter l = false).
  { clear H. induction IH as [|x l Hx Hl IHl]; [reflexivity|]. cbn [forallb existsb]. intros H. apply andb_prop in H as [H1 H2]. rewrite Hx, IHl; auto. }
  cbn [has_getter]. unfold const in *. destruct f; cbn [numeric] in H; try (destruct l as [|x [|]]; try discriminate H; cbn [fun1 andb] in H; apply K; cbn [forallb]; rewrite ?H; try reflexivity; try discriminate H; fail); try (apply K; exact H).
  destruct l as [|x [|y [|]]]; try discriminate H. apply K. cbn [forallb]. rewrite andb_true_r. exact H.
Qed.
Lemma numeric_const lo hi e : numeric lo hi e = true -> has_getter e = false -> const e = true.
Proof.
  induction e as [z|t i| |z|t i| |z|z|pg x IH|c x IHc IHx|f l IH] using expr_ind'; intros H G; try discriminate; [reflexivity|].
  cbn [has_getter] in G. unfold const in *.
  assert (K : forallb (numeric lo hi) l = true -> forallb (numeric 1 0) l = true).
  { clear H. induction IH as [|x l Hx Hl IHl]; [reflexivity|]. cbn [forallb existsb] in *. intros H. apply andb_prop in H as [H1 H2]. apply orb_false_elim in G as [G1 G2]. rewrite Hx, IHl; auto. }
  destruct f; cbn [numeric] in *; try (destruct l as [|x [|]]; try discriminate H; cbn [fun1 andb] in *; try discriminate H; cbn [forallb] in K; rewrite !andb_true_r in K; apply K; exact H); try (apply K; exact H).
  destruct l as [|x [|y [|]]]; try discriminate H. cbn [forallb] in K. rewrite !andb_true_r in K. apply K; exact H.
Qed.
Lemma const_shape e : const e = true -> can_be_stored e = true /\ is_sv e = false /\ is_sb e = false /\ csplit e = None /\ has_stored e = false /\ count_vals e = 0%nat /\ count_bits e = 0%nat.
Proof.
  induction e as [z|t i| |z|t i| |z|z|pg x IH|c x IHc IHx|f l IH] using expr_ind'; intros H; try discriminate; [repeat split; reflexivity|exfalso; exact (no_tag t H)|].
  assert (H' : forallb const l = true).
  { unfold const in *. destruct f; cbn [numeric] in H; try (destruct l as [|x [|]]; try discriminate H; cbn [fun1 andb] in *; try discriminate H; cbn [forallb]; rewrite !andb_true_r; exact H); try exact H.
    destruct l as [|x [|y [|]]]; try discriminate H. cbn [forallb]. rewrite !andb_true_r. exact H. }
  cbn [can_be_stored is_sv is_sb has_stored count_vals count_bits].
  assert (K : forallb can_be_stored l = true /\ existsb has_stored l = false /\ fold_right (fun x n => (count_vals x + n)%nat) 0%nat l = 0%nat /\ fold_right (fun x n => (count_bits x + n)%nat) 0%nat l = 0%nat /\ match l with Comp _ _ :: _ => False | _ => True end).
  { clear H. induction IH as [|x l Hx Hl IHl]; [auto|]. cbn [forallb existsb fold_right] in *. apply andb_prop in H' as [H1 H2]. destruct (Hx H1) as (A1 & _ & _ & A4 & A5 & A6 & A7). destruct (IHl H2) as (B1 & B2 & B3 & B4 & _).
    rewrite A1, A5, A6, A7, B1, B2, B3, B4. repeat split. destruct x; try exact I. discriminate A4. }
  destruct K as (K1 & K2 & K3 & K4 & K5). repeat split; auto. unfold csplit. destruct f; auto. destruct l as [|[]]; auto. contradiction.
Qed.
Lemma eng_const n o a b r : eng n o a b = Some r -> const a = true -> const b = true -> const r = true.
Proof. apply eng_pres; try reflexivity. Qed.

(** ** Evaluation of a coefficient *)
Section Coef.
Variables (F n : nat) (lo hi : N).
Notation evt := (eval_t F n lo hi).
Definition ev_ok (e t : expr) (c : list store) : Prop := if has_getter e then t = SV /\ c = [StV e] else const t = true /\ c = [].
Lemma store_cases x y x' y' cx cy : ev_ok x x' cx -> ev_ok y y' cy -> store_v2 x' y' = (has_getter x || has_getter y)%bool.
Proof.
  unfold ev_ok. intros A B. unfold store_v2. destruct (has_getter x), (has_getter y); destruct A as [A _], B as [B _]; subst; cbn [orb];
    repeat match goal with H : const _ = true |- _ => apply const_shape in H as (? & ? & _) end;
    repeat match goal with H : _ = _ |- _ => rewrite H end; reflexivity.
Qed.
Lemma nary_ok f mk op : (forall x y r, op x y = Some r -> const x = true -> const y = true -> const r = true) ->
  forall l, l <> [] -> Forall (fun e => forall t c, evt e = Some (t, c) -> ev_ok e t c) l ->
  forall t c, eval_nary f mk op evt l = Some (t, c) ->
  if existsb has_getter l then t = SV /\ c = [StV (match l with [x] => x | _ => Fn f l end)] else const t = true /\ c = [].
Proof.
  intros Hop. induction l as [|x l IH]; intros Nl HF t c E; [congruence|]. inversion HF as [|? ? Hx Hl]; subst.
  destruct l as [|y l]; [cbn in *; rewrite orb_false_r; apply (Hx _ _ E)|].
  specialize (IH ltac:(discriminate) Hl). cbn [eval_nary] in E. fold (eval_nary f mk op evt) in E.
  destruct (mk (y :: l)); [|discriminate]. destruct (evt x) as [[x' cx]|] eqn:Ex; [|discriminate]. specialize (Hx _ _ eq_refl).
  change (match eval_nary f mk op evt (y :: l) with Some (y', cy) => if store_v2 x' y' then store_value (Fn f (x :: y :: l)) else move (op x' y') (cx ++ cy) | None => None end = Some (t, c)) in E.
  destruct (eval_nary f mk op evt (y :: l)) as [[y' cy]|] eqn:Ey; [|discriminate]. specialize (IH _ _ eq_refl).
  set (tl := match y :: l with [z] => z | _ => Fn f (y :: l) end) in *.
  assert (Gt : has_getter tl = existsb has_getter (y :: l)) by (unfold tl; destruct l; [cbn; now rewrite orb_false_r|reflexivity]).
  assert (Hy : ev_ok tl y' cy) by (unfold ev_ok; rewrite Gt; exact IH).
  rewrite (store_cases _ _ _ _ _ _ Hx Hy) in E. change (existsb has_getter (x :: y :: l)) with (has_getter x || existsb has_getter (y :: l))%bool. rewrite <- Gt.
  unfold ev_ok in Hx, Hy. destruct (has_getter x), (has_getter tl); cbn [orb] in *; try (injection E as <- <-; auto; fail).
  destruct Hx as [Cx ->], Hy as [Cy ->]. unfold move in E. destruct (op x' y') as [r|] eqn:Er; [|discriminate]. injection E as <- <-. split; [eapply Hop; eauto|reflexivity].
Qed.
Lemma fn1_const f x r : fn1_t F f x = Some r -> const x = true -> const r = true.
Proof.
  intros E C. unfold const in *. destruct f; try discriminate E; cbn [fn1_t] in E; try (injection E as <-; cbn [numeric fun1 andb]; exact C).
  - unfold mk_abs in E. destruct (eng F OMul (CV (-1)) x) as [m|] eqn:Em; [|discriminate]. injection E as <-. destruct (is_non_negative x); [exact C|].
    destruct (_ && _)%bool; [exact (eng_const _ _ _ _ _ Em eq_refl C)|exact C].
  - injection E as <-. unfold mk_exp. destruct x as [| | | | | | | | | |f l]; try exact C. destruct f; try exact C. destruct l as [|y [|]]; try exact C; discriminate C.
  - injection E as <-. unfold mk_log. destruct x as [| | | | | | | | | |f l]; try exact C. destruct f; try exact C. destruct l as [|y [|]]; try exact C; discriminate C.
Qed.
(** The forms of an expression of the class. *)
Lemma query_inv f l : query lo hi (Fn f l) = true -> wf (Fn f l) = true ->
  (fun1 f = true /\ exists x, l = [x] /\ query lo hi x = true /\ wf x = true) \/
  ((f = NAdd \/ f = NMul) /\ forallb (query lo hi) l = true /\ forallb wf l = true /\ (2 <=? length l)%nat = true) \/
  (f = NPow /\ exists x y, l = [x; y] /\ query lo hi x = true /\ query lo hi y = true /\ wf x = true /\ wf y = true) \/
  (f = NIf /\ exists f' a b x y, l = [Fn f' [a; b]; x; y] /\ (f' = NEqual \/ f' = NLe) /\ (has_getter a || has_getter b)%bool = true /\
    query lo hi a = true /\ query lo hi b = true /\ query lo hi x = true /\ query lo hi y = true /\ wf a = true /\ wf b = true /\ wf x = true /\ wf y = true).
Proof.
  intros H W. destruct f; cbn [query] in H;
    try (destruct l as [|x [|]]; try discriminate H; cbn [fun1 andb] in *; try discriminate H; (left; split; [reflexivity|exists x; split; [reflexivity|]; (split; [exact H|cbn in W; rewrite andb_true_r in W; exact W])]); fail).
  - right. right. right. split; [reflexivity|]. destruct l as [|t [|x [|y [|]]]]; try discriminate H; destruct t as [| | | | | | | | | |f1 l1]; try discriminate H; destruct f1; try discriminate H; destruct l1 as [|a [|b [|]]]; try discriminate H.
    all: apply andb_prop in H as [G H]; apply andb_prop in H as [H Hy]; apply andb_prop in H as [H Hx]; apply andb_prop in H as [Ha Hb]; eexists _, a, b, x, y; split; [reflexivity|]; split; [auto|]; split; [exact G|].
    all: cbn [wf forallb] in W; rewrite !andb_true_r in W; apply andb_prop in W as [W1 W2]; apply andb_prop in W2 as [W2 W3]; apply andb_prop in W1 as [W0 W1]; auto 10.
  - destruct l as [|x [|y [|]]]; try discriminate H. apply andb_prop in H as [Hx Hy]. apply wf_pow_inv in W as (_ & Wx & Wy). right. right. left. split; [reflexivity|]. exists x, y. auto.
  - right. left. cbn [wf] in W. apply andb_prop in W as [W1 W2]. auto.
  - right. left. cbn [wf] in W. apply andb_prop in W as [W1 W2]. auto.
Qed.
Theorem ev_query e : query lo hi e = true -> wf e = true -> forall t c, evt e = Some (t, c) -> ev_ok e t c.
Proof.
  remember (esize e) as m eqn:Em. revert e Em. induction m as [m IH] using lt_wf_ind. intros e -> Q W t c E. destruct e as [z|t0 i| |z|t0 i| |z|z|pg x|c0 x|f l]; try discriminate Q.
  - cbn in E. injection E as <- <-. split; reflexivity.
  - cbn [eval_t query] in *. rewrite Q in E. injection E as <- <-. split; reflexivity.
  - assert (IH' : forall x, In x l -> query lo hi x = true -> wf x = true -> forall t c, evt x = Some (t, c) -> ev_ok x t c) by (intros x I; exact (IH _ (esize_in f l x I) x eq_refl)).
    destruct (query_inv f l Q W) as [(Ff & x & -> & Qx & Wx)|[(Hf & Ql & Wl & Len)|[(-> & x & y & -> & Qx & Qy & Wx & Wy)|(-> & f' & a & b & x & y & -> & Hf & G & Qa & Qb & Qx & Qy & Wa & Wb & Wx & Wy)]]].
    + assert (U : match evt x with Some (x', k) => if is_sv x' then store_value (Fn f [x]) else if is_sb x' then store_bitset (Fn f [x]) else move (fn1_t F f x') k | None => None end = Some (t, c)).
      { rewrite <- E. destruct f; try discriminate Ff; reflexivity. }
      clear E. rename U into E. specialize (IH' x (or_introl eq_refl) Qx Wx). destruct (evt x) as [[x' k]|]; [|discriminate]. specialize (IH' _ _ eq_refl). unfold ev_ok in *. cbn [has_getter existsb]. rewrite orb_false_r.
      destruct (has_getter x).
      * destruct IH' as [-> ->]. injection E as <- <-. auto.
      * destruct IH' as [C ->]. destruct (const_shape _ C) as (_ & C2 & C3 & _). rewrite C2, C3 in E. unfold move in E. destruct (fn1_t F f x') as [r|] eqn:Er; [|discriminate]. injection E as <- <-.
        split; [exact (fn1_const _ _ _ Er C)|reflexivity].
    + assert (N : forall mk op, (forall x y r, op x y = Some r -> const x = true -> const y = true -> const r = true) -> eval_nary f mk op evt l = Some (t, c) -> ev_ok (Fn f l) t c).
      { intros mk op Hop E'. unfold ev_ok. cbn [has_getter]. assert (HF : Forall (fun e => forall t c, evt e = Some (t, c) -> ev_ok e t c) l).
        { rewrite forallb_forall in Ql, Wl. apply Forall_forall. intros x I. exact (IH' x I (Ql x I) (Wl x I)). }
        destruct l as [|x [|y l]]; try discriminate Len. exact (nary_ok f mk op Hop (x :: y :: l) ltac:(discriminate) HF _ _ E'). }
      destruct l as [|x [|y l]]; try discriminate Len. destruct Hf as [-> | ->].
      * apply (N mk_add (add_any F n)); [|exact E]. intros u v r Hr Cu Cv. unfold add_any in Hr. destruct (const_shape _ Cu) as (_ & _ & _ & Su & _). rewrite Su in Hr. eapply eng_const; eauto.
      * apply (N mk_mul (eng F OMul)); [|exact E]. intros ? ? ?. apply eng_const.
    + pose proof (IH' x (or_introl eq_refl) Qx Wx) as Ix. pose proof (IH' y (or_intror (or_introl eq_refl)) Qy Wy) as Iy. cbn [eval_t] in E.
      destruct (evt x) as [[x' k]|]; [|discriminate]. destruct (evt y) as [[y' k']|]; [|discriminate]. specialize (Ix _ _ eq_refl). specialize (Iy _ _ eq_refl).
      rewrite (store_cases _ _ _ _ _ _ Ix Iy) in E. unfold ev_ok in *. cbn [has_getter existsb]. rewrite orb_false_r.
      destruct (has_getter x), (has_getter y); cbn [orb] in *; try (injection E as <- <-; auto; fail).
      destruct Ix as [Cx ->], Iy as [Cy ->]. unfold move in E. destruct (eng F OPow x' y') as [r|] eqn:Er; [|discriminate]. injection E as <- <-. split; [eapply eng_const; eauto|reflexivity].
    + assert (Lt : (esize (Fn f' [a; b]) < esize (Fn NIf [Fn f' [a; b]; x; y]))%nat) by (apply esize_in; cbn; auto).
      assert (La : (esize a < esize (Fn NIf [Fn f' [a; b]; x; y]))%nat) by (eapply Nat.lt_trans; [|exact Lt]; apply esize_in; cbn; auto).
      assert (Lb : (esize b < esize (Fn NIf [Fn f' [a; b]; x; y]))%nat) by (eapply Nat.lt_trans; [|exact Lt]; apply esize_in; cbn; auto).
      assert (T : evt (Fn f' [a; b]) = match evt a, evt b with Some (x', k), Some (y', k') => if store_v2 x' y' then store_value (Fn f' [a; b]) else if store_b2 x' y' then store_bitset (Fn f' [a; b]) else move (fn2_t f' x' y') (k ++ k') | _, _ => None end) by (destruct Hf as [-> | ->]; reflexivity).
      cbn [eval_t] in E. fold evt in E. change (match evt (Fn f' [a; b]), evt x, evt y with Some (t', k), Some (x', k'), Some (y', k'') => if (can_be_stored t' && can_be_stored x' && can_be_stored x')%bool then store_value (Fn NIf [Fn f' [a; b]; x; y]) else move (Some (mk_if t' x' x')) (k ++ k' ++ k'') | _, _, _ => None end = Some (t, c)) in E.
      rewrite T in E. destruct (evt a) as [[a' ka]|] eqn:Ea; [|discriminate E]. destruct (evt b) as [[b' kb]|] eqn:Eb; [|discriminate E].
      pose proof (IH _ La a eq_refl Qa Wa _ _ Ea) as Oa. pose proof (IH _ Lb b eq_refl Qb Wb _ _ Eb) as Ob. rewrite (store_cases _ _ _ _ _ _ Oa Ob), G in E. unfold store_value at 1 in E.
      destruct (evt x) as [[x' kx]|] eqn:Ex; [|discriminate E]. destruct (evt y) as [[y' ky]|] eqn:Ey; [|discriminate E]. pose proof (IH' x (or_intror (or_introl eq_refl)) Qx Wx _ _ Ex) as Ox.
      assert (S : can_be_stored x' = true) by (unfold ev_ok in Ox; destruct (has_getter x); destruct Ox as [Ox _]; [rewrite Ox; reflexivity|apply const_shape in Ox as (Ox & _); exact Ox]).
      rewrite S in E. cbn [can_be_stored andb] in E. injection E as <- <-. unfold ev_ok. assert (G' : has_getter (Fn NIf [Fn f' [a; b]; x; y]) = true) by (cbn [has_getter existsb]; rewrite orb_false_r, G; reflexivity). rewrite G'. auto.
Qed.
Lemma query_numeric e : numeric lo hi e = true -> query lo hi e = true.
Proof.
  induction e as [z|t i| |z|t i| |z|z|pg x IH|c x IHc IHx|f l IH] using expr_ind'; intros H; try discriminate H; try exact H.
  assert (K : forallb (numeric lo hi) l = true -> forallb (query lo hi) l = true).
  { clear H. induction IH as [|x l Hx Hl IHl]; [reflexivity|]. cbn [forallb]. intros H. apply andb_prop in H as [H1 H2]. rewrite Hx, IHl; auto. }
  destruct f; cbn [numeric query] in *; try (destruct l as [|x [|]]; try discriminate H; cbn [fun1 andb] in *; try discriminate H; cbn [forallb] in K; rewrite !andb_true_r in K; apply K; exact H); try (apply K; exact H).
  destruct l as [|x [|y [|]]]; try discriminate H. cbn [forallb] in K. rewrite !andb_true_r in K. apply K; exact H.
Qed.
Theorem ev_numeric e : numeric lo hi e = true -> wf e = true -> forall t c, evt e = Some (t, c) -> ev_ok e t c.
Proof. intros H. apply ev_query, query_numeric, H. Qed.

(** A constant keeps its value. *)
Lemma arith_numeric e : arith_const e = true -> const e = true.
Proof.
  induction e as [z|t i| |z|t i| |z|z|pg x IH|c x IHc IHx|f l IH] using expr_ind'; intros H; try discriminate; [reflexivity|]. unfold const in *.
  assert (K : forallb arith_const l = true -> forallb (numeric 1 0) l = true).
  { clear H. induction IH as [|x l Hx Hl IHl]; [reflexivity|]. cbn [forallb]. intros H. apply andb_prop in H as [H1 H2]. rewrite Hx, IHl; auto. }
  destruct f; try discriminate H; cbn [arith_const numeric] in *; auto. destruct l as [|x [|y [|]]]; try discriminate H. cbn [forallb] in K. rewrite !andb_true_r in K. apply K. apply andb_prop in H as [H _]. exact H.
Qed.
Lemma numeric_mono a b e : const e = true -> numeric a b e = true.
Proof.
  unfold const. induction e as [z|t i| |z|t i| |z|z|pg x IH|c x IHc IHx|f l IH] using expr_ind'; intros H; try discriminate; [reflexivity|exfalso; exact (no_tag t H)|].
  assert (K : forallb (numeric 1 0) l = true -> forallb (numeric a b) l = true).
  { clear H. induction IH as [|x l Hx Hl IHl]; [reflexivity|]. cbn [forallb]. intros H. apply andb_prop in H as [H1 H2]. rewrite Hx, IHl; auto. }
  destruct f; cbn [numeric] in *; try (destruct l as [|x [|]]; try discriminate H; cbn [fun1 andb] in *; try discriminate H; cbn [forallb] in K; rewrite !andb_true_r in K; apply K; exact H); try (apply K; exact H).
  destruct l as [|x [|y [|]]]; try discriminate H. cbn [forallb] in K. rewrite !andb_true_r in K. apply K; exact H.
Qed.
Definition keeps (e t : expr) : Prop := wf t = true /\ forall g v, num g e v -> num g t v.
Lemma ev_arith e : arith_const e = true -> wf e = true -> forall t c, evt e = Some (t, c) -> const t = true /\ c = [] /\ keeps e t.
Proof.
  intros A W t c E. assert (H : const t = true /\ c = []).
  { pose proof (arith_numeric e A) as C. pose proof (ev_numeric e (numeric_mono _ _ _ C) W _ _ E) as H. unfold ev_ok in H. rewrite (const_getter e C) in H. exact H. }
  destruct H as [H1 H2]. split; [exact H1|]. split; [exact H2|]. clear H1 H2. revert A W t c E.
  induction e as [z|t i| |z|t i| |z|z|pg x IH|c x IHc IHx|f l IH] using expr_ind'; intros A W t' c' E; try discriminate A.
  - injection E as <- <-. split; auto.
  - assert (N : forall mk op u rop, (forall x y r, wf x = true -> wf y = true -> op x y = Some r -> const x = true -> const y = true -> wf r = true /\ forall g va vb, num g x va -> num g y vb -> num g r (rop va vb)) ->
        (forall x y r, op x y = Some r -> const x = true -> const y = true -> const r = true) ->
        (forall g x l v, num g (Fn f (x :: l)) v <-> exists a b, num g x a /\ num g (Fn f l) b /\ v = rop a b) -> (forall g v, num g (Fn f []) v <-> v = u) -> (forall a, rop a u = a) ->
        forall l, l <> [] -> Forall (fun e => arith_const e = true -> wf e = true -> forall t c, evt e = Some (t, c) -> keeps e t) l ->
        forallb arith_const l = true -> forallb wf l = true -> forall t c, eval_nary f mk op evt l = Some (t, c) -> const t = true /\ c = [] /\ keeps (Fn f l) t).
    { clear -f. intros mk op u rop Hop Hc Hn Hu Hr. induction l as [|x l IHl]; intros Nl HF HA HW t c E; [congruence|]. cbn [forallb] in HA, HW. apply andb_prop in HA as [A1 A2]. apply andb_prop in HW as [W1 W2].
      inversion HF as [|? ? Hx Hl]; subst. specialize (Hx A1 W1).
      assert (Ex : forall t c, evt x = Some (t, c) -> const t = true /\ c = []).
      { intros t0 c0 E0. pose proof (arith_numeric x A1) as C. pose proof (ev_numeric x (numeric_mono _ _ _ C) W1 _ _ E0) as H. unfold ev_ok in H. rewrite (const_getter x C) in H. exact H. }
      destruct l as [|y l].
      - cbn in E. destruct (Ex _ _ E) as [C1 C2]. destruct (Hx _ _ E) as [K1 K2]. split; [exact C1|]. split; [exact C2|]. split; [exact K1|]. intros g v Hv. apply Hn in Hv as (a & b & Ha & Hb & ->). apply Hu in Hb as ->. rewrite Hr. auto.
      - specialize (IHl ltac:(discriminate) Hl A2 W2). cbn [eval_nary] in E. fold (eval_nary f mk op evt) in E. destruct (mk (y :: l)); [|discriminate]. destruct (evt x) as [[x' cx]|] eqn:Ee; [|discriminate].
        destruct (Ex _ _ eq_refl) as [C1 ->]. destruct (Hx _ _ eq_refl) as [K1 K2].
        change (match eval_nary f mk op evt (y :: l) with Some (y', cy) => if store_v2 x' y' then store_value (Fn f (x :: y :: l)) else move (op x' y') ([] ++ cy) | None => None end = Some (t, c)) in E.
        destruct (eval_nary f mk op evt (y :: l)) as [[y' cy]|]; [|discriminate]. destruct (IHl _ _ eq_refl) as (C3 & -> & K3 & K4).
        destruct (const_shape _ C1) as (_ & S1 & _). destruct (const_shape _ C3) as (_ & S3 & _). unfold store_v2 in E. rewrite S1, S3, andb_false_r in E. cbn [andb orb] in E.
        unfold move in E. destruct (op x' y') as [r|] eqn:Er; [|discriminate]. injection E as <- <-. destruct (Hop _ _ _ K1 K3 Er C1 C3) as [R1 R2].
        split; [exact (Hc _ _ _ Er C1 C3)|]. split; [reflexivity|]. split; [exact R1|]. intros g v Hv. apply Hn in Hv as (a & b & Ha & Hb & ->). apply R2; auto. }
    destruct f; try discriminate A; cbn [arith_const] in A.
    + destruct l as [|x [|y [|]]]; try discriminate A. rewrite !andb_true_iff in A. destruct A as [[Ax Ay] Ai]. apply wf_pow_inv in W as (At & Wx & Wy).
      inversion IH as [|? ? Ix IH']; subst. inversion IH' as [|? ? Iy _]; subst. specialize (Ix Ax Wx). specialize (Iy Ay Wy). cbn [eval_t] in E.
      assert (Cc : forall e, arith_const e = true -> wf e = true -> forall t c, evt e = Some (t, c) -> const t = true /\ c = []).
      { clear. intros e A W t c E. pose proof (arith_numeric e A) as C. pose proof (ev_numeric e (numeric_mono _ _ _ C) W _ _ E) as H. unfold ev_ok in H. rewrite (const_getter e C) in H. exact H. }
      destruct (evt x) as [[x' k]|] eqn:Ex; [|discriminate]. destruct (evt y) as [[y' k']|] eqn:Ey; [|discriminate].
      destruct (Cc x Ax Wx _ _ Ex) as [C1 ->]. destruct (Cc y Ay Wy _ _ Ey) as [C2 ->]. destruct (Ix _ _ eq_refl) as [K1 K2]. destruct (Iy _ _ eq_refl) as [K3 K4].
      destruct (const_shape _ C1) as (_ & S1 & _). destruct (const_shape _ C2) as (_ & S3 & _). unfold store_v2 in E. rewrite S1, S3, andb_false_r in E. cbn [andb orb] in E.
      unfold move in E. destruct (eng F OPow x' y') as [r|] eqn:Er; [|discriminate]. injection E as <- <-.
      destruct (s_pow _ (eng_ok F) _ _ _ K1 K3 Er) as [R1 R2]. split; [exact R1|]. intros g v Hv. apply num_pow in Hv as (a & b & Ha & Hb & P).
      apply (R2 g a b v (K2 _ _ Ha) (K4 _ _ Hb) P). apply orb_prop in Ai as [Ai|Ai].
      * left. destruct x; try discriminate Ai. cbn in Ex. injection Ex as <-. reflexivity.
      * right. left. destruct y; try discriminate Ai. unfold num in Hb. cbn in Hb. injection Hb as <-. exists z. reflexivity.
    + cbn [wf] in W. apply andb_prop in W as [W1 W2]. destruct l as [|x [|y l]]; try discriminate W1.
      refine (proj2 (proj2 (N mk_mul (eng F OMul) 1 Rmult _ _ num_mul_cons _ Rmult_1_r (x :: y :: l) ltac:(discriminate) IH A W2 t' c' E))).
      * intros u v r Wu Wv Er _ _. destruct (s_mul _ (eng_ok F) _ _ _ Wu Wv Er) as [R1 R2]. split; [exact R1|exact R2].
      * intros u v r. apply eng_const.
      * intros g v. unfold num. cbn. split; [intros [= <-]; reflexivity|intros ->; reflexivity].
    + cbn [wf] in W. apply andb_prop in W as [W1 W2]. destruct l as [|x [|y l]]; try discriminate W1.
      refine (proj2 (proj2 (N mk_add (add_any F n) 0 Rplus _ _ num_add_cons _ Rplus_0_r (x :: y :: l) ltac:(discriminate) IH A W2 t' c' E))).
      * intros u v r Wu Wv Er Cu Cv. unfold add_any in Er. destruct (const_shape _ Cu) as (_ & _ & _ & Su & _). rewrite Su in Er. destruct (s_add _ (eng_ok F) _ _ _ Wu Wv Er) as [R1 R2]. split; [exact R1|exact R2].
      * intros u v r Er Cu Cv. unfold add_any in Er. destruct (const_shape _ Cu) as (_ & _ & _ & Su & _). rewrite Su in Er. exact (eng_const _ _ _ _ _ Er Cu Cv).
      * intros g v. unfold num. cbn. split; [intros [= <-]; reflexivity|intros ->; reflexivity].
Qed.
End Coef.
