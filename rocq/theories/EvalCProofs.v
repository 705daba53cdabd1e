From Coq Require Import NArith ZArith List Bool Reals Lra Lia.
From Verif Require Import Bits SpecBits BitsBase BitsOnes BitsProofs Expr ExprBase Sem Wf RPowProofs Simp SimpProofs SimpProofs2 EvalC SpecEval.
Import ListNotations.
Local Open Scope R_scope.

Lemma esize_in f l x : In x l -> (esize x < esize (Fn f l))%nat.
Proof.
  intros H. cbn [esize]. induction l as [|y ys IH]; [contradiction|]. cbn. destruct H as [->|H]; [lia|]. specialize (IH H). lia.
Qed.

Definition correct (i : ityping) (g : env) (e : expr) : Prop :=
  wf e = true -> no_int_div i e = true ->
  (forall v, sem g e = Some v -> run i g e = Val v \/ run i g e = Overflow) /\
  (forall r, num g e r -> integral i e = true -> isint r).

Lemma is_m1_true x : is_m1 x = true -> x = CV (-1).
Proof. destruct x; try discriminate. cbn. intros H. apply Z.eqb_eq in H as ->. reflexivity. Qed.

Ltac scan_inv y rest :=
  destruct y as [| | | | | | | | | |f l]; [reflexivity..|];
  destruct f; [reflexivity..| |reflexivity|reflexivity];
  destruct l as [|a [|b l]]; [reflexivity|reflexivity|];
  destruct b as [z| | | | | | | | | |]; [|reflexivity..];
  destruct z as [|z|z]; [reflexivity|reflexivity|];
  destruct z; [reflexivity|reflexivity|];
  destruct l; [|reflexivity];
  destruct rest; [|reflexivity].
Ltac scan_neg x fin :=
  destruct x as [| | | | | | | | | |f l]; [fin..|];
  destruct f; [fin..| |fin];
  destruct l as [|b l]; [fin|];
  destruct b as [z| | | | | | | | | |]; [|fin..];
  destruct z as [|z|z]; [fin|fin|];
  destruct z; [fin|fin|].

Definition okR (x : res) (r : R) : Prop := x = Val (VN r) \/ x = Overflow.
Lemma arith_ok b r : (b = true -> isint r) -> okR (arith b r) r.
Proof.
  unfold okR, arith. destruct b; [|left; reflexivity]. intros H. destruct (H eq_refl) as [k ->]. rewrite Zof_IZR.
  destruct (_ && _)%bool; auto.
Qed.
Lemma lift2_ok f a b x y z : okR a x -> okR b y -> okR (f x y) z -> okR (lift2 f a b) z.
Proof. intros [-> | ->] [-> | ->] H; cbn; auto; right; reflexivity. Qed.
Lemma lift1_ok f a x z : okR a x -> okR (f x) z -> okR (lift1 f a) z.
Proof. intros [-> | ->] H; cbn; auto; right; reflexivity. Qed.

Lemma isint_opp a : isint a -> isint (- a).
Proof. intros [k ->]. exists (- k)%Z. now rewrite opp_IZR. Qed.
Lemma isint_minus a b : isint a -> isint b -> isint (a - b).
Proof. intros. apply isint_plus; auto. apply isint_opp; auto. Qed.

(** ** Products *)
Section Lists.
Context (i : ityping) (g : env).

Definition deep (l : list expr) : Prop :=
  forall x, In x l -> correct i g x /\ (forall f l', x = Fn f l' -> forall y, In y l' -> correct i g y).

Lemma deep_tail x l : deep (x :: l) -> deep l.
Proof. intros H y Hy. apply H. now right. Qed.

Lemma int_mul_unfold x y rest ty : (forall r, y :: rest <> [Fn NPow [r; CV (-1)]]) ->
  int_mul ty (x :: y :: rest) = ty x && int_mul ty (y :: rest).
Proof.
  intros H. scan_inv y rest. exfalso. eapply H. reflexivity.
Qed.
Lemma run_mul_step_gen x y rest ty ev go : (forall r, y :: rest <> [Fn NPow [r; CV (-1)]]) ->
  run_mul_step ty ev x (y :: rest) go =
  if is_m1 x then lift1 (fun v => arith (int_mul ty (y :: rest)) (- v)) go
  else lift2 (fun a b => arith (int_mul ty (x :: y :: rest)) (a * b)) (ev x) go.
Proof. intros H. unfold run_mul_step. scan_inv y rest. exfalso. eapply H. reflexivity. Qed.
Lemma run_mul_unfold x y rest ty ev : (forall r, y :: rest <> [Fn NPow [r; CV (-1)]]) ->
  run_mul ty ev (x :: y :: rest) =
  if is_m1 x then lift1 (fun v => arith (int_mul ty (y :: rest)) (- v)) (run_mul ty ev (y :: rest))
  else lift2 (fun a b => arith (ty x && int_mul ty (y :: rest)) (a * b)) (ev x) (run_mul ty ev (y :: rest)).
Proof.
  intros H. rewrite <- int_mul_unfold by auto. rewrite <- run_mul_step_gen by auto. reflexivity.
Qed.
Lemma no_div_last_unfold x y rest ty : (forall r, y :: rest <> [Fn NPow [r; CV (-1)]]) ->
  no_div_last ty (x :: y :: rest) = no_div_last ty (y :: rest).
Proof.
  intros H. scan_inv y rest. exfalso. eapply H. reflexivity.
Qed.

Lemma pow_dec (y : expr) rest : (exists r, y :: rest = [Fn NPow [r; CV (-1)]]) \/ (forall r, y :: rest <> [Fn NPow [r; CV (-1)]]).
Proof.
  destruct rest; [|right; discriminate].
  destruct y as [| | | | | | | | | |f l]; try (right; discriminate). destruct f; try (right; discriminate).
  destruct l as [|a [|b [|]]]; try (right; discriminate). destruct b as [z| | | | | | | | | |]; try (right; discriminate).
  destruct (Z.eq_dec z (-1)) as [->|N]; [left; eauto|right; intros r; congruence].
Qed.

Lemma run_mul_ok : forall l, l <> [] -> deep l -> forallb wf l = true -> forallb (no_int_div i) l = true ->
  no_div_last (integral i) l = true -> forall r, num g (Fn NMul l) r ->
  okR (run_mul (integral i) (run i g) l) r /\ (int_mul (integral i) l = true -> isint r).
Proof.
  induction l as [|x l IH]; [congruence|]. intros _ D W ND NL r H.
  apply num_mul_cons in H as (a & b & Ha & Hb & ->).
  cbn [forallb] in W, ND. apply andb_true_iff in W as [Wx W], ND as [NDx ND].
  destruct (D x (or_introl eq_refl)) as [[Cx Ix] Dx]; auto.
  destruct l as [|y rest].
  - apply num_mul_nil in Hb as ->. rewrite Rmult_1_r. cbn [run_mul int_mul]. split; [|apply Ix; auto].
    destruct (Cx _ Ha); [left|right]; auto.
  - destruct (pow_dec y rest) as [[r E]|NP].
    + injection E as -> ->.
      assert (Dy : deep [Fn NPow [r; CV (-1)]]) by (eapply deep_tail; eauto).
      destruct (Dy _ (or_introl eq_refl)) as [Cy Dr].
      specialize (Dr _ _ eq_refl r (or_introl eq_refl)).
      cbn [forallb] in W, ND. apply andb_true_iff in W as [Wy _], ND as [NDy _].
      destruct (wf_pow_inv _ _ Wy) as (_ & Wr & _). cbn in NDy. apply andb_true_iff in NDy as [NDr _].
      destruct (Dr Wr NDr) as [Cr Ir]. destruct (Cy Wy) as [Cp Ip]. { cbn. rewrite NDr. reflexivity. }
      apply num_mul_cons in Hb as (c & d & Hc & Hd & ->). apply num_mul_nil in Hd as ->. rewrite Rmult_1_r.
      destruct (is_m1 x) eqn:M.
      * apply is_m1_true in M as ->. apply num_cv_inv in Ha as ->. split; [|discriminate].
        cbn [run_mul run_mul_step]. change (is_m1 (CV (-1))) with true. cbv iota.
        eapply lift1_ok; [destruct (Cp _ Hc) as [E|E]; [left; exact E|right; exact E]|].
        replace (-1 * c) with (- c) by lra. apply arith_ok. discriminate.
      * cbn [no_div_last] in NL. rewrite M in NL. cbn [orb] in NL. apply negb_true_iff in NL.
        cbn [run_mul run_mul_step int_mul]. rewrite M. split; [|rewrite NL; discriminate].
        apply num_pow in Hc as (u & w & Hu & Hw & P). apply num_cv_inv in Hw as ->. apply rpow_m1 in P as [NZ ->].
        eapply lift2_ok; [destruct (Cx _ Ha) as [E|E]; [left; exact E|right; exact E]|destruct (Cr _ Hu) as [E|E]; [left; exact E|right; exact E]|].
        unfold divide. destruct (Req_EM_T u 0); [contradiction|]. rewrite NL. left. reflexivity.
    + rewrite no_div_last_unfold in NL by auto.
      destruct (IH ltac:(discriminate) (deep_tail _ _ D) W ND NL b Hb) as [O I].
      rewrite run_mul_unfold, int_mul_unfold by auto. split.
      * destruct (is_m1 x) eqn:M.
        -- apply is_m1_true in M as ->. apply num_cv_inv in Ha as ->.
           eapply lift1_ok; [exact O|]. replace (-1 * b) with (- b) by lra. apply arith_ok. intros; apply isint_opp; auto.
        -- eapply lift2_ok; [destruct (Cx _ Ha) as [E|E]; [left; exact E|right; exact E]|exact O|].
           apply arith_ok. intros T. apply andb_true_iff in T as [T1 T2]. apply isint_mult; auto.
      * intros T. apply andb_true_iff in T as [T1 T2]. apply isint_mult; auto.
Qed.

(** ** Sums *)
Lemma neg_dec (x : expr) : (exists ls, x = Fn NMul (CV (-1) :: ls)) \/ (forall ls, x <> Fn NMul (CV (-1) :: ls)).
Proof.
  scan_neg x ltac:(right; intros; discriminate). left; eauto.
Qed.

Lemma neg_mul_parts ls r : wf (Fn NMul (CV (-1) :: ls)) = true -> no_int_div i (Fn NMul (CV (-1) :: ls)) = true ->
  (forall y, In y (CV (-1) :: ls) -> correct i g y) ->
  (forall y, In y (CV (-1) :: ls) -> forall f l', y = Fn f l' -> forall z, In z l' -> correct i g z) ->
  num g (Fn NMul (CV (-1) :: ls)) r ->
  okR (run_mul (integral i) (run i g) ls) (- r) /\ (integral i (Fn NMul (CV (-1) :: ls)) = true -> isint r).
Proof.
  intros W ND C1 C2 H. destruct (wf_mul_inv _ _ W) as (_ & Wls & Nls).
  assert (D : deep (CV (-1) :: ls)). { intros y Hy. split; [auto|exact (C2 y Hy)]. }
  assert (W' : forallb wf (CV (-1) :: ls) = true) by (cbn; auto).
  cbn [no_int_div] in ND. apply andb_true_iff in ND as [ND1 ND2].
  destruct (run_mul_ok (CV (-1) :: ls) ltac:(discriminate) D W' ND1 ND2 r H) as [_ I].
  apply num_mul_cons in H as (a & b & Ha & Hb & ->). apply num_cv_inv in Ha as ->.
  assert (L : no_div_last (integral i) ls = true).
  { destruct ls as [|y rest]; [reflexivity|]. destruct (pow_dec y rest) as [[q E]|NP]; [|rewrite no_div_last_unfold in ND2; auto].
    injection E as -> ->. reflexivity. }
  destruct (run_mul_ok ls Nls (deep_tail _ _ D) Wls) with (r := b) as [O _]; auto.
  split; auto. replace (- (-1 * b)) with b by lra. auto.
Qed.

Definition deep2 (l : list expr) : Prop :=
  forall x, In x l -> correct i g x /\
   (forall f l', x = Fn f l' -> forall y, In y l' -> correct i g y /\ (forall f' l'', y = Fn f' l'' -> forall z, In z l'' -> correct i g z)).

Lemma neg_mul_parts' ls l r : deep2 l -> In (Fn NMul (CV (-1) :: ls)) l -> wf (Fn NMul (CV (-1) :: ls)) = true -> no_int_div i (Fn NMul (CV (-1) :: ls)) = true ->
  num g (Fn NMul (CV (-1) :: ls)) r ->
  okR (run_mul (integral i) (run i g) ls) (- r).
Proof.
  intros D I W ND H. destruct (D _ I) as [_ D2]. eapply neg_mul_parts; eauto.
  - intros y Hy. exact (proj1 (D2 _ _ eq_refl y Hy)).
  - intros y Hy f l' E z Hz. eapply (D2 _ _ eq_refl y Hy); eauto.
Qed.

Lemma run_add_cons x rest ty ev : run_add ty ev (x :: rest) = run_add_step ty ev x rest (run_add ty ev rest).
Proof. reflexivity. Qed.
Lemma run_add_step_1 ls y rest ty ev go : (forall rs, y :: rest <> [Fn NMul (CV (-1) :: rs)]) ->
  run_add_step ty ev (Fn NMul (CV (-1) :: ls)) (y :: rest) go =
  lift2 (fun a b => arith (forallb ty (Fn NMul (CV (-1) :: ls) :: y :: rest)) (a - b)) go (run_mul ty ev ls).
Proof.
  intros H. unfold run_add_step. destruct rest; [scan_neg y reflexivity; exfalso; eapply H; reflexivity|].
  scan_neg y reflexivity. reflexivity.
Qed.
Lemma run_add_step_2 x rs ty ev go : (forall ls, x <> Fn NMul (CV (-1) :: ls)) ->
  run_add_step ty ev x [Fn NMul (CV (-1) :: rs)] go =
  lift2 (fun a b => arith (forallb ty [x; Fn NMul (CV (-1) :: rs)]) (a - b)) (ev x) (run_mul ty ev rs).
Proof. intros H. unfold run_add_step. scan_neg x reflexivity. exfalso; eapply H; reflexivity. Qed.
Lemma run_add_step_3 x y rest ty ev go : (forall ls, x <> Fn NMul (CV (-1) :: ls)) ->
  (forall rs, y :: rest <> [Fn NMul (CV (-1) :: rs)]) ->
  run_add_step ty ev x (y :: rest) go = lift2 (fun a b => arith (forallb ty (x :: y :: rest)) (a + b)) (ev x) go.
Proof.
  intros H H'. unfold run_add_step.
  assert (E : forall (A : Type) (u : list expr -> A) (v : A), match y :: rest with [Fn NMul (CV (-1) :: rs)] => u rs | _ => v end = v).
  { intros. scan_neg y reflexivity. destruct rest; [exfalso; eapply H'; reflexivity|reflexivity]. }
  scan_neg x ltac:(exact (E _ (fun rs => lift2 (fun a b => arith (forallb ty (_ :: y :: rest)) (a - b)) (ev _) (run_mul ty ev rs)) _)).
  exfalso; eapply H; reflexivity.
Qed.

Lemma run_add_ok : forall l, l <> [] -> deep2 l -> forallb wf l = true -> forallb (no_int_div i) l = true ->
  forall r, num g (Fn NAdd l) r ->
  okR (run_add (integral i) (run i g) l) r /\ (forallb (integral i) l = true -> isint r).
Proof.
  induction l as [|x l IH]; [congruence|]. intros _ D W ND r H.
  apply num_add_cons in H as (a & b & Ha & Hb & ->).
  pose proof W as W0. pose proof ND as ND0.
  cbn [forallb] in W, ND. apply andb_true_iff in W as [Wx W], ND as [NDx ND].
  destruct (D x (or_introl eq_refl)) as [[Cx Ix] Dx]; auto.
  assert (Rx : okR (run i g x) a) by (destruct (Cx _ Ha); [left|right]; auto).
  destruct l as [|y rest].
  - apply num_add_nil in Hb as ->. rewrite Rplus_0_r. cbn [run_add forallb]. split; auto.
    rewrite andb_true_r. auto.
  - assert (D' : deep2 (y :: rest)) by (intros z Hz; apply D; now right).
    destruct (IH ltac:(discriminate) D' W ND b Hb) as [O I].
    assert (J : forallb (integral i) (x :: y :: rest) = true -> isint a /\ isint b).
    { cbn [forallb] in *. intros T. apply andb_true_iff in T as [T1 T2]. split; auto. }
    split; [|intros T; destruct (J T); apply isint_plus; auto].
    assert (Y : rest = [] -> num g y b).
    { intros ->. apply num_add_cons in Hb as (u & v & Hu & Hv & ->). apply num_add_nil in Hv as ->. now rewrite Rplus_0_r. }
    assert (Wy : wf y = true) by (cbn in W; apply andb_true_iff in W; tauto).
    assert (NDy : no_int_div i y = true) by (cbn in ND; apply andb_true_iff in ND; tauto).
    rewrite run_add_cons.
    assert (NY : (exists rs, y :: rest = [Fn NMul (CV (-1) :: rs)]) \/ (forall rs, y :: rest <> [Fn NMul (CV (-1) :: rs)])).
    { destruct rest; [|right; discriminate]. destruct (neg_dec y) as [[rs ->]|Ny]; [left; eauto|right; intros rs E; injection E as E; eapply Ny; eauto]. }
    destruct (neg_dec x) as [[ls ->]|Nx]; destruct NY as [[rs E]|Ny].
    + injection E as -> ->. cbn [run_add_step].
      pose proof (neg_mul_parts' ls _ _ D (or_introl eq_refl) Wx NDx Ha) as A.
      pose proof (neg_mul_parts' rs _ _ D' (or_introl eq_refl) Wy NDy (Y eq_refl)) as B.
      eapply lift1_ok; [eapply lift2_ok; [exact A|exact B|]|].
      * apply arith_ok. intros T. destruct (J T). apply isint_plus; apply isint_opp; auto.
      * replace (- (- a + - b)) with (a + b) by lra. apply arith_ok. intros T. destruct (J T). apply isint_plus; auto.
    + pose proof (neg_mul_parts' ls _ _ D (or_introl eq_refl) Wx NDx Ha) as A.
      rewrite run_add_step_1 by auto. eapply lift2_ok; [exact O|exact A|]. replace (b - - a) with (a + b) by lra.
      apply arith_ok. intros T. destruct (J T). apply isint_plus; auto.
    + injection E as -> ->. pose proof (neg_mul_parts' rs _ _ D' (or_introl eq_refl) Wy NDy (Y eq_refl)) as B.
      rewrite run_add_step_2 by auto. eapply lift2_ok; [exact Rx|exact B|]. replace (a - - b) with (a + b) by lra.
      apply arith_ok. intros T. destruct (J T). apply isint_plus; auto.
    + rewrite run_add_step_3 by auto. eapply lift2_ok; [exact Rx|exact O|]. apply arith_ok. intros T. destruct (J T). apply isint_plus; auto.
Qed.
End Lists.
(** ** Main theorem *)
Local Open Scope N_scope.
Lemma wrap_lt x : wrap x < 2 ^ 64.
Proof. apply N.mod_lt. discriminate. Qed.
Lemma lt_testbit x : (forall n, 64 <= n -> N.testbit x n = false) -> x < 2 ^ 64.
Proof.
  intros H. destruct (N.eq_dec x 0) as [->|N]; [reflexivity|].
  destruct (N.lt_ge_cases x (2 ^ 64)) as [L|L]; auto. exfalso.
  pose proof (N.log2_le_mono _ _ L) as M. rewrite N.log2_pow2 in M by lia.
  pose proof (N.bit_log2 x N) as B. rewrite H in B; [discriminate|exact M].
Qed.
Lemma testbit_lt x n : x < 2 ^ 64 -> 64 <= n -> N.testbit x n = false.
Proof.
  intros H L. destruct (N.eq_dec x 0) as [->|N]; [apply N.bits_0|]. apply N.bits_above_log2.
  apply N.lt_le_trans with 64; auto. apply N.log2_lt_pow2; [lia|auto].
Qed.
Lemma land_lt x y : x < 2 ^ 64 -> N.land x y < 2 ^ 64.
Proof. intros H. apply lt_testbit. intros n L. rewrite N.land_spec, testbit_lt; auto. Qed.
Lemma lor_lt x y : x < 2 ^ 64 -> y < 2 ^ 64 -> N.lor x y < 2 ^ 64.
Proof. intros H H'. apply lt_testbit. intros n L. rewrite N.lor_spec, !testbit_lt; auto. Qed.
Lemma lxor_lt x y : x < 2 ^ 64 -> y < 2 ^ 64 -> N.lxor x y < 2 ^ 64.
Proof. intros H H'. apply lt_testbit. intros n L. rewrite N.lxor_spec, !testbit_lt; auto. Qed.
Local Close Scope N_scope.

Lemma sem_bits_lt i g : typed i g -> forall e b, wf e = true -> sem g e = Some (VB b) -> (b < 2 ^ 64)%N.
Proof.
  intros [_ TB]. induction e as [| | | | | | | | | |f l IH] using expr_ind'; intros v W H; cbn in H; try discriminate.
  - destruct (ev g _ _); discriminate.
  - injection H as <-. cbn in W. now apply N.ltb_lt.
  - destruct (eb g _ _) eqn:E; [|discriminate]. injection H as <-. eauto.
  - assert (A : forall x, In x l -> forall b, wf x = true -> sem g x = Some (VB b) -> (b < 2 ^ 64)%N) by (exact (proj1 (Forall_forall _ _) IH)).
    assert (WA : f <> NPow -> forallb wf l = true). { destruct f; cbn [wf] in W; auto; try congruence; apply andb_true_iff in W; tauto. }
    destruct f; try specialize (WA ltac:(discriminate));
      try (destruct l as [|x l]; cbn [sem map fn_sem vsum vprod fold_right] in H; [discriminate|]; unfold vadd at 1, vmul at 1 in H;
        destruct (sem g x) as [[| |]|]; try discriminate; destruct (fold_right _ _ _) as [[| |]|]; discriminate).
    all: try (cbn in H; unfold vsum, vprod in H; destruct l as [|x0 [|x1 [|x2 [|]]]]; cbn in H; try discriminate;
      repeat match type of H with context [match ?s with _ => _ end] => destruct s; try discriminate end; fail).
    all: destruct l as [|x0 [|x1 [|x2 [|]]]]; cbn in H; try discriminate;
      try (unfold vadd, vmul in H; repeat match type of H with context [match ?s with _ => _ end] => destruct s; try discriminate end; discriminate).
    all: cbn [forallb] in WA; rewrite ?andb_true_iff in WA.
    + destruct (sem g x0) as [[|a|]|]; try discriminate; destruct (sem g x1) as [[k| |]|]; try discriminate.
      destruct (Zof k); [|discriminate]. destruct (_ && _)%bool; [|discriminate]. injection H as <-. apply wrap_lt.
    + destruct (sem g x0) as [[|a|]|]; try discriminate. injection H as <-. apply wrap_lt.
    + destruct (sem g x0) as [[|a|]|]; try discriminate. injection H as <-. apply wrap_lt.
    + unfold bitop in H. destruct (sem g x0) as [[a|a|]|] eqn:E0; try discriminate; destruct (sem g x1) as [[b|b|]|] eqn:E1; try discriminate.
      * destruct (Zof a); [|discriminate]; destruct (Zof b); discriminate.
      * injection H as <-. apply land_lt. eapply (A x0); cbn; auto; tauto.
    + unfold bitop in H. destruct (sem g x0) as [[a|a|]|] eqn:E0; try discriminate; destruct (sem g x1) as [[b|b|]|] eqn:E1; try discriminate.
      * destruct (Zof a); [|discriminate]; destruct (Zof b); discriminate.
      * injection H as <-. apply lor_lt; [eapply (A x0)|eapply (A x1)]; cbn; auto; tauto.
    + unfold bitop in H. destruct (sem g x0) as [[a|a|]|] eqn:E0; try discriminate; destruct (sem g x1) as [[b|b|]|] eqn:E1; try discriminate.
      * destruct (Zof a); [|discriminate]; destruct (Zof b); discriminate.
      * injection H as <-. apply lxor_lt; [eapply (A x0)|eapply (A x1)]; cbn; auto; tauto.
    + destruct (sem g x0) as [[| |[]]|]; try discriminate; [eapply (A x1)|eapply (A x2)]; cbn; auto; tauto.
    + destruct (sem g x0) as [[| |]|]; try discriminate; destruct (sem g x1) as [[| |]|]; try discriminate.
      destruct (rpow _ _); discriminate.
Qed.

Lemma changes_swaps n l r : changes n l r = swaps_count_fuel n l r.
Proof. revert l. induction n as [|n IH]; intros; cbn; [reflexivity|]. rewrite IH. reflexivity. Qed.
Lemma odd_of_nat n : N.odd (N.of_nat n) = Nat.odd n.
Proof.
  induction n as [|n IH]; [reflexivity|]. rewrite Nat2N.inj_succ, N.odd_succ, Nat.odd_succ.
  rewrite <- N.negb_odd, <- Nat.negb_odd, IH. reflexivity.
Qed.
Lemma run_sign_ok a b : (a < 2 ^ 64)%N -> (b < 2 ^ 64)%N -> run_sign a b = sign_of a b.
Proof.
  intros Ha Hb. unfold run_sign, sign_of. rewrite changes_swaps.
  change (swaps_count_fuel 65 (N.shiftr a 1) b) with (swaps_count (N.shiftr a 1) b).
  rewrite swaps_count_correct, odd_of_nat by auto. reflexivity.
Qed.

Definition okv (x : res) (v : val) : Prop := x = Val v \/ x = Overflow.

Lemma cbrt_rpow a v : rpow a (/ 3) = Some v -> cbrt a = v.
Proof.
  intros H. unfold cbrt. destruct (Rlt_dec 0 a) as [L|L].
  - rewrite rpow_pos in H by auto. now injection H.
  - destruct (Req_EM_T a 0) as [->|N].
    + apply rpow_zero_inv in H. symmetry; tauto.
    + apply rpow_neg_inv in H as (k & E & _); [|lra]. exfalso.
      assert (IZR (3 * k) = 1) by (rewrite mult_IZR, <- E; lra). apply eq_IZR in H. lia.
Qed.
Lemma sqrt_rpow a v : rpow a (/ 2) = Some v -> 0 <= a /\ sqrt a = v.
Proof.
  intros H. destruct (Rtotal_order a 0) as [L|[->|L]].
  - apply rpow_neg_inv in H as (k & E & _); auto. exfalso.
    assert (IZR (2 * k) = 1) by (rewrite mult_IZR, <- E; lra). apply eq_IZR in H. lia.
  - apply rpow_zero_inv in H. split; [lra|]. rewrite sqrt_0. symmetry; tauto.
  - rewrite rpow_pos in H by auto. injection H as <-. split; [lra|]. symmetry. apply Rpower_sqrt. auto.
Qed.
Lemma rpow_3 a : rpow a 3 = Some (a * a * a).
Proof. pose proof (rpow_plus a 2 1 _ _ (rpow_2 a) (rpow_1 a)) as H. rewrite <- H. f_equal; lra. Qed.
Lemma rpow_4 a : rpow a 4 = Some (a * a * (a * a)).
Proof. pose proof (rpow_plus a 2 2 _ _ (rpow_2 a) (rpow_2 a)) as H. rewrite <- H. f_equal; try lra. Qed.

Inductive kind_spec : expr -> pow_kind -> Prop :=
| KInv : kind_spec (CV (-1)) PInv
| KSq : kind_spec (CV 2) PSquare
| KCu : kind_spec (CV 3) PCube
| KFo : kind_spec (CV 4) PFourth
| KSqrt : kind_spec (Fn NPow [CV 2; CV (-1)]) PSqrt
| KCbrt : kind_spec (Fn NPow [CV 3; CV (-1)]) PCbrt
| KGen e : kind_spec e PGeneric.
Lemma kind_of_spec e : kind_spec e (kind_of e).
Proof.
  assert (G : (forall z, e <> CV z) -> kind_of e =
    if expr_eqb e (Fn NPow [CV 2; CV (-1)]) then PSqrt else if expr_eqb e (Fn NPow [CV 3; CV (-1)]) then PCbrt else PGeneric).
  { destruct e; try reflexivity. intros H. exfalso. eapply H. reflexivity. }
  assert (G' : (forall z, e <> CV z) -> kind_spec e (kind_of e)).
  { intros N. rewrite G by exact N. clear G.
    destruct (expr_eqb e (Fn NPow [CV 2; CV (-1)])) eqn:E; [apply expr_eqb_eq in E; subst; constructor|].
    destruct (expr_eqb e (Fn NPow [CV 3; CV (-1)])) eqn:E'; [apply expr_eqb_eq in E'; subst; constructor|constructor]. }
  clear G. destruct e as [z| | | | | | | | | |]; try (apply G'; discriminate). clear G'. unfold kind_of.
  destruct (Z.eqb_spec z (-1)) as [->|]; [constructor|]. destruct (Z.eqb_spec z 2) as [->|]; [constructor|].
  destruct (Z.eqb_spec z 3) as [->|]; [constructor|]. destruct (Z.eqb_spec z 4) as [->|]; constructor.
Qed.

Ltac fn_args C0 C1 H :=
  match type of H with context [bitop] => unfold bitop in H | _ => idtac end;
  match type of H with
  | context [sem ?g ?x0] =>
    destruct (sem g x0) as [[?|?|?]|]; try discriminate H;
    first [ (destruct (C0 _ eq_refl) as [R0|R0]; try rewrite R0; try (right; reflexivity))
          | idtac ]
  end;
  try match type of H with
  | context [sem ?g ?x0] =>
    destruct (sem g x0) as [[?|?|?]|]; try discriminate H;
    first [ (destruct (C1 _ eq_refl) as [R1|R1]; try rewrite R1; try (right; reflexivity))
          | idtac ]
  end.

Lemma isint_abs a : isint a -> isint (Rabs a).
Proof. intros [k ->]. exists (Z.abs k). now rewrite abs_IZR. Qed.
Lemma isint_sign a b : isint (sign_of a b).
Proof. unfold sign_of. destruct (Nat.odd _); [exists (-1)%Z|exists 1%Z]; reflexivity. Qed.
Ltac zofs H := repeat match type of H with context [Zof ?a] => destruct (Zof a) eqn:?; [|discriminate H] end.
Ltac fin H :=
  cbn [lift1 fp1];
  repeat match type of H with
  | context [Rlt_dec ?a ?b] => destruct (Rlt_dec a b); [|discriminate H]
  | context [if Req_EM_T ?a ?b then None else _] => destruct (Req_EM_T a b); [discriminate H|]
  | context [Zof ?a] => destruct (Zof a) eqn:?; [|discriminate H]
  | context [if ?b then _ else None] => destruct b eqn:?; [|discriminate H]
  end;
  try injection H as <-;
  first
     [ (left; reflexivity)
     | (left; rewrite run_sign_ok; auto; fail)
     | (left; rewrite ones_correct; auto; fail)
     | apply isint_sign | apply isint_IZR | (apply isint_abs; auto; fail)
     | (cbn [lift1]; apply arith_ok; intros; apply isint_abs; auto; fail)
     | (left; unfold bit2, bitop; repeat match goal with E : Zof _ = _ |- _ => rewrite E end; reflexivity) ].

Lemma run_correct_n i g : typed i g -> forall n e, (esize e < n)%nat -> correct i g e.
Proof.
  intros T. pose proof T as [TV TB]. induction n as [|n IHn]; intros e L; [lia|].
  destruct e as [z|t k| |b|t k| |b|b|pg b|c b|f l]; intros W ND;
    try (split; [intros v H; discriminate|intros r H; discriminate]).
  - split; [intros v H; injection H as <-; left; reflexivity|]. intros r H _. apply num_cv_inv in H as ->. exists z. reflexivity.
  - split.
    + intros v H. cbn in *. destruct (ev g t k); [|discriminate]. injection H as <-. left; reflexivity.
    + intros r H I. unfold num in H. cbn in *. destruct (ev g t k) eqn:E; [|discriminate]. injection H as <-. eauto.
  - split; [intros v H; injection H as <-; left; reflexivity|]. intros r H. discriminate.
  - split.
    + intros v H. cbn in *. destruct (eb g t k); [|discriminate]. injection H as <-. left; reflexivity.
    + intros r H I. discriminate.
  - split; [intros v H; injection H as <-; left; reflexivity|]. intros r H. discriminate.
  - assert (IH : forall x, In x l -> correct i g x) by (intros x Hx; apply IHn; pose proof (esize_in f l x Hx); lia).
    assert (ND' : forallb (no_int_div i) l = true). { destruct f; cbn [no_int_div] in ND; auto. apply andb_true_iff in ND; tauto. }
    assert (D1 : deep i g l).
    { intros x Hx. split; auto. intros f' l' -> y Hy. apply IHn. pose proof (esize_in f l _ Hx). pose proof (esize_in f' l' _ Hy). lia. }
    assert (D2 : deep2 i g l).
    { intros x Hx. split; auto. intros f' l' -> y Hy. split.
      - apply (proj2 (D1 _ Hx) _ _ eq_refl y Hy).
      - intros f'' l'' -> z Hz. apply IHn.
        pose proof (esize_in f l _ Hx). pose proof (esize_in f' l' _ Hy). pose proof (esize_in f'' l'' _ Hz). lia. }
    assert (WA : f <> NPow -> forallb wf l = true). { destruct f; cbn [wf] in W; auto; try congruence; apply andb_true_iff in W; tauto. }
    assert (SB : forall x, In x l -> wf x = true -> forall b, sem g x = Some (VB b) -> (b < 2 ^ 64)%N).
    { intros x Hx Wx b. eapply sem_bits_lt; eauto. }
    (* one function at a time *)
    destruct f; try specialize (WA ltac:(discriminate)).
    25: { destruct l as [|x l]; [discriminate|].
      split.
      - intros v H. assert (exists r, v = VN r) as [r ->].
        { cbn [sem map fn_sem vsum fold_right] in H. unfold vadd at 1 in H. destruct (sem g x) as [[| |]|]; try discriminate.
          destruct (fold_right _ _ _) as [[| |]|]; try discriminate. injection H as <-. eauto. }
        apply (run_add_ok i g (x :: l) ltac:(discriminate) D2 WA ND' r H).
      - intros r H. apply (run_add_ok i g (x :: l) ltac:(discriminate) D2 WA ND' r H). }
    24: { destruct l as [|x l]; [discriminate|].
      assert (NL : no_div_last (integral i) (x :: l) = true) by (cbn [no_int_div] in ND; apply andb_true_iff in ND; tauto).
      split.
      - intros v H. assert (exists r, v = VN r) as [r ->].
        { cbn [sem map fn_sem vprod fold_right] in H. unfold vmul at 1 in H. destruct (sem g x) as [[| |]|]; try discriminate.
          destruct (fold_right _ _ _) as [[| |]|]; try discriminate. injection H as <-. eauto. }
        apply (run_mul_ok i g (x :: l) ltac:(discriminate) D1 WA ND' NL r H).
      - intros r H. apply (run_mul_ok i g (x :: l) ltac:(discriminate) D1 WA ND' NL r H). }
    23: { destruct l as [|x [|y [|]]]; try discriminate. destruct (wf_pow_inv _ _ W) as (_ & Wx & Wy).
      cbn [forallb] in ND'. rewrite !andb_true_iff in ND'.
      destruct (IH x ltac:(cbn; auto) Wx) as [Cx Ix]; [tauto|]. destruct (IH y ltac:(cbn; auto) Wy) as [Cy Iy]; [tauto|].
      assert (K : forall r, num g (Fn NPow [x; y]) r -> okR (run i g (Fn NPow [x; y])) r /\ (integral i (Fn NPow [x; y]) = true -> isint r)).
      { intros r H. apply num_pow in H as (a & b & Ha & Hb & P). cbn [run integral].
        pose proof (Cx _ Ha : okR _ _) as Ra. pose proof (Cy _ Hb : okR _ _) as Rb.
        destruct (kind_of_spec y); try (apply num_cv_inv in Hb as ->); try (apply num_inv_cv in Hb as [_ ->]).
        - apply rpow_m1 in P as [NZ ->]. split; [|discriminate]. eapply lift1_ok; [exact Ra|].
          cbv beta. destruct (Req_EM_T a 0); [contradiction|]. left. unfold Rdiv. now rewrite Rmult_1_l.
        - rewrite rpow_2 in P. injection P as <-. split; [|intros I; apply isint_mult; auto].
          eapply lift1_ok; [exact Ra|]. apply arith_ok. intros I; apply isint_mult; auto.
        - rewrite rpow_3 in P. injection P as <-. split; [|intros I; repeat apply isint_mult; auto].
          eapply lift1_ok; [exact Ra|]. apply arith_ok. intros I; repeat apply isint_mult; auto.
        - rewrite rpow_4 in P. injection P as <-. split; [|intros I; repeat apply isint_mult; auto].
          eapply lift1_ok; [eapply lift1_ok; [exact Ra|]|]; apply arith_ok; intros I; repeat apply isint_mult; auto.
        - apply sqrt_rpow in P as [P1 <-]. split; [|discriminate]. eapply lift1_ok; [exact Ra|]. cbv beta.
          destruct (Rle_dec 0 a); [left; reflexivity|contradiction].
        - apply cbrt_rpow in P as <-. split; [|discriminate]. eapply lift1_ok; [exact Ra|]. left; reflexivity.
        - split; [|discriminate]. eapply lift2_ok; [exact Ra|exact Rb|]. cbv beta. rewrite P. left; reflexivity. }
      split; [|intros r H; apply K; auto]. intros v H.
      assert (exists r, v = VN r) as [r ->].
      { cbn in H. destruct (sem g x) as [[| |]|]; try discriminate; destruct (sem g y) as [[| |]|]; try discriminate.
        destruct (rpow _ _); [|discriminate]. injection H as <-. eauto. }
      apply K. exact H. }
    all: destruct l as [|x0 [|x1 [|x2 [|]]]]; try (split; [intros v H; discriminate H|intros r H; discriminate H]).
    all: cbn [forallb] in WA, ND'; rewrite ?andb_true_iff in WA, ND'.
    all: try (destruct (IH x0 ltac:(cbn; auto)) as [C0 I0]; [tauto|tauto|]).
    all: try (destruct (IH x1 ltac:(cbn; auto)) as [C1 I1]; [tauto|tauto|]).
    all: try (destruct (IH x2 ltac:(cbn; auto)) as [C2 I2]; [tauto|tauto|]).
    all: try pose proof (SB x0 ltac:(cbn; auto) ltac:(tauto)) as B0.
    all: try pose proof (SB x1 ltac:(cbn; auto) ltac:(tauto)) as B1.
    all: clear IH D1 D2 SB W ND WA ND' IHn TV TB.
    all: split; [intros v H|intros r H I; try discriminate I]; unfold num in *; cbn [sem map fn_sem] in H; cbn [run integral] in *.
    all: try (lazymatch type of L with context [NIf] => idtac end;
      destruct (sem g x0) as [[| |c]|]; try discriminate H; destruct (C0 _ eq_refl) as [R0|R0]; rewrite ?R0;
      try (apply andb_true_iff in I as [Ia Ib]); destruct c; auto; fail).
    all: fn_args C0 C1 H.
    all: try fin H.
    all: match goal with b : bool |- _ => destruct b; first [discriminate H|injection H as <-; auto; fail] end.
Qed.

Theorem run_correct i g e v : typed i g -> wf e = true -> no_int_div i e = true -> sem g e = Some v ->
  run i g e = Val v \/ run i g e = Overflow.
Proof. intros T W ND H. exact (proj1 (run_correct_n i g T _ e (Nat.lt_succ_diag_r _) W ND) v H). Qed.

