(** C07-C11, C38, C41, C42: the compile-time simplifier and the evaluator of coefficients. *)
From Coq Require Import NArith ZArith List Bool Reals Lra Lia.
From Verif Require Import Bits SpecBits Expr Sem Wf SpecRat SpecAbs Simp EvalC SpecEval.
From Verif Require Import RPowProofs SimpProofs SimpProofs2 SimpMono EvalCProofs RatProofs RatValue SmartProofs AbsProofs.
Import ListNotations.
Local Open Scope R_scope.

(** Concrete operands used by the examples: x = first input's value 0, and so on. *)
Definition ex_x : expr := GV 1 0.
Definition ex_y : expr := GV 2 0.
Definition ex_env (x y : R) : env := {| ev := fun t _ => if N.eqb t 1 then Some x else if N.eqb t 2 then Some y else None; eb := fun _ _ => None |}.

(** C07 *)
Theorem C07_sum : forall fuel a b r, wf a = true -> wf b = true -> eng fuel OAdd a b = Some r ->
  wf r = true /\ (forall g va vb, num g a va -> num g b vb -> num g r (va + vb)).
Proof. exact (fun fuel => s_add _ (eng_ok fuel)). Qed.
Print Assumptions C07_sum.
Example C07_case : (* (3/2 x + 5 y) + 1/2 x = 5 y + 2 x, written with x first *)
  let a := Fn NAdd [Fn NMul [frac_c 3 2; ex_x]; Fn NMul [CV 5; ex_y]] in
  let b := Fn NMul [inv_c 2; ex_x] in
  wf a = true /\ wf b = true /\ eng 40 OAdd a b = Some (Fn NAdd [Fn NMul [CV 2; ex_x]; Fn NMul [CV 5; ex_y]]).
Proof. repeat split; vm_compute; reflexivity. Qed.

(** C08 *)
Theorem C08_product : forall fuel a b r, wf a = true -> wf b = true -> eng fuel OMul a b = Some r ->
  wf r = true /\ (forall g va vb, num g a va -> num g b vb -> num g r (va * vb)).
Proof. exact (fun fuel => s_mul _ (eng_ok fuel)). Qed.
Print Assumptions C08_product.
Example C08_case : (* (x + y) * (x - y) = x^2 - y^2 *)
  let a := Fn NAdd [ex_x; ex_y] in
  let b := Fn NAdd [ex_x; Fn NMul [CV (-1); ex_y]] in
  wf a = true /\ wf b = true /\
  eng 40 OMul a b = Some (Fn NAdd [Fn NPow [ex_x; CV 2]; Fn NMul [CV (-1); Fn NPow [ex_y; CV 2]]]).
Proof. repeat split; vm_compute; reflexivity. Qed.

(** C09: holds when the base is neither a product nor a power, or the exponent is
    an integer, or the factors of the base are non-negative... *)
Theorem C09_power_partial : forall fuel a b r, wf a = true -> wf b = true -> eng fuel OPow a b = Some r ->
  wf r = true /\
  (forall g va vb v, num g a va -> num g b vb -> rpow va vb = Some v ->
     atomic a = true \/ isint vb \/ nonneg_factors g a -> num g r v).
Proof. exact (fun fuel => s_pow _ (eng_ok fuel)). Qed.
Print Assumptions C09_power_partial.
Example C09_case : (* (x y)^-2 = x^-2 y^-2 *)
  eng 40 OPow (Fn NMul [ex_x; ex_y]) (CV (-2)) = Some (Fn NMul [Fn NPow [ex_x; CV (-2)]; Fn NPow [ex_y; CV (-2)]]).
Proof. vm_compute; reflexivity. Qed.
(** ... and fails without these conditions: sqrt(x^2) is simplified to x, which
    is -1 at x = -1. *)
Theorem C09_power_refuted : exists fuel a b r g va vb v w,
  wf a = true /\ wf b = true /\ eng fuel OPow a b = Some r /\
  num g a va /\ num g b vb /\ rpow va vb = Some v /\ num g r w /\ w <> v.
Proof.
  exists 40%nat, (Fn NPow [ex_x; CV 2]), half, ex_x, (ex_env (-1) 0), 1, (/ 2), 1, (-1).
  assert (S : rpow (-1) 2 = Some 1) by (rewrite (rpow_int (-1) 2) by lra; f_equal; change (powerRZ (-1) 2) with ((-1) * ((-1) * 1)); ring).
  assert (Hh : num (ex_env (-1) 0) half (/ 2)).
  { apply num_pow. exists 2, (-1). split; [apply num_cv|]. split; [apply num_cv|]. apply rpow_m1'. lra. }
  split; [reflexivity|]. split; [reflexivity|]. split; [vm_compute; reflexivity|]. split; [|split; [exact Hh|split; [|split; [reflexivity|]]]].
  - apply num_pow. exists (-1), 2. split; [reflexivity|]. split; [apply num_cv|exact S].
  - rewrite rpow_pos by lra. f_equal. unfold Rpower. rewrite ln_1, Rmult_0_r. apply exp_0.
  - lra.
Qed.
Print Assumptions C09_power_refuted.

(** C10: exactness of compile-time fractions. *)
Theorem C10_exact : forall fuel g a b va vb, lowest a -> lowest b -> num g a va -> num g b vb ->
  (forall r, eng fuel OAdd a b = Some r -> num g r (va + vb)) /\
  (forall r, eng fuel OMul a b = Some r -> num g r (va * vb)).
Proof. exact rational_exact. Qed.
Print Assumptions C10_exact.
Theorem C10_value : forall g n d, (d <> 0)%Z -> num g (frac_c n d) (IZR n / IZR d) /\ num g (inv_c d) (1 / IZR d).
Proof. exact fraction_value. Qed.
Print Assumptions C10_value.
(** Products of fractions in lowest terms are in lowest terms... *)
Theorem C10_product_lowest : forall fuel a b r, lowest a -> lowest b -> eng fuel OMul a b = Some r -> lowest r.
Proof. exact (fun fuel a b r A B => l_mul _ (eng_low fuel) a b r A B). Qed.
Print Assumptions C10_product_lowest.
(** ... and so are sums, unless an integer is added to a fraction with numerator
    other than one, which the library leaves as a sum. *)
Theorem C10_sum_lowest_partial : forall fuel a b r, lowest a -> lowest b -> ~ int_plus_frac a b ->
  eng fuel OAdd a b = Some r -> lowest r.
Proof. exact add_low. Qed.
Print Assumptions C10_sum_lowest_partial.
Theorem C10_sum_lowest_refuted : exists fuel a b r, lowest a /\ lowest b /\ eng fuel OAdd a b = Some r /\ ~ lowest r.
Proof.
  exists 40%nat, (CV 1), (frac_c 3 2), (Fn NAdd [CV 1; frac_c 3 2]). repeat split.
  - left. eauto.
  - right. right. exists 3%Z, 2%Z. repeat split; (reflexivity || lia).
  - intros [(n & H)|[(d & _ & H)|(n & d & _ & _ & _ & _ & H)]]; discriminate H.
Qed.
Print Assumptions C10_sum_lowest_refuted.
Example C10_case : lowest (frac_c 7 12) /\ lowest (frac_c (-9) 14) /\
  eng 40 OMul (frac_c 7 12) (frac_c (-9) 14) = Some (frac_c (-3) 8) /\
  eng 40 OAdd (frac_c 7 12) (frac_c (-9) 14) = Some (frac_c (-5) 84).
Proof.
  split; [|split; [|split; vm_compute; reflexivity]]; right; right; do 2 eexists; repeat split; try reflexivity; lia.
Qed.

(** C11: the evaluator computes the denoted value, up to integer overflow, when no
    quotient has two integral operands... *)
Theorem C11_eval_partial : forall i g e v, typed i g -> wf e = true -> no_int_div i e = true ->
  sem g e = Some v -> run i g e = Val v \/ run i g e = Overflow.
Proof. exact run_correct. Qed.
Print Assumptions C11_eval_partial.
(** ... and integer quotients are truncated: the constant 3/2 evaluates to 1. *)
Theorem C11_eval_refuted : exists i g e v w, typed i g /\ wf e = true /\ lowest e /\ num g e v /\ run i g e = Val (VN w) /\ w <> v.
Proof.
  exists (fun _ _ => false), (ex_env 0 0), (frac_c 3 2), (3 / 2), 1. repeat split; try discriminate.
  - right. right. exists 3%Z, 2%Z. repeat split; lia.
  - exact (proj1 (C10_value _ 3 2 ltac:(discriminate))).
  - unfold run, frac_c, inv_c, run_mul, run_mul_step. cbn [is_m1 is_cv Z.eqb lift2 integral andb]. unfold divide, arith.
    destruct (Req_EM_T 2 0) as [E|_]; [lra|]. cbn [andb]. rewrite !Zof_IZR. reflexivity.
  - lra.
Qed.
Print Assumptions C11_eval_refuted.
Example C11_case : forall x, (* x / 2 - x^2 *)
  let e := Fn NAdd [Fn NMul [ex_x; inv_c 2]; Fn NMul [CV (-1); Fn NPow [ex_x; CV 2]]] in
  x <> 0 -> typed (fun _ _ => false) (ex_env x 0) /\ wf e = true /\ no_int_div (fun _ _ => false) e = true /\
  num (ex_env x 0) e (x / 2 - x * x).
Proof.
  intros x e X. repeat split; try discriminate.
  apply num_add_cons. exists (x / 2), (- (x * x)). split; [|split; [|ring]].
  - apply num_mul_cons. exists x, (1 / 2). split; [reflexivity|]. split; [|unfold Rdiv; ring].
    apply num_mul_cons. exists (1 / 2), 1. split; [exact (proj2 (C10_value _ 1 2 ltac:(discriminate)))|]. split; [apply num_mul_nil; reflexivity|ring].
  - apply num_add_cons. exists (- (x * x)), 0. split; [|split; [apply num_add_nil; reflexivity|ring]].
    apply num_mul_cons. exists (-1), (x * x). split; [apply num_cv|]. split; [|ring].
    apply num_mul_cons. exists (x * x), 1. split; [|split; [apply num_mul_nil; reflexivity|ring]].
    apply num_pow. exists x, 2. split; [reflexivity|]. split; [apply num_cv|].
    rewrite (rpow_int x 2 X). f_equal. change (powerRZ x 2) with (x * (x * 1)). ring.
Qed.

(** C42: the simplified expression does not depend on the recursion depth. *)
Theorem C42_deterministic : forall n m o a b x y, eng n o a b = Some x -> eng m o a b = Some y -> x = y.
Proof. exact eng_fun. Qed.
Print Assumptions C42_deterministic.

(** C38 *)
Theorem C38_abs_partial : forall fuel v r, wf v = true -> abs_covered v -> mk_abs fuel v = Some r ->
  forall g x, num g v x -> num g r (Rabs x).
Proof. exact abs_ok. Qed.
Print Assumptions C38_abs_partial.
Theorem C38_abs_refuted : exists fuel v r g x w, wf v = true /\ mk_abs fuel v = Some r /\ num g v x /\ num g r w /\ w <> Rabs x.
Proof.
  exists 40%nat, (Fn NExp [CV 1]), (Fn NMul [CV (-1); Fn NExp [CV 1]]), (ex_env 0 0), (exp 1), (- exp 1).
  split; [reflexivity|]. split; [vm_compute; reflexivity|]. split; [reflexivity|]. split.
  - apply num_mul_cons. exists (-1), (exp 1). split; [apply num_cv|]. split; [|ring].
    apply num_mul_cons. exists (exp 1), 1. split; [reflexivity|]. split; [reflexivity|ring].
  - pose proof (exp_pos 1). rewrite Rabs_pos_eq; lra.
Qed.
Print Assumptions C38_abs_refuted.
(** Also for stored values: every power is taken as even when its exponent is, although x^y need not be
    an even number for an even y; so |x^(y^2)| is simplified to x^(y^2), which is -1 for x = -1 and y = 1. *)
Theorem C38_even_refuted : exists fuel v r g x w, wf v = true /\ is_constant v = false /\ mk_abs fuel v = Some r /\ num g v x /\ num g r w /\ w <> Rabs x.
Proof.
  assert (P : rpow (-1) (1 * (1 * 1)) = Some (-1)) by (rewrite !Rmult_1_l; apply rpow_1).
  assert (Q : rpow 1 2 = Some (1 * (1 * 1))) by (exact (rpow_int 1 2 R1_neq_R0)).
  assert (V : num (ex_env (-1) 1) (Fn NPow [ex_x; Fn NPow [ex_y; CV 2]]) (-1)).
  { unfold num. cbn [sem map fn_sem ex_x ex_y ex_env ev N.eqb Pos.eqb option_map]. change (rpow 1 (IZR 2)) with (rpow 1 2). rewrite Q. cbn [option_map fn_sem]. rewrite P. reflexivity. }
  exists 40%nat, (Fn NPow [ex_x; Fn NPow [ex_y; CV 2]]), (Fn NPow [ex_x; Fn NPow [ex_y; CV 2]]), (ex_env (-1) 1), (-1), (-1).
  split; [reflexivity|]. split; [reflexivity|]. split; [vm_compute; reflexivity|]. split; [exact V|]. split; [exact V|]. rewrite Rabs_left by lra. lra.
Qed.
Print Assumptions C38_even_refuted.
Example C38_case : abs_covered (frac_c (-3) 2) /\ mk_abs 40 (frac_c (-3) 2) = Some (frac_c 3 2) /\
  abs_covered (Fn NAdd [ex_x; ex_y]) /\ mk_abs 40 (Fn NAdd [ex_x; ex_y]) = Some (Fn NAbs [Fn NAdd [ex_x; ex_y]]).
Proof.
  repeat split; try (vm_compute; reflexivity).
  - right. left. right. right. exists (-3)%Z, 2%Z. repeat split; lia.
  - right. right. split; reflexivity.
Qed.

(** C41: the function types on bitsets, comparisons, selections, exp and log. *)
Theorem C41_sign : forall g l r v, wf l = true -> wf r = true ->
  sem g (Fn NSign [l; r]) = Some v -> sem g (mk_sign l r) = Some v.
Proof. exact sign_ok. Qed.
Print Assumptions C41_sign.
Theorem C41_count : forall g l v, wf l = true -> sem g (Fn NCount [l]) = Some v -> sem g (mk_count l) = Some v.
Proof. exact count_ok. Qed.
Print Assumptions C41_count.
Theorem C41_shift : forall i g l r t v, typed i g -> wf l = true -> mk_shl l r = Some t ->
  sem g (Fn NShl [l; r]) = Some v -> sem g t = Some v.
Proof. exact (fun i g l r t v T W M => shl_ok g l r t v M W (fun b => sem_bits_lt i g T l b W)). Qed.
Print Assumptions C41_shift.
Theorem C41_negation : forall i g l v, typed i g -> wf l = true ->
  sem g (Fn NUminus [l]) = Some v -> sem g (mk_uminus l) = Some v.
Proof. exact (fun i g l v T W => uminus_ok g l v W (sem_bits_lt i g T)). Qed.
Print Assumptions C41_negation.
Theorem C41_bitwise : forall g l r v,
  (sem g (Fn NDec [l]) = Some v -> sem g (mk_dec l) = Some v) /\
  (sem g (Fn NAnd [l; r]) = Some v -> sem g (mk_and l r) = Some v) /\
  (sem g (Fn NOr [l; r]) = Some v -> sem g (mk_or l r) = Some v) /\
  (sem g (Fn NXor [l; r]) = Some v -> sem g (mk_xor l r) = Some v).
Proof. exact (fun g l r v => conj (dec_ok g l v) (conj (and_ok g l r v) (conj (or_ok g l r v) (xor_ok g l r v)))). Qed.
Print Assumptions C41_bitwise.
Theorem C41_logic : forall g t l r v,
  (sem g (Fn NLe [l; r]) = Some v -> sem g (mk_le l r) = Some v) /\
  (sem g (Fn NLand [l; r]) = Some v -> sem g (mk_land l r) = Some v) /\
  (sem g (Fn NLor [l; r]) = Some v -> sem g (mk_lor l r) = Some v) /\
  (sem g (Fn NIf [t; l; r]) = Some v -> sem g (mk_if t l r) = Some v).
Proof. exact (fun g t l r v => conj (le_ok g l r v) (conj (land_ok g l r v) (conj (lor_ok g l r v) (if_ok g t l r v)))). Qed.
Print Assumptions C41_logic.
Theorem C41_exp_log : forall g x v,
  (sem g (Fn NExp [x]) = Some v -> sem g (mk_exp x) = Some v) /\
  (sem g (Fn NLog [x]) = Some v -> sem g (mk_log x) = Some v).
Proof. exact (fun g x v => conj (exp_ok g x v) (log_ok g x v)). Qed.
Print Assumptions C41_exp_log.
(** Equality is decided by comparing types: right for integers, bitsets and
    non-constant operands... *)
Theorem C41_equal_partial : forall g l r v,
  (is_constant l = false \/ (exists z, l = CV z) \/ exists b, l = CBits b) \/ l = r ->
  (is_constant r = false \/ (exists z, r = CV z) \/ exists b, r = CBits b) \/ l = r ->
  sem g (Fn NEqual [l; r]) = Some v -> sem g (mk_equal l r) = Some v.
Proof.
  assert (P : forall e, is_constant e = false \/ (exists z, e = CV z) \/ (exists b, e = CBits b) -> plain_const e = true).
  { intros e [H|[[z ->]|[b ->]]]; [|reflexivity|reflexivity]. destruct e; cbn [plain_const]; try reflexivity; rewrite H; reflexivity. }
  intros g l r v Hl Hr. apply equal_ok; [destruct Hl; auto|destruct Hr; auto].
Qed.
Print Assumptions C41_equal_partial.
(** ... wrong for 1 + 3/2 and 5/2, which are different types. *)
Theorem C41_equal_refuted : exists fuel a b l r g, eng fuel OAdd a b = Some l /\ lowest a /\ lowest b /\ lowest r /\
  sem g (Fn NEqual [l; r]) = Some (VT true) /\ mk_equal l r = CBool false.
Proof.
  exists 40%nat, (CV 1), (frac_c 3 2), (Fn NAdd [CV 1; frac_c 3 2]), (frac_c 5 2), (ex_env 0 0).
  repeat split.
  - left. eauto.
  - right. right. exists 3%Z, 2%Z. repeat split; lia.
  - right. right. exists 5%Z, 2%Z. repeat split; lia.
  - assert (A : num (ex_env 0 0) (Fn NAdd [CV 1; frac_c 3 2]) (5 / 2)).
    { apply num_add_cons. exists 1, (3 / 2). split; [apply num_cv|]. split; [|lra].
      apply num_add_cons. exists (3 / 2), 0. split; [exact (proj1 (C10_value _ 3 2 ltac:(discriminate)))|]. split; [apply num_add_nil; reflexivity|ring]. }
    assert (B : num (ex_env 0 0) (frac_c 5 2) (5 / 2)) by exact (proj1 (C10_value _ 5 2 ltac:(discriminate))).
    unfold num in A, B. cbn [sem map fn_sem] in A |- *. change (Fn NMul [CV 5; inv_c 2]) with (frac_c 5 2).
    change (sem (ex_env 0 0) (Fn NAdd [CV 1; frac_c 3 2])) with (vsum [sem (ex_env 0 0) (CV 1); sem (ex_env 0 0) (frac_c 3 2)]).
    rewrite B. cbn [sem] in *. rewrite A. destruct (Req_EM_T (5 / 2) (5 / 2)); [reflexivity|contradiction].
Qed.
Print Assumptions C41_equal_refuted.
Example C41_case : mk_sign (CBits 6) (CBits 3) = CV (-1) /\ mk_count (CBits 7) = CV 3 /\ mk_shl (CBits 1) (CV 5) = Some (CBits 32) /\
  mk_if (Fn NLe [ex_x; ex_y]) ex_x ex_x = ex_x /\ mk_exp (Fn NLog [ex_x]) = ex_x.
Proof. vm_compute. repeat split. Qed.
