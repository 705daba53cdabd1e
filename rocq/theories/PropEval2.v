(** C11: evaluation without integer arithmetic does not overflow. *)
From Coq Require Import NArith ZArith List Bool Reals Lra Lia.
From Verif Require Import Bits SpecBits Expr Sem Wf SpecMv SpecAlg Simp EvalC SpecEval.
From Verif Require Import ExprBase PropSimp.
Import ListNotations.
Local Open Scope R_scope.

(** ** C11: no overflow *)
(** No sum, product, square, cube, fourth power and absolute value is computed with integers: the last two arguments of
    each sum and product are not both integral (i says which run-time values are). *)
Definition last_two (P : expr -> expr -> bool) : list expr -> bool :=
  fix go l := match l with [] => true | x :: rest => match rest with [y] => P x y | _ => go rest end end.
Fixpoint floating (i : ityping) (e : expr) : bool :=
  match e with
  | Fn NAdd l => forallb (floating i) l && last_two (fun x y => negb (integral i x && integral i y)) l
  | Fn NMul l => forallb (floating i) l && last_two (fun x y => negb (integral i (Fn NMul [x; y]))) l
  | Fn NPow [x; y] => floating i x && floating i y && (match kind_of y with PSquare | PCube | PFourth => negb (integral i x) | _ => true end)
  | Fn NAbs [x] => floating i x && negb (integral i x)
  | Fn _ l => forallb (floating i) l
  | _ => true
  end.
Lemma arith_f r : arith false r <> Overflow. Proof. discriminate. Qed.
Lemma lift1_f f a : a <> Overflow -> (forall x, f x <> Overflow) -> lift1 f a <> Overflow.
Proof. intros A H. unfold lift1. destruct a as [[| |]| |]; try discriminate; [apply H|contradiction]. Qed.
Lemma lift2_f f a b : a <> Overflow -> b <> Overflow -> (forall x y, f x y <> Overflow) -> lift2 f a b <> Overflow.
Proof. intros A B H. unfold lift2. destruct a as [[| |]| |]; try contradiction; destruct b as [[| |]| |]; try contradiction; try discriminate. apply H. Qed.
Lemma divide_f ia ib a b : (ia && ib)%bool = false -> divide ia ib a b <> Overflow.
Proof. intros H. unfold divide. rewrite H. destruct (Req_EM_T b 0); discriminate. Qed.

Lemma int_mul_tail ty x y z l : int_mul ty (x :: y :: z :: l) = (ty x && int_mul ty (y :: z :: l))%bool.
Proof.
  change (int_mul ty (x :: y :: z :: l)) with (match y :: z :: l with [] => ty x | [Fn NPow [r; CV (-1)]] => if is_m1 x then false else ty x && ty r | _ => ty x && int_mul ty (y :: z :: l) end)%bool.
  generalize (int_mul ty (y :: z :: l)). intros w. generalize (ty x). intros v.
  destruct y as [| | | | | | | | | |f l0]; try reflexivity. destruct f; try reflexivity. destruct l0 as [|r [|p [|]]]; try reflexivity; destruct p as [q| | | | | | | | | |]; try reflexivity; destruct q as [|q|q]; try reflexivity; destruct q; reflexivity.
Qed.
Section Float.
Variables (i : ityping) (g : env).
Notation ok e := (run i g e <> Overflow).
Notation mul_last l := (last_two (fun x y => negb (integral i (Fn NMul [x; y]))) l = true).
Notation add_last l := (last_two (fun x y => negb (integral i x && integral i y)) l = true).
Lemma mul_last_int l : mul_last l -> (2 <= length l)%nat -> int_mul (integral i) l = false.
Proof.
  induction l as [|x l IH]; intros M L; [cbn in L; lia|]. destruct l as [|y l]; [cbn in L; lia|]. destruct l as [|z l].
  - apply negb_true_iff in M. exact M.
  - rewrite int_mul_tail, (IH M) by (cbn; lia). apply andb_false_r.
Qed.
Lemma mul_f l : Forall (fun e => ok e) l -> mul_last l -> run_mul (integral i) (run i g) l <> Overflow.
Proof.
  induction l as [|x l IH]; intros H M; [discriminate|]. pose proof (Forall_inv H) as Hx. pose proof (Forall_inv_tail H) as Hl. cbn beta in Hx.
  cbn [run_mul]. fold (run_mul (integral i) (run i g)). unfold run_mul_step. destruct l as [|y l]; [exact Hx|].
  pose proof (mul_last_int _ M ltac:(cbn; lia)) as I.
  assert (Ml : mul_last (y :: l)) by (destruct l; [reflexivity|exact M]). specialize (IH Hl Ml).
  assert (Gen : (int_mul (integral i) (x :: y :: l) = integral i x && int_mul (integral i) (y :: l))%bool ->
    (if is_m1 x then lift1 (fun v => arith (int_mul (integral i) (y :: l)) (- v)) (run_mul (integral i) (run i g) (y :: l)) else lift2 (fun a b => arith (int_mul (integral i) (x :: y :: l)) (a * b)) (run i g x) (run_mul (integral i) (run i g) (y :: l))) <> Overflow).
  { intros E. destruct (is_m1 x) eqn:N; [|rewrite I; apply lift2_f; [exact Hx|exact IH|intros; apply arith_f]].
    assert (Ex : integral i x = true) by (destruct x; try discriminate N; reflexivity). rewrite E, Ex in I. cbn [andb] in I. rewrite I. apply lift1_f; [exact IH|intros; apply arith_f]. }
  destruct y as [| | | | | | | | | |f0 l0]; try (apply Gen; reflexivity). destruct f0; try (apply Gen; reflexivity). destruct l0 as [|r [|p [|]]]; try (apply Gen; reflexivity).
  all: destruct p as [z0| | | | | | | | | |]; try (apply Gen; reflexivity). all: destruct z0 as [|q|q]; try (apply Gen; reflexivity). all: destruct q; try (apply Gen; reflexivity). all: destruct l; try (apply Gen; reflexivity).
  cbn [int_mul] in I. pose proof (Forall_inv Hl) as Hp. cbn beta in Hp. destruct (is_m1 x).
  - apply lift1_f; [exact Hp|intros v; cbn [integral kind_of Z.eqb]; apply arith_f].
  - apply lift2_f; [exact Hx| |intros; apply divide_f; exact I]. cbn [run kind_of Z.eqb] in Hp. intros E. rewrite E in Hp. apply Hp. reflexivity.
Qed.
(** The arguments after the factor -1 of a product. *)
Notation neg_ok e := (forall ls, e = Fn NMul (CV (-1) :: ls) -> run_mul (integral i) (run i g) ls <> Overflow).
Lemma add_f l : Forall (fun e => ok e /\ neg_ok e) l -> add_last l -> run_add (integral i) (run i g) l <> Overflow.
Proof.
  induction l as [|x l IH]; intros H M; [discriminate|]. pose proof (Forall_inv H) as [Hx Nx]. pose proof (Forall_inv_tail H) as Hl.
  cbn [run_add]. fold (run_add (integral i) (run i g)). unfold run_add_step. destruct l as [|y l]; [exact Hx|].
  assert (Ml : add_last (y :: l)) by (destruct l; [reflexivity|exact M]). specialize (IH Hl Ml).
  assert (I : forallb (integral i) (x :: y :: l) = false).
  { clear - M. revert x y M. induction l as [|z l IH]; intros x y M.
    - apply negb_true_iff in M. cbn [forallb]. rewrite andb_true_r. exact M.
    - cbn [forallb]. specialize (IH y z M). cbn [forallb] in IH. rewrite IH. apply andb_false_r. }
  rewrite I. pose proof (Forall_inv Hl) as [Hy Ny].
  assert (A1 : forall a, a <> Overflow -> lift1 (fun v => arith false (- v)) a <> Overflow) by (intros; apply lift1_f; [assumption|intros; apply arith_f]).
  assert (A2 : forall a b, a <> Overflow -> b <> Overflow -> lift2 (fun a b => arith false (a + b)) a b <> Overflow) by (intros; apply lift2_f; [assumption|assumption|intros; apply arith_f]).
  assert (A3 : forall a b, a <> Overflow -> b <> Overflow -> lift2 (fun a b => arith false (a - b)) a b <> Overflow) by (intros; apply lift2_f; [assumption|assumption|intros; apply arith_f]).
  clear I M Ml H. repeat match goal with |- match ?m with _ => _ end <> _ => destruct m end; first [apply A1, A2|apply A2|apply A3]; first [assumption|apply Nx; reflexivity|apply Ny; reflexivity|exact IH|exact Hx].
Qed.
Lemma floats l : forallb (floating i) l = true -> Forall (fun e => floating i e = true -> ok e /\ neg_ok e) l -> Forall (fun e => ok e /\ neg_ok e) l.
Proof. intros A H. rewrite forallb_forall in A. rewrite Forall_forall in *. intros e E. exact (H e E (A e E)). Qed.
Lemma run_f e : floating i e = true -> ok e /\ neg_ok e.
Proof.
  induction e as [z|t k| |b|t k| |b|b|pg b IHb|c b IHc IHb|f l IH] using expr_ind'; intros A; try (split; [discriminate|intros ls E; discriminate E]).
  - split; [|intros ls E; discriminate E]. cbn [run]. destruct (ev g t k); discriminate.
  - split; [|intros ls E; discriminate E]. cbn [run]. destruct (eb g t k); discriminate.
  - assert (L : f = NPow \/ f = NAbs \/ (f <> NPow /\ f <> NAbs) /\ forallb (floating i) l = true).
    { destruct f; try (right; right; split; [split; discriminate|exact A]); [right; left; reflexivity|left; reflexivity| |]; right; right; (split; [split; discriminate|]); cbn [floating] in A; apply andb_prop in A as [A _]; exact A. }
    destruct L as [->|[->|[[NP NA] L]]].
    + split; [|intros ls E; discriminate E]. destruct l as [|x [|y [|]]]; try discriminate. cbn [floating] in A. apply andb_prop in A as [A K]. apply andb_prop in A as [Ax Ay].
      destruct (Forall_inv IH Ax) as [Hx _]. destruct (Forall_inv (Forall_inv_tail IH) Ay) as [Hy _]. cbn [run].
      destruct (kind_of y); try (apply negb_true_iff in K; rewrite K).
      * apply lift1_f; [exact Hx|]. intros v. destruct (Req_EM_T v 0); discriminate.
      * apply lift1_f; [exact Hx|]. intros v. apply arith_f.
      * apply lift1_f; [exact Hx|]. intros v. apply arith_f.
      * apply lift1_f; [apply lift1_f; [exact Hx|]|]; intros v; apply arith_f.
      * apply lift1_f; [exact Hx|]. intros v. destruct (Rle_dec 0 v); discriminate.
      * apply lift1_f; [exact Hx|]. intros v. discriminate.
      * apply lift2_f; [exact Hx|exact Hy|]. intros u v. destruct (rpow u v); discriminate.
    + split; [|intros ls E; discriminate E]. destruct l as [|x [|]]; try discriminate. cbn [floating] in A. apply andb_prop in A as [Ax K]. apply negb_true_iff in K. destruct (Forall_inv IH Ax) as [Hx _]. cbn [run]. rewrite K. apply lift1_f; [exact Hx|]. intros v. apply arith_f.
    + pose proof (floats l L IH) as H. split.
      * destruct f; try contradiction; try (cbn [floating] in A; apply andb_prop in A as [_ M]; first [exact (add_f l H M)|apply mul_f; [eapply Forall_impl; [|exact H]; intros e [He _]; exact He|exact M]]).
        all: destruct l as [|x [|y [|z [|]]]]; try discriminate; pose proof (proj1 (Forall_inv H)) as Hx; cbn beta in Hx; try (pose proof (proj1 (Forall_inv (Forall_inv_tail H))) as Hy; cbn beta in Hy); try (pose proof (proj1 (Forall_inv (Forall_inv_tail (Forall_inv_tail H)))) as Hz; cbn beta in Hz); cbn [run].
        all: try (apply lift1_f; [exact Hx|]; intros v; unfold fp1; first [discriminate|destruct (Rlt_dec 0 v); discriminate|destruct (Req_EM_T (cos v) 0); discriminate]).
        all: destruct (run i g x) as [[u|u|[|]]| |]; try contradiction; try discriminate; try exact Hy; try exact Hz.
        all: try (destruct (run i g y) as [[v|v|[|]]| |]; try contradiction; try discriminate).
        all: try (unfold bit2; match goal with |- match ?m with _ => _ end <> _ => destruct m; discriminate end).
        all: try (destruct (Zof v); [|discriminate]; match goal with |- (if ?m then _ else _) <> _ => destruct m; discriminate end).
      * intros ls E. injection E as -> ->. cbn [floating] in A. apply andb_prop in A as [_ M]. apply mul_f; [eapply Forall_impl; [|exact (Forall_inv_tail H)]; intros e [He _]; exact He|]. destruct ls as [|y [|z ls]]; [reflexivity|reflexivity|exact M].
Qed.
End Float.
(** An expression without integer arithmetic does not overflow; with C11_eval_partial, it evaluates to its value. *)
Theorem C11_no_overflow : forall i g e, floating i e = true -> run i g e <> Overflow.
Proof. intros i g e H. exact (proj1 (run_f i g e H)). Qed.
Theorem C11_eval_float_partial : forall i g e v, typed i g -> wf e = true -> no_int_div i e = true -> floating i e = true -> sem g e = Some v -> run i g e = Val v.
Proof. intros i g e v T W N L S. destruct (C11_eval_partial i g e v T W N S) as [E|E]; [exact E|]. destruct (C11_no_overflow i g e L E). Qed.
Print Assumptions C11_no_overflow.
Print Assumptions C11_eval_float_partial.
(** 3 x - x y / 2 + y^2 with floating-point x and y. *)
Example C11_float_case : let e := Fn NAdd [Fn NMul [CV 3; GV 1 0]; Fn NMul [CV (-1); GV 1 0; GV 1 1; Fn NPow [CV 2; CV (-1)]]; Fn NPow [GV 1 1; CV 2]] in
  floating (fun _ _ => false) e = true /\ no_int_div (fun _ _ => false) e = true /\ floating (fun _ _ => true) e = false.
Proof. repeat split. Qed.
