(** C11: integral results are numbers of 64 bits; C43: cube roots of any number. *)
From Coq Require Import NArith ZArith List Bool Reals Lra Lia.
From Verif Require Import Bits SpecBits Expr Sem Wf SpecMv SpecAlg Simp Comp Mapping Ops EvalC SpecEval Lazy SpecLazy Api Extra SpecApi SpecExtra Norm SpecNorm.
From Verif Require Import ExprBase MvBase RPowProofs.
Import ListNotations.
Local Open Scope R_scope.

(** ** C11: the range of integral results *)
(** The numbers of std::int64_t. *)
Definition int64 (r : R) : Prop := exists z, r = IZR z /\ (- 2 ^ 63 <= z < 2 ^ 63)%Z.
(** Expressions made of constants of that type, run-time values, sums, products, powers, absolute values, signs of
    blade products and selections. *)
Fixpoint arithmetic (e : expr) : bool :=
  match e with
  | CV z => Z.leb (- 2 ^ 63) z && Z.ltb z (2 ^ 63)
  | GV _ _ => true
  | Fn (NAdd | NMul | NPow | NAbs) l => forallb arithmetic l
  | Fn NSign _ => true
  | Fn NIf [_; x; y] => arithmetic x && arithmetic y
  | _ => false
  end.
Lemma arith_64 r s : arith true r = Val (VN s) -> int64 s.
Proof.
  unfold arith. destruct (Zof r) as [z|] eqn:E; [|discriminate]. destruct (Z.leb (- 2 ^ 63) z && Z.ltb z (2 ^ 63))%bool eqn:B; [|discriminate]. intros H. injection H as <-.
  apply andb_prop in B as [B1 B2]. apply Z.leb_le in B1. apply Z.ltb_lt in B2. exists z. split; [exact (Zof_Some r z E)|lia].
Qed.
Lemma lift1_64 f a s : (forall x, f x = Val (VN s) -> int64 s) -> lift1 f a = Val (VN s) -> int64 s.
Proof. intros H. unfold lift1. destruct a as [[x| |]| |]; try discriminate. apply H. Qed.
Lemma lift2_64 f a b s : (forall x y, f x y = Val (VN s) -> int64 s) -> lift2 f a b = Val (VN s) -> int64 s.
Proof. intros H. unfold lift2. destruct a as [[x| |]| |], b as [[y| |]| |]; try discriminate. apply H. Qed.
Lemma zero_64 : int64 0. Proof. exists 0%Z. split; [reflexivity|lia]. Qed.
Lemma divide_64 a b s : divide true true a b = Val (VN s) -> int64 s.
Proof. unfold divide. destruct (Req_EM_T b 0); [discriminate|]. cbn [andb]. destruct (Zof a), (Zof b); try discriminate. apply arith_64. Qed.
Lemma sign_64 a b : int64 (run_sign a b).
Proof. unfold run_sign. destruct (_ : bool); [exists (-1)%Z|exists 1%Z]; split; try reflexivity; lia. Qed.

Section Range.
Variables (i : ityping) (g : env).
Hypothesis HG : forall t k x, i t k = true -> ev g t k = Some x -> int64 x.
Notation Q e := (forall s, arithmetic e = true -> integral i e = true -> run i g e = Val (VN s) -> int64 s).
Lemma mul_64 l : Forall (fun e => Q e) l -> forallb arithmetic l = true -> int_mul (integral i) l = true -> forall s, run_mul (integral i) (run i g) l = Val (VN s) -> int64 s.
Proof.
  intros HQ A I s. destruct l as [|x rest]; [cbn; intros H; injection H as <-; exact zero_64|].
  cbn [forallb] in A. apply andb_prop in A as [Ax Ar]. pose proof (Forall_inv HQ) as Hx. cbn beta in Hx. cbn [run_mul]. fold (run_mul (integral i) (run i g)).
  destruct rest as [|y rest]; [cbn in I |- *; apply Hx; assumption|].
  assert (Gen : (int_mul (integral i) (x :: y :: rest) = integral i x && int_mul (integral i) (y :: rest))%bool ->
    (if is_m1 x then lift1 (fun v => arith (int_mul (integral i) (y :: rest)) (- v)) (run_mul (integral i) (run i g) (y :: rest)) else lift2 (fun a b => arith (int_mul (integral i) (x :: y :: rest)) (a * b)) (run i g x) (run_mul (integral i) (run i g) (y :: rest))) = Val (VN s) -> int64 s).
  { intros E. rewrite E in I |- *. pose proof I as I'. apply andb_prop in I' as [I1 I2]. rewrite I2, I1. cbn [andb]. destruct (is_m1 x); [apply lift1_64|apply lift2_64]; intros; eapply arith_64; eassumption. }
  unfold run_mul_step.
  destruct y as [| | | | | | | | | |f0 l0]; try (apply Gen; reflexivity). destruct f0; try (apply Gen; reflexivity). destruct l0 as [|r [|p [|]]]; try (apply Gen; reflexivity). all: destruct p as [z0| | | | | | | | | |]; try (apply Gen; reflexivity). all: destruct z0 as [|q|q]; try (apply Gen; reflexivity). all: destruct q; try (apply Gen; reflexivity). all: destruct rest; try (apply Gen; reflexivity).
  cbn [int_mul] in I. destruct (is_m1 x); [discriminate I|]. apply andb_prop in I as [I1 I2]. rewrite I1, I2. apply lift2_64. intros a b. apply divide_64.
Qed.
Lemma add_64 l : Forall (fun e => Q e) l -> forallb arithmetic l = true -> forallb (integral i) l = true -> forall s, run_add (integral i) (run i g) l = Val (VN s) -> int64 s.
Proof.
  intros HQ A I s. destruct l as [|x rest]; [cbn; intros H; injection H as <-; exact zero_64|].
  cbn [forallb] in A. apply andb_prop in A as [Ax Ar]. pose proof (Forall_inv HQ) as Hx. cbn beta in Hx. cbn [run_add]. fold (run_add (integral i) (run i g)). unfold run_add_step. rewrite I.
  destruct rest as [|y rest]; [cbn [forallb] in I; apply andb_prop in I as [I _]; apply Hx; assumption|].
  repeat match goal with |- match ?m with _ => _ end = _ -> _ => destruct m end; first [apply lift1_64|apply lift2_64]; intros; eapply arith_64; eassumption.
Qed.
Lemma run_64 e : Q e.
Proof.
  induction e as [z|t k| | | | | | | |  |f l IH] using expr_ind'; intros s A I H; try discriminate A; try discriminate I.
  - cbn in A, H. injection H as <-. apply andb_prop in A as [B1 B2]. apply Z.leb_le in B1. apply Z.ltb_lt in B2. exists z. split; [reflexivity|lia].
  - cbn in I, H. destruct (ev g t k) as [r|] eqn:E; [|discriminate H]. injection H as <-. exact (HG t k r I E).
  - destruct f; try discriminate A; try discriminate I.
    + destruct l as [|x [|y [|]]]; try discriminate H. cbn [run] in H. destruct (run i g x) as [[| |]| |]; try discriminate H; destruct (run i g y) as [[| |]| |]; try discriminate H. injection H as <-. apply sign_64.
    + destruct l as [|t [|x [|y [|]]]]; try discriminate I. cbn [integral arithmetic] in I, A. cbn [run] in H. apply andb_prop in A as [A1 A2]. apply andb_prop in I as [I1 I2].
      pose proof (Forall_inv (Forall_inv_tail IH)) as Hx. pose proof (Forall_inv (Forall_inv_tail (Forall_inv_tail IH))) as Hy. destruct (run i g t) as [[| |[|]]| |]; try discriminate H; [exact (Hx s A1 I1 H)|exact (Hy s A2 I2 H)].
    + destruct l as [|x [|]]; try discriminate I. cbn [integral] in I. cbn [run] in H. rewrite I in H. revert H. apply lift1_64. intros a. apply arith_64.
    + destruct l as [|x [|y [|]]]; try discriminate I. cbn [integral] in I. cbn [run] in H. destruct (kind_of y); try discriminate I; rewrite I in H; revert H; apply lift1_64; intros a; apply arith_64.
    + exact (mul_64 l IH A I s H).
    + exact (add_64 l IH A I s H).
Qed.
End Range.
(** An expression of integral type whose run-time values are 64-bit numbers evaluates to a 64-bit number, if its
    evaluation does not overflow. *)
Theorem C11_range : forall i g e s, (forall t k x, i t k = true -> ev g t k = Some x -> int64 x) ->
  arithmetic e = true -> integral i e = true -> run i g e = Val (VN s) -> int64 s.
Proof. intros i g e s HG. exact (run_64 i g HG e s). Qed.
Print Assumptions C11_range.
(** x * x with the integer x = 2^31 is a number of 64 bits, with x = 2^32 it overflows. *)
Definition square_at (z : Z) : res := run (fun _ _ => true) {| ev := fun _ _ => Some (IZR z); eb := fun _ _ => None |} (Fn NMul [GV 1 0; GV 1 0]).
Example C11_range_case : square_at (2 ^ 31) = Val (VN (IZR (2 ^ 62))) /\ square_at (2 ^ 32) = Overflow.
Proof.
  split; unfold square_at; cbn [run run_mul run_mul_step is_m1 is_cv int_mul integral andb ev]; unfold lift2, arith; rewrite <- mult_IZR, Zof_IZR; reflexivity.
Qed.

(** ** C43: cbrt *)
(** cbrt of a stored scalar, of any sign, is the number whose cube it is. *)
Theorem C43_cbrt : forall F k x, exists r w, root (40 + F) (40 + k) 3 {| cexpr := Comp SV (CBlade 0); cint := false; cvals := [x]; cbits := [] |} = Some (Done r) /\ value r [(w, 0%N)] /\ w * w * w = x.
Proof.
  assert (P : forall x, 0 < x -> Rpower x (/ 3) * Rpower x (/ 3) * Rpower x (/ 3) = x).
  { intros x H. rewrite <- !Rpower_plus. replace (/ 3 + / 3 + / 3) with 1 by lra. apply Rpower_1. exact H. }
  intros F k x. eexists. exists (cbrt x). split; [lazy -[Rmult Rplus Ropp IZR Rinv Rdiv Req_EM_T Rle_dec Rlt_dec Rpower]; reflexivity|]. split.
  - intros g. exists [(cbrt x, 0%N)]. split; [|intros j; reflexivity]. exists ([], []). split; [|reflexivity]. exists ([], []). split; [reflexivity|]. split; [split; reflexivity|intros _; exact Logic.I].
  - unfold cbrt. destruct (Rlt_dec 0 x) as [H|H]; [exact (P x H)|]. destruct (Req_EM_T x 0) as [->|N]; [ring|]. pose proof (P (- x) ltac:(lra)) as Q. lra.
Qed.
Print Assumptions C43_cbrt.
