(** C39: run-time basis blades that do not meet another of the same declared grades. *)
From Coq Require Import NArith ZArith List Bool Reals Lra Lia.
From Verif Require Import Bits SpecBits Expr Sem Wf SpecMv SpecAlg Simp Comp Mapping Ops EvalC SpecEval Lazy SpecLazy Api Extra SpecApi SpecExtra.
From Verif Require Import MvBase.
Import ListNotations.
Local Open Scope R_scope.

(** ** C39: sums with a run-time blade *)
(** The objects x b with a stored coefficient and a run-time blade b of the declared grade (a mask of grades: 2
    for a vector, 4 for a bivector), and a stored scalar. *)
Definition dyn_blade (grades : N) (x : R) (b : N) : cliff := {| cexpr := Comp SV (DBlade grades SBits); cint := false; cvals := [x]; cbits := [b] |}.
Definition stored_scalar (x : R) : cliff := {| cexpr := Comp SV (CBlade 0); cint := false; cvals := [x]; cbits := [] |}.
Ltac go := lazy -[Rmult Rplus Ropp IZR Rinv Rdiv Req_EM_T Rle_dec Rlt_dec].
Lemma dyn_value grades x b : grade_declared (DBlade grades SBits) b -> (b < 2 ^ 64)%N -> value (dyn_blade grades x b) [(x, b)].
Proof. intros G L g. exists [(x, b)]. split; [|intros j; reflexivity]. exists ([], []). split; [|reflexivity]. exists ([], [b]). split; [reflexivity|]. split; [split; [reflexivity|exact L]|intros _; exact G]. Qed.

(** A run-time vector b1 and a run-time bivector b2, of any dimension: negation, multiples, and sums with a scalar,
    in both orders and with one another, compile and have the value of the operation. *)
Theorem C39_partial : forall F k x y b1 b2, grade_of b1 = 1%N -> grade_of b2 = 2%N -> (b1 < 2 ^ 64)%N -> (b2 < 2 ^ 64)%N ->
  let v := dyn_blade 2 x b1 in let w := dyn_blade 4 y b2 in
  value v [(x, b1)] /\ value w [(y, b2)] /\
  (exists r, neg (40 + F) (40 + k) v = Some (Done r) /\ value r [(- x, b1)]) /\
  (exists r, gp_scalar (40 + F) (40 + k) (stored_scalar y) v = Some (Done r) /\ value r [(y * x, b1)]) /\
  (exists r, plus (40 + F) (40 + k) (stored_scalar y) v = Some (Done r) /\ value r [(y, 0%N); (x, b1)]) /\
  (exists r, plus (40 + F) (40 + k) v (stored_scalar y) = Some (Done r) /\ value r [(y, 0%N); (x, b1)]) /\
  (exists r, plus (40 + F) (40 + k) v w = Some (Done r) /\ value r [(x, b1); (y, b2)]) /\
  (exists r, plus (40 + F) (40 + k) w v = Some (Done r) /\ value r [(x, b1); (y, b2)]).
Proof.
  intros F k x y b1 b2 G1 G2 L1 L2 v w.
  assert (D1 : grade_declared (DBlade 2 SBits) b1) by (unfold grade_declared; rewrite G1; reflexivity).
  assert (D2 : grade_declared (DBlade 4 SBits) b2) by (unfold grade_declared; rewrite G2; reflexivity).
  split; [exact (dyn_value 2 x b1 D1 L1)|]. split; [exact (dyn_value 4 y b2 D2 L2)|].
  split; [eexists; split; [go; reflexivity|exact (dyn_value 2 (- x) b1 D1 L1)]|].
  split; [eexists; split; [go; reflexivity|exact (dyn_value 2 (y * x) b1 D1 L1)]|].
  assert (S : value {| cexpr := Fn NAdd [Comp SV (CBlade 0); Comp SV (DBlade 2 SBits)]; cint := false; cvals := [y; x]; cbits := [b1] |} [(y, 0%N); (x, b1)]).
  { intros g. exists [(y, 0%N); (x, b1)]. split; [|intros j; reflexivity]. exists ([x], [b1]). split; [exists ([x], [b1]); split; [reflexivity|]; split; [split; reflexivity|intros _; exact Logic.I]|].
    exists ([], []). split; [|reflexivity]. exists ([], [b1]). split; [reflexivity|]. split; [split; [reflexivity|exact L1]|intros _; exact D1]. }
  split; [eexists; split; [go; reflexivity|exact S]|]. split; [eexists; split; [go; reflexivity|exact S]|].
  assert (T : value {| cexpr := Fn NAdd [Comp SV (DBlade 2 SBits); Comp SV (DBlade 4 SBits)]; cint := false; cvals := [x; y]; cbits := [b1; b2] |} [(x, b1); (y, b2)]).
  { intros g. exists [(x, b1); (y, b2)]. split; [|intros j; reflexivity]. exists ([y], [b2]). split; [exists ([y], [b1; b2]); split; [reflexivity|]; split; [split; [reflexivity|exact L1]|intros _; exact D1]|].
    exists ([], []). split; [|reflexivity]. exists ([], [b2]). split; [reflexivity|]. split; [split; [reflexivity|exact L2]|intros _; exact D2]. }
  split; [eexists; split; [go; reflexivity|exact T]|]. eexists; split; [go; reflexivity|exact T].
Qed.
Print Assumptions C39_partial.
(** e3 and e1^e2 of any space. *)
Example C39_case : grade_of 4 = 1%N /\ grade_of 3 = 2%N.
Proof. split; reflexivity. Qed.
