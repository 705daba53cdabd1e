(** C12, C13: sums of multivectors. *)
From Coq Require Import NArith ZArith List Bool Reals Lra Lia Sorting.Sorted.
From Verif Require Import Bits SpecBits Expr Sem Wf SpecMv SpecAlg SpecOrder Simp Comp Mapping Ops MvBase CompProofs OrderProofs AlgProofs.
Import ListNotations.
Local Open Scope R_scope.

(** x e1 + y e1^e2 and 3 e1 + e2, with x, y run-time values. *)
Definition ex_a : expr := Fn NAdd [Comp (GV 1 0) (CBlade 1); Comp (GV 1 1) (CBlade 3)].
Definition ex_b : expr := Fn NAdd [Comp (CV 3) (CBlade 1); Comp (CV 1) (CBlade 2)].
Definition ex_g (x y : R) : env := {| ev := fun t i => if N.eqb t 1 then (if N.eqb i 0 then Some x else Some y) else None; eb := fun _ _ => None |}.
Lemma ex_a_value x y : den (ex_g x y) ex_a [(x, 1%N); (y, 3%N)].
Proof. repeat (constructor; [split; [reflexivity|split; [reflexivity|intros _; exact Logic.I]]|]). constructor. Qed.
Lemma ex_b_value x y : den (ex_g x y) ex_b [(3, 1%N); (1, 2%N)].
Proof. repeat (constructor; [split; [reflexivity|split; [reflexivity|intros _; exact Logic.I]]|]). constructor. Qed.

(** C12 *)
Theorem C12_sum : forall F k a b r, mv_ok a = true -> mv_ok b = true -> cadd F k a b = Some r ->
  mv_ok r = true /\
  (forall g ma mb, den g a ma -> den g b mb -> exists mr, den g r mr /\ forall i, coef mr i = coef ma i + coef mb i).
Proof.
  intros F k a b r Wa Wb E. destruct (cadd_ok F k a b r Wa Wb E) as [W V]. split; [exact W|]. intros g ma mb A B.
  destruct (V g ma mb A B) as (m & M1 & M2 & _). exists m. split; [exact M1|]. intros i. rewrite M2. apply coef_app.
Qed.
Print Assumptions C12_sum.
Theorem C12_negation : forall F k a r, mv_ok a = true -> neg_t F k a = Some r ->
  mv_ok r = true /\
  (forall g ma, den g a ma -> in_space 63 ma -> exists mr, den g r mr /\ forall i, coef mr i = - coef ma i).
Proof.
  intros F k a r Wa E. destruct (neg_value F k a r Wa E) as [W V]. split; [exact W|]. intros g ma A I.
  destruct (V g (ex_intro _ ma (conj A I))) as [_ V']. destruct (V' ma (den_value _ _ _ A)) as (m & M1 & M2). exists m. split; [exact M1|].
  intros i. rewrite M2, coef_scale. ring.
Qed.
Print Assumptions C12_negation.
Theorem C12_difference : forall F k a b r, mv_ok a = true -> mv_ok b = true -> sub_t F k a b = Some r ->
  mv_ok r = true /\
  (forall g ma mb, den g a ma -> den g b mb -> in_space 63 mb -> exists mr, den g r mr /\ forall i, coef mr i = coef ma i - coef mb i).
Proof.
  intros F k a b r Wa Wb E. destruct (sub_value F k a b r Wa Wb E) as [W V]. split; [exact W|]. intros g ma mb A B I.
  destruct (V g (ex_intro _ mb (conj B I)) ma mb (den_value _ _ _ A) (den_value _ _ _ B)) as (m & M1 & M2). exists m. split; [exact M1|].
  intros i. rewrite M2, coef_app, coef_scale. ring.
Qed.
Print Assumptions C12_difference.
Example C12_case : (* (x e1 + y e12) - (3 e1 + e2) = (x - 3) e1 - e2 + y e12 *)
  mv_ok ex_a = true /\ mv_ok ex_b = true /\ (forall x y, den (ex_g x y) ex_a [(x, 1%N); (y, 3%N)]) /\
  sub_t 40 40 ex_a ex_b = Some (Fn NAdd [Comp (Fn NAdd [CV (-3); GV 1 0]) (CBlade 1); Comp (CV (-1)) (CBlade 2); Comp (GV 1 1) (CBlade 3)]) /\
  cadd 40 40 ex_a ex_b = Some (Fn NAdd [Comp (Fn NAdd [CV 3; GV 1 0]) (CBlade 1); Comp (CV 1) (CBlade 2); Comp (GV 1 1) (CBlade 3)]).
Proof. split; [reflexivity|]. split; [reflexivity|]. split; [apply ex_a_value|]. split; vm_compute; reflexivity. Qed.

(** C13: the sum of two canonically ordered multivectors is canonically ordered, and lists exactly the
    blades of the operands, except those whose two coefficients were added to the constant 0. *)
Theorem C13_order : forall F n A B r, canonical A -> canonical B -> cadd F n (mv_of A) (mv_of B) = Some r ->
  exists M, r = mv_of M /\ canonical M /\
    forall k, listed M k =
      match listed A k, listed B k with
      | None, d => d
      | Some c, None => Some c
      | Some c, Some d => match eng F OAdd c d with Some (CV 0) => None | s => s end
      end.
Proof.
  intros F n A B r CA CB E. destruct (proj1 (cadd_canonical F n A B r CA CB E)) as (M & H1 & H2 & H3). exists M. split; [exact H1|]. split; [exact H2|].
  intros k. rewrite H3. destruct (listed A k), (listed B k); reflexivity.
Qed.
Print Assumptions C13_order.
(** Both operand orders list the same blades in the same order, provided a + b and b + a are
    simplified to the constant 0 together for the coefficients of the common blades. *)
Theorem C13_commutes_partial : forall F n A B r r', canonical A -> canonical B ->
  cadd F n (mv_of A) (mv_of B) = Some r -> cadd F n (mv_of B) (mv_of A) = Some r' ->
  (forall k c d, listed A k = Some c -> listed B k = Some d -> (eng F OAdd c d = Some (CV 0) <-> eng F OAdd d c = Some (CV 0))) ->
  exists M M', r = mv_of M /\ r' = mv_of M' /\ canonical M /\ canonical M' /\ map fst M = map fst M'.
Proof. exact commutes_blades. Qed.
Print Assumptions C13_commutes_partial.
Example C13_case : (* x e1 - y e12 plus y e12 + e3: e12 cancels; both orders list e1, e3 *)
  let A := [(1%N, GV 1 0); (3%N, Fn NMul [CV (-1); GV 1 1])] in
  let B := [(4%N, CV 1); (3%N, GV 1 1)] in
  canonical A /\ canonical B /\
  cadd 40 40 (mv_of A) (mv_of B) = Some (mv_of [(1%N, GV 1 0); (4%N, CV 1)]) /\
  cadd 40 40 (mv_of B) (mv_of A) = Some (mv_of [(1%N, GV 1 0); (4%N, CV 1)]).
Proof.
  assert (L : forall k l, (if (grade_of k <? grade_of l)%N then true else (grade_of k =? grade_of l)%N && (k <? l)%N) = true -> blade_lt k l).
  { intros k l. unfold blade_lt. destruct (N.ltb_spec (grade_of k) (grade_of l)); [auto|]. rewrite andb_true_iff, N.eqb_eq, N.ltb_lt. tauto. }
  cbv zeta. split; [|split; [|split; vm_compute; reflexivity]].
  - split; cbn [map fst snd]; repeat constructor; try discriminate; apply L; reflexivity.
  - split; cbn [map fst snd]; repeat constructor; try discriminate; apply L; reflexivity.
Qed.
