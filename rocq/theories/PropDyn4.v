(** C56: reversion, involution and conjugation of run-time basis blades of every grade. *)
From Coq Require Import NArith ZArith List Bool Reals Lra Lia.
From Verif Require Import Bits SpecBits BitsOnes Expr Sem Wf SpecMv SpecAlg SpecOrder SpecProd Simp Comp Mapping Ops EvalC SpecEval Lazy SpecLazy Api Extra Grade SpecApi SpecExtra MvBase EvalCProofs RPowProofs GradeProofs PropSimp PropProducts PropEval2 PropDyn PropDyn2.
Import ListNotations.
Local Open Scope R_scope.

Definition sign_coef (p r : N) : expr :=
  if N.eqb (N.land p (2 ^ r)) 0 then GV 1 0
  else Fn NIf [Fn NEqual [Fn NAnd [CBits p; Fn NShl [CBits 1; Fn NCount [GBits 1 0]]]; CBits 0]; GV 1 0; Fn NMul [CV (-1); GV 1 0]].
Definition typed_sign (F k : nat) (p r : N) : Prop :=
  match gum F k p (arg 1 (2 ^ r)) with
  | Some e => Some (e, eval_t F k 1 1 e)
  | None => None
  end = Some (Comp (sign_coef p r) (DBlade (2 ^ r) (GBits 1 0)), Some (Comp SV (DBlade (2 ^ r) SBits), [StV (sign_coef p r); StB (GBits 1 0)])).
Ltac eachs := unfold from; cbn [map seq N.of_nat Nat.sub]; repeat (apply Forall_cons; [unfold typed_sign; vm_compute; reflexivity|]); apply Forall_nil.
Lemma rev_types F k : Forall (typed_sign (40 + F) (40 + k) reverse_pattern) (from 1).
Proof. eachs. Qed.
Lemma inv_types F k : Forall (typed_sign (40 + F) (40 + k) involute_pattern) (from 1).
Proof. eachs. Qed.
Lemma conj_types F k : Forall (typed_sign (40 + F) (40 + k) conjugate_pattern) (from 1).
Proof. eachs. Qed.
Lemma args_types x b : Forall (fun r => arguments 0 [dyn_blade (2 ^ r) x b] = Some [arg 1 (2 ^ r)] /\ mv_ok (arg 1 (2 ^ r)) = true) (from 1).
Proof. unfold from; cbn [map seq N.of_nat Nat.sub]. repeat (apply Forall_cons; [split; reflexivity|]); apply Forall_nil. Qed.

Lemma sign_gives F k p r f x b : typed_sign F k p r -> In r (from 1) ->
  (forall e, gum F k p (arg 1 (2 ^ r)) = Some e -> is_image f (arg 1 (2 ^ r)) e) ->
  grade_of b = r -> (b < 2 ^ 63)%N ->
  gives (call F k (op1 (gum F k p)) [dyn_blade (2 ^ r) x b]) (linear f [(x, b)]).
Proof.
  intros T I Pr Gr Lb. set (v := dyn_blade (2 ^ r) x b). set (i := ctx_int 0 [v]). set (g := ctx_env 0 [v]).
  destruct (proj1 (Forall_forall _ _) (args_types x b) r I) as [Ar Wa]. fold v in Ar.
  assert (E : exists e, gum F k p (arg 1 (2 ^ r)) = Some e) by (unfold typed_sign in T; destruct (gum F k p (arg 1 (2 ^ r))); [eauto|discriminate]).
  destruct E as [e E]. unfold typed_sign in T. rewrite E in T. injection T as -> V.
  destruct (Pr _ E) as [Wr Pr'].
  assert (Ty : SpecEval.typed i g).
  { split.
    - intros t j z. unfold i, ctx_int. destruct (N.ltb 0 t) eqn:Lt; [|intros _; cbn; rewrite Lt; discriminate].
      cbn [ctx_env g ev]. rewrite Lt. destruct (N.to_nat (t - 0 - 1)) as [|[|]]; cbn; discriminate.
    - intros t j z. cbn [ctx_env g eb]. destruct (N.ltb 0 t); [|discriminate].
      destruct (N.to_nat (t - 0 - 1)) as [|[|]]; cbn; try discriminate; destruct (N.to_nat j) as [|[|]]; cbn; try discriminate; intros [= <-]; lia. }
  assert (G : N.testbit (2 ^ r) (grade_of b) = true) by (rewrite Gr; apply N.pow2_bits_true).
  assert (A1 : den g (arg 1 (2 ^ r)) [(x, b)]) by (exists (x, b); split; [split; [reflexivity|split; [reflexivity|intros _; exact G]]|reflexivity]).
  destruct (Pr' g [(x, b)] 63%N A1 ltac:(lia)) as (mr & Dr & Cr & Sr); [repeat constructor; exact Lb|].
  destruct Dr as ([z q] & (Dz & Dq & Dg) & ->). cbn [fst snd] in *.
  cbn [mv_ok comp_ok] in Wr. apply andb_prop in Wr as [Wr _]. apply andb_prop in Wr as [Wr _]. apply andb_prop in Wr as [Wc Wb].
  assert (Rc : run i g (sign_coef p r) = Val (VN z)).
  { apply C11_eval_float_partial; auto; unfold sign_coef; destruct (N.eqb _ 0); reflexivity. }
  cbn [dblade] in Dq. change (Some (VB b) = Some (VB q)) in Dq. injection Dq as <-.
  eexists. split.
  - unfold call. change (base_id [v]) with 0%N. rewrite Ar. cbn [op1]. rewrite E.
    unfold lazy_eval. change (stored_inputs [v]) with [v]. cbv beta iota zeta. change (base_id [v]) with 0%N.
    change (0 + 1)%N with 1%N. change (0 + N.of_nat (length [v]))%N with 1%N. rewrite V. cbn [run_stores].
    fold i. fold g. rewrite Rc. cbn. reflexivity.
  - intros g'. exists [(z, b)]. split; [|exact Cr]. cbn. exists ([], []). split; [|reflexivity]. exists ([], [b]). split; [reflexivity|]. split; [split; [reflexivity|change (2 ^ 64)%N with (2 * 2 ^ 63)%N; lia]|exact Dg].
Qed.

(** A run-time blade of any declared grade r from 1 to 63. *)
Theorem C56_signs_partial : forall F k r x b, (1 <= r)%N -> grade_of b = r -> (b < 2 ^ 63)%N ->
  let v := dyn_blade (2 ^ r) x b in
  gives (reverse (40 + F) (40 + k) v) (linear rev_blade [(x, b)]) /\
  gives (involute (40 + F) (40 + k) v) (linear inv_blade [(x, b)]) /\
  gives (conjugate (40 + F) (40 + k) v) (linear conj_blade [(x, b)]).
Proof.
  intros F k r x b R1 Gr Lb v.
  assert (I : In r (from 1)). { apply in_from; [lia|]. rewrite <- Gr. apply grade_le; [lia|exact Lb]. }
  assert (W := proj2 (proj1 (Forall_forall _ _) (args_types x b) r I)).
  split; [|split]; eapply sign_gives; eauto.
  - exact (proj1 (Forall_forall _ _) (rev_types F k) r I).
  - intros e. apply C19_reversion, W.
  - exact (proj1 (Forall_forall _ _) (inv_types F k) r I).
  - intros e. apply C19_involution, W.
  - exact (proj1 (Forall_forall _ _) (conj_types F k) r I).
  - intros e. apply C19_conjugation, W.
Qed.
Print Assumptions C56_signs_partial.
(** The reverse of 2 e1^e3 is its opposite, that of 2 e1^e2^e3^e5 is itself. *)
Example C56_signs_case : linear rev_blade [(2, 5%N)] = [(2 * -1, 5%N)] /\ linear rev_blade [(2, 23%N)] = [(2 * 1, 23%N)] /\
  gives (reverse 40 40 (dyn_blade 4 2 5)) (linear rev_blade [(2, 5%N)]) /\ gives (reverse 40 40 (dyn_blade 16 2 23)) (linear rev_blade [(2, 23%N)]).
Proof.
  split; [reflexivity|]. split; [reflexivity|]. split; [exact (proj1 (C56_signs_partial 0 0 2 2 5 ltac:(lia) eq_refl ltac:(reflexivity)))|].
  exact (proj1 (C56_signs_partial 0 0 4 2 23 ltac:(lia) eq_refl ltac:(reflexivity))).
Qed.
