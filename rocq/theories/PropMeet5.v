(** C52: a meet and join that is not found. *)
From Coq Require Import NArith ZArith List Bool Reals Lra Lia.
From Verif Require Import Bits SpecBits Expr Sem Wf SpecMv SpecAlg SpecOrder Simp Comp Mapping Ops EvalC SpecEval Lazy SpecLazy Api Extra Grade SpecApi SpecExtra ForEach SpecUtil Norm SpecNorm Copy Build SpecMeet SpecMeet2 Meet.
From Verif Require Import Visit MvBase CanonProofs BuildProofs PropNorm JoinMath MeetProofs MeetProofs2 MeetProofs3 MeetProofs5 MeetProofs6 PropApi PropMeet PropMeet2.
Import ListNotations.
Local Open Scope R_scope.

(** ** C52: meet_and_join *)
From Verif Require Import PropMeet4.

(** The plane of (e1 + e2)^e3 in the space of four dimensions. *)
Definition slant : cliff := store [5; 6]%N [1; 1].
Lemma then_ {A B} (v : A) x (f : A -> option (out B)) o : yes (fun r => r = v) x -> f v = o -> obind x f = o.
Proof. intros (a & -> & ->) H. exact H. Qed.
Lemma stops {A B} (x : option (out A)) (f : A -> option (out B)) : x = Some NoValue -> obind x f = Some NoValue.
Proof. intros ->. reflexivity. Qed.
Notation mt := [0; 1; 2; 4; 8; 3; 5; 6; 9; 10; 12]%N.
Notation jt := [3; 5; 6; 9; 10; 12; 7; 11; 13; 14; 15]%N.
Notation vt := [1; 2; 4; 8; 3; 5; 6; 9; 10; 12; 7; 11; 13; 14]%N.
Notation wt := [1; 2; 4; 3; 5; 6; 9; 10; 12; 7; 11; 13; 14]%N.
Ltac sign_cases := unfold Rabs in *; repeat match goal with H : context [Rcase_abs ?z] |- _ => destruct (Rcase_abs z) end; lra.
Ltac choose := repeat (match goal with
  | |- context [Req_EM_T ?u ?v] => let Q := fresh in destruct (Req_EM_T u v) as [Q|Q]; try (exfalso; lra); clear Q
  | |- context [Rlt_dec ?u ?v] => let Q := fresh in destruct (Rlt_dec u v) as [Q|Q]; try (exfalso; sign_cases); clear Q
  | |- context [Rle_dec ?u ?v] => let Q := fresh in destruct (Rle_dec u v) as [Q|Q]; try (exfalso; sign_cases); clear Q end).
Ltac to_ l vs := apply (then_ (store l vs)); [run; choose; done_vals|].
Lemma copy_run w r tol steps vs : expr_eqb (cexpr w) (cexpr r) = false -> cbits w = [] -> plan (2 * (length (comps_of (cexpr w)) + length (comps_of (cexpr r)))) true (comps_of (cexpr w)) (comps_of (cexpr r)) = Some steps ->
  cint r = false -> cint w = false -> execute false tol steps (cvals w) [] = Copied vs [] -> yes (fun a => a = {| cexpr := cexpr r; cint := false; cvals := vs; cbits := [] |}) (copied_to (checked_trivial_copy w r tol)).
Proof. intros E1 E2 P I1 I2 X. unfold checked_trivial_copy, copy_into. rewrite E1, P, I1, I2, E2. cbn [andb cast]. rewrite X. eexists. split; reflexivity. Qed.
Ltac copy_ l vs := apply (then_ (store l vs)); [eapply copy_run; [vm_compute; reflexivity|reflexivity|vm_compute; reflexivity|reflexivity|reflexivity|unfold store; cbn [execute cvals]; choose; cbn [put_v cast]; try reflexivity]|].
Tactic Notation "copy" constr(l) constr(vs) := copy_ l vs.
Tactic Notation "to" constr(l) constr(vs) := to_ l vs.
Lemma slant_first : meet_step 40 40 40 4 {| m_lhs := slant; m_inv_lhs := store [5; 6]%N [- / 2; - / 2]; m_rhs := slant; m_dual := store [12; 15]%N [0; -2]; m_inv_dual := store [12; 15]%N [0; - / 2] |} 2 2 0
  (store mt [1; 0; 0; 0; 0; 0; 0; 0; 0; 0; 0], 0%Z, store jt [0; 0; 0; 0; 0; 0; 0; 0; 0; 0; 1], 4%Z) 1 =
  Some (Ret (store mt [0; / 2; / 2; 0; 0; 0; 0; 0; 0; 0; 0], 1%Z, store jt [0; 0; 0; 0; 0; 0; 0; 0; / 2; / 2; 0], 3%Z, true)).
Proof.
  unfold meet_step. cbn [m_lhs m_rhs m_dual m_inv_lhs m_inv_dual].
  apply (then_ (box true [1; 2; 4; 8]%N [1; 0; 0; 0])); [run; choose; done_vals|].
  to [1; 2; 4; 8]%N [1; 0; 0; 0]. to [1; 2; 4]%N [/ 2; / 2; 0].
  apply (then_ false); [run; choose; eexists; split; reflexivity|]. cbv iota.
  apply (then_ (store mt [0; / 2; / 2; 0; 0; 0; 0; 0; 0; 0; 0], 1%Z, store jt [0; 0; 0; 0; 0; 0; 0; 0; 0; 0; 1], true)).
  { eexists. split; [|reflexivity]. to (wt) [/ 2; / 2; 0; 0; 0; 0; 0; 0; 0; 0; 0; 0; 0]. copy (mt) [0; / 2; / 2; 0; 0; 0; 0; 0; 0; 0; 0]. reflexivity. }
  cbn [negb]. to [1; 2; 4; 8]%N [/ 2; - / 2; 0; 0].
  apply (then_ false); [run; choose; eexists; split; reflexivity|]. cbv iota.
  to (vt) [0; 0; 0; 0; 0; 0; 0; 0; 0; 0; 0; 0; / 2; / 2].
  copy (jt) [0; 0; 0; 0; 0; 0; 0; 0; / 2; / 2; 0]. reflexivity.
Qed.
(** In the second iteration the product with the meet is zero, and the grade is counted nevertheless. *)
Lemma slant_second : meet_step 40 40 40 4 {| m_lhs := slant; m_inv_lhs := store [5; 6]%N [- / 2; - / 2]; m_rhs := slant; m_dual := store [12; 15]%N [0; -2]; m_inv_dual := store [12; 15]%N [0; - / 2] |} 2 2 0
  (store mt [0; / 2; / 2; 0; 0; 0; 0; 0; 0; 0; 0], 1%Z, store jt [0; 0; 0; 0; 0; 0; 0; 0; / 2; / 2; 0], 3%Z) 2 = Some NoValue.
Proof.
  unfold meet_step. cbn [m_lhs m_rhs m_dual m_inv_lhs m_inv_dual].
  apply (then_ (box true [1; 2; 4; 8]%N [0; 1; 0; 0])); [run; choose; done_vals|].
  to [1; 2; 4; 8]%N [0; 1; 0; 0]. to [1; 2; 4]%N [/ 2; / 2; 0].
  apply (then_ false); [run; choose; eexists; split; reflexivity|]. cbv iota. apply stops.
  to (wt) [0; 0; 0; 0; 0; 0; 0; 0; 0; 0; 0; 0; 0]. copy (mt) [0; 0; 0; 0; 0; 0; 0; 0; 0; 0; 0]. cbn [Z.add Z.eqb Pos.add Pos.succ Pos.eqb]. apply stops.
  run. choose. reflexivity.
Qed.
Lemma slant_run : meet_and_join 40 40 40 4 slant slant false 0 (scalar_obj false 0) = Some NoValue.
Proof.
  assert (GR : yes (fun g => g = 2%Z) (grade_in 40 40 slant (scalar_obj false 0))).
  { unfold grade_in. step (fun r => r = box true [0]%N [2]); [run; choose; done_vals|]. intros r ->. apply (yes_number true 2). }
  unfold meet_and_join. apply (then_ _ _ _ _ GR). apply (then_ _ _ _ _ GR). cbn [Z.leb Z.compare Pos.compare Pos.compare_cont].
  unfold meet_and_join_impl. assert (E1 : meet_type 40 40 40 4 (cexpr slant) (cexpr slant) = Some (stored_type mt)) by (vm_compute; reflexivity). assert (E2 : full_join_type 40 40 40 4 (cexpr slant) (cexpr slant) = Some (stored_type jt)) by (vm_compute; reflexivity).
  rewrite E1, E2. cbn [typed obind]. change (cint slant && cint slant)%bool with false. change (zeros (stored_type mt) false) with (store mt [0; 0; 0; 0; 0; 0; 0; 0; 0; 0; 0]). change (zeros (stored_type jt) false) with (store jt [0; 0; 0; 0; 0; 0; 0; 0; 0; 0; 0]). cbn [Z.eqb orb Pos.eqb].
  to [0; 3]%N [-2; 0].
  apply (then_ 0%Z). { unfold grade_in. step (fun r => r = box true [0]%N [0]); [run; choose; done_vals|]. intros r ->. apply (yes_number true 0). } cbn [Z.eqb Z.add Z.sub Z.opp Z.div2 Pos.add Pos.succ Pos.div2 negb].
  apply stops. to (mt) [1; 0; 0; 0; 0; 0; 0; 0; 0; 0; 0]. to (jt) [0; 0; 0; 0; 0; 0; 0; 0; 0; 0; 1].
  to [12; 15]%N [0; -2]. to [12; 15]%N [0; - / 2]. to [5; 6]%N [- / 2; - / 2].
  apply (then_ (15%N, 1%nat)); [run; choose; try (eexists; split; reflexivity)|].
  rewrite loop_walk by reflexivity. cbn [fst]. replace (indices 15) with [0; 1; 2; 3]%N by (vm_compute; reflexivity). apply stops. cbn [walk].
  change (N.succ 0) with 1%N. change (N.succ 1) with 2%N. change (Z.of_N 4) with 4%Z. rewrite slant_first. cbn [obind snd fst]. rewrite slant_second. reflexivity.
Qed.
Lemma slant_exact : inverses_exact 40 40 40 4 slant slant false 0.
Proof.
  split; [|split; [|split]].
  - intros a b t p Q E. lazy in Q. apply GumProofs.Some_inj in Q. injection Q as <- <- <-. lazy -[IZR] in E. apply GumProofs.Some_inj in E. injection E as <-. cbn [cexpr]. repeat (constructor; [left; reflexivity|]). constructor.
  - apply computed_check. run. reflexivity.
  - intros d Ed. apply in_context_type in Ed. of_type Ed d. split; [apply computed_check; run; reflexivity|]. intros e Ee. apply in_context_type in Ee. of_type Ee e. apply computed_check. run. reflexivity.
  - intros t vs Et Lv.
    assert (E1 : meet_type 40 40 40 4 (cexpr slant) (cexpr slant) = Some (stored_type mt)) by (vm_compute; reflexivity). assert (E2 : full_join_type 40 40 40 4 (cexpr slant) (cexpr slant) = Some (stored_type jt)) by (vm_compute; reflexivity).
    rewrite E1, E2 in Et. destruct Et as [Et|Et]; apply GumProofs.Some_inj in Et; subst t; apply computed_check; run; reflexivity.
Qed.
(** Not every meet and join is found: for the plane of (e1 + e2)^e3 in the space of four dimensions and itself,
    with the tolerances 0, all the hypotheses of C52_meet_and_join_partial hold, but the call divides by the
    squared norm of a meet that is zero.  The projections of e1 and e2 to the plane are equal, and the
    grade of the meet is counted up for each of them. *)
Theorem C52_refuted : exists a av A, int_object 4 a /\ cint a = false /\ value a A /\ blade_of 4 av A /\ length av = 2%nat /\ (exists k, 0 < Rabs (coef A k)) /\ top_above 0 A A /\
  inverses_exact 40 40 40 4 a a false 0 /\ meet_and_join 40 40 40 4 a a false 0 (scalar_obj false 0) = Some NoValue.
Proof.
  exists slant, [[(1, 1%N); (1, 2%N)]; [(1, 4%N)]], [(1, 5%N); (1, 6%N)].
  split; [apply stored_object; [apply LazyProofs2.canonical_check; vm_compute; reflexivity|repeat constructor|discriminate]|]. split; [reflexivity|]. split; [apply (stored_value [5; 6]%N false [1; 1]); reflexivity|]. split; [|split; [reflexivity|split; [|split; [|split; [exact slant_exact|exact slant_run]]]]].
  - split; [repeat constructor|]. split; [exists 1; set (W := wedge _); lazy -[Rmult Rplus Ropp IZR Rinv Rdiv] in W; subst W; intros k; rewrite Verif.AlgProofs.coef_scale; cbn [coef]; destruct (N.eqb 5 k), (N.eqb 6 k); lra|intros Q; specialize (Q 5%N); cbn in Q; lra].
  - exists 5%N. cbn. rewrite !Rplus_0_r. apply Rabs_pos_lt. lra.
  - exists 0%N. set (W := mgp _ _ _). lazy -[Rmult Rplus Ropp IZR Rinv Rdiv] in W. subst W. split; [apply Rabs_pos_lt; cbn; lra|]. intros k' H. cbn [coef] in H. destruct (N.eqb 0 k') eqn:Ek; [apply N.eqb_eq in Ek; subst k'; reflexivity|]. exfalso. apply H. destruct (N.eqb 3 k'); lra.
Qed.
Print Assumptions C52_refuted.
