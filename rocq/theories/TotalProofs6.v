(** Calls on stored multivectors: tagging, evaluation, no overflow with floating-point coefficients. *)
From Coq Require Import NArith ZArith List Bool Reals Lia Sorting.Sorted Logic.FinFun.
From Verif Require Import Bits SpecBits Expr ExprBase Sem Wf Simp SpecMv SpecOrder OrderProofs Comp Mapping CanonProofs EvalC EvalCProofs Lazy LazyProofs2 SpecLazy Api SpecApi ApiProofs TagProofs KeepProofs2 TotalProofs TotalProofs2 TotalProofs3 TotalProofs4 TotalProofs5 SpecTotal.
Import ListNotations.

(** Tagging. *)
Fixpoint tagged (t : N) (v : nat) (L : list N) : entries :=
  match L with [] => [] | k :: L' => (k, GV t (N.of_nat v)) :: tagged t (S v) L' end.
Definition slots (L : list N) : entries := map (fun k => (k, SV)) L.
Lemma tags_slots t : forall L v, tags t (map entry (slots L)) v 0 = Some (map entry (tagged t v L)).
Proof.
  induction L as [|k L IH]; intros v; [reflexivity|].
  change (match tags t (map entry (slots L)) (v + 1) 0 with Some ys => Some (Comp (GV t (N.of_nat v)) (CBlade k) :: ys) | None => None end = Some (map entry (tagged t v (k :: L)))).
  rewrite IH. replace (v + 1)%nat with (S v) by lia. reflexivity.
Qed.
Lemma tag_slots t L : tag_vars t (mv_of (slots L)) 0 0 = Some (mv_of (tagged t 0 L)).
Proof.
  destruct L as [|k [|k' L]]; [reflexivity|reflexivity|]. pose proof (tags_slots t (k :: k' :: L) 0) as H.
  change (match tags t (map entry (slots (k :: k' :: L))) 0 0 with Some l' => Some (Fn NAdd l') | None => None end = Some (mv_of (tagged t 0 (k :: k' :: L)))). rewrite H. reflexivity.
Qed.
Lemma tagged_fst t : forall L v, map fst (tagged t v L) = L.
Proof. induction L as [|k L IH]; intros v; cbn [tagged map fst]; [reflexivity|]. rewrite IH. reflexivity. Qed.
Lemma tagged_snd t : forall L v, map snd (tagged t v L) = map (GV t) (map N.of_nat (seq v (length L))).
Proof. induction L as [|k L IH]; intros v; cbn [tagged map snd length seq]; [reflexivity|]. rewrite IH. reflexivity. Qed.
Lemma tagged_length t L v : length (tagged t v L) = length L.
Proof. rewrite <- (map_length fst), tagged_fst. reflexivity. Qed.
Lemma pow_63 n k : (n <= 63)%N -> (k < 2 ^ n)%N -> (k < 2 ^ 63)%N.
Proof. intros H K. eapply N.lt_le_trans; [exact K|]. apply N.pow_le_mono_r; lia. Qed.
Lemma entries_snd (P : expr -> Prop) (M : entries) : Forall P (map snd M) -> Forall (fun p => P (snd p)) M.
Proof. rewrite Forall_map. auto. Qed.
Lemma tagged_canonical n t v L : (n <= 63)%N -> StronglySorted blade_lt L -> Forall (fun k => (k < 2 ^ n)%N) L -> canonical (tagged t v L).
Proof.
  intros Hn S D. split; [rewrite tagged_fst; exact S|]. apply Forall_forall. intros p Hp. split.
  - assert (In (snd p) (map snd (tagged t v L))) as I by (apply in_map; exact Hp). rewrite tagged_snd in I. apply in_map_iff in I as (j & <- & _). discriminate.
  - assert (In (fst p) (map fst (tagged t v L))) as I by (apply in_map; exact Hp). rewrite tagged_fst in I. rewrite Forall_forall in D. exact (pow_63 n _ Hn (D _ I)).
Qed.
Lemma tagged_lazy n t L : (n <= 63)%N -> StronglySorted blade_lt L -> Forall (fun k => (k < 2 ^ n)%N) L -> lazy_mv t (tagged t 0 L) (map N.of_nat (seq 0 (length L))).
Proof.
  intros Hn S D. split; [eapply tagged_canonical; eauto|]. split; [apply tagged_snd|]. apply Injective_map_NoDup; [intros x y; apply Nat2N.inj|apply seq_NoDup].
Qed.
Lemma tagged_in n t v L : Forall (fun k => (k < 2 ^ n)%N) L -> blades_in n (tagged t v L).
Proof. intros D. unfold blades_in. rewrite <- (tagged_fst t L v) in D. rewrite Forall_map in D. exact D. Qed.

(** Stored objects are objects. *)
Lemma stored_object n a : (n <= 63)%N -> stored n a -> int_object n a.
Proof.
  intros Hn (L & E & S & D & Ln & B & W). exists (slots L). split; [exact E|]. split.
  - split; [unfold slots; rewrite map_map, map_id; exact S|]. unfold slots. rewrite Forall_map. eapply Forall_impl; [|exact D]. intros k K. split; [discriminate|]. exact (pow_63 n k Hn K).
  - split; [split; [exact W|rewrite B; constructor]|]. unfold slots. rewrite Forall_map. eapply Forall_impl; [|exact D]. intros k K. cbn [fst snd]. auto.
Qed.
Lemma has_slots L : has_stored (mv_of (slots L)) = match L with [] => false | _ => true end.
Proof. rewrite has_stored_mv. destruct L; reflexivity. Qed.
Lemma count_slots M : count_vals (mv_of (svs M)) = length M /\ count_bits (mv_of (svs M)) = 0%nat.
Proof. destruct (counts_mv (svs M)) as [-> ->]. unfold svs. induction M as [|p M [IH1 IH2]]; [auto|]. cbn [map fold_right snd count_vals count_bits length]. rewrite IH1, IH2. auto. Qed.

(** Running. *)
Lemma run_length i g (M : entries) vs bs : run_stores i g (map (fun p => StV (snd p)) M) = Done (vs, bs) -> length vs = length M /\ bs = [].
Proof.
  revert vs bs. induction M as [|p M IH]; intros vs bs E; cbn [map run_stores] in E; [injection E as <- <-; auto|].
  destruct (to_value (run i g (snd p))), (run_stores i g (map (fun p => StV (snd p)) M)) as [[vs' bs']| |] eqn:E'; try discriminate. injection E as <- <-. destruct (IH _ _ eq_refl) as [E1 E2]. cbn [length]. auto.
Qed.
Definition nov (r : res) : Prop := r <> Overflow.
Lemma nov_lift2 f a b : nov a -> nov b -> (forall x y, nov (f x y)) -> nov (lift2 f a b).
Proof. unfold nov. intros A B H. destruct a as [[]| |], b as [[]| |]; cbn [lift2]; try discriminate; try congruence; apply H. Qed.
Lemma nov_lift1 f a : nov a -> (forall x, nov (f x)) -> nov (lift1 f a).
Proof. unfold nov. intros A H. destruct a as [[]| |]; cbn [lift1]; try discriminate; try congruence; apply H. Qed.
Lemma nov_run i g (M : entries) : Forall (fun p => nov (run i g (snd p))) M -> run_stores i g (map (fun p => StV (snd p)) M) <> Ovf.
Proof.
  induction 1 as [|p M H _ IH]; cbn [map run_stores]; [discriminate|]. unfold nov in H. destruct (run i g (snd p)) as [[]| |]; cbn [to_value]; try congruence;
  destruct (run_stores i g (map (fun p => StV (snd p)) M)) as [[]| |]; try congruence; discriminate.
Qed.
Section Run.
  Variables (i : ityping) (g : env).
  Definition fine (x : expr) : Prop := nov (run i g x) /\ integral i x = false /\ forall ls, x = Fn NMul (CV (-1) :: ls) -> nov (run_mul (integral i) (run i g) ls).
  Lemma nov_gv t j : nov (run i g (GV t j)).
  Proof. unfold nov. cbn [run]. destruct (Sem.ev g t j); discriminate. Qed.
  Lemma fine_add : forall L x, Forall fine (x :: L) -> nov (run_add (integral i) (run i g) (x :: L)).
  Proof.
    induction L as [|y L IH]; intros x H; inversion H as [|? ? Hx HL]; subst; [exact (proj1 Hx)|]. specialize (IH y HL). destruct Hx as (Nx & Tx & Mx). inversion HL as [|? ? Hy HL']; subst. destruct Hy as (Ny & Ty & My).
    rewrite run_add_cons. set (go := run_add _ _ (y :: L)) in *.
    assert (FF : forallb (integral i) (x :: y :: L) = false) by (cbn [forallb]; rewrite Tx; reflexivity).
    destruct (neg_dec x) as [[ls Ex]|Ex].
    - specialize (Mx ls Ex). subst x. destruct (neg_dec y) as [[rs Ey]|Ey].
      + destruct L as [|z L].
        * specialize (My rs Ey). subst y. unfold run_add_step. rewrite FF. apply nov_lift1; [apply nov_lift2; auto|]; discriminate.
        * rewrite run_add_step_1 by discriminate. rewrite FF. apply nov_lift2; auto. discriminate.
      + rewrite run_add_step_1 by (intros rs E; injection E as E _; exact (Ey rs E)). rewrite FF. apply nov_lift2; auto. discriminate.
    - destruct (neg_dec y) as [[rs Ey]|Ey].
      + destruct L as [|z L].
        * specialize (My rs Ey). subst y. rewrite run_add_step_2 by exact Ex. rewrite FF. apply nov_lift2; auto. discriminate.
        * rewrite run_add_step_3 by (auto || discriminate). rewrite FF. apply nov_lift2; auto. discriminate.
      + rewrite run_add_step_3; [|exact Ex|intros rs E; injection E as E _; exact (Ey rs E)]. rewrite FF. apply nov_lift2; auto. discriminate.
  Qed.
  Hypothesis H1 : forall j, i 1%N j = false.
  Lemma prod_nov p q : nov (run_mul (integral i) (run i g) [GV 1 p; GV 2 q]).
  Proof. cbn [run_mul]. unfold run_mul_step. change (is_m1 (GV 1 p)) with false. apply nov_lift2; [apply nov_gv|apply nov_gv|]. intros x y. change (int_mul (integral i) [GV 1 p; GV 2 q]) with (i 1%N p && i 2%N q)%bool. rewrite H1. discriminate. Qed.
  Lemma term_fine t : fine (term t).
  Proof.
    unfold term, prod. destruct t as [z [p q]]. cbn [fst snd]. destruct (Z.eqb z 1).
    - split; [apply prod_nov|]. split; [change (i 1%N p && i 2%N q = false)%bool; rewrite H1; reflexivity|]. intros ls E. discriminate.
    - assert (T : int_mul (integral i) [GV 1 p; GV 2 q] = false) by (change (i 1%N p && i 2%N q = false)%bool; rewrite H1; reflexivity). split.
      + change (nov (run_mul_step (integral i) (run i g) (CV z) [GV 1 p; GV 2 q] (run_mul (integral i) (run i g) [GV 1 p; GV 2 q]))). unfold run_mul_step. pose proof (prod_nov p q) as PN.
        destruct (is_m1 (CV z)); [apply nov_lift1; [exact PN|]; intros x; rewrite T; discriminate|]. apply nov_lift2; [discriminate|exact PN|]. intros x y.
        change (int_mul (integral i) [CV z; GV 1 p; GV 2 q]) with (i 1%N p && i 2%N q)%bool. rewrite H1. discriminate.
      + split; [change (i 1%N p && i 2%N q = false)%bool; rewrite H1; reflexivity|]. intros ls E. injection E as _ <-. apply prod_nov.
  Qed.
  Lemma sum_fine l : l <> [] -> nov (run i g (sum_of l)) /\ integral i (sum_of l) = false.
  Proof.
    intros N. destruct l as [|t l]; [congruence|]. destruct l as [|u l]; [split; apply (term_fine t)|]. split.
    - change (nov (run_add (integral i) (run i g) (term t :: map term (u :: l)))). apply fine_add. change (Forall fine (map term (t :: u :: l))). rewrite Forall_map. apply Forall_forall. intros x _. apply term_fine.
    - cbn [sum_of]. cbn [integral map forallb]. destruct (term_fine t) as (_ & -> & _). reflexivity.
  Qed.
  Lemma two_fine p q : nov (run i g (Fn NAdd [GV 1 p; GV 2 q])) /\ integral i (Fn NAdd [GV 1 p; GV 2 q]) = false.
  Proof.
    assert (Z : integral i (Fn NAdd [GV 1 p; GV 2 q]) = false) by (cbn [integral forallb]; rewrite H1; reflexivity). split; [|exact Z].
    change (nov (lift2 (fun a b => arith (integral i (Fn NAdd [GV 1 p; GV 2 q])) (a + b)%R) (run i g (GV 1 p)) (run i g (GV 2 q)))). rewrite Z. apply nov_lift2; try apply nov_gv. discriminate.
  Qed.
End Run.
