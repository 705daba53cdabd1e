(** Lazy evaluation of sums of products of stored coefficients. *)
From Coq Require Import NArith ZArith List Bool Reals Lia Sorting.Sorted.
From Verif Require Import Bits SpecBits Expr ExprBase Sem Wf Simp SpecOrder OrderProofs Comp EvalC Lazy LazyProofs2 TotalProofs TotalProofs2 TotalProofs3.
Import ListNotations.

Section Eval.
  Variables (F n : nat) (lo hi : N).
  Definition stores (c : expr) : Prop := eval_t F n lo hi c = Some (SV, [StV c]).
  Lemma stores_gv t i : (lo <= t)%N -> (t <= hi)%N -> stores (GV t i).
  Proof. intros L H. unfold stores. cbn [eval_t]. rewrite (proj2 (N.leb_le _ _) L), (proj2 (N.leb_le _ _) H). reflexivity. Qed.
  Hypothesis In1 : (lo <= 1)%N.
  Hypothesis In2 : (2 <= hi)%N.
  Lemma gv1 i : stores (GV 1 i). Proof. apply stores_gv; lia. Qed.
  Lemma gv2 i : stores (GV 2 i). Proof. apply stores_gv; lia. Qed.
  Lemma stores_term t : stores (term t).
  Proof.
    pose proof (gv1 (fst (snd t))) as E1. pose proof (gv2 (snd (snd t))) as E2. unfold stores in *. unfold term, prod. destruct (Z.eqb (fst t) 1).
    - change (eval_nary NMul mk_mul (eng F OMul) (eval_t F n lo hi) [GV 1 (fst (snd t)); GV 2 (snd (snd t))] = Some (SV, [StV (Fn NMul [GV 1 (fst (snd t)); GV 2 (snd (snd t))])])). cbn [eval_nary]. rewrite E1, E2. reflexivity.
    - change (eval_nary NMul mk_mul (eng F OMul) (eval_t F n lo hi) [CV (fst t); GV 1 (fst (snd t)); GV 2 (snd (snd t))] = Some (SV, [StV (Fn NMul [CV (fst t); GV 1 (fst (snd t)); GV 2 (snd (snd t))])])). cbn [eval_nary]. rewrite E1, E2. reflexivity.
  Qed.
  Lemma stores_nary f mk op : forall l x, (forall y m, mk (y :: m) <> None) -> Forall stores (x :: l) -> eval_nary f mk op (eval_t F n lo hi) (x :: l) = Some (SV, [StV (match l with [] => x | _ => Fn f (x :: l) end)]).
  Proof.
    induction l as [|y l IH]; intros x HM H; inversion H as [|? ? Hx Hl]; subst; [exact Hx|]. specialize (IH y HM Hl). pose proof (HM y l) as M.
    change (match mk (y :: l), eval_t F n lo hi x, eval_nary f mk op (eval_t F n lo hi) (y :: l) with Some _, Some (x', cx), Some (y', cy) => if store_v2 x' y' then store_value (Fn f (x :: y :: l)) else move (op x' y') (cx ++ cy) | _, _, _ => None end = Some (SV, [StV (Fn f (x :: y :: l))])).
    destruct (mk (y :: l)); [|congruence]. unfold stores in Hx. rewrite Hx, IH. reflexivity.
  Qed.
  Lemma stores_sum l : l <> [] -> stores (sum_of l).
  Proof.
    intros H. destruct l as [|t l]; [congruence|]. destruct l as [|u l]; [apply stores_term|]. unfold stores.
    change (eval_nary NAdd mk_add (add_any F n) (eval_t F n lo hi) (term t :: map term (u :: l)) = Some (SV, [StV (Fn NAdd (term t :: map term (u :: l)))])).
    assert (G : forall l t, eval_nary NAdd mk_add (add_any F n) (eval_t F n lo hi) (map term (t :: l)) = Some (SV, [StV (sum_of (t :: l))])).
    { assert (HS : forall t, stores (term t)) by exact stores_term. clear t u l H. intros l. induction l as [|u l IH]; intros t; [exact (HS t)|]. specialize (IH u).
      change (match mk_add (map term (u :: l)), eval_t F n lo hi (term t), eval_nary NAdd mk_add (add_any F n) (eval_t F n lo hi) (map term (u :: l)) with Some _, Some (x', cx), Some (y', cy) => if store_v2 x' y' then store_value (Fn NAdd (map term (t :: u :: l))) else move (add_any F n x' y') (cx ++ cy) | _, _, _ => None end = Some (SV, [StV (Fn NAdd (map term (t :: u :: l)))])).
      rewrite add_sum, (HS t), IH. reflexivity. }
    exact (G (u :: l) t).
  Qed.
End Eval.
Section Svs.
  Variables (F n : nat) (lo hi : N).
  Notation stores := (stores F n lo hi).
  Definition svs (M : entries) : entries := map (fun p => (fst p, SV)) M.
  Lemma svs_canonical M : canonical M -> canonical (svs M).
  Proof.
    intros [S C]. split; [unfold svs; rewrite map_map; cbn [fst]; exact S|]. unfold svs. rewrite Forall_map. eapply Forall_impl; [|exact C]. intros p [_ L]. cbn [fst snd]. split; [discriminate|exact L].
  Qed.
  Hypothesis Hn : (1 <= n)%nat.
  Lemma eval_entry p : stores (snd p) -> eval_t F n lo hi (entry p) = Some (entry (fst p, SV), [StV (snd p)]).
  Proof. intros H. unfold entry. cbn [eval_t fst snd]. unfold stores in H. rewrite H. reflexivity. Qed.
  Lemma eval_entries : forall M p, canonical (p :: M) -> Forall (fun p => stores (snd p)) (p :: M) ->
    eval_nary NAdd mk_add (add_any F n) (eval_t F n lo hi) (map entry (p :: M)) = Some (mv_of (svs (p :: M)), map (fun p => StV (snd p)) (p :: M)).
  Proof.
    induction M as [|q M IH]; intros p C H; inversion H as [|? ? Hp HM]; subst; [exact (eval_entry p Hp)|]. destruct (canonical_tail _ _ C) as (C' & A & _ & L). specialize (IH q C' HM).
    change (match mk_add (map entry (q :: M)), eval_t F n lo hi (entry p), eval_nary NAdd mk_add (add_any F n) (eval_t F n lo hi) (map entry (q :: M)) with Some _, Some (x', cx), Some (y', cy) => if store_v2 x' y' then store_value (Fn NAdd (map entry (p :: q :: M))) else move (add_any F n x' y') (cx ++ cy) | _, _, _ => None end = Some (mv_of (svs (p :: q :: M)), map (fun p => StV (snd p)) (p :: q :: M))).
    rewrite mk_add_entries, (eval_entry p Hp), IH.
    assert (Z : store_v2 (entry (fst p, SV)) (mv_of (svs (q :: M))) = false).
    { unfold store_v2. assert (Y : is_sv (mv_of (svs (q :: M))) = false) by (destruct M; reflexivity). rewrite Y, andb_false_r. reflexivity. }
    rewrite Z. clear Z. unfold add_any. pose proof (csplit_mv_of (svs (q :: M))) as Y2. change (csplit (entry (fst p, SV))) with (Some (SV, CBlade (fst p), @None (list expr))). destruct (csplit (mv_of (svs (q :: M)))) as [s|] eqn:E2; [|congruence]. clear Y2 E2.
    change (entry (fst p, SV)) with (mv_of [(fst p, SV)]). pose proof (svs_canonical _ C) as CS. destruct n as [|n']; [lia|].
    pose proof (cadd_front F n' (fst p) SV (svs (q :: M)) CS) as T. destruct (cadd F (S n') (mv_of [(fst p, SV)]) (mv_of (svs (q :: M)))) as [r|] eqn:Er; [|congruence].
    assert (A' : Forall (blade_lt (fst p)) (map fst (svs (q :: M)))) by (unfold svs; rewrite map_map; exact A).
    destruct (cadd_first F (S n') [(fst p, SV)] (svs (q :: M)) r (fst p)) as [-> _]; auto; [apply canonical_one; [discriminate|exact L]|apply svs_canonical, C'].
  Qed.
  Theorem eval_svs M : canonical M -> Forall (fun p => stores (snd p)) M -> eval_t F n lo hi (mv_of M) = Some (mv_of (svs M), map (fun p => StV (snd p)) M).
  Proof.
    intros C H. destruct M as [|p [|q M]]; [reflexivity|inversion H; subst; apply eval_entry; assumption|]. exact (eval_entries (q :: M) p C H).
  Qed.
End Svs.
