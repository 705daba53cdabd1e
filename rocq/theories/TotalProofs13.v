(** The two orders of a sum of stored multivectors. *)
From Coq Require Import NArith ZArith List Bool Reals Lia Sorting.Sorted.
From Verif Require Import Bits SpecBits Expr ExprBase Sem Wf Simp SpecMv SpecOrder OrderProofs Comp Mapping CanonProofs EvalC EvalCProofs Lazy LazyProofs2 SpecLazy Api SpecApi ApiProofs TagProofs KeepProofs2 TotalProofs TotalProofs2 TotalProofs3 TotalProofs4 TotalProofs5 TotalProofs6 TotalProofs7 SpecTotal.
Import ListNotations.

Definition some_of (a : cliff) (L : list N) : list cliff := match L with [] => [] | _ => [a] end.
Definition next_tag (L : list N) : N := match L with [] => 1%N | _ => 2%N end.
Lemma plus_result n a b LA LB F k : (n <= 63)%N -> stored n a -> stored n b -> cexpr a = mv_of (slots LA) -> cexpr b = mv_of (slots LB) ->
  StronglySorted blade_lt LA -> Forall (fun k => (k < 2 ^ n)%N) LA -> StronglySorted blade_lt LB -> Forall (fun k => (k < 2 ^ n)%N) LB -> (length LA + length LB + 4 <= F)%nat -> (length LA + length LB + 4 <= k)%nat ->
  exists M, plus F k a b = lazy_eval F k [a; b] (mv_of M) /\ canonical M /\ stored_inputs [a; b] = some_of a LA ++ some_of b LB /\ base_id [a; b] = 0%N /\
  forall q, listed M q = match listed (tagged 1 0 LA) q, listed (tagged (next_tag LA) 0 LB) q with
    | None, d => d | Some c, None => Some c | Some c, Some d => Some (Fn NAdd [c; d]) end.
Proof.
  intros Hn A B EA EB SA DA SB DB HF Hk. pose proof (stored_base n a b Hn A B) as B0. destruct k as [|k]; [lia|]. destruct F as [|F]; [lia|]. unfold plus, call. rewrite B0. cbn [arguments]. set (tb := next_tag LA).
  assert (EArgs : (if has_stored (cexpr a) then e <- tag_vars (0 + 1) (cexpr a) 0 0;; r <- (if has_stored (cexpr b) then e0 <- tag_vars (0 + 1 + 1) (cexpr b) 0 0;; Some [e0] else Some [cexpr b]);; Some (e :: r)
      else r <- (if has_stored (cexpr b) then e <- tag_vars (0 + 1) (cexpr b) 0 0;; Some [e] else Some [cexpr b]);; Some (cexpr a :: r)) = Some [mv_of (tagged 1 0 LA); mv_of (tagged tb 0 LB)]).
  { rewrite EA, EB, !has_slots. unfold tb, next_tag. destruct LA as [|ka LA], LB as [|kb LB]; rewrite ?tag_slots; reflexivity. }
  rewrite EArgs. clear EArgs. cbn [op2].
  pose proof (tagged_canonical n 1 0 LA Hn SA DA) as CA. pose proof (tagged_canonical n tb 0 LB Hn SB DB) as CB.
  assert (Bth : forall k c d, listed (tagged 1 0 LA) k = Some c -> listed (tagged tb 0 LB) k = Some d -> exists i j, c = GV 1 i /\ d = GV 2 j).
  { intros q c d Ec Ed. destruct (tagged_listed _ _ _ _ _ Ec) as [N1 [i ->]]. destruct (tagged_listed _ _ _ _ _ Ed) as [N2 [j ->]]. exists i, j. split; [reflexivity|]. unfold tb, next_tag. destruct LA; [congruence|reflexivity]. }
  assert (HS : summable (S F) (tagged 1 0 LA) (tagged tb 0 LB)).
  { intros q c d Ec Ed. destruct (Bth q c d Ec Ed) as (i & j & -> & ->). rewrite add_two. discriminate. }
  pose proof (cadd_total (S F) k (tagged 1 0 LA) (tagged tb 0 LB) ltac:(rewrite !tagged_length; lia) CA CB HS) as T. destruct (cadd (S F) (S k) (mv_of (tagged 1 0 LA)) (mv_of (tagged tb 0 LB))) as [r|] eqn:E; [|congruence].
  destruct (cadd_canonical _ _ _ _ _ CA CB E) as [(M & -> & CM & LM) _]. exists M. split; [reflexivity|]. split; [exact CM|]. split; [|split; [reflexivity|]].
  - unfold stored_inputs. cbn [filter]. rewrite EA, EB, !has_slots. destruct LA, LB; reflexivity.
  - intros q. rewrite LM. destruct (listed (tagged 1 0 LA) q) as [c|] eqn:Ec, (listed (tagged tb 0 LB) q) as [d|] eqn:Ed; cbn [comb]; try reflexivity.
    destruct (Bth q c d Ec Ed) as (i & j & -> & ->). rewrite add_two. reflexivity.
Qed.
(** Where a blade is stored. *)
Fixpoint position (L : list N) (v : nat) (q : N) : option N :=
  match L with [] => None | k :: L' => if N.eqb k q then Some (N.of_nat v) else position L' (S v) q end.
Lemma tagged_position t L : forall v q, listed (tagged t v L) q = option_map (GV t) (position L v q).
Proof. induction L as [|k L IH]; intros v q; [reflexivity|]. cbn [tagged listed position fst snd]. destruct (N.eqb k q); [reflexivity|apply IH]. Qed.
(** What a getter gives. *)
Definition reads (a : cliff) (j : N) : res := run (ctx_int 0 [a]) (ctx_env 0 [a]) (GV 1 j).
Definition same (i i' : ityping) (g g' : env) (c c' : expr) : Prop := run i g c = run i' g' c' /\ integral i c = integral i' c'.
Lemma same_stores i i' g g' (M M' : entries) : Forall2 (fun p q => fst p = fst q /\ same i i' g g' (snd p) (snd q)) M M' ->
  svs M = svs M' /\ run_stores i g (map (fun p => StV (snd p)) M) = run_stores i' g' (map (fun p => StV (snd p)) M') /\ forallb (store_int i) (map (fun p => StV (snd p)) M) = forallb (store_int i') (map (fun p => StV (snd p)) M').
Proof.
  induction 1 as [|p q M M' [E [R I]] _ (H1 & H2 & H3)]; [auto|]. cbn [svs map run_stores forallb store_int]. rewrite E, R, I, H2, H3. fold (svs M) (svs M'). rewrite H1. auto.
Qed.
Lemma sorted_eq : forall L L', StronglySorted blade_lt L -> StronglySorted blade_lt L' -> (forall k, In k L <-> In k L') -> L = L'.
Proof.
  assert (Ir : forall k, ~ blade_lt k k) by (intros k [X|[_ X]]; lia).
  assert (As : forall k l, blade_lt k l -> blade_lt l k -> False) by (intros k l [X|[Y X]] [Z|[W Z]]; lia).
  induction L as [|x L IH]; intros [|y L'] S S' H; [reflexivity|destruct (proj2 (H y)); left; reflexivity|destruct (proj1 (H x)); left; reflexivity|].
  apply StronglySorted_inv in S as [S A]. apply StronglySorted_inv in S' as [S' A']. rewrite Forall_forall in A, A'.
  assert (x = y) as <-.
  { destruct (proj1 (H x) (or_introl eq_refl)) as [|X]; [congruence|]. destruct (proj2 (H y) (or_introl eq_refl)) as [|Y]; [congruence|]. exfalso. exact (As x y (A y Y) (A' x X)). }
  f_equal. apply IH; auto. intros k. split; intros K.
  - destruct (proj1 (H k) (or_intror K)) as [<-|]; [|assumption]. exfalso. exact (Ir _ (A _ K)).
  - destruct (proj2 (H k) (or_intror K)) as [<-|]; [|assumption]. exfalso. exact (Ir _ (A' _ K)).
Qed.
Lemma listed_in (M : entries) k : listed M k <> None <-> In k (map fst M).
Proof.
  induction M as [|p M IH]; cbn [listed map In]; [split; [congruence|contradiction]|]. destruct (N.eqb_spec (fst p) k) as [->|Nk]; [split; [auto|discriminate]|]. rewrite IH. split; [auto|intros [|]; [congruence|assumption]].
Qed.
Lemma pointwise (P : expr -> expr -> Prop) M M' : canonical M -> canonical M' ->
  (forall q, match listed M q, listed M' q with None, None => True | Some c, Some c' => P c c' | _, _ => False end) ->
  Forall2 (fun p q => fst p = fst q /\ P (snd p) (snd q)) M M'.
Proof.
  intros [S _] [S' _] H. assert (E : map fst M = map fst M').
  { apply sorted_eq; auto. intros k. rewrite <- !listed_in. specialize (H k). destruct (listed M k), (listed M' k); try contradiction; split; congruence. }
  pose proof (sorted_nodup _ S) as D. clear S S'. revert M' E H. induction M as [|p M IH]; intros [|q M'] E H; try discriminate; [constructor|]. cbn [map] in E. injection E as E1 E2. cbn [map] in D. inversion D as [|? ? D1 D2]; subst. constructor.
  - split; [exact E1|]. specialize (H (fst p)). cbn [listed] in H. rewrite <- E1, N.eqb_refl in H. exact H.
  - apply IH; auto. intros k0. specialize (H k0). cbn [listed] in H. rewrite <- E1 in H. destruct (N.eqb_spec (fst p) k0) as [Ek|_]; [rewrite <- Ek in *; clear Ek|exact H].
    assert (X : listed M (fst p) = None) by (destruct (listed M (fst p)) eqn:X; [|reflexivity]; exfalso; apply D1, listed_in; congruence).
    assert (Y : listed M' (fst p) = None) by (destruct (listed M' (fst p)) eqn:Y; [|reflexivity]; exfalso; apply D1; rewrite E2; apply listed_in; congruence).
    rewrite X, Y. exact Logic.I.
Qed.

Lemma read_first a st j : run (ctx_int 0 (a :: st)) (ctx_env 0 (a :: st)) (GV 1 j) = reads a j. Proof. reflexivity. Qed.
Lemma read_second a b st j : run (ctx_int 0 (a :: b :: st)) (ctx_env 0 (a :: b :: st)) (GV 2 j) = reads b j. Proof. reflexivity. Qed.
Lemma two_same a b i j : same (ctx_int 0 [a; b]) (ctx_int 0 [b; a]) (ctx_env 0 [a; b]) (ctx_env 0 [b; a]) (Fn NAdd [GV 1 i; GV 2 j]) (Fn NAdd [GV 1 j; GV 2 i]).
Proof.
  assert (Z : integral (ctx_int 0 [a; b]) (Fn NAdd [GV 1 i; GV 2 j]) = (cint a && (cint b && true))%bool) by reflexivity.
  assert (Z' : integral (ctx_int 0 [b; a]) (Fn NAdd [GV 1 j; GV 2 i]) = (cint b && (cint a && true))%bool) by reflexivity.
  assert (Q : (cint a && (cint b && true))%bool = (cint b && (cint a && true))%bool) by (destruct (cint a), (cint b); reflexivity). split; [|congruence].
  change (lift2 (fun x y => arith (integral (ctx_int 0 [a; b]) (Fn NAdd [GV 1 i; GV 2 j])) (x + y)%R) (reads a i) (reads b j) = lift2 (fun x y => arith (integral (ctx_int 0 [b; a]) (Fn NAdd [GV 1 j; GV 2 i])) (x + y)%R) (reads b j) (reads a i)).
  rewrite Z, Z', Q. destruct (reads a i) as [[]| |], (reads b j) as [[]| |]; cbn [lift2]; try reflexivity. rewrite Rplus_comm. reflexivity.
Qed.
Theorem plus_comm n a b : (n <= 63)%N -> stored n a -> stored n b -> forall F k, (depth n <= F)%nat -> (depth n <= k)%nat -> plus F k a b <> None /\ plus F k a b = plus F k b a.
Proof.
  intros Hn A B F k HF Hk. pose proof A as (LA & EA & SA & DA & _). pose proof B as (LB & EB & SB & DB & _). fold (slots LA) in EA. fold (slots LB) in EB. pose proof (depth_pair n LA LB SA DA SB DB) as Dp.
  destruct (plus_result n a b LA LB F k Hn A B EA EB SA DA SB DB ltac:(lia) ltac:(lia)) as (M & -> & C & ST & B0 & LM).
  destruct (plus_result n b a LB LA F k Hn B A EB EA SB DB SA DA ltac:(lia) ltac:(lia)) as (M' & -> & C' & ST' & B0' & LM').
  set (st := some_of a LA ++ some_of b LB) in *. set (st' := some_of b LB ++ some_of a LA) in *.
  assert (Cmp : Forall2 (fun p q => fst p = fst q /\ same (ctx_int 0 st) (ctx_int 0 st') (ctx_env 0 st) (ctx_env 0 st') (snd p) (snd q)) M M').
  { apply pointwise; auto. intros q. rewrite LM, LM', !tagged_position. destruct (position LA 0 q) as [i|] eqn:PA, (position LB 0 q) as [j|] eqn:PB; cbn [option_map]; try exact Logic.I;
    unfold st, st'; destruct LA as [|ka LA]; try discriminate; destruct LB as [|kb LB]; try discriminate; cbn [some_of app next_tag]; [apply two_same|split; reflexivity..]. }
  assert (St : Forall (fun p => stores F k 1 (N.of_nat (length st)) (snd p)) M /\ Forall (fun p => stores F k 1 (N.of_nat (length st')) (snd p)) M').
  { split; [apply (all_listed (stores F k 1 _)); [exact C|]; intros q c Hc; rewrite LM, !tagged_position in Hc|apply (all_listed (stores F k 1 _)); [exact C'|]; intros q c Hc; rewrite LM', !tagged_position in Hc];
    unfold st, st'; destruct (position LA 0 q) as [i|] eqn:PA, (position LB 0 q) as [j|] eqn:PB; cbn [option_map] in Hc; try discriminate; injection Hc as <-; destruct LA as [|ka LA]; try discriminate; destruct LB as [|kb LB]; try discriminate; cbn [some_of app next_tag length];
    first [apply stores_gv; lia|apply stores_two; lia]. }
  destruct St as [S1 S2]. destruct (same_stores _ _ _ _ _ _ Cmp) as (X1 & X2 & X3).
  assert (Ln : length st = length st') by (unfold st, st'; rewrite !app_length; lia).
  unfold lazy_eval. rewrite ST, ST', B0, B0'. fold st st'. cbn [N.add]. 
  destruct st as [|s0 st1] eqn:Es, st' as [|s0' st1'] eqn:Es'; try discriminate.
  - destruct M as [|p M], M' as [|p' M']; try (inversion Cmp; fail); [split; [discriminate|reflexivity]|]. exfalso. assert (LA = [] /\ LB = []) as [-> ->] by (unfold st in Es; destruct LA, LB; try discriminate; auto).
    specialize (LM (fst p)). cbn [listed tagged] in LM. rewrite N.eqb_refl in LM. discriminate.
  - rewrite <- Es, <- Es' in *. rewrite (eval_svs F k 1 _ ltac:(lia) M C S1), (eval_svs F k 1 _ ltac:(lia) M' C' S2), X1, X2, X3. split; [discriminate|reflexivity].
Qed.
