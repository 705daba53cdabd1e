(** Calls of products of a stored multivector and a basis blade. *)
From Coq Require Import NArith ZArith List Bool Reals Lia Sorting.Sorted.
From Verif Require Import Bits SpecBits Expr ExprBase Sem Wf Simp SpecMv SpecOrder OrderProofs Comp Mapping CanonProofs EvalC EvalCProofs Lazy LazyProofs2 SpecLazy Api SpecApi ApiProofs TagProofs KeepProofs2 TotalProofs TotalProofs2 TotalProofs3 TotalProofs4 TotalProofs5 TotalProofs6 TotalProofs7 TotalProofs9 TotalProofs10 TotalProofs11 SpecTotal.
Import ListNotations.

Lemma stores_lterm F n hi t : (1 <= hi)%N -> stores F n 1 hi (lterm 1 t).
Proof.
  intros H. pose proof (stores_gv F n 1 hi 1 (snd t) ltac:(lia) H) as E. unfold stores, lterm in *. destruct (Z.eqb (fst t) 1); [exact E|].
  change (eval_nary NMul mk_mul (eng F OMul) (eval_t F n 1 hi) [CV (fst t); GV 1 (snd t)] = Some (SV, [StV (Fn NMul [CV (fst t); GV 1 (snd t)])])). cbn [eval_nary]. rewrite E. reflexivity.
Qed.
Lemma stores_lsum F n hi l : (1 <= hi)%N -> l <> [] -> stores F n 1 hi (lsum 1 l).
Proof.
  intros Hh H. destruct l as [|t l]; [congruence|]. destruct l as [|u l]; [apply stores_lterm, Hh|]. unfold stores.
  change (eval_nary NAdd mk_add (add_any F n) (eval_t F n 1 hi) (map (lterm 1) (t :: u :: l)) = Some (SV, [StV (Fn NAdd (map (lterm 1) (t :: u :: l)))])).
  assert (G : forall l t, eval_nary NAdd mk_add (add_any F n) (eval_t F n 1 hi) (map (lterm 1) (t :: l)) = Some (SV, [StV (lsum 1 (t :: l))])).
  { clear t u l H. induction l as [|u l IH]; intros t; [exact (stores_lterm F n hi t Hh)|]. specialize (IH u).
    change (match mk_add (map (lterm 1) (u :: l)), eval_t F n 1 hi (lterm 1 t), eval_nary NAdd mk_add (add_any F n) (eval_t F n 1 hi) (map (lterm 1) (u :: l)) with Some _, Some (x', cx), Some (y', cy) => if store_v2 x' y' then store_value (Fn NAdd (map (lterm 1) (t :: u :: l))) else move (add_any F n x' y') (cx ++ cy) | _, _, _ => None end = Some (SV, [StV (Fn NAdd (map (lterm 1) (t :: u :: l)))])).
    rewrite ladd_sum, (stores_lterm F n hi t Hh), IH. reflexivity. }
  exact (G (u :: l) t).
Qed.
Section Run.
  Variables (i : ityping) (g : env).
  Hypothesis H1 : forall j, i 1%N j = false.
  Lemma lterm_fine t : fine i g (lterm 1 t).
  Proof.
    unfold lterm. destruct t as [z p]. cbn [fst snd]. destruct (Z.eqb z 1); [apply gv_fine, H1|]. split.
    - change (nov (run_mul_step (integral i) (run i g) (CV z) [GV 1 p] (run i g (GV 1 p)))). unfold run_mul_step. pose proof (nov_gv i g 1 p) as PN.
      destruct (is_m1 (CV z)).
      + apply nov_lift1; [exact PN|]. intros x. change (int_mul (integral i) [GV 1 p]) with (i 1%N p). rewrite H1. discriminate.
      + apply nov_lift2; [discriminate|exact PN|]. intros x y. change (int_mul (integral i) [CV z; GV 1 p]) with (i 1%N p). rewrite H1. discriminate.
    - split; [change (i 1%N p = false); apply H1|]. intros ls E. injection E as _ <-. apply nov_gv.
  Qed.
  Lemma lsum_fine l : l <> [] -> nov (run i g (lsum 1 l)) /\ integral i (lsum 1 l) = false.
  Proof.
    intros N. destruct l as [|t l]; [congruence|]. destruct l as [|u l]; [split; apply (lterm_fine t)|]. split.
    - change (nov (run_add (integral i) (run i g) (lterm 1 t :: map (lterm 1) (u :: l)))). apply fine_add. change (Forall (fine i g) (map (lterm 1) (t :: u :: l))). rewrite Forall_map. apply Forall_forall. intros x _. apply lterm_fine.
    - cbn [lsum]. cbn [integral map forallb]. destruct (lterm_fine t) as (_ & -> & _). reflexivity.
  Qed.
End Run.

Lemma blade_product n (mult : nat -> expr -> expr -> option expr) a k0 m : (n <= 63)%N -> (forall F, const_mult n (mult F)) -> (forall F, total_mult n (mult (S (S (S F))))) -> stored n a -> (k0 < 2 ^ n)%N ->
  ((forall F k o, call F k (op2 (cmul F k (mult F))) [a; unit_blade k0] = Some o -> o = Ovf \/ exists r, o = Done r /\ int_object n r /\ value r m) ->
  compiles n a a (fun F k => call F k (op2 (cmul F k (mult F))) [a; unit_blade k0]) m) /\
  ((forall F k o, call F k (op2 (cmul F k (mult F))) [unit_blade k0; a] = Some o -> o = Ovf \/ exists r, o = Done r /\ int_object n r /\ value r m) ->
  compiles n a a (fun F k => call F k (op2 (cmul F k (mult F))) [unit_blade k0; a]) m).
Proof.
  intros Hn HC HT A K0. pose proof A as (L & EA & SA & DA & NA & BA & WA). fold (slots L) in EA. pose proof (pow_63 n k0 Hn K0) as K63.
  pose proof (stored_base n a a Hn A A) as Z. assert (B0 : base_id [a; unit_blade k0] = 0%N /\ base_id [unit_blade k0; a] = 0%N).
  { unfold base_id in *. cbn [fold_right] in *. change (greater_id (cexpr (unit_blade k0))) with 0%N. lia. }
  destruct B0 as [B1 B2]. pose proof (depth_pair n L L SA DA SA DA) as Dp.
  assert (HS : stored_inputs [a; unit_blade k0] = (match L with [] => [] | _ => [a] end) /\ stored_inputs [unit_blade k0; a] = match L with [] => [] | _ => [a] end).
  { unfold stored_inputs. cbn [filter]. change (has_stored (cexpr (unit_blade k0))) with false. rewrite EA, has_slots. destruct L; split; reflexivity. }
  destruct HS as [T1 T2].
  assert (Fin : forall F k inputs M, stored_inputs inputs = match L with [] => [] | _ => [a] end -> base_id inputs = 0%N -> (1 <= k)%nat -> lsums (fun j => In j (map N.of_nat (seq 0 (length L)))) (length (tagged 1 0 L)) M ->
    exists o, lazy_eval F k inputs (mv_of M) = Some o /\ (forall r, o = Done r -> int_object n r -> stored n r) /\ (floating a -> floating a -> o <> Ovf /\ forall r, o = Done r -> floating r)).
  { intros F k inputs M HS B0 Hk (C & Ln & SM). rewrite tagged_length in Ln.
    destruct (lazy_total n F k inputs M _ _ _ HS B0 eq_refl eq_refl) as (o & Eo & S1 & S2); [lia|exact C| | |].
    { intros X. destruct L; [|discriminate]. destruct M; [reflexivity|cbn [length] in Ln; lia]. }
    { destruct L as [|x L]; [destruct M; [constructor|cbn [length] in Ln; lia]|]. apply (all_listed (stores F k 1 _)); [exact C|]. intros q c Hc. destruct (SM q c Hc) as (l & -> & Nl & _). apply stores_lsum; [cbn [length]; lia|exact Nl]. }
    exists o. split; [exact Eo|]. split; [exact S1|]. intros Fa _. apply S2. destruct L as [|x L]; [destruct M; [constructor|cbn [length] in Ln; lia]|].
    apply (all_listed (fun c => nov (run _ _ c) /\ integral _ c = false)); [exact C|]. intros q c Hc. destruct (SM q c Hc) as (l & -> & Nl & _). apply lsum_fine; [|exact Nl].
    intros j. rewrite first_int by reflexivity. exact (float_cint n a x L Fa A EA NA). }
  split; intros V; apply (compiles_by n a a _ m (length L * length L + length L + length L + 4) Dp V); clear V; intros F k HF Hk.
  - destruct k as [|k]; [lia|]. destruct F as [|[|[|F]]]; try lia. unfold call. rewrite B1. cbn [arguments]. change (has_stored (cexpr (unit_blade k0))) with false. cbn iota. change (cexpr (unit_blade k0)) with (mv_of (unit_mv k0)). rewrite EA, has_slots.
    destruct (right_total n (S (S (S F))) (mult (S (S (S F)))) (HC _) (HT F) k0 K63 K0 (tagged 1 0 L) _ k ltac:(rewrite tagged_length; lia) ltac:(rewrite tagged_length; lia) (tagged_lazy n 1 L Hn SA DA) (tagged_in n 1 0 L DA)) as (M & E & SM).
    destruct (Fin (S (S (S F))) (S k) _ M T1 B1 ltac:(lia) SM) as (o & Eo & R). exists o. split; [|exact R]. rewrite <- Eo.
    destruct L as [|x L]; [change (mv_of (slots [])) with (mv_of (tagged 1 0 []))|change (0 + 1)%N with 1%N; rewrite tag_slots]; cbn [op2]; rewrite E; reflexivity.
  - destruct k as [|k]; [lia|]. destruct F as [|[|[|F]]]; try lia. unfold call. rewrite B2. cbn [arguments]. change (has_stored (cexpr (unit_blade k0))) with false. cbn iota. change (cexpr (unit_blade k0)) with (mv_of (unit_mv k0)). rewrite EA, has_slots.
    destruct (left_total n (S (S (S F))) (mult (S (S (S F)))) (HC _) (HT F) k0 K63 K0 (tagged 1 0 L) _ k ltac:(rewrite tagged_length; lia) ltac:(rewrite tagged_length; lia) (tagged_lazy n 1 L Hn SA DA) (tagged_in n 1 0 L DA)) as (M & E & SM).
    destruct (Fin (S (S (S F))) (S k) _ M T2 B2 ltac:(lia) SM) as (o & Eo & R). exists o. split; [|exact R]. rewrite <- Eo.
    destruct L as [|x L]; [change (mv_of (slots [])) with (mv_of (tagged 1 0 []))|change (0 + 1)%N with 1%N; rewrite tag_slots]; cbn [op2]; rewrite E; reflexivity.
Qed.
Lemma unit_object n k : (n <= 63)%N -> (k < 2 ^ n)%N -> int_object n (unit_blade k) /\ value (unit_blade k) [(1%R, k)].
Proof.
  intros H K. split.
  - exists (unit_mv k). split; [reflexivity|]. split; [|split; [split; constructor|]].
    + apply canonical_one; [discriminate|exact (pow_63 n k H K)].
    + constructor; [|constructor]. cbn [fst snd]. split; [exact K|right; split; reflexivity].
  - intros g. exists [(1%R, k)]. split; [|intros j; reflexivity]. exists ([], []). split; [|reflexivity]. exists ([], []). split; [reflexivity|split; [split; reflexivity|intros _; exact Logic.I]].
Qed.
