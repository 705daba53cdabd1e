(** Sums and products of stored multivectors always have a result. *)
From Coq Require Import NArith ZArith List Bool Reals Lia Sorting.Sorted.
From Verif Require Import Bits SpecBits Expr ExprBase Sem Wf Simp SpecMv SpecOrder OrderProofs Comp Mapping CanonProofs EvalC EvalCProofs Lazy LazyProofs2 SpecLazy Api SpecApi ApiProofs TagProofs KeepProofs2 TotalProofs TotalProofs2 TotalProofs3 TotalProofs4 TotalProofs5 TotalProofs6 SpecTotal.
Import ListNotations.

Lemma lazy_total n F k inputs M st i g : stored_inputs inputs = st -> base_id inputs = 0%N -> i = ctx_int 0 st -> g = ctx_env 0 st -> (1 <= k)%nat -> canonical M -> (st = [] -> M = []) ->
  Forall (fun p => stores F k 1 (N.of_nat (length st)) (snd p)) M ->
  exists o, lazy_eval F k inputs (mv_of M) = Some o /\ (forall r, o = Done r -> int_object n r -> stored n r) /\
  (Forall (fun p => nov (run i g (snd p)) /\ integral i (snd p) = false) M -> o <> Ovf /\ forall r, o = Done r -> floating r).
Proof.
  intros Hs Hb -> -> Hk C Z H. unfold lazy_eval. rewrite Hs, Hb. destruct st as [|a st].
  - rewrite (Z eq_refl) in *. eexists. split; [reflexivity|]. split.
    + intros r E _. injection E as <-. exists []. cbn. repeat split; auto; constructor.
    + intros _. split; [discriminate|]. intros r E. injection E as <-. right. reflexivity.
  - cbn [N.add]. rewrite (eval_svs F k 1 _ Hk M C H). destruct (count_slots M) as [-> ->]. set (st' := a :: st) in *.
    destruct (run_stores (ctx_int 0 st') (ctx_env 0 st') (map (fun p => StV (snd p)) M)) as [[vs bs]| |] eqn:E.
    + destruct (run_length _ _ _ _ _ E) as [Lv ->]. unfold fit. rewrite Lv, Nat.leb_refl. cbn [length Nat.leb Nat.sub repeat app]. rewrite Nat.sub_diag. cbn [repeat]. rewrite app_nil_r. eexists. split; [reflexivity|]. split.
      * intros r Er (M' & E1 & E2 & E3 & E4). injection Er as <-. cbn [cexpr cvals cbits cint] in *. apply mv_of_inj in E1; [|apply svs_canonical, C|exact E2]. subst M'.
        exists (map fst M). destruct C as [C1 C2]. split; [unfold svs; rewrite map_map; reflexivity|]. split; [exact C1|]. split.
        -- unfold svs in E4. rewrite Forall_map in E4 |- *. eapply Forall_impl; [|exact E4]. intros p [P _]. exact P.
        -- split; [rewrite map_length; exact Lv|]. split; [reflexivity|]. exact (proj1 E3).
      * intros Hf. split; [discriminate|]. intros r Er. injection Er as <-. unfold floating. cbn [cint cvals]. destruct M as [|p M]; [right; destruct vs; [reflexivity|discriminate]|]. left.
        inversion Hf as [|? ? [_ Hp] _]; subst. cbn [map forallb store_int]. rewrite Hp. reflexivity.
    + eexists. split; [reflexivity|]. split; [discriminate|]. intros Hf. exfalso. refine (nov_run _ _ M _ E). eapply Forall_impl; [|exact Hf]. intros p [P _]. exact P.
    + eexists. split; [reflexivity|]. split; [discriminate|]. intros _. split; discriminate.
Qed.

Lemma few n L : StronglySorted blade_lt L -> Forall (fun k => (k < 2 ^ n)%N) L -> (length L <= N.to_nat (2 ^ n))%nat.
Proof.
  intros S D. rewrite <- (seq_length (N.to_nat (2 ^ n)) 0), <- (map_length N.of_nat). apply NoDup_incl_length; [apply sorted_nodup, S|]. intros k I. rewrite Forall_forall in D. specialize (D k I).
  apply in_map_iff. exists (N.to_nat k). split; [apply N2Nat.id|]. apply in_seq. lia.
Qed.
Lemma depth_pair n L M : StronglySorted blade_lt L -> Forall (fun k => (k < 2 ^ n)%N) L -> StronglySorted blade_lt M -> Forall (fun k => (k < 2 ^ n)%N) M ->
  (length L * length M + length L + length M + 4 <= depth n)%nat.
Proof.
  intros A B C D. pose proof (few n L A B) as X. pose proof (few n M C D) as Y. unfold depth. generalize dependent (N.to_nat (2 ^ n)). intros s X Y. pose proof (Nat.mul_le_mono _ _ _ _ X Y). lia.
Qed.
Lemma compiles_by n a b f m N : (N <= depth n)%nat -> (forall F k o, f F k = Some o -> o = Ovf \/ exists r, o = Done r /\ int_object n r /\ value r m) ->
  (forall F k, (N <= F)%nat -> (N <= k)%nat -> exists o, f F k = Some o /\ (forall r, o = Done r -> int_object n r -> stored n r) /\ (floating a -> floating b -> o <> Ovf /\ forall r, o = Done r -> floating r)) -> compiles n a b f m.
Proof.
  intros HN V H F k HF Hk. destruct (H F k ltac:(lia) ltac:(lia)) as (o & E & S & Fl). destruct (V F k o E) as [->|(r & -> & Or & Vr)].
  - right. split; [exact E|]. intros [A B]. destruct (Fl A B) as [X _]. congruence.
  - left. exists r. split; [exact E|]. split; [auto|]. split; [exact Vr|]. intros A B. exact (proj2 (Fl A B) r eq_refl).
Qed.

Lemma listed_mem (M : entries) p : NoDup (map fst M) -> In p M -> listed M (fst p) = Some (snd p).
Proof.
  induction M as [|q M IH]; intros D I; [contradiction|]. inversion D as [|? ? D1 D2]; subst. cbn [listed]. destruct I as [->|I]; [rewrite N.eqb_refl; reflexivity|].
  destruct (N.eqb_spec (fst q) (fst p)) as [E|_]; [exfalso; apply D1; rewrite E; apply in_map, I|apply IH; assumption].
Qed.
Lemma all_listed (P : expr -> Prop) M : canonical M -> (forall k c, listed M k = Some c -> P c) -> Forall (fun p => P (snd p)) M.
Proof. intros [S _] H. apply Forall_forall. intros p I. apply (H (fst p)). apply listed_mem; [apply sorted_nodup, S|exact I]. Qed.

Lemma first_int t a st j : t = 1%N -> ctx_int 0 (a :: st) t j = cint a. Proof. intros ->. reflexivity. Qed.
Lemma second_int t a b st j : t = 2%N -> ctx_int 0 (a :: b :: st) t j = cint b. Proof. intros ->. reflexivity. Qed.
Lemma float_cint n a k L : floating a -> stored n a -> cexpr a = mv_of (slots (k :: L)) -> length (cvals a) = length (k :: L) -> cint a = false.
Proof. intros [H|H] _ _ Ln; [exact H|rewrite H in Ln; discriminate]. Qed.
Lemma stored_base n a b : (n <= 63)%N -> stored n a -> stored n b -> base_id [a; b] = 0%N.
Proof.
  intros Hn A B. assert (G : forall x, stored n x -> greater_id (cexpr x) = 0%N).
  { intros x (L & -> & _). change (map (fun k => (k, SV)) L) with (slots L). destruct L as [|k [|k' L]]; [reflexivity|reflexivity|]. change (fold_right (fun x n => N.max (greater_id x) n) 0%N (map entry (slots (k :: k' :: L))) = 0%N). generalize (k :: k' :: L). intros l. induction l as [|y l IH]; [reflexivity|]. cbn [slots map fold_right]. unfold slots in IH. rewrite IH. reflexivity. }
  unfold base_id. cbn [fold_right]. rewrite (G a A), (G b B). reflexivity.
Qed.

(** Products. *)
Lemma product_total n (mult : nat -> expr -> expr -> option expr) a b m : (n <= 63)%N -> (forall F, const_mult n (mult F)) -> (forall F, total_mult n (mult (S (S (S F))))) -> stored n a -> stored n b ->
  (forall F k o, call F k (op2 (cmul F k (mult F))) [a; b] = Some o -> o = Ovf \/ exists r, o = Done r /\ int_object n r /\ value r m) ->
  compiles n a b (fun F k => call F k (op2 (cmul F k (mult F))) [a; b]) m.
Proof.
  intros Hn HC HT A B V. pose proof A as (LA & EA & SA & DA & NA & BA & WA). pose proof B as (LB & EB & SB & DB & NB & BB & WB). fold (slots LA) in EA. fold (slots LB) in EB.
  pose proof (stored_base n a b Hn A B) as B0. apply (compiles_by n a b _ m (length LA * length LB + length LA + length LB + 4) (depth_pair n LA LB SA DA SB DB) V). clear V. intros F k HF Hk.
  destruct k as [|k]; [lia|]. unfold call. rewrite B0. cbn [arguments].
  assert (ZR : exists o, lazy_eval F (S k) [a; b] (mv_of []) = Some o /\ (forall r, o = Done r -> int_object n r -> stored n r) /\ (floating a -> floating b -> o <> Ovf /\ forall r, o = Done r -> floating r)).
  { destruct (lazy_total n F (S k) [a; b] [] _ _ _ eq_refl B0 eq_refl eq_refl) as (o & E & S1 & S2); [lia|split; constructor|reflexivity|constructor|]. exists o. split; [exact E|]. split; [exact S1|]. intros _ _. apply S2. constructor. }
  rewrite EA, EB, !has_slots. destruct LA as [|ka LA].
  - destruct ZR as (o & E & S1 & S2). exists o. split; [|auto]. rewrite <- E. destruct LB as [|kb LB]; [reflexivity|]. rewrite tag_slots. cbn [op2]. rewrite cmul_S. destruct LB as [|kb' LB]; reflexivity.
  - destruct LB as [|kb LB].
    + destruct ZR as (o & E & S1 & S2). exists o. split; [|auto]. rewrite <- E, tag_slots. cbn [op2]. rewrite cmul_S. destruct LA as [|ka' LA]; reflexivity.
    + rewrite !tag_slots. cbn [op2]. change (0 + 1)%N with 1%N. change (1 + 1)%N with 2%N. set (KA := ka :: LA) in *. set (KB := kb :: LB) in *.
      destruct F as [|[|[|F]]]; try lia.
      destruct (cmul_total n (S (S (S F))) (mult (S (S (S F)))) (HC _) (HT F) (length KA + length KB) k (tagged 1 0 KA) (tagged 2 0 KB) _ _ ltac:(rewrite !tagged_length; lia) ltac:(rewrite !tagged_length; lia) ltac:(rewrite !tagged_length; lia)
        (tagged_lazy n 1 KA Hn SA DA) (tagged_lazy n 2 KB Hn SB DB) (tagged_in n 1 0 KA DA) (tagged_in n 2 0 KB DB)) as (M & -> & C & _ & SM).
      assert (HS : stored_inputs [a; b] = [a; b]) by (unfold stored_inputs; cbn [filter]; rewrite EA, EB, !has_slots; reflexivity).
      destruct (lazy_total n (S (S (S F))) (S k) [a; b] M _ _ _ HS B0 eq_refl eq_refl) as (o & E & S1 & S2); [lia|exact C|discriminate| |].
      { apply (all_listed (stores (S (S (S F))) (S k) 1 2)); [exact C|]. intros q c Hc. destruct (SM q c Hc) as (l & -> & Nl & _). apply stores_sum; [lia|lia|exact Nl]. }
      exists o. split; [exact E|]. split; [exact S1|]. intros Fa Fb. apply S2.
      apply (all_listed (fun c => nov (run _ _ c) /\ integral _ c = false)); [exact C|]. intros q c Hc. destruct (SM q c Hc) as (l & -> & Nl & _). apply sum_fine; [|exact Nl].
      intros j. rewrite first_int by reflexivity. exact (float_cint n a ka LA Fa A EA NA).
Qed.

(** Sums. *)
Lemma add_two F i j : eng (S F) OAdd (GV 1 i) (GV 2 j) = Some (Fn NAdd [GV 1 i; GV 2 j]). Proof. reflexivity. Qed.
Lemma tagged_listed t L v k c : listed (tagged t v L) k = Some c -> L <> [] /\ exists j, c = GV t j.
Proof.
  revert v. induction L as [|x L IH]; intros v E; [discriminate|]. split; [discriminate|]. cbn [tagged listed fst snd] in E. destruct (N.eqb x k); [injection E as <-; eauto|]. exact (proj2 (IH _ E)).
Qed.
Lemma stores_two F n lo hi i j : (lo <= 1)%N -> (2 <= hi)%N -> stores F n lo hi (Fn NAdd [GV 1 i; GV 2 j]).
Proof.
  intros L H. pose proof (gv1 F n lo hi L H i) as E1. pose proof (gv2 F n lo hi L H j) as E2. unfold stores in *.
  change (eval_nary NAdd mk_add (add_any F n) (eval_t F n lo hi) [GV 1 i; GV 2 j] = Some (SV, [StV (Fn NAdd [GV 1 i; GV 2 j])])). cbn [eval_nary]. rewrite E1, E2. reflexivity.
Qed.
Lemma plus_total n a b m : (n <= 63)%N -> stored n a -> stored n b ->
  (forall F k o, plus F k a b = Some o -> o = Ovf \/ exists r, o = Done r /\ int_object n r /\ value r m) ->
  compiles n a b (fun F k => plus F k a b) m.
Proof.
  intros Hn A B V. pose proof A as (LA & EA & SA & DA & NA & BA & WA). pose proof B as (LB & EB & SB & DB & NB & BB & WB). fold (slots LA) in EA. fold (slots LB) in EB.
  pose proof (stored_base n a b Hn A B) as B0. apply (compiles_by n a b _ m (length LA + length LB + 4) ltac:(pose proof (depth_pair n LA LB SA DA SB DB); lia) V). clear V. intros F k HF Hk.
  destruct k as [|k]; [lia|]. destruct F as [|F]; [lia|]. unfold plus, call. rewrite B0. cbn [arguments].
  set (tb := match LA with [] => 1%N | _ => 2%N end).
  assert (EArgs : (if has_stored (cexpr a) then e <- tag_vars (0 + 1) (cexpr a) 0 0;; r <- (if has_stored (cexpr b) then e0 <- tag_vars (0 + 1 + 1) (cexpr b) 0 0;; Some [e0] else Some [cexpr b]);; Some (e :: r)
      else r <- (if has_stored (cexpr b) then e <- tag_vars (0 + 1) (cexpr b) 0 0;; Some [e] else Some [cexpr b]);; Some (cexpr a :: r)) = Some [mv_of (tagged 1 0 LA); mv_of (tagged tb 0 LB)]).
  { rewrite EA, EB, !has_slots. unfold tb. destruct LA as [|ka LA], LB as [|kb LB]; rewrite ?tag_slots; reflexivity. }
  rewrite EArgs. clear EArgs. cbn [op2].
  pose proof (tagged_canonical n 1 0 LA Hn SA DA) as CA. pose proof (tagged_canonical n tb 0 LB Hn SB DB) as CB.
  assert (Bth : forall k c d, listed (tagged 1 0 LA) k = Some c -> listed (tagged tb 0 LB) k = Some d -> exists i j, LA <> [] /\ LB <> [] /\ c = GV 1 i /\ d = GV 2 j).
  { intros q c d Ec Ed. destruct (tagged_listed _ _ _ _ _ Ec) as [N1 [i ->]]. destruct (tagged_listed _ _ _ _ _ Ed) as [N2 [j ->]]. exists i, j. split; [exact N1|]. split; [exact N2|]. split; [reflexivity|]. unfold tb. destruct LA; [congruence|reflexivity]. }
  assert (HS : summable (S F) (tagged 1 0 LA) (tagged tb 0 LB)).
  { intros q c d Ec Ed. destruct (Bth q c d Ec Ed) as (i & j & _ & _ & -> & ->). rewrite add_two. discriminate. }
  pose proof (cadd_total (S F) k (tagged 1 0 LA) (tagged tb 0 LB) ltac:(rewrite !tagged_length; lia) CA CB HS) as T. destruct (cadd (S F) (S k) (mv_of (tagged 1 0 LA)) (mv_of (tagged tb 0 LB))) as [r|] eqn:E; [|congruence].
  destruct (cadd_canonical _ _ _ _ _ CA CB E) as [(M & -> & CM & LM) _].
  assert (ST : stored_inputs [a; b] = (match LA with [] => [] | _ => [a] end) ++ match LB with [] => [] | _ => [b] end).
  { unfold stored_inputs. cbn [filter]. rewrite EA, EB, !has_slots. destruct LA, LB; reflexivity. }
  assert (Cases : forall q c, listed M q = Some c -> (LA <> [] /\ exists j, c = GV 1 j) \/ (LB <> [] /\ exists j, c = GV tb j) \/ (LA <> [] /\ LB <> [] /\ exists i j, c = Fn NAdd [GV 1 i; GV 2 j])).
  { intros q c Hc. rewrite LM in Hc. destruct (listed (tagged 1 0 LA) q) as [x|] eqn:Ex, (listed (tagged tb 0 LB) q) as [y|] eqn:Ey; cbn [comb] in Hc; try discriminate.
    - destruct (Bth q x y Ex Ey) as (i & j & N1 & N2 & -> & ->). rewrite add_two in Hc. injection Hc as <-. right. right. eauto 6.
    - injection Hc as <-. left. exact (tagged_listed _ _ _ _ _ Ex).
    - injection Hc as <-. right. left. exact (tagged_listed _ _ _ _ _ Ey). }
  destruct (lazy_total n (S F) (S k) [a; b] M _ _ _ ST B0 eq_refl eq_refl) as (o & Eo & S1 & S2); [lia|exact CM| | |].
  { intros Es. destruct LA; [|destruct LB; discriminate]. destruct LB; [|discriminate]. destruct M as [|p M]; [reflexivity|]. exfalso. destruct (Cases (fst p) (snd p)) as [[X _]|[[X _]|[X _]]]; [|congruence..]. cbn [listed]. rewrite N.eqb_refl. reflexivity. }
  { apply (all_listed (stores (S F) (S k) 1 _)); [exact CM|]. intros q c Hc. destruct (Cases q c Hc) as [[X [j ->]]|[[X [j ->]]|(X & Y & i & j & ->)]].
    - apply stores_gv; [lia|]. destruct LA; [congruence|]. cbn [app length]. lia.
    - unfold tb. destruct LA, LB; try congruence; apply stores_gv; cbn [app length]; lia.
    - apply stores_two; destruct LA, LB; try congruence; cbn [app length]; lia. }
  exists o. split; [exact Eo|]. split; [exact S1|]. intros Fa Fb. apply S2.
  apply (all_listed (fun c => nov (run _ _ c) /\ integral _ c = false)); [exact CM|]. intros q c Hc. destruct (Cases q c Hc) as [[X [j ->]]|[[X [j ->]]|(X & Y & i & j & ->)]].
  - split; [apply nov_gv|]. destruct LA as [|ka LA]; [congruence|]. cbn [integral app]. rewrite first_int by reflexivity. exact (float_cint n a ka LA Fa A EA NA).
  - split; [apply nov_gv|]. destruct LB as [|kb LB]; [congruence|]. unfold tb. destruct LA as [|ka LA]; cbn [integral app]; [rewrite first_int by reflexivity|rewrite second_int by reflexivity]; exact (float_cint n b kb LB Fb B EB NB).
  - destruct LA as [|ka LA]; [congruence|]. apply two_fine. intros p. cbn [app]. rewrite first_int by reflexivity. exact (float_cint n a ka LA Fa A EA NA).
Qed.
