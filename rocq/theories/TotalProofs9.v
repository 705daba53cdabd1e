(** Products with a number, negation and subtraction of stored multivectors always have a result. *)
From Coq Require Import NArith ZArith List Bool Reals Lra Lia Sorting.Sorted.
From Verif Require Import Bits SpecBits Expr ExprBase Sem Wf Simp SpecMv SpecAlg SpecOrder OrderProofs Comp Mapping CompProofs2 ProductProofs CanonProofs Ops EvalC EvalCProofs Lazy LazyProofs2 SpecLazy Api SpecApi ApiProofs TotalProofs TotalProofs2 TotalProofs3 TotalProofs4 TotalProofs5 TotalProofs6 TotalProofs7 TotalProofs8 SpecTotal.
Import ListNotations.

Definition empty_env : env := {| Sem.ev := fun _ _ => None; Sem.eb := fun _ _ => None |}.
Lemma real_total F n : (n <= 63)%N -> total_mult n (gp_real_map (S (S (S F)))).
Proof.
  intros Hn x y X Y _ _. unfold gp_real_map. apply (orth_total F 63 gp_grades _ real_factor (N.le_refl 63) (gp_vt _)); auto. intros c. exists 1%Z. split; [reflexivity|unfold small; lia].
Qed.
Lemma real_one F k : (k < 2 ^ 63)%N -> gp_real_map (S (S (S F))) (CBlade 0) (CBlade k) = Some (Comp (CV 1) (CBlade k)).
Proof.
  intros K. assert (K64 : (k < 2 ^ 64)%N) by (eapply N.lt_trans; [exact K|reflexivity]). assert (Z0 : (0 < 2 ^ 63)%N) by reflexivity. pose proof (real_total F 63 (N.le_refl _) 0%N k Z0 K Z0 K) as T.
  destruct (gp_real_map (S (S (S F))) (CBlade 0) (CBlade k)) as [m|] eqn:E; [|congruence]. clear T.
  destruct (gp_real_const (S (S (S F))) 63 (N.le_refl _) 0%N k m Z0 K Z0 K E) as (z & k' & -> & K1 & _).
  destruct (gp_real_map_ok (S (S (S F))) (CBlade 0) (CBlade k) _ eq_refl (proj2 (N.ltb_lt _ _) K64) E) as [_ H].
  destruct (H empty_env 0%N k eq_refl eq_refl Z0 K) as (l & _ & _ & H'). destruct (H' Logic.I Logic.I) as [D Q]. clear H H' E.
  specialize (Q k). unfold gp_blade in Q. cbn [coef] in Q. rewrite N.lxor_0_l, N.eqb_refl, N.land_0_l, Rplus_0_r in Q. change (sign_of 0 k) with 1%R in Q. rewrite squares_1, Rmult_1_l in Q.
  destruct (Z.eq_dec z 0) as [->|Nz].
  - exfalso. cbn [component_t comps_of] in D. inversion D as [|? p ? ? Dp DN]; subst. inversion DN; subst. destruct p as [c b]. destruct Dp as (D1 & _ & _). cbn [fst snd] in *. unfold num in D1. cbn [sem] in D1. injection D1 as <-. cbn [coef] in Q. destruct (N.eqb b k); lra.
  - assert (EC : component_t (CV z) (CBlade k') = Comp (CV z) (CBlade k')) by (destruct z; [congruence|reflexivity|reflexivity]). rewrite EC in *. cbn [comps_of] in D. inversion D as [|? p ? ? Dp DN]; subst. inversion DN; subst. destruct p as [c b]. destruct Dp as (D1 & D2 & _). cbn [fst snd] in *. unfold num in D1. cbn [sem] in D1. injection D1 as <-. cbn [dblade] in D2. subst b. cbn [coef] in Q.
    destruct (N.eqb_spec k' k) as [->|Nk]; [|lra]. rewrite Rplus_0_r in Q. apply eq_IZR in Q. subst z. reflexivity.
Qed.

(** Negated entries. *)
Definition opp (e : expr) : expr := Fn NMul [CV (-1); e].
Definition opps (M : entries) : entries := map (fun p => (fst p, opp (snd p))) M.
Definition gvs (t : N) (M : entries) : Prop := Forall (fun p => exists j, snd p = GV t j) M.
Lemma opps_canonical M : canonical M -> canonical (opps M).
Proof.
  intros [S C]. split; [unfold opps; rewrite map_map; exact S|]. unfold opps. rewrite Forall_map. eapply Forall_impl; [|exact C]. intros p [_ L]. split; [discriminate|exact L].
Qed.
Lemma neg_one F n t p : (exists j, snd p = GV t j) -> (fst p < 2 ^ 63)%N -> cmul (S (S (S F))) (S n) (gp_real_map (S (S (S F)))) (c_expr (-1)) (entry p) = Some (entry (fst p, opp (snd p))).
Proof.
  intros [j E] K. rewrite cmul_S. unfold cmul_step, entry, c_expr. cbn [csplit]. rewrite E. change (is_zero_comp (Comp (CV (-1)) (CBlade 0))) with false. change (is_zero_comp (Comp (GV t j) (CBlade (fst p)))) with false.
  change (eng (S (S (S F))) OMul (CV (-1)) (GV t j)) with (Some (opp (GV t j))). rewrite real_one by exact K. cbn [comps_of distribute]. reflexivity.
Qed.
Lemma neg_all F t : forall M n p, canonical (p :: M) -> gvs t (p :: M) -> (length M <= n)%nat ->
  cmul (S (S (S F))) (S (S n)) (gp_real_map (S (S (S F)))) (c_expr (-1)) (mv_of (p :: M)) = Some (mv_of (opps (p :: M))).
Proof.
  induction M as [|q M IH]; intros n p C G Hn; inversion G as [|? ? Gp GM]; subst; destruct (canonical_tail _ _ C) as (C' & A & _ & L).
  - exact (neg_one F (S n) t p Gp L).
  - destruct n as [|n]; [cbn [length] in Hn; lia|]. specialize (IH n q C' GM ltac:(cbn [length] in Hn; lia)). rewrite cmul_S. unfold cmul_step. rewrite csplit_mv. change (csplit (c_expr (-1))) with (Some (CV (-1), CBlade 0, @None (list expr))).
    change (is_zero_comp (c_expr (-1))) with false. destruct Gp as [j Gj]. rewrite (zero_mv p (q :: M)) by (rewrite Gj; discriminate). rewrite mk_add_entries. change (Comp (snd p) (CBlade (fst p))) with (entry p).
    rewrite (neg_one F (S n) t p (ex_intro _ j Gj) L), IH. change (entry (fst p, opp (snd p))) with (mv_of [(fst p, opp (snd p))]). pose proof (opps_canonical _ C) as CS. pose proof (cadd_front (S (S (S F))) (S n) (fst p) (opp (snd p)) (opps (q :: M)) CS) as T.
    destruct (cadd (S (S (S F))) (S (S n)) (mv_of [(fst p, opp (snd p))]) (mv_of (opps (q :: M)))) as [r|] eqn:Er; [|congruence].
    destruct (cadd_first (S (S (S F))) (S (S n)) [(fst p, opp (snd p))] (opps (q :: M)) r (fst p)) as [-> _]; auto; [apply canonical_one; [discriminate|exact L]|apply opps_canonical, C'|unfold opps; rewrite map_map; exact A].
Qed.
Lemma neg_mv F t M n : canonical M -> gvs t M -> (length M <= n)%nat -> cmul (S (S (S F))) (S (S n)) (gp_real_map (S (S (S F)))) (c_expr (-1)) (mv_of M) = Some (mv_of (opps M)).
Proof. intros C G H. destruct M as [|p M]; [reflexivity|]. apply neg_all with (t := t); auto. cbn [length] in H. lia. Qed.
Lemma tagged_gvs t L v : gvs t (tagged t v L).
Proof. revert v. induction L as [|k L IH]; intros v; constructor; [cbn [snd]; eauto|apply IH]. Qed.
Lemma opps_signed M : gvs 1 M -> Forall (fun q => signed_gv (snd q)) (opps M).
Proof. intros G. unfold opps. rewrite Forall_map. eapply Forall_impl; [|exact G]. intros p [j E]. cbn [snd]. rewrite E. exists j. right. reflexivity. Qed.

Lemma neg_total n a m : (n <= 63)%N -> stored n a -> (forall F k o, neg F k a = Some o -> o = Ovf \/ exists r, o = Done r /\ int_object n r /\ value r m) ->
  compiles n a a (fun F k => neg F k a) m.
Proof.
  intros Hn A V. pose proof A as (L & EA & SA & DA & NA & BA & WA). fold (slots L) in EA.
  assert (B0 : base_id [c_obj (-1); a] = 0%N) by (pose proof (stored_base n a a Hn A A) as Z; unfold base_id in *; cbn [fold_right] in *; change (greater_id (cexpr (c_obj (-1)))) with 0%N; lia).
  apply (compiles_by n a a _ m (length L + 4) ltac:(pose proof (depth_pair n L L SA DA SA DA); lia) V). clear V. intros F k HF Hk. destruct k as [|[|k]]; [lia|lia|]. destruct F as [|[|[|F]]]; try lia.
  unfold neg, gp_scalar, call. rewrite B0. cbn [arguments]. change (has_stored (cexpr (c_obj (-1)))) with false. cbn iota. change (cexpr (c_obj (-1))) with (c_expr (-1)). rewrite EA, has_slots.
  assert (HS : stored_inputs [c_obj (-1); a] = match L with [] => [] | _ => [a] end) by (unfold stored_inputs; cbn [filter]; change (has_stored (cexpr (c_obj (-1)))) with false; rewrite EA, has_slots; destruct L; reflexivity).
  pose proof (tagged_canonical n 1 0 L Hn SA DA) as CT. pose proof (tagged_gvs 1 L 0) as GT.
  pose proof (neg_mv F 1 (tagged 1 0 L) k CT GT ltac:(rewrite tagged_length; lia)) as E.
  destruct (lazy_total n (S (S (S F))) (S (S k)) [c_obj (-1); a] (opps (tagged 1 0 L)) _ _ _ HS B0 eq_refl eq_refl) as (o & Eo & S1 & S2); [lia|apply opps_canonical, CT| | |].
  { intros X. destruct L; [reflexivity|discriminate]. }
  { destruct L as [|x L]; [constructor|]. eapply Forall_impl; [|exact (opps_signed _ GT)]. intros q Hq. apply stores_signed; [cbn [length]; lia|exact Hq]. }
  exists o. split.
  - rewrite <- Eo. destruct L as [|x L]; [change (mv_of (slots [])) with (mv_of (tagged 1 0 []))|change (0 + 1)%N with 1%N; rewrite tag_slots]; cbn [op2]; rewrite E; reflexivity.
  - split; [exact S1|]. intros Fa _. apply S2. destruct L as [|x L]; [constructor|]. eapply Forall_impl; [|exact (opps_signed _ GT)]. intros q Hq. apply signed_fine; [|exact Hq].
    intros j. rewrite first_int by reflexivity. exact (float_cint n a x L Fa A EA NA).
Qed.

(** Calls on lazy arguments. *)
Lemma free_args l : Forall (fun x => has_stored (cexpr x) = false) l -> (forall b, arguments b l = Some (map cexpr l)) /\ stored_inputs l = [].
Proof.
  induction 1 as [|x l H _ [IH1 IH2]]; [split; reflexivity|]. split.
  - intros b. cbn [arguments map]. rewrite H, IH1. reflexivity.
  - unfold stored_inputs in *. cbn [filter]. rewrite H. exact IH2.
Qed.
Lemma free_call F k op l e : Forall (fun x => has_stored (cexpr x) = false) l -> op (map cexpr l) = Some e -> exists r, call F k op l = Some (Done r) /\ cexpr r = e.
Proof. intros H E. destruct (free_args l H) as [A S]. unfold call. rewrite A, E. unfold lazy_eval. rewrite S. eexists. split; reflexivity. Qed.
Lemma free_gvs t M : gvs t M -> has_stored (mv_of M) = false /\ has_stored (mv_of (opps M)) = false.
Proof.
  intros G. rewrite !has_stored_mv. induction G as [|p M [j E] G [IH1 IH2]]; [split; reflexivity|]. cbn [opps map existsb snd]. rewrite E. split; [exact IH1|exact IH2].
Qed.

Lemma sub_two F i j : eng (S (S F)) OAdd (GV 1 i) (opp (GV 2 j)) = Some (Fn NAdd [opp (GV 2 j); GV 1 i]). Proof. reflexivity. Qed.
Lemma stores_opp F n hi t j : (1 <= t)%N -> (t <= hi)%N -> stores F n 1 hi (opp (GV t j)).
Proof.
  intros L H. pose proof (stores_gv F n 1 hi t j L H) as E1. unfold stores in *.
  change (eval_nary NMul mk_mul (eng F OMul) (eval_t F n 1 hi) [CV (-1); GV t j] = Some (SV, [StV (opp (GV t j))])). cbn [eval_nary]. rewrite E1. reflexivity.
Qed.
Lemma stores_sub F n hi i j : (2 <= hi)%N -> stores F n 1 hi (Fn NAdd [opp (GV 2 j); GV 1 i]).
Proof.
  intros H. pose proof (stores_opp F n hi 2 j ltac:(lia) H) as E1. pose proof (stores_gv F n 1 hi 1 i ltac:(lia) ltac:(lia)) as E2. unfold stores in *.
  change (eval_nary NAdd mk_add (add_any F n) (eval_t F n 1 hi) [opp (GV 2 j); GV 1 i] = Some (SV, [StV (Fn NAdd [opp (GV 2 j); GV 1 i])])). cbn [eval_nary]. rewrite E1, E2. reflexivity.
Qed.
Lemma opp_fine i g t j : i t j = false -> fine i g (opp (GV t j)).
Proof.
  intros H. split; [|split; [exact H|]].
  - change (nov (lift1 (fun v => arith (i t j) (- v)%R) (run i g (GV t j)))). rewrite H. apply nov_lift1; [apply nov_gv|discriminate].
  - intros ls E. unfold opp in E. injection E as <-. apply nov_gv.
Qed.
Lemma gv_fine i g t j : i t j = false -> fine i g (GV t j).
Proof. intros H. split; [apply nov_gv|]. split; [exact H|]. intros ls E. discriminate. Qed.

Lemma minus_total n a b m : (n <= 63)%N -> stored n a -> stored n b ->
  (forall F k o, minus F k a b = Some o -> o = Ovf \/ exists r, o = Done r /\ int_object n r /\ value r m) ->
  compiles n a b (fun F k => minus F k a b) m.
Proof.
  intros Hn A B V. pose proof A as (LA & EA & SA & DA & NA & BA & WA). pose proof B as (LB & EB & SB & DB & NB & BB & WB). fold (slots LA) in EA. fold (slots LB) in EB.
  pose proof (stored_base n a b Hn A B) as B0. apply (compiles_by n a b _ m (length LA + length LB + 4) ltac:(pose proof (depth_pair n LA LB SA DA SB DB); lia) V). clear V. intros F k HF Hk.
  destruct k as [|[|k]]; [lia|lia|]. destruct F as [|[|[|F]]]; try lia. unfold minus, in_context. rewrite B0. cbn [arguments].
  set (tb := match LA with [] => 1%N | _ => 2%N end).
  assert (EArgs : (if has_stored (cexpr a) then e <- tag_vars (0 + 1) (cexpr a) 0 0;; r <- (if has_stored (cexpr b) then e0 <- tag_vars (0 + 1 + 1) (cexpr b) 0 0;; Some [e0] else Some [cexpr b]);; Some (e :: r)
      else r <- (if has_stored (cexpr b) then e <- tag_vars (0 + 1) (cexpr b) 0 0;; Some [e] else Some [cexpr b]);; Some (cexpr a :: r)) = Some [mv_of (tagged 1 0 LA); mv_of (tagged tb 0 LB)]).
  { rewrite EA, EB, !has_slots. unfold tb. destruct LA as [|ka LA], LB as [|kb LB]; rewrite ?tag_slots; reflexivity. }
  rewrite EArgs. clear EArgs. cbn [map].
  pose proof (tagged_canonical n 1 0 LA Hn SA DA) as CA. pose proof (tagged_canonical n tb 0 LB Hn SB DB) as CB. pose proof (tagged_gvs 1 LA 0) as GA. pose proof (tagged_gvs tb LB 0) as GB.
  destruct (free_gvs _ _ GA) as [FA _]. destruct (free_gvs _ _ GB) as [FB FB']. pose proof (opps_canonical _ CB) as CO.
  destruct (free_call (S (S (S F))) (S (S k)) (op2 (cmul (S (S (S F))) (S (S k)) (gp_real_map (S (S (S F)))))) [c_obj (-1); lazy_obj (mv_of (tagged tb 0 LB))] (mv_of (opps (tagged tb 0 LB)))) as (m1 & E1 & C1).
  { constructor; [reflexivity|]. constructor; [exact FB|constructor]. }
  { exact (neg_mv F tb (tagged tb 0 LB) k CB GB ltac:(rewrite tagged_length; lia)). }
  unfold gp_scalar. rewrite E1. cbn [andthen]. clear E1.
  assert (Lst : forall k c, listed (opps (tagged tb 0 LB)) k = Some c -> LB <> [] /\ exists j, c = opp (GV tb j)).
  { intros q c. generalize 0%nat. clear. induction LB as [|x L IH]; intros v E; [discriminate|]. split; [discriminate|]. cbn [tagged opps map listed fst snd] in E. destruct (N.eqb x q); [injection E as <-; eauto|]. exact (proj2 (IH _ E)). }
  assert (Bth : forall k c d, listed (tagged 1 0 LA) k = Some c -> listed (opps (tagged tb 0 LB)) k = Some d -> exists i j, LA <> [] /\ LB <> [] /\ c = GV 1 i /\ d = opp (GV 2 j)).
  { intros q c d Ec Ed. destruct (tagged_listed _ _ _ _ _ Ec) as [N1 [i ->]]. destruct (Lst _ _ Ed) as [N2 [j ->]]. exists i, j. split; [exact N1|]. split; [exact N2|]. split; [reflexivity|]. unfold tb. destruct LA; [congruence|reflexivity]. }
  assert (HS : summable (S (S (S F))) (tagged 1 0 LA) (opps (tagged tb 0 LB))).
  { intros q c d Ec Ed. destruct (Bth q c d Ec Ed) as (i & j & _ & _ & -> & ->). rewrite sub_two. discriminate. }
  pose proof (cadd_total (S (S (S F))) (S k) (tagged 1 0 LA) (opps (tagged tb 0 LB)) ltac:(unfold opps; rewrite map_length, !tagged_length; lia) CA CO HS) as T.
  destruct (cadd (S (S (S F))) (S (S k)) (mv_of (tagged 1 0 LA)) (mv_of (opps (tagged tb 0 LB)))) as [r|] eqn:E; [|congruence]. clear T.
  destruct (cadd_canonical _ _ _ _ _ CA CO E) as [(M & -> & CM & LM) _].
  destruct (free_call (S (S (S F))) (S (S k)) (op2 (cadd (S (S (S F))) (S (S k)))) [lazy_obj (mv_of (tagged 1 0 LA)); m1] (mv_of M)) as (m2 & E2 & C2).
  { constructor; [exact FA|]. constructor; [rewrite C1; exact FB'|constructor]. }
  { cbn [map op2]. rewrite C1. exact E. }
  unfold plus. rewrite E2. cbn [andthen]. rewrite C2. clear E2 C1 C2.
  assert (ST : stored_inputs [a; b] = (match LA with [] => [] | _ => [a] end) ++ match LB with [] => [] | _ => [b] end).
  { unfold stored_inputs. cbn [filter]. rewrite EA, EB, !has_slots. destruct LA, LB; reflexivity. }
  assert (Cases : forall q c, listed M q = Some c -> (LA <> [] /\ exists j, c = GV 1 j) \/ (LB <> [] /\ exists j, c = opp (GV tb j)) \/ (LA <> [] /\ LB <> [] /\ exists i j, c = Fn NAdd [opp (GV 2 j); GV 1 i])).
  { intros q c Hc. rewrite LM in Hc. destruct (listed (tagged 1 0 LA) q) as [x|] eqn:Ex, (listed (opps (tagged tb 0 LB)) q) as [y|] eqn:Ey; cbn [comb] in Hc; try discriminate.
    - destruct (Bth q x y Ex Ey) as (i & j & N1 & N2 & -> & ->). rewrite sub_two in Hc. injection Hc as <-. right. right. eauto 6.
    - injection Hc as <-. left. exact (tagged_listed _ _ _ _ _ Ex).
    - injection Hc as <-. right. left. exact (Lst _ _ Ey). }
  destruct (lazy_total n (S (S (S F))) (S (S k)) [a; b] M _ _ _ ST B0 eq_refl eq_refl) as (o & Eo & S1 & S2); [lia|exact CM| | |].
  { intros Es. destruct LA; [|destruct LB; discriminate]. destruct LB; [|discriminate]. destruct M as [|p M]; [reflexivity|]. exfalso. destruct (Cases (fst p) (snd p)) as [[X _]|[[X _]|[X _]]]; [|congruence..]. cbn [listed]. rewrite N.eqb_refl. reflexivity. }
  { apply (all_listed (stores (S (S (S F))) (S (S k)) 1 _)); [exact CM|]. intros q c Hc. destruct (Cases q c Hc) as [[X [j ->]]|[[X [j ->]]|(X & Y & i & j & ->)]].
    - apply stores_gv; [lia|]. destruct LA; [congruence|]. cbn [app length]. lia.
    - unfold tb. destruct LA, LB; try congruence; apply stores_opp; cbn [app length]; lia.
    - apply stores_sub; destruct LA, LB; try congruence; cbn [app length]; lia. }
  exists o. split; [exact Eo|]. split; [exact S1|]. intros Fa Fb. apply S2.
  apply (all_listed (fun c => nov (run _ _ c) /\ integral _ c = false)); [exact CM|]. intros q c Hc.
  assert (Ia : LA <> [] -> forall st j, ctx_int 0 ((match LA with [] => [] | _ => [a] end) ++ st) 1%N j = false).
  { intros X st j. destruct LA as [|ka LA]; [congruence|]. cbn [app]. rewrite first_int by reflexivity. exact (float_cint n a ka LA Fa A EA NA). }
  assert (Ib : LB <> [] -> forall j, ctx_int 0 ((match LA with [] => [] | _ => [a] end) ++ match LB with [] => [] | _ => [b] end) tb j = false).
  { intros X j. destruct LB as [|kb LB]; [congruence|]. unfold tb. destruct LA as [|ka LA]; cbn [app]; [rewrite first_int by reflexivity|rewrite second_int by reflexivity]; exact (float_cint n b kb LB Fb B EB NB). }
  destruct (Cases q c Hc) as [[X [j ->]]|[[X [j ->]]|(X & Y & i & j & ->)]].
  - split; [apply nov_gv|]. exact (Ia X _ j).
  - destruct (opp_fine _ (ctx_env 0 ((match LA with [] => [] | _ => [a] end) ++ match LB with [] => [] | _ => [b] end)) tb j (Ib X j)) as (R1 & R2 & _). split; [exact R1|exact R2].
  - assert (Etb : tb = 2%N) by (unfold tb; destruct LA; [congruence|reflexivity]). rewrite Etb in Ib. split.
    + apply (fine_add _ _ [GV 1 i] (opp (GV 2 j))). constructor; [apply opp_fine, Ib, Y|]. constructor; [apply gv_fine, Ia, X|constructor].
    + cbn [integral forallb]. rewrite (proj1 (proj2 (opp_fine _ empty_env 2 j (Ib Y j)))). reflexivity.
Qed.
