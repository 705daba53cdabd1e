(** Reversion, involution and conjugation of stored multivectors always have a result; whole formulas. *)
From Coq Require Import NArith ZArith List Bool Reals Lia Sorting.Sorted.
From Verif Require Import Bits SpecBits Expr ExprBase Sem Wf Simp SpecMv SpecOrder OrderProofs Comp EvalC EvalCProofs Lazy LazyProofs2 SpecLazy Api SpecApi TotalProofs TotalProofs2 TotalProofs3 TotalProofs5 TotalProofs6 TotalProofs7 SpecTotal.
Import ListNotations.

Definition minus_gv (j : N) : expr := Fn NMul [CV (-1); GV 1 j].
Definition signed_gv (c : expr) : Prop := exists j, c = GV 1 j \/ c = minus_gv j.
Lemma minus_eng F j : eng (S F) OMul (CV (-1)) (GV 1 j) = Some (minus_gv j). Proof. reflexivity. Qed.
Lemma gum1_total F p k j : exists c, gum1 (S F) p (entry (k, GV 1 j)) = Some (entry (k, c)) /\ signed_gv c.
Proof.
  unfold entry, gum1. cbn [fst snd]. rewrite minus_eng. destruct (N.eqb _ 0); [exists (GV 1 j)|exists (minus_gv j)]; (split; [reflexivity|exists j; auto]).
Qed.
Lemma signed_nz c : signed_gv c -> c <> CV 0.
Proof. intros [j [->| ->]]; discriminate. Qed.
Lemma gum_list_total F n p N : (N <= 63)%N -> forall L k v, StronglySorted blade_lt (k :: L) -> Forall (fun k => (k < 2 ^ N)%N) (k :: L) ->
  exists M, gum_list (S F) (S n) p (map entry (tagged 1 v (k :: L))) = Some (mv_of M) /\ canonical M /\ map fst M = k :: L /\ Forall (fun q => signed_gv (snd q)) M.
Proof.
  intros HN. induction L as [|k' L IH]; intros k v S D; destruct (gum1_total F p k (N.of_nat v)) as (c & E & Hc); inversion D as [|? ? Dk DL]; subst; pose proof (pow_63 N k HN Dk) as K.
  - exists [(k, c)]. split; [exact E|]. split; [apply canonical_one; [apply signed_nz, Hc|exact K]|]. split; [reflexivity|]. repeat constructor. exact Hc.
  - inversion S as [|? ? S' A]; subst. destruct (IH k' (Datatypes.S v) S' DL) as (M & E' & CM & FM & HM). exists ((k, c) :: M).
    assert (CC : canonical ((k, c) :: M)).
    { destruct CM as [C1 C2]. split; [cbn [map fst]; rewrite FM; exact S|]. constructor; [cbn [fst snd]; split; [apply signed_nz, Hc|exact K]|exact C2]. }
    split; [|split; [exact CC|split; [cbn [map fst]; rewrite FM; reflexivity|constructor; [exact Hc|exact HM]]]].
    change (match gum1 (Datatypes.S F) p (entry (k, GV 1 (N.of_nat v))) with Some h => match gum_list (Datatypes.S F) (Datatypes.S n) p (map entry (tagged 1 (Datatypes.S v) (k' :: L))) with Some t => cadd (Datatypes.S F) (Datatypes.S n) h t | None => None end | None => None end = Some (mv_of ((k, c) :: M))).
    rewrite E, E'. change (entry (k, c)) with (mv_of [(k, c)]). pose proof (cadd_front (Datatypes.S F) n k c M CC) as T.
    destruct (cadd (Datatypes.S F) (Datatypes.S n) (mv_of [(k, c)]) (mv_of M)) as [r|] eqn:Er; [|congruence].
    destruct (cadd_first (Datatypes.S F) (Datatypes.S n) [(k, c)] M r k) as [-> _]; auto; [apply canonical_one; [apply signed_nz, Hc|exact K]|rewrite FM; exact A].
Qed.
Lemma stores_signed F n hi c : (1 <= hi)%N -> signed_gv c -> stores F n 1 hi c.
Proof.
  intros H [j E]. assert (E1 : stores F n 1 hi (GV 1 j)) by (apply stores_gv; lia). destruct E as [->| ->]; [exact E1|]. unfold stores in *.
  change (eval_nary NMul mk_mul (eng F OMul) (eval_t F n 1 hi) [CV (-1); GV 1 j] = Some (SV, [StV (minus_gv j)])). cbn [eval_nary]. rewrite E1. reflexivity.
Qed.
Lemma signed_fine i g c : (forall j, i 1%N j = false) -> signed_gv c -> nov (run i g c) /\ integral i c = false.
Proof.
  intros H [j [->| ->]]; [split; [apply nov_gv|exact (H j)]|]. split; [|change (i 1%N j = false); apply H].
  change (nov (lift1 (fun v => arith (i 1%N j) (- v)%R) (run i g (GV 1 j)))). rewrite H. apply nov_lift1; [apply nov_gv|discriminate].
Qed.
Lemma gum_total n p a m : (n <= 63)%N -> stored n a ->
  (forall F k o, call F k (op1 (gum F k p)) [a] = Some o -> o = Ovf \/ exists r, o = Done r /\ int_object n r /\ value r m) ->
  compiles n a a (fun F k => call F k (op1 (gum F k p)) [a]) m.
Proof.
  intros Hn A V. pose proof A as (L & EA & SA & DA & NA & BA & WA). fold (slots L) in EA.
  assert (B0 : base_id [a] = 0%N) by (pose proof (stored_base n a a Hn A A) as Z; unfold base_id in *; cbn [fold_right] in *; lia).
  apply (compiles_by n a a _ m 4 ltac:(unfold depth; lia) V). clear V. intros F k HF Hk. destruct k as [|k]; [lia|]. destruct F as [|F]; [lia|].
  unfold call. rewrite B0. cbn [arguments]. rewrite EA, has_slots.
  assert (HS : stored_inputs [a] = match L with [] => [] | _ => [a] end) by (unfold stored_inputs; cbn [filter]; rewrite EA, has_slots; destruct L; reflexivity).
  assert (G : exists M, gum (S F) (S k) p (mv_of (tagged 1 0 L)) = Some (mv_of M) /\ canonical M /\ map fst M = L /\ Forall (fun q => signed_gv (snd q)) M).
  { destruct L as [|x L].
    - exists []. split; [|repeat split; constructor]. unfold gum. change (comps_of (mv_of (tagged 1 0 []))) with [mv_of []]. cbn [gum_list]. change (mv_of []) with (Comp (CV 0) (CBlade 0)). unfold gum1.
      change (eng (S F) OMul (CV (-1)) (CV 0)) with (Some (CV 0)). destruct (N.eqb _ 0); reflexivity.
    - destruct (gum_list_total F k p n Hn L x 0 SA DA) as (M & E & R). exists M. split; [|exact R]. rewrite <- E. unfold gum. f_equal. destruct L; reflexivity. }
  destruct G as (M & E & CM & FM & HM).
  destruct (lazy_total n (S F) (S k) [a] M _ _ _ HS B0 eq_refl eq_refl) as (o & Eo & S1 & S2); [lia|exact CM| | |].
  { intros X. destruct L; [|discriminate]. destruct M; [reflexivity|discriminate]. }
  { destruct L as [|x L]; [destruct M; [constructor|discriminate]|]. eapply Forall_impl; [|exact HM]. intros q Hq. apply stores_signed; [cbn [length]; lia|exact Hq]. }
  exists o. split.
  - rewrite <- Eo. destruct L as [|x L]; [change (mv_of (slots [])) with (mv_of (tagged 1 0 []))|change (0 + 1)%N with 1%N; rewrite tag_slots]; cbn [op1]; rewrite E; reflexivity.
  - split; [exact S1|]. intros Fa _. apply S2. destruct L as [|x L]; [destruct M; [constructor|discriminate]|]. eapply Forall_impl; [|exact HM]. intros q Hq. apply signed_fine; [|exact Hq].
    intros j. rewrite first_int by reflexivity. exact (float_cint n a x L Fa A EA NA).
Qed.
