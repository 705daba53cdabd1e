(** The sum of canonically ordered multivectors is canonically ordered. *)
From Coq Require Import NArith ZArith List Bool Lia Sorting.Sorted.
From Verif Require Import Bits Expr SpecBits SpecOrder ExprBase Simp Comp BitsBase BitsOnes GradeProofs.
Import ListNotations.

Lemma blade_lt_irrefl x : ~ blade_lt x x. Proof. unfold blade_lt. lia. Qed.
Lemma blade_lt_trans x y z : blade_lt x y -> blade_lt y z -> blade_lt x z. Proof. unfold blade_lt. lia. Qed.
Lemma wrap_shift h : (h < 64)%N -> wrap (N.shiftl 1 h) = (2 ^ h)%N.
Proof. exact (bit_pow h). Qed.
Lemma lt63_64 x : (x < 2 ^ 63)%N -> (x < 2 ^ 64)%N.
Proof. intros H. apply (N.lt_le_trans _ _ _ H). apply N.pow_le_mono_r; lia. Qed.
Lemma pg_CBlade x : possible_grades (CBlade x) = wrap (N.shiftl 1 (ones x)). Proof. reflexivity. Qed.
Lemma grade_lt64 x : (x < 2 ^ 63)%N -> (grade_of x < 64)%N.
Proof. intros H. apply N.le_lt_trans with 63%N; [apply (grade_le x 63); [discriminate|exact H]|reflexivity]. Qed.
Lemma grades_wrap x : (x < 2 ^ 63)%N -> possible_grades (CBlade x) = (2 ^ grade_of x)%N /\ (grade_of x < 64)%N.
Proof.
  intros H. pose proof (grade_lt64 x H) as G. split; [|exact G].
  rewrite pg_CBlade, (ones_correct x (lt63_64 x H)). exact (wrap_shift _ G).
Qed.
Lemma lt_blade x y : (x < 2 ^ 63)%N -> (y < 2 ^ 63)%N -> lt (CBlade x) (CBlade y) = true <-> blade_lt x y.
Proof.
  intros Hx Hy. destruct (grades_wrap x Hx) as [Gx Lx]. destruct (grades_wrap y Hy) as [Gy Ly].
  unfold lt. cbn [esize Nat.add lt_fuel]. rewrite Gx, Gy, orb_true_iff, andb_true_iff, !N.ltb_lt, N.eqb_eq. unfold blade_lt. split.
  - intros [H|[H L]]; [left; apply N.pow_lt_mono_r_iff in H; lia|right]. split; [|exact L]. apply N.pow_inj_r in H; lia.
  - intros [H|[H L]]; [left; apply N.pow_lt_mono_r; lia|right]. rewrite H. auto.
Qed.
Lemma blade_total x y : x <> y -> blade_lt x y \/ blade_lt y x. Proof. unfold blade_lt. lia. Qed.

Lemma listed_above k l : Forall (blade_lt k) (map fst l) -> listed l k = None.
Proof.
  induction l as [|p l IH]; intros H; [reflexivity|]. inversion H; subst. cbn [listed]. destruct (N.eqb_spec (fst p) k) as [E|]; [rewrite E in *; exfalso; eapply blade_lt_irrefl; eauto|auto].
Qed.
Lemma listed_In l k c : listed l k = Some c -> In k (map fst l).
Proof. induction l as [|p l IH]; cbn [listed map]; [discriminate|]. destruct (N.eqb_spec (fst p) k); [left; auto|right; auto]. Qed.
Lemma In_listed l k : In k (map fst l) -> listed l k <> None.
Proof. induction l as [|p l IH]; cbn [listed map]; [intros []|]. intros [E|I]; destruct (N.eqb_spec (fst p) k); try congruence; auto. Qed.
Lemma canonical_tail p l : canonical (p :: l) -> canonical l /\ Forall (blade_lt (fst p)) (map fst l) /\ snd p <> CV 0 /\ (fst p < 2 ^ 63)%N.
Proof. intros [S F]. inversion S; subst. inversion F; subst. unfold canonical. tauto. Qed.
Lemma canonical_cons p l : canonical l -> Forall (blade_lt (fst p)) (map fst l) -> snd p <> CV 0 -> (fst p < 2 ^ 63)%N -> canonical (p :: l).
Proof. intros [S F] A B C. split; [constructor; auto|constructor; auto]. Qed.
Lemma mk_add_entries p l : mk_add (map entry (p :: l)) = Some (mv_of (p :: l)).
Proof.
  destruct l as [|p' l]; [reflexivity|]. unfold mk_add. cbn [map].
  assert (E : forall l, existsb (is_cv 0) (map entry l) = false) by (induction l0 as [|x l0 IH]; [reflexivity|exact IH]).
  change (entry p :: entry p' :: map entry l) with (map entry (p :: p' :: l)). rewrite E, andb_false_r. reflexivity.
Qed.
Lemma csplit_mv p l : csplit (mv_of (p :: l)) = Some (snd p, CBlade (fst p), match l with [] => None | _ => Some (map entry l) end).
Proof. destruct l; reflexivity. Qed.
Lemma zero_mv p l : snd p <> CV 0 -> is_zero_comp (mv_of (p :: l)) = false.
Proof. intros H. destruct l; [|reflexivity]. cbn. destruct (snd p) as [[]| | | | | | | | | |]; try reflexivity. congruence. Qed.

Section Step.
  Variable F : nat.
  Definition comb (x y : option expr) : option expr :=
    match x, y with
    | None, _ => y
    | _, None => x
    | Some c, Some d => match eng F OAdd c d with Some (CV 0) => None | o => o end
    end.
  Definition add_can (f : expr -> expr -> option expr) : Prop := forall A B r, canonical A -> canonical B -> f (mv_of A) (mv_of B) = Some r ->
    (exists M, r = mv_of M /\ canonical M /\ forall k, listed M k = comb (listed A k) (listed B k)) /\
    (forall k c d, listed A k = Some c -> listed B k = Some d -> eng F OAdd c d <> None).
  Lemma comb_None_r x : comb x None = x. Proof. destruct x; reflexivity. Qed.
  Lemma above_of A B M x : (forall k, listed M k = comb (listed A k) (listed B k)) -> Forall (blade_lt x) (map fst A) -> Forall (blade_lt x) (map fst B) -> Forall (blade_lt x) (map fst M).
  Proof.
    intros H HA HB. rewrite Forall_forall in *. intros k Hk. apply In_listed in Hk. rewrite H in Hk.
    destruct (listed A k) eqn:E; [apply HA; apply (listed_In _ _ _ E)|]. cbn in Hk. destruct (listed B k) eqn:E'; [apply HB; apply (listed_In _ _ _ E')|congruence].
  Qed.
  Variable rec : expr -> expr -> option expr.
  Hypothesis IH0 : add_can rec.
  Let IH A B r CA CB E := proj1 (IH0 A B r CA CB E).
  Let ID A B r CA CB E := proj2 (IH0 A B r CA CB E).
  Lemma step_def A B r : canonical A -> canonical B -> cadd_step F rec (mv_of A) (mv_of B) = Some r ->
    forall k c d, listed A k = Some c -> listed B k = Some d -> eng F OAdd c d <> None.
  Proof.
    intros CA CB. unfold cadd_step. destruct A as [|[k c] A]; [discriminate|]. destruct B as [|[l d] B]; [discriminate|].
    destruct (canonical_tail _ _ CA) as (CA' & AA & Nc & Lk). destruct (canonical_tail _ _ CB) as (CB' & AB & Nd & Ll). cbn [fst snd] in *.
    rewrite !csplit_mv. unfold cadd_zero. rewrite (zero_mv (k, c) A Nc), (zero_mv (l, d) B Nd). cbn [andb fst snd].
    destruct (expr_eqb (CBlade k) (CBlade l)) eqn:E.
    - apply expr_eqb_eq in E. injection E as <-. destruct (eng F OAdd c d) as [s|] eqn:Es; [|discriminate]. intros R j c' d'. cbn [listed fst snd].
      destruct (N.eqb_spec k j) as [<-|Nj]; [intros [= <-] [= <-]; congruence|].
      destruct A as [|pa A], B as [|pb B]; try discriminate.
      revert R. rewrite !mk_add_entries. destruct (rec (mv_of (pa :: A)) (mv_of (pb :: B))) as [v|] eqn:Rv; [|discriminate]. intros _. apply (ID _ _ _ CA' CB' Rv).
    - assert (Nkl : k <> l) by (intros ->; rewrite expr_eqb_refl in E; discriminate). clear E.
      destruct (lt (CBlade k) (CBlade l)) eqn:L1.
      + apply (lt_blade k l Lk Ll) in L1.
        assert (AB' : Forall (blade_lt k) (map fst ((l, d) :: B))).
        { constructor; [exact L1|]. eapply Forall_impl; [|exact AB]. intros x. apply blade_lt_trans. exact L1. }
        intros R j c' d' Hc Hd. cbn [listed fst snd] in Hc. destruct (N.eqb_spec k j) as [<-|Nj]; [rewrite (listed_above k _ AB') in Hd; discriminate|].
        destruct A as [|pa A]; [discriminate|]. revert R. rewrite mk_add_entries. destruct (rec (mv_of (pa :: A)) (mv_of ((l, d) :: B))) as [u|] eqn:Ru; [|discriminate]. intros _.
        apply (ID _ _ _ CA' CB Ru j c' d' Hc Hd).
      + destruct (lt (CBlade l) (CBlade k)) eqn:L2; [|discriminate]. apply (lt_blade l k Ll Lk) in L2.
        assert (AA' : Forall (blade_lt l) (map fst ((k, c) :: A))).
        { constructor; [exact L2|]. eapply Forall_impl; [|exact AA]. intros x. apply blade_lt_trans. exact L2. }
        intros R j c' d' Hc Hd. cbn [listed fst snd] in Hd. destruct (N.eqb_spec l j) as [<-|Nj]; [rewrite (listed_above l _ AA') in Hc; discriminate|].
        destruct B as [|pb B]; [discriminate|]. revert R. rewrite mk_add_entries. destruct (rec (mv_of ((k, c) :: A)) (mv_of (pb :: B))) as [u|] eqn:Ru; [|destruct A; discriminate]. intros _.
        apply (ID _ _ _ CA CB' Ru j c' d' Hc Hd).
  Qed.
  Lemma step_can : add_can (cadd_step F rec).
  Proof.
    intros A B r CA CB E. split; [|apply (step_def A B r CA CB E)]. revert E. unfold cadd_step.
    destruct A as [|[k c] A].
    { change (csplit (mv_of [])) with (Some (CV 0, CBlade 0, @None (list expr))). destruct (csplit (mv_of B)) as [[[d y] ys]|]; [|discriminate].
      unfold cadd_zero. change (is_zero_comp (mv_of [])) with true. cbn [andb]. destruct (is_zero_comp (mv_of B)) eqn:Z.
      - intros [= <-]. destruct B as [|p B]; [|rewrite (zero_mv p B) in Z by (apply canonical_tail in CB; tauto); discriminate]. exists []. split; [reflexivity|]. split; [exact CA|]. reflexivity.
      - intros [= <-]. exists B. split; [reflexivity|]. split; [exact CB|]. reflexivity. }
    destruct (canonical_tail _ _ CA) as (CA' & AA & Nc & Lk). cbn [fst snd] in *.
    rewrite csplit_mv. destruct B as [|[l d] B].
    { change (csplit (mv_of [])) with (Some (CV 0, CBlade 0, @None (list expr))). unfold cadd_zero. rewrite (zero_mv (k, c) A Nc). change (is_zero_comp (mv_of [])) with true. cbn [andb].
      intros [= <-]. exists ((k, c) :: A). split; [reflexivity|]. split; [exact CA|]. intros j. rewrite comb_None_r. reflexivity. }
    destruct (canonical_tail _ _ CB) as (CB' & AB & Nd & Ll). cbn [fst snd] in *.
    rewrite csplit_mv. unfold cadd_zero. rewrite (zero_mv (k, c) A Nc), (zero_mv (l, d) B Nd). cbn [andb fst snd].
    destruct (expr_eqb (CBlade k) (CBlade l)) eqn:E.
    - apply expr_eqb_eq in E. injection E as <-. destruct (eng F OAdd c d) as [s|] eqn:Es; [|discriminate].
      set (H := if is_cv 0 s then [] else [(k, s)]).
      assert (Eh : component_t s (CBlade k) = mv_of H /\ canonical H /\ (forall j, listed H j = if N.eqb k j then comb (Some c) (Some d) else None)).
      { unfold H. assert (D : s = CV 0 \/ s <> CV 0 /\ is_cv 0 s = false /\ component_t s (CBlade k) = Comp s (CBlade k)) by (destruct s as [[]| | | | | | | | | |]; auto; right; (split; [discriminate|split; reflexivity])).
        destruct D as [-> | (Ns & Z & T)].
        - split; [reflexivity|]. split; [split; constructor|]. intros j. cbn [comb]. rewrite Es. destruct (N.eqb k j); reflexivity.
        - rewrite Z, T. split; [reflexivity|]. split; [apply canonical_cons; [split; constructor|constructor|exact Ns|exact Lk]|].
          intros j. cbn [listed comb fst snd]. rewrite Es. destruct (N.eqb k j); [|reflexivity]. destruct s as [[]| | | | | | | | | |]; try reflexivity. congruence. }
      destruct Eh as (Eh & CH & LH). rewrite Eh. clear Eh.
      assert (Fin : forall M M' r', canonical M -> (forall j, listed M j = comb (listed A j) (listed B j)) -> r' = mv_of M' -> canonical M' ->
         (forall j, listed M' j = comb (listed H j) (listed M j)) -> exists M, r' = mv_of M /\ canonical M /\ forall j, listed M j = comb (listed ((k, c) :: A) j) (listed ((k, d) :: B) j)).
      { intros M M' r' CM LM -> CM' LM'. exists M'. split; [reflexivity|]. split; [exact CM'|]. intros j. rewrite LM', LH, LM. cbn [listed fst snd].
        destruct (N.eqb_spec k j) as [<-|]; [|reflexivity]. rewrite (listed_above k A AA), (listed_above k B AB). apply comb_None_r. }
      destruct A as [|pa A], B as [|pb B].
      + intros [= <-]. apply (Fin [] H); [split; constructor|reflexivity|reflexivity|exact CH|]. intros j. symmetry. apply comb_None_r.
      + rewrite mk_add_entries. intros R. destruct (IH H (pb :: B) r CH CB' R) as (M' & -> & CM & LM). apply (Fin (pb :: B) M'); [exact CB'|reflexivity|reflexivity|exact CM|exact LM].
      + rewrite mk_add_entries. intros R. destruct (IH H (pa :: A) r CH CA' R) as (M' & -> & CM & LM). apply (Fin (pa :: A) M'); [exact CA'| |reflexivity|exact CM|exact LM]. intros j. symmetry. apply comb_None_r.
      + rewrite !mk_add_entries. destruct (rec (mv_of (pa :: A)) (mv_of (pb :: B))) as [v|] eqn:Rv; [|discriminate]. intros R.
        destruct (IH _ _ _ CA' CB' Rv) as (M & -> & CM & LM). destruct (IH H M r CH CM R) as (M' & -> & CM' & LM'). apply (Fin M M'); auto.
    - assert (Nkl : k <> l) by (intros ->; rewrite expr_eqb_refl in E; discriminate). clear E.
      destruct (lt (CBlade k) (CBlade l)) eqn:L1.
      + apply (lt_blade k l Lk Ll) in L1.
        assert (AB' : Forall (blade_lt k) (map fst ((l, d) :: B))).
        { constructor; [exact L1|]. eapply Forall_impl; [|exact AB]. intros x. apply blade_lt_trans. exact L1. }
        assert (Fin : forall M, canonical M -> (forall j, listed M j = comb (listed A j) (listed ((l, d) :: B) j)) -> exists M', mv_of ((k, c) :: M) = mv_of M' /\ canonical M' /\ forall j, listed M' j = comb (listed ((k, c) :: A) j) (listed ((l, d) :: B) j)).
        { intros M CM LM. exists ((k, c) :: M). split; [reflexivity|]. split; [apply canonical_cons; auto; apply (above_of _ _ _ _ LM); auto|].
          intros j. cbn [listed fst snd]. destruct (N.eqb_spec k j) as [<-|]; [|apply LM]. rewrite (listed_above k B) by (inversion AB'; auto). destruct (N.eqb_spec l k); [congruence|]. reflexivity. }
        destruct A as [|pa A].
        * assert (G : exists M', mv_of ((k, c) :: (l, d) :: B) = mv_of M' /\ canonical M' /\ forall j, listed M' j = comb (listed [(k, c)] j) (listed ((l, d) :: B) j)) by (apply Fin; auto).
          destruct B as [|pb B].
          -- change [mv_of [(k, c)]; mv_of [(l, d)]] with (map entry [(k, c); (l, d)]). rewrite mk_add_entries. intros [= <-]. exact G.
          -- change (mv_of [(k, c)] :: Comp d (CBlade l) :: map entry (pb :: B)) with (map entry ((k, c) :: (l, d) :: pb :: B)). rewrite mk_add_entries. intros [= <-]. exact G.
        * rewrite mk_add_entries. destruct (rec (mv_of (pa :: A)) (mv_of ((l, d) :: B))) as [u|] eqn:Ru; [|discriminate]. intros R.
          destruct (IH _ _ _ CA' CB Ru) as (M & -> & CM & LM). change (Comp c (CBlade k)) with (mv_of [(k, c)]) in R.
          assert (C1 : canonical [(k, c)]) by (apply canonical_cons; auto; [split; constructor|constructor]).
          destruct (IH [(k, c)] M r C1 CM R) as (M' & -> & CM' & LM'). exists M'. split; [reflexivity|]. split; [exact CM'|].
          intros j. rewrite LM', LM. cbn [listed fst snd]. destruct (N.eqb_spec k j) as [<-|]; [|reflexivity].
          pose proof (listed_above k (pa :: A) AA) as X1. pose proof (listed_above k _ AB') as X2. cbn [listed fst snd] in X1, X2. rewrite X1, X2. reflexivity.
      + destruct (lt (CBlade l) (CBlade k)) eqn:L2; [|discriminate]. apply (lt_blade l k Ll Lk) in L2.
        assert (AA' : Forall (blade_lt l) (map fst ((k, c) :: A))).
        { constructor; [exact L2|]. eapply Forall_impl; [|exact AA]. intros x. apply blade_lt_trans. exact L2. }
        assert (C1 : canonical [(l, d)]) by (apply canonical_cons; auto; [split; constructor|constructor]).
        destruct B as [|pb B].
        * assert (G : exists M', mv_of ((l, d) :: (k, c) :: A) = mv_of M' /\ canonical M' /\ forall j, listed M' j = comb (listed ((k, c) :: A) j) (listed [(l, d)] j)).
          { exists ((l, d) :: (k, c) :: A). split; [reflexivity|]. split; [apply canonical_cons; auto|]. intros j. pose proof (listed_above l _ AA') as X. change (listed ((l, d) :: (k, c) :: A) j) with (if N.eqb l j then Some d else listed ((k, c) :: A) j).
            change (listed [(l, d)] j) with (if N.eqb l j then Some d else None). destruct (N.eqb_spec l j) as [<-|]; [rewrite X; reflexivity|rewrite comb_None_r; reflexivity]. }
          destruct A as [|pa A].
          -- change [mv_of [(l, d)]; mv_of [(k, c)]] with (map entry [(l, d); (k, c)]). rewrite mk_add_entries. intros [= <-]. exact G.
          -- change (mv_of [(l, d)] :: Comp c (CBlade k) :: map entry (pa :: A)) with (map entry ((l, d) :: (k, c) :: pa :: A)). rewrite mk_add_entries. intros [= <-]. exact G.
        * assert (G : forall u, rec (mv_of ((k, c) :: A)) (mv_of (pb :: B)) = Some u -> rec (Comp d (CBlade l)) u = Some r -> exists M', r = mv_of M' /\ canonical M' /\ forall j, listed M' j = comb (listed ((k, c) :: A) j) (listed ((l, d) :: pb :: B) j)).
          { intros u Ru R. destruct (IH _ _ _ CA CB' Ru) as (M & -> & CM & LM). change (Comp d (CBlade l)) with (mv_of [(l, d)]) in R.
            destruct (IH [(l, d)] M r C1 CM R) as (M' & -> & CM' & LM'). exists M'. split; [reflexivity|]. split; [exact CM'|].
            intros j. rewrite LM', LM. change (listed ((l, d) :: pb :: B) j) with (if N.eqb l j then Some d else listed (pb :: B) j).
            change (listed [(l, d)] j) with (if N.eqb l j then Some d else None). destruct (N.eqb_spec l j) as [<-|]; [|reflexivity].
            rewrite (listed_above l _ AA'), (listed_above l (pb :: B) AB). reflexivity. }
          rewrite mk_add_entries. destruct (rec (mv_of ((k, c) :: A)) (mv_of (pb :: B))) as [u|] eqn:Ru; [|destruct A; discriminate].
          intros R. apply (G u eq_refl). destruct A; exact R.
  Qed.
End Step.
Theorem cadd_canonical F n : add_can F (cadd F n).
Proof. induction n as [|n IH]; [intros ? ? ? _ _; discriminate|]. apply (step_can F _ IH). Qed.
(** Two canonical lists with the same blades list them in the same order. *)
Lemma sorted_same : forall A B : list N, StronglySorted blade_lt A -> StronglySorted blade_lt B -> (forall k, In k A <-> In k B) -> A = B.
Proof.
  induction A as [|a A IH]; intros B SA SB H.
  - destruct B as [|b B]; [reflexivity|]. exfalso. apply (H b). left. reflexivity.
  - destruct B as [|b B]; [exfalso; apply (H a); left; reflexivity|]. inversion SA as [|? ? SA' FA]. inversion SB as [|? ? SB' FB]. subst. rewrite Forall_forall in FA, FB.
    assert (a = b).
    { destruct (N.eq_dec a b) as [|N]; [auto|]. exfalso. assert (Ia : In a (b :: B)) by (apply H; left; reflexivity). assert (Ib : In b (a :: A)) by (apply H; left; reflexivity).
      destruct Ia as [|Ia]; [congruence|]. destruct Ib as [|Ib]; [congruence|]. apply (blade_lt_irrefl a). apply (blade_lt_trans a b); auto. }
    subst b. f_equal. apply IH; auto. intros k. specialize (H k). split; intros I.
    + destruct (proj1 H (or_intror I)) as [<-|]; [exfalso; apply (blade_lt_irrefl a); auto|auto].
    + destruct (proj2 H (or_intror I)) as [<-|]; [exfalso; apply (blade_lt_irrefl a); auto|auto].
Qed.

Lemma commutes_blades F n A B r r' : canonical A -> canonical B ->
  cadd F n (mv_of A) (mv_of B) = Some r -> cadd F n (mv_of B) (mv_of A) = Some r' ->
  (forall k c d, listed A k = Some c -> listed B k = Some d -> (eng F OAdd c d = Some (CV 0) <-> eng F OAdd d c = Some (CV 0))) ->
  exists M M', r = mv_of M /\ r' = mv_of M' /\ canonical M /\ canonical M' /\ map fst M = map fst M'.
Proof.
  intros CA CB E E' Hz. destruct (cadd_canonical F n A B r CA CB E) as [(M & -> & CM & HM) D]. destruct (cadd_canonical F n B A r' CB CA E') as [(M' & -> & CM' & HM') D'].
  exists M, M'. do 4 (split; [auto|]). apply sorted_same; [apply CM|apply CM'|].
  assert (Z : forall t, t = CV 0 \/ match Some t with Some (CV 0) => None | o => o end = Some t) by (intros [[]| | | | | | | | | |]; auto).
  assert (Eq : forall k, listed M k = None <-> listed M' k = None).
  { intros k. rewrite HM, HM'. unfold comb. destruct (listed A k) as [c|] eqn:La, (listed B k) as [d|] eqn:Lb; try tauto; try (split; discriminate).
    specialize (Hz k c d La Lb). specialize (D k c d La Lb). specialize (D' k d c Lb La).
    destruct (eng F OAdd c d) as [s|] eqn:S1; [|congruence]. destruct (eng F OAdd d c) as [s'|] eqn:S2; [|congruence].
    destruct (Z s) as [->|Zs].
    - apply proj1 in Hz. specialize (Hz eq_refl). injection Hz as ->. tauto.
    - destruct (Z s') as [->|Zs']; [apply proj2 in Hz; specialize (Hz eq_refl); injection Hz as ->; tauto|]. rewrite Zs, Zs'. split; discriminate. }
  intros k. split; intros I; apply In_listed in I.
  - destruct (listed M' k) as [e|] eqn:L; [apply (listed_In _ _ _ L)|]. apply Eq in L. congruence.
  - destruct (listed M k) as [e|] eqn:L; [apply (listed_In _ _ _ L)|]. apply Eq in L. congruence.
Qed.
