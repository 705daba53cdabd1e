(** The sum of two multivectors has a result when the sums of their common coefficients have one. *)
From Coq Require Import NArith ZArith List Bool Lia Sorting.Sorted.
From Verif Require Import Bits SpecBits Expr ExprBase Simp SimpMono SpecOrder OrderProofs Comp CanonProofs LazyProofs2.
Import ListNotations.

Lemma cadd_zero_l F n B : cadd F (S n) (mv_of []) (mv_of B) <> None.
Proof. cbn [cadd]. unfold cadd_step. change (csplit (mv_of [])) with (Some (CV 0, CBlade 0, @None (list expr))). pose proof (csplit_mv_of B) as H. destruct (csplit (mv_of B)) as [[[d y] ys]|]; [|congruence]. unfold cadd_zero. change (is_zero_comp (mv_of [])) with true. cbn [andb]. destruct (is_zero_comp (mv_of B)); discriminate. Qed.
Lemma cadd_zero_r F n A : cadd F (S n) (mv_of A) (mv_of []) <> None.
Proof. cbn [cadd]. unfold cadd_step. change (csplit (mv_of [])) with (Some (CV 0, CBlade 0, @None (list expr))). pose proof (csplit_mv_of A) as H. destruct (csplit (mv_of A)) as [[[d y] ys]|]; [|congruence]. unfold cadd_zero. change (is_zero_comp (mv_of [])) with true. destruct (is_zero_comp (mv_of A)); discriminate. Qed.
Lemma blade_neq k l : k <> l -> expr_eqb (CBlade k) (CBlade l) = false.
Proof. intros H. destruct (expr_eqb (CBlade k) (CBlade l)) eqn:E; [|reflexivity]. apply expr_eqb_eq in E. congruence. Qed.
(** An entry smaller than all the others. *)
Lemma cadd_front F n k c M : canonical ((k, c) :: M) -> cadd F (S n) (mv_of [(k, c)]) (mv_of M) <> None.
Proof.
  intros C. destruct (canonical_tail _ _ C) as (CM & A & Nc & L). cbn [fst snd] in *. destruct M as [|[l d] M]; [apply cadd_zero_r|]. destruct (canonical_tail _ _ CM) as (_ & _ & Nd & L'). cbn [fst snd] in *.
  cbn [cadd]. unfold cadd_step. rewrite !csplit_mv. unfold cadd_zero. rewrite (zero_mv (k, c) [] Nc), (zero_mv (l, d) M Nd). cbn [andb fst snd]. inversion A as [|? ? A1 _]; subst. cbn [fst] in A1.
  rewrite blade_neq by (intros ->; exact (blade_lt_irrefl _ A1)). rewrite (proj2 (lt_blade k l L L') A1). destruct M as [|q M].
  - change [mv_of [(k, c)]; mv_of [(l, d)]] with (map entry [(k, c); (l, d)]). rewrite mk_add_entries. discriminate.
  - change (mv_of [(k, c)] :: Comp d (CBlade l) :: map entry (q :: M)) with (map entry ((k, c) :: (l, d) :: q :: M)). rewrite mk_add_entries. discriminate.
Qed.
Lemma sorted_nodup l : StronglySorted blade_lt l -> NoDup l.
Proof. induction 1 as [|x l _ IH H]; constructor; auto. intros I. rewrite Forall_forall in H. exact (blade_lt_irrefl _ (H _ I)). Qed.
Lemma comb_length F A B M : canonical M -> (forall k, listed M k = comb F (listed A k) (listed B k)) -> (length M <= length A + length B)%nat.
Proof.
  intros [C _] H. rewrite <- (map_length fst M), <- (map_length fst A), <- (map_length fst B), <- app_length. apply NoDup_incl_length; [apply sorted_nodup, C|].
  intros k I. apply In_listed in I. rewrite H in I. apply in_or_app. destruct (listed A k) as [c|] eqn:E; [left; exact (listed_In _ _ _ E)|]. cbn [comb] in I.
  destruct (listed B k) as [d|] eqn:E'; [right; exact (listed_In _ _ _ E')|congruence].
Qed.
Definition summable (F : nat) (A B : entries) : Prop := forall k c d, listed A k = Some c -> listed B k = Some d -> eng F OAdd c d <> None.
Theorem cadd_total F : forall n A B, (length A + length B <= n)%nat -> canonical A -> canonical B -> summable F A B -> cadd F (S n) (mv_of A) (mv_of B) <> None.
Proof.
  induction n as [|n IH]; intros A B K CA CB HS.
  { destruct A; [apply cadd_zero_l|cbn [length] in K; lia]. }
  destruct A as [|[k c] A]; [apply cadd_zero_l|]. destruct B as [|[l d] B]; [apply cadd_zero_r|]. cbn [length] in K.
  destruct (canonical_tail _ _ CA) as (CA' & AA & Nc & Lk). destruct (canonical_tail _ _ CB) as (CB' & AB & Nd & Ll). cbn [fst snd] in *.
  change (cadd F (S (S n)) (mv_of ((k, c) :: A)) (mv_of ((l, d) :: B))) with (cadd_step F (cadd F (S n)) (mv_of ((k, c) :: A)) (mv_of ((l, d) :: B))).
  unfold cadd_step. rewrite !csplit_mv. unfold cadd_zero. rewrite (zero_mv (k, c) A Nc), (zero_mv (l, d) B Nd). cbn [andb fst snd].
  destruct (N.eq_dec k l) as [<-|Nkl].
  - rewrite expr_eqb_refl. assert (Hs : eng F OAdd c d <> None) by (apply (HS k); cbn [listed fst snd]; rewrite N.eqb_refl; reflexivity).
    destruct (eng F OAdd c d) as [s|]; [|congruence].
    assert (Eh : exists H, component_t s (CBlade k) = mv_of H /\ canonical H /\ (H = [] \/ H = [(k, s)])).
    { assert (D : s = CV 0 \/ s <> CV 0 /\ component_t s (CBlade k) = Comp s (CBlade k)) by (destruct s as [[]| | | | | | | | | |]; auto; right; (split; [discriminate|reflexivity])).
      destruct D as [->|[Ns ->]]; [exists []; split; [reflexivity|split; [apply canonical_nil|auto]]|exists [(k, s)]; split; [reflexivity|split; [apply canonical_one; auto|auto]]]. }
    destruct Eh as (H & -> & CH & DH). assert (LH : (length H <= 1)%nat) by (destruct DH as [->| ->]; cbn [length]; lia).
    assert (SH : forall M, listed M k = None -> summable F H M).
    { intros M LM j x y Hx Hy. destruct DH as [->| ->]; [discriminate|]. cbn [listed fst snd] in Hx. destruct (N.eqb_spec k j) as [<-|]; [congruence|discriminate]. }
    destruct A as [|pa A], B as [|pb B].
    + discriminate.
    + rewrite mk_add_entries. cbn [length] in K. apply IH; auto; [cbn [length]; lia|]. apply SH, listed_above, AB.
    + rewrite mk_add_entries. cbn [length] in K. apply IH; auto; [cbn [length]; lia|]. apply SH, listed_above, AA.
    + rewrite !mk_add_entries. cbn [length] in K. assert (R : cadd F (S n) (mv_of (pa :: A)) (mv_of (pb :: B)) <> None).
      { apply IH; auto; [cbn [length]; lia|]. intros j x y Hx Hy. apply (HS j); [change (match N.eqb k j with true => Some c | false => listed (pa :: A) j end = Some x)|change (match N.eqb k j with true => Some d | false => listed (pb :: B) j end = Some y)];
        (destruct (N.eqb_spec k j) as [<-|]; [|assumption]); rewrite (listed_above k _ AA) in Hx; discriminate. }
      destruct (cadd F (S n) (mv_of (pa :: A)) (mv_of (pb :: B))) as [v|] eqn:E; [|congruence]. destruct (cadd_canonical F _ _ _ _ CA' CB' E) as [(M & -> & CM & LM) _].
      pose proof (comb_length F _ _ M CM LM) as Q. cbn [length] in Q. apply IH; auto; [lia|]. apply SH, listed_above, (above_of F _ _ _ _ LM); auto.
  - rewrite (blade_neq k l Nkl). destruct (blade_total k l Nkl) as [L|L].
    + rewrite (proj2 (lt_blade k l Lk Ll) L). destruct A as [|pa A].
      * destruct B as [|pb B]; [change [mv_of [(k, c)]; mv_of [(l, d)]] with (map entry [(k, c); (l, d)])|change (mv_of [(k, c)] :: Comp d (CBlade l) :: map entry (pb :: B)) with (map entry ((k, c) :: (l, d) :: pb :: B))]; rewrite mk_add_entries; discriminate.
      * rewrite mk_add_entries. cbn [length] in K.
        assert (AB' : Forall (blade_lt k) (map fst ((l, d) :: B))) by (constructor; [exact L|]; eapply Forall_impl; [|exact AB]; intros x; apply blade_lt_trans; exact L).
        assert (R : cadd F (S n) (mv_of (pa :: A)) (mv_of ((l, d) :: B)) <> None).
        { apply IH; auto; [cbn [length]; lia|]. intros j x y Hx Hy. apply (HS j); [|exact Hy]. change (match N.eqb k j with true => Some c | false => listed (pa :: A) j end = Some x). destruct (N.eqb_spec k j) as [<-|]; [|exact Hx]. rewrite (listed_above k _ AA) in Hx. discriminate. }
        destruct (cadd F (S n) (mv_of (pa :: A)) (mv_of ((l, d) :: B))) as [u|] eqn:E; [|congruence]. destruct (cadd_canonical F _ _ _ _ CA' CB E) as [(M & -> & CM & LM) _].
        apply (cadd_front F n k c M). apply canonical_cons; auto. apply (above_of F _ _ _ _ LM); auto.
    + assert (L1 : lt (CBlade k) (CBlade l) = false).
      { destruct (lt (CBlade k) (CBlade l)) eqn:E; [|reflexivity]. apply (lt_blade k l Lk Ll) in E. destruct (blade_lt_irrefl _ (blade_lt_trans _ _ _ E L)). }
      rewrite L1, (proj2 (lt_blade l k Ll Lk) L). destruct B as [|pb B].
      * destruct A as [|pa A]; [change [mv_of [(l, d)]; mv_of [(k, c)]] with (map entry [(l, d); (k, c)])|change (mv_of [(l, d)] :: Comp c (CBlade k) :: map entry (pa :: A)) with (map entry ((l, d) :: (k, c) :: pa :: A))]; rewrite mk_add_entries; discriminate.
      * rewrite mk_add_entries. cbn [length] in K.
        assert (AA' : Forall (blade_lt l) (map fst ((k, c) :: A))) by (constructor; [exact L|]; eapply Forall_impl; [|exact AA]; intros x; apply blade_lt_trans; exact L).
        assert (R : cadd F (S n) (mv_of ((k, c) :: A)) (mv_of (pb :: B)) <> None).
        { apply IH; auto; [cbn [length]; lia|]. intros j x y Hx Hy. apply (HS j); [exact Hx|]. change (match N.eqb l j with true => Some d | false => listed (pb :: B) j end = Some y). destruct (N.eqb_spec l j) as [<-|]; [|exact Hy]. rewrite (listed_above l _ AA') in Hx. discriminate. }
        destruct (cadd F (S n) (mv_of ((k, c) :: A)) (mv_of (pb :: B))) as [u|] eqn:E; [|congruence]. destruct (cadd_canonical F _ _ _ _ CA CB' E) as [(M & -> & CM & LM) _].
        assert (G : cadd F (S n) (mv_of [(l, d)]) (mv_of M) <> None) by (apply cadd_front, canonical_cons; auto; apply (above_of F _ _ _ _ LM); auto).
        destruct A; exact G.
Qed.
