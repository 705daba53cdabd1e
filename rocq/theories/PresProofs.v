(** Classes of coefficient expressions closed under the simplifier. *)
From Coq Require Import NArith ZArith List Bool Lia.
From Verif Require Import Bits Expr ExprBase Simp SimpProofs.
Import ListNotations.

(** [P] is the class, [X] the class of the exponents it allows. *)
Section Pres.
  Variables P X : expr -> bool.
  Hypothesis Pcv : forall z, P (CV z) = true.
  Hypothesis X1 : X (CV 1) = true.
  Hypothesis X2 : X (CV 2) = true.
  Hypothesis Xneg : forall k, Z.ltb 0 k = false -> X (CV k) = true -> X (CV (-1)) = true.
  Hypothesis Padd : forall l, P (Fn NAdd l) = forallb P l.
  Hypothesis Pmul : forall l, P (Fn NMul l) = forallb P l.
  Hypothesis Ppow : forall b p, P (Fn NPow [b; p]) = (P b && X p)%bool.

  Record pres_rec (rec : op -> expr -> expr -> option expr) : Prop := {
    p_add : forall a b r, rec OAdd a b = Some r -> P a = true -> P b = true -> P r = true;
    p_mul : forall a b r, rec OMul a b = Some r -> P a = true -> P b = true -> P r = true;
    p_pow : forall a b r, rec OPow a b = Some r -> P a = true -> X b = true -> P r = true;
    x_add : forall a b r, rec OAdd a b = Some r -> X a = true -> X b = true -> X r = true;
    x_mul : forall a b r, rec OMul a b = Some r -> X a = true -> X b = true -> X r = true }.
  Definition pres (k : rule) : Prop := forall a b r, k a b = Some (Some r) -> P a = true -> P b = true -> P r = true.

  Lemma p_mk_add l r : mk_add l = Some r -> forallb P l = true -> P r = true.
  Proof.
    unfold mk_add. destruct l as [|x [|y l]]; intros H K; [injection H as <-; apply Pcv|injection H as <-; cbn in K; now rewrite andb_true_r in K|].
    destruct (_ && _)%bool; [discriminate|]. injection H as <-. rewrite Padd. exact K.
  Qed.
  Lemma p_mk_mul l r : mk_mul l = Some r -> forallb P l = true -> P r = true.
  Proof.
    unfold mk_mul. destruct l as [|x [|y l]]; intros H K; [injection H as <-; apply Pcv|injection H as <-; cbn in K; now rewrite andb_true_r in K|].
    destruct (existsb _ _); [discriminate|]. injection H as <-. rewrite Pmul. exact K.
  Qed.
  Definition ptail (o : option (list expr)) : Prop := match o with Some l => forallb P l = true | None => True end.
  Lemma p_split_add a x xs : split_add a = (x, xs) -> P a = true -> P x = true /\ ptail xs.
  Proof.
    intros H K. destruct a as [| | | | | | | | | |f l]; try (injection H as <- <-; split; [exact K|exact I]).
    destruct f; try (injection H as <- <-; split; [exact K|exact I]). destruct l as [|y l]; injection H as <- <-; [split; [exact K|exact I]|].
    rewrite Padd in K. cbn in K. apply andb_prop in K. exact K.
  Qed.
  Lemma p_split_mul a x xs : split_mul a = (x, xs) -> P a = true -> P x = true /\ ptail xs.
  Proof.
    intros H K. destruct a as [| | | | | | | | | |f l]; try (injection H as <- <-; split; [exact K|exact I]).
    destruct f; try (injection H as <- <-; split; [exact K|exact I]). destruct l as [|y l]; injection H as <- <-; [split; [exact K|exact I]|].
    rewrite Pmul in K. cbn in K. apply andb_prop in K. exact K.
  Qed.
  Lemma p_cv z r : cv z = Some r -> P r = true. Proof. intros H. apply cv_Some in H as ->. apply Pcv. Qed.
  Lemma pc x l : P x = true -> forallb P l = true -> forallb P (x :: l) = true. Proof. cbn. intros -> ->. reflexivity. Qed.
  Lemma pn : forallb P [] = true. Proof. reflexivity. Qed.

  Section Rules.
  Variable rec : op -> expr -> expr -> option expr.
  Hypothesis R : pres_rec rec.
  Ltac pg := first [ eassumption | apply Pcv | exact X1 | exact X2 | apply pn | (apply pc; pg)
    | match goal with
      | H : mk_add ?l = Some ?r |- P ?r = true => apply (p_mk_add l r H); pg
      | H : mk_mul ?l = Some ?r |- P ?r = true => apply (p_mk_mul l r H); pg
      | H : rec OAdd ?a ?b = Some ?r |- P ?r = true => apply (p_add rec R a b r H); pg
      | H : rec OMul ?a ?b = Some ?r |- P ?r = true => apply (p_mul rec R a b r H); pg
      | H : rec OPow ?a ?b = Some ?r |- P ?r = true => apply (p_pow rec R a b r H); pg
      | H : rec OAdd ?a ?b = Some ?r |- X ?r = true => apply (x_add rec R a b r H); pg
      | H : rec OMul ?a ?b = Some ?r |- X ?r = true => apply (x_mul rec R a b r H); pg
      | H : cv ?z = Some ?r |- P ?r = true => exact (p_cv z r H)
      end ].
  Lemma p_add_helper k : pres k -> pres (add_helper rec k).
  Proof.
    intros K a b z H Pa Pb. unfold add_helper in H. destruct (split_add a) as [x xs] eqn:Ea. destruct (split_add b) as [y ys] eqn:Eb.
    destruct (p_split_add _ _ _ Ea Pa) as [Px Pxs]. destruct (p_split_add _ _ _ Eb Pb) as [Py Pys].
    destruct (k x y) as [[w|]|] eqn:E; try discriminate. pose proof (K x y w E Px Py) as Pw.
    destruct xs as [xs|], ys as [ys|]; cbn [ptail] in *; unbind; pg.
  Qed.
  Lemma p_mul_helper k : pres k -> pres (mul_helper rec k).
  Proof.
    intros K a b z H Pa Pb. unfold mul_helper in H. destruct (split_mul a) as [x xs] eqn:Ea. destruct (split_mul b) as [y ys] eqn:Eb.
    destruct (p_split_mul _ _ _ Ea Pa) as [Px Pxs]. destruct (p_split_mul _ _ _ Eb Pb) as [Py Pys].
    destruct (k x y) as [[w|]|] eqn:E; try discriminate. pose proof (K x y w E Px Py) as Pw.
    destruct xs as [xs|], ys as [ys|]; cbn [ptail] in *; unbind; pg.
  Qed.
  Lemma p_add_zero : pres add_zero.
  Proof. intros a b r H Pa Pb. apply add_zero_inv in H as [[-> ->]|[-> ->]]; auto. Qed.
  Lemma p_add_collect1 : pres (add_collect1 rec).
  Proof. intros a b r H Pa Pb. unfold add_collect1 in H. destruct (expr_eqb a b); [|discriminate]. unbind. pg. Qed.
  Lemma p_collect_with p q k r : collect_with rec p q k = Some (Some r) -> P p = true -> P q = true -> exists s, k s = Some r /\ P s = true.
  Proof.
    intros H Pp Pq. unfold collect_with, simplified in H. destruct (rec OAdd p q) as [s|] eqn:E; [|discriminate].
    destruct (mk_add [p; q]); [|discriminate]. destruct (mk_add [q; p]); [|discriminate]. destruct (_ || _)%bool; [discriminate|]. unbind. exists s. split; [auto|pg].
  Qed.
  Lemma p_mul_inv x l : P (Fn NMul (x :: l)) = true -> P x = true /\ forallb P l = true.
  Proof. rewrite Pmul. cbn. apply andb_prop. Qed.
  Lemma p_pow_inv x p : P (Fn NPow [x; p]) = true -> P x = true /\ X p = true.
  Proof. rewrite Ppow. apply andb_prop. Qed.
  Lemma p_add_collect2 : pres (add_collect2 rec).
  Proof.
    intros a b r H Pa Pb. unfold add_collect2 in H. destruct a as [| | | | | | | | | |f l]; try discriminate. destruct f; try discriminate. destruct l as [|p cs]; try discriminate.
    destruct (p_mul_inv _ _ Pa). match type of H with context [if ?c then _ else _] => destruct c; [|discriminate] end.
    apply p_collect_with in H as (s & H & Ps); [|pg|pg]. pg.
  Qed.
  Lemma p_add_collect3 : pres (add_collect3 rec).
  Proof.
    intros a b r H Pa Pb. unfold add_collect3 in H. destruct b as [| | | | | | | | | |f l]; try discriminate. destruct f; try discriminate. destruct l as [|p cs]; try discriminate.
    destruct (p_mul_inv _ _ Pb). match type of H with context [if ?c then _ else _] => destruct c; [|discriminate] end.
    apply p_collect_with in H as (s & H & Ps); [|pg|pg]. pg.
  Qed.
  Lemma p_add_collect4 : pres (add_collect4 rec).
  Proof.
    intros a b r H Pa Pb. unfold add_collect4 in H. destruct a as [| | | | | | | | | |f l]; try discriminate. destruct f; try discriminate. destruct l as [|p cs]; try discriminate.
    destruct b as [| | | | | | | | | |f m]; try discriminate. destruct f; try discriminate. destruct m as [|q ds]; try discriminate.
    destruct (p_mul_inv _ _ Pa), (p_mul_inv _ _ Pb). destruct (exprs_eqb _ _); [|discriminate].
    apply p_collect_with in H as (s & H & Ps); [|pg|pg]. unbind. pg.
  Qed.
  Lemma p_add_collect5 : pres (add_collect5 rec).
  Proof.
    intros a b r H Pa Pb. unfold add_collect5 in H. destruct a as [| | | | | | | | | |f l]; try discriminate. destruct f; try discriminate. destruct l as [|p cs]; try discriminate.
    destruct (p_mul_inv _ _ Pa). destruct (expr_eqb _ _); [|discriminate]. destruct (mk_mul cs) as [t|] eqn:M; [|discriminate].
    apply p_collect_with in H as (s & H & Ps); [|pg|pg]. pg.
  Qed.
  Lemma p_add_collect6 : pres (add_collect6 rec).
  Proof.
    intros a b r H Pa Pb. unfold add_collect6 in H. destruct b as [| | | | | | | | | |f l]; try discriminate. destruct f; try discriminate. destruct l as [|p cs]; try discriminate.
    destruct (p_mul_inv _ _ Pb). destruct (expr_eqb _ _); [|discriminate]. destruct (mk_mul cs) as [t|] eqn:M; [|discriminate].
    apply p_collect_with in H as (s & H & Ps); [|pg|pg]. pg.
  Qed.
  Lemma p_add_collect7 : pres (add_collect7 rec).
  Proof.
    intros a b r H Pa Pb. unfold add_collect7 in H. destruct a as [| | | | | | | | | |f l]; try discriminate. destruct f; try discriminate. destruct l as [|p cs]; try discriminate.
    destruct b as [| | | | | | | | | |f m]; try discriminate. destruct f; try discriminate. destruct m as [|q ds]; try discriminate.
    destruct (p_mul_inv _ _ Pa), (p_mul_inv _ _ Pb). destruct (expr_eqb _ _); [|discriminate].
    destruct (mk_mul cs) as [t|] eqn:M; [|discriminate]. destruct (mk_mul ds) as [u|] eqn:M'; [|discriminate].
    apply p_collect_with in H as (s & H & Ps); [|pg|pg]. pg.
  Qed.
  Lemma p_add_const1 : pres add_const1.
  Proof. intros a b r H _ _. unfold add_const1 in H. destruct a; try discriminate. destruct b; try discriminate. unbind. pg. Qed.
  Lemma p_over n d r : X (CV (-1)) = true -> over rec n d = Some r -> P r = true.
  Proof. unfold over. intros Xm H. unbind. pg. Qed.
  Lemma neg_in l d : X (CV (-1)) = false -> P (Fn NMul (l ++ [Fn NPow [CV d; CV (-1)]])) = true -> False.
  Proof. intros Xm. rewrite Pmul, forallb_app. cbn [forallb]. rewrite Ppow, Xm, !andb_false_r. discriminate. Qed.
  Ltac walk H := repeat match type of H with
    | match ?e with CV _ => _ | _ => _ end = _ => destruct e; try discriminate H
    | match ?e with NSign => _ | _ => _ end = _ => destruct e; try discriminate H
    | match ?e with [] => _ | _ :: _ => _ end = _ => destruct e; try discriminate H
    | match ?e with Z0 => _ | Zpos _ => _ | Zneg _ => _ end = _ => destruct e; try discriminate H
    | match ?e with xH => _ | xO _ => _ | xI _ => _ end = _ => destruct e; try discriminate H
    end.
  Lemma p_add_const2 : pres (add_const2 rec).
  Proof.
    intros a b r H Pa Pb. destruct (X (CV (-1))) eqn:Xm; unfold add_const2 in H; walk H;
      (solve [unbind; eapply p_over; eassumption] ||
       (exfalso; rewrite ?Pmul, ?Ppow in Pa; rewrite ?Pmul, ?Ppow in Pb; cbn [forallb] in Pa, Pb;
        rewrite ?Ppow, ?Xm, ?andb_false_r in Pa; rewrite ?Ppow, ?Xm, ?andb_false_r in Pb; cbn in Pa, Pb; congruence)).
  Qed.
  Lemma p_add_const3 : pres (add_const3 rec).
  Proof.
    intros a b r H Pa Pb. destruct (X (CV (-1))) eqn:Xm; unfold add_const3 in H; walk H;
      (solve [unbind; eapply p_over; eassumption] ||
       (exfalso; rewrite ?Pmul, ?Ppow in Pa; rewrite ?Pmul, ?Ppow in Pb; cbn [forallb] in Pa, Pb;
        rewrite ?Ppow, ?Xm, ?andb_false_r in Pa; rewrite ?Ppow, ?Xm, ?andb_false_r in Pb; cbn in Pa, Pb; congruence)).
  Qed.
  Lemma p_add_const4 : pres (add_const4 rec).
  Proof.
    intros a b r H Pa Pb. destruct (X (CV (-1))) eqn:Xm; unfold add_const4 in H; walk H;
      (solve [unbind; eapply p_over; eassumption] ||
       (exfalso; rewrite ?Pmul, ?Ppow in Pa; rewrite ?Pmul, ?Ppow in Pb; cbn [forallb] in Pa, Pb;
        rewrite ?Ppow, ?Xm, ?andb_false_r in Pa; rewrite ?Ppow, ?Xm, ?andb_false_r in Pb; cbn in Pa, Pb; congruence)).
  Qed.
  Lemma p_add_const5 : pres (add_const5 rec).
  Proof.
    intros a b r H Pa Pb. destruct (X (CV (-1))) eqn:Xm; unfold add_const5 in H; walk H;
      (solve [unbind; eapply p_over; eassumption] ||
       (exfalso; rewrite ?Pmul, ?Ppow in Pa; rewrite ?Pmul, ?Ppow in Pb; cbn [forallb] in Pa, Pb;
        rewrite ?Ppow, ?Xm, ?andb_false_r in Pa; rewrite ?Ppow, ?Xm, ?andb_false_r in Pb; cbn in Pa, Pb; congruence)).
  Qed.
  Ltac merge H sp :=
    match type of H with context [split_add] => idtac | _ => idtac end.
  Lemma p_add_merge_lt : pres (add_merge_lt rec).
  Proof.
    intros a b z H Pa Pb. unfold add_merge_lt in H. destruct (split_add a) as [x xs] eqn:Ea. destruct (split_add b) as [y ys] eqn:Eb.
    destruct (p_split_add _ _ _ Ea Pa) as [Px Pxs]. destruct (p_split_add _ _ _ Eb Pb) as [Py Pys].
    destruct (lt x y); [|discriminate]. destruct xs as [xs|], ys as [ys|]; cbn [ptail] in *; unbind; pg.
  Qed.
  Lemma p_add_merge_gt : pres (add_merge_gt rec).
  Proof.
    intros a b z H Pa Pb. unfold add_merge_gt in H. destruct (split_add a) as [x xs] eqn:Ea. destruct (split_add b) as [y ys] eqn:Eb.
    destruct (p_split_add _ _ _ Ea Pa) as [Px Pxs]. destruct (p_split_add _ _ _ Eb Pb) as [Py Pys].
    destruct (lt y x); [|discriminate]. destruct xs as [xs|], ys as [ys|]; cbn [ptail] in *; unbind; pg.
  Qed.
  Lemma p_add_merge_eq : pres (add_merge_eq rec).
  Proof.
    intros a b z H Pa Pb. unfold add_merge_eq in H. destruct (split_add a) as [x xs] eqn:Ea. destruct (split_add b) as [y ys] eqn:Eb.
    destruct (p_split_add _ _ _ Ea Pa) as [Px Pxs]. destruct (p_split_add _ _ _ Eb Pb) as [Py Pys].
    destruct xs as [xs|], ys as [ys|]; cbn [ptail] in *; unbind; pg.
  Qed.
  Lemma p_mul_merge_lt : pres (mul_merge_lt rec).
  Proof.
    intros a b z H Pa Pb. unfold mul_merge_lt in H. destruct (split_mul a) as [x xs] eqn:Ea. destruct (split_mul b) as [y ys] eqn:Eb.
    destruct (p_split_mul _ _ _ Ea Pa) as [Px Pxs]. destruct (p_split_mul _ _ _ Eb Pb) as [Py Pys].
    destruct (lt x y); [|discriminate]. destruct xs as [xs|], ys as [ys|]; cbn [ptail] in *; unbind; pg.
  Qed.
  Lemma p_mul_merge_gt : pres (mul_merge_gt rec).
  Proof.
    intros a b z H Pa Pb. unfold mul_merge_gt in H. destruct (split_mul a) as [x xs] eqn:Ea. destruct (split_mul b) as [y ys] eqn:Eb.
    destruct (p_split_mul _ _ _ Ea Pa) as [Px Pxs]. destruct (p_split_mul _ _ _ Eb Pb) as [Py Pys].
    destruct (lt y x); [|discriminate]. destruct xs as [xs|], ys as [ys|]; cbn [ptail] in *; unbind; pg.
  Qed.
  Lemma p_mul_merge_eq : pres (mul_merge_eq rec).
  Proof.
    intros a b z H Pa Pb. unfold mul_merge_eq in H. destruct (split_mul a) as [x xs] eqn:Ea. destruct (split_mul b) as [y ys] eqn:Eb.
    destruct (p_split_mul _ _ _ Ea Pa) as [Px Pxs]. destruct (p_split_mul _ _ _ Eb Pb) as [Py Pys].
    destruct xs as [xs|], ys as [ys|]; cbn [ptail] in *; unbind; pg.
  Qed.
  Lemma p_mul_zero : pres mul_zero.
  Proof. intros a b r H _ _. unfold mul_zero in H. walk H; unbind; pg. Qed.
  Lemma p_mul_one : pres mul_one.
  Proof. intros a b r H Pa Pb. unfold mul_one in H. walk H; unbind; pg. Qed.
  Lemma p_mul_distr : pres (mul_distr rec).
  Proof.
    intros a b z H Pa Pb. unfold mul_distr in H. destruct (split_add a) as [x xs] eqn:Ea. destruct (split_add b) as [y ys] eqn:Eb.
    destruct (p_split_add _ _ _ Ea Pa) as [Px Pxs]. destruct (p_split_add _ _ _ Eb Pb) as [Py Pys].
    destruct xs as [xs|], ys as [ys|]; cbn [ptail] in *; unbind; pg.
  Qed.
  Lemma p_mul_collect1 : pres (mul_collect1 rec).
  Proof. intros a b r H Pa Pb. unfold mul_collect1 in H. destruct (expr_eqb a b); [|discriminate]. unbind. pg. Qed.
  Lemma p_mul_collect2 : pres (mul_collect2 rec).
  Proof.
    intros a b r H Pa Pb. unfold mul_collect2 in H.
    assert (K : forall a b k, P a = true -> P b = true -> match a with Fn NPow [c; p] => if expr_eqb c b then yes (k p) else no | _ => no end = Some (Some r) ->
      exists c p, a = Fn NPow [c; p] /\ k p = Some r).
    { clear. intros a b k _ _ H. destruct a as [| | | | | | | | | |f l]; try discriminate. destruct f; try discriminate. destruct l as [|c [|p [|]]]; try discriminate.
      destruct (expr_eqb c b); [|discriminate]. unbind. exists c, p. auto. }
    match type of H with match ?e with Some _ => _ | None => _ end = _ => destruct e as [[s|]|] eqn:E end; [| |discriminate].
    - injection H as <-. apply K in E as (c & p & -> & E); [|auto|auto]. destruct (p_pow_inv _ _ Pa). unbind. pg.
    - apply K in H as (c & p & -> & H); [|auto|auto]. destruct (p_pow_inv _ _ Pb). unbind. pg.
  Qed.
  Lemma p_mul_collect3 : pres (mul_collect3 rec).
  Proof.
    intros a b r H Pa Pb. unfold mul_collect3 in H. destruct a as [| | | | | | | | | |f l]; try discriminate. destruct f; try discriminate. destruct l as [|c [|p [|]]]; try discriminate.
    destruct b as [| | | | | | | | | |f m]; try discriminate. destruct f; try discriminate. destruct m as [|d [|q [|]]]; try discriminate.
    destruct (p_pow_inv _ _ Pa), (p_pow_inv _ _ Pb). destruct (expr_eqb c d); [|discriminate]. unbind. pg.
  Qed.
  Lemma p_mul_const1 : pres (mul_const1 rec).
  Proof. intros a b r H Pa Pb. unfold mul_const1 in H. destruct (X (CV (-1))) eqn:Xm; walk H; unbind;
      (solve [pg] || (exfalso; rewrite ?Ppow, ?Xm, ?andb_false_r in Pa; congruence)). Qed.
  Lemma p_mul_const2 : pres (mul_const2 rec).
  Proof.
    assert (S : forall n d r, X (CV (-1)) = true -> simpler_rational rec n d = Some r -> P r = true).
    { intros n d r Xm H. unfold simpler_rational in H. unbind. destruct (Z.eqb _ 1); [|destruct (Z.eqb _ 0); [discriminate|]]; unbind; pg. }
    intros a b r H Pa Pb. destruct (X (CV (-1))) eqn:Xm; unfold mul_const2 in H; walk H.
    1, 2: unbind; match goal with K : simpler_rational _ _ _ = _ |- _ => exact (S _ _ _ eq_refl K) end.
    - exfalso. rewrite Ppow, Xm, andb_false_r in Pb. discriminate Pb.
    - exfalso. rewrite Ppow, Xm, andb_false_r in Pa. discriminate Pa.
  Qed.
  Definition ppres (k : rule) : Prop := forall a b r, k a b = Some (Some r) -> P a = true -> X b = true -> P r = true.
  Lemma p_pow_misc1 : ppres pow_misc1.
  Proof.
    intros a b r H Pa Xb. unfold pow_misc1 in H. destruct a as [z| | | | | | | | | |]; try discriminate. destruct z as [|[]|]; try discriminate.
    - match type of H with context [if ?c then _ else _] => destruct c end; unbind. apply Pcv.
    - unbind. apply Pcv.
  Qed.
  Lemma p_pow_misc2 : ppres pow_misc2.
  Proof.
    intros a b r H Pa Xb. unfold pow_misc2 in H. destruct b as [z| | | | | | | | | |]; try discriminate. destruct z as [|[]|]; try discriminate.
    - destruct (is_cv 0 a); unbind. apply Pcv.
    - unbind. exact Pa.
  Qed.
  Lemma Xhalf b : expr_eqb b half = true -> X b = true -> X half = true.
  Proof. intros H. apply expr_eqb_eq in H as ->. auto. Qed.
  Lemma p_pow_misc3 : ppres pow_misc3.
  Proof.
    intros a b r H Pa Xb. unfold pow_misc3 in H. destruct a as [z| | | | | | | | | |]; try discriminate. destruct (expr_eqb b half) eqn:E.
    - pose proof (Xhalf _ E Xb). unbind. unfold simpler_isqrt in E0. destruct (Z.ltb 0 z); [|discriminate]. destruct (isqrt z); [|discriminate].
      destruct (Z.eqb _ _); injection E0 as <-; [apply Pcv|]. rewrite Ppow, Pcv. assumption.
    - destruct b as [k| | | | | | | | | |]; try discriminate. unbind. apply cv_Some in E2 as ->.
      destruct (Z.eqb z (-1)); [destruct (Z.even k); injection E0 as <-; apply Pcv|]. destruct (Z.ltb 0 k) eqn:L; injection E0 as <-; [apply Pcv|]. rewrite Ppow, Pcv. exact (Xneg k L Xb).
  Qed.
  Lemma p_pow_distr : ppres (pow_distr rec).
  Proof.
    assert (D : forall a b, P a = true -> X b = true -> P (Fn NPow [a; b]) = true) by (intros a b; rewrite Ppow; intros -> ->; reflexivity).
    intros a b r H Pa Xb. unfold pow_distr in H.
    destruct a as [| | | | | | | | | |f l]; try (unbind; apply D; assumption).
    destruct f; try (unbind; apply D; assumption).
    - destruct l as [|c [|p [|]]]; try (unbind; apply D; assumption). destruct (p_pow_inv _ _ Pa). unbind. pg.
    - destruct l as [|c l]; try (unbind; apply D; assumption). destruct (p_mul_inv _ _ Pa). unbind. pg.
  Qed.
  Lemma p_rules ks : Forall pres ks -> forall a b r, apply_rules ks a b = Some r -> P a = true -> P b = true -> P r = true.
  Proof.
    induction 1 as [|k ks K F IH]; intros a b r H Pa Pb; [discriminate|]. cbn in H. destruct (k a b) as [[x|]|] eqn:E; [|eauto|discriminate]. injection H as <-. eapply K; eauto.
  Qed.
  Lemma p_prules ks : Forall ppres ks -> forall a b r, apply_rules ks a b = Some r -> P a = true -> X b = true -> P r = true.
  Proof.
    induction 1 as [|k ks K F IH]; intros a b r H Pa Pb; [discriminate|]. cbn in H. destruct (k a b) as [[x|]|] eqn:E; [|eauto|discriminate]. injection H as <-. eapply K; eauto.
  Qed.
  Lemma p_addition_step a b r : addition_step rec a b = Some r -> P a = true -> P b = true -> P r = true.
  Proof.
    apply p_rules. repeat (apply Forall_cons || apply Forall_nil);
      auto using p_add_zero, p_add_helper, p_add_collect1, p_add_collect2, p_add_collect3, p_add_collect4,
      p_add_collect5, p_add_collect6, p_add_collect7, p_add_const1, p_add_const2, p_add_const3, p_add_const4,
      p_add_const5, p_add_merge_lt, p_add_merge_gt, p_add_merge_eq.
  Qed.
  Lemma p_product_step a b r : product_step rec a b = Some r -> P a = true -> P b = true -> P r = true.
  Proof.
    apply p_rules. repeat (apply Forall_cons || apply Forall_nil);
      auto using p_mul_zero, p_mul_one, p_mul_distr, p_mul_helper, p_mul_collect1, p_mul_collect2, p_mul_collect3,
      p_mul_const1, p_mul_const2, p_mul_merge_lt, p_mul_merge_gt, p_mul_merge_eq.
  Qed.
  Lemma p_power_step a b r : power_step rec a b = Some r -> P a = true -> X b = true -> P r = true.
  Proof.
    apply p_prules. repeat (apply Forall_cons || apply Forall_nil); auto using p_pow_misc1, p_pow_misc2, p_pow_misc3, p_pow_distr.
  Qed.
  End Rules.
End Pres.

(** Classes whose exponents are in the class. *)
Theorem eng_pres P : (forall z, P (CV z) = true) -> (forall l, P (Fn NAdd l) = forallb P l) -> (forall l, P (Fn NMul l) = forallb P l) ->
  (forall b p, P (Fn NPow [b; p]) = (P b && P p)%bool) ->
  forall n o a b r, eng n o a b = Some r -> P a = true -> P b = true -> P r = true.
Proof.
  intros H1 H2 H3 H4. induction n as [|n IH]; intros o a b r E Pa Pb; [discriminate|].
  assert (R : pres_rec P P (eng n)) by (split; eauto). destruct o; cbn [eng] in E.
  - eapply p_addition_step; eauto.
  - eapply p_product_step; eauto.
  - eapply p_power_step; eauto.
Qed.

(** Constant integers stay constant integers. *)
Definition is_int (e : expr) : bool := match e with CV _ => true | _ => false end.
Lemma int_inv e : is_int e = true -> exists z, e = CV z.
Proof. destruct e; try discriminate. eauto. Qed.
Lemma eng_int n : (forall o a b r, eng n o (CV a) (CV b) = Some r -> o <> OPow -> is_int r = true) /\
  (forall a k r, Z.ltb 0 k = true -> eng n OPow (CV a) (CV k) = Some r -> is_int r = true).
Proof.
  induction n as [|n [IH IHp]]; [split; intros; discriminate|]. split.
  - intros o a b r H N. destruct o; [| |congruence]; cbn [eng] in H.
    + unfold addition_step in H. cbn [apply_rules] in H.
      assert (Z0 : add_zero (CV a) (CV b) = (if Z.eqb a 0 then Some (Some (CV b)) else if Z.eqb b 0 then Some (Some (CV a)) else Some None)).
      { destruct a, b; reflexivity. }
      rewrite Z0 in H. clear Z0. destruct (Z.eqb a 0); [injection H as <-; reflexivity|]. destruct (Z.eqb b 0); [injection H as <-; reflexivity|].
      unfold add_helper in H. cbn [split_add] in H. unfold add_collect1 in H. destruct (expr_eqb (CV a) (CV b)).
      * destruct (eng n OMul (CV 2) (CV a)) as [s|] eqn:E; [|discriminate]. injection H as <-. apply (IH _ _ _ _ E). discriminate.
      * cbn in H. destruct (cv (a + b)) as [c|] eqn:C; [|discriminate]. injection H as <-. apply cv_Some in C as ->. reflexivity.
    + unfold product_step in H. cbn [apply_rules] in H.
      assert (Z0 : mul_zero (CV a) (CV b) = (if Z.eqb a 0 || Z.eqb b 0 then Some (Some (CV 0)) else Some None)%bool).
      { destruct a, b; reflexivity. }
      rewrite Z0 in H. clear Z0. destruct (Z.eqb a 0 || Z.eqb b 0)%bool; [injection H as <-; reflexivity|].
      assert (Z1 : mul_one (CV a) (CV b) = (if Z.eqb a 1 then Some (Some (CV b)) else if Z.eqb b 1 then Some (Some (CV a)) else Some None)).
      { destruct a as [|[]|], b as [|[]|]; reflexivity. }
      rewrite Z1 in H. clear Z1. destruct (Z.eqb a 1); [injection H as <-; reflexivity|]. destruct (Z.eqb b 1); [injection H as <-; reflexivity|].
      cbn [mul_distr split_add no] in H. unfold mul_helper in H. cbn [split_mul] in H. unfold mul_collect1 in H. destruct (expr_eqb (CV a) (CV b)).
      * destruct (eng n OPow (CV a) (CV 2)) as [s|] eqn:E; [|discriminate]. injection H as <-. apply (IHp a 2%Z s eq_refl E).
      * cbn in H. destruct (cv (a * b)) as [c|] eqn:C; [|discriminate]. injection H as <-. apply cv_Some in C as ->. reflexivity.
  - intros a k r L H. cbn [eng] in H. unfold power_step in H. cbn [apply_rules] in H.
    destruct (pow_misc1 (CV a) (CV k)) as [[x|]|] eqn:E1; [| |discriminate].
    + injection H as <-. unfold pow_misc1 in E1. destruct a as [|[]|]; try discriminate E1.
      * match type of E1 with context [if ?c then _ else _] => destruct c end; [|discriminate E1]. injection E1 as <-. reflexivity.
      * injection E1 as <-. reflexivity.
    + destruct (pow_misc2 (CV a) (CV k)) as [[x|]|] eqn:E3; [| |discriminate].
      { injection H as <-. unfold pow_misc2 in E3. destruct k as [|[]|]; try discriminate E3; try discriminate L. injection E3 as <-. reflexivity. }
      destruct (pow_misc3 (CV a) (CV k)) as [[x|]|] eqn:E2; [| |discriminate].
      * injection H as <-. unfold pow_misc3 in E2. cbn [expr_eqb half] in E2. unbind. apply cv_Some in E2 as ->.
        destruct (Z.eqb a (-1)); [destruct (Z.even k)|rewrite L in E]; injection E as <-; reflexivity.
      * unfold pow_misc3 in E2. cbn [expr_eqb half] in E2. unfold yes in E2. match type of E2 with match ?e with _ => _ end = _ => destruct e; discriminate end.
Qed.
(** Classes whose exponents are constant integers. *)
Theorem eng_pres_int P : (forall z, P (CV z) = true) -> (forall l, P (Fn NAdd l) = forallb P l) -> (forall l, P (Fn NMul l) = forallb P l) ->
  (forall b p, P (Fn NPow [b; p]) = (P b && is_int p)%bool) ->
  forall n o a b r, eng n o a b = Some r -> P a = true -> (if match o with OPow => true | _ => false end then is_int b else P b) = true -> P r = true.
Proof.
  intros H1 H2 H3 H4. induction n as [|n IH]; intros o a b r E Pa Pb; [discriminate|].
  assert (R : pres_rec P is_int (eng n)).
  { split; intros x y z Hx X1 X2.
    - apply (IH OAdd x y z Hx X1 X2).
    - apply (IH OMul x y z Hx X1 X2).
    - apply (IH OPow x y z Hx X1 X2).
    - apply int_inv in X1 as [u ->]. apply int_inv in X2 as [w ->]. apply (proj1 (eng_int n) _ _ _ _ Hx). discriminate.
    - apply int_inv in X1 as [u ->]. apply int_inv in X2 as [w ->]. apply (proj1 (eng_int n) _ _ _ _ Hx). discriminate. }
  destruct o; cbn [eng] in E.
  - eapply (p_addition_step P is_int); eauto.
  - eapply (p_product_step P is_int); eauto.
  - eapply (p_power_step P is_int); eauto.
Qed.
