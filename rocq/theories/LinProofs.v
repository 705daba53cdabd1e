(** Sums of integer multiples of grades: the simplifier keeps them in a form in which a constant
    is always an integer constant. *)
From Coq Require Import NArith ZArith List Bool Lia.
From Verif Require Import Bits Expr ExprBase Simp.
From Verif Require Import MappingProofs.
Import ListNotations.

Inductive nmono : expr -> Prop :=
| n_at x : is_constant x = false -> nmono (Fn NCount [x])
| n_mul z x : is_constant x = false -> nmono (Fn NMul [CV z; Fn NCount [x]]).
Definition mono (e : expr) : Prop := nmono e \/ exists z, e = CV z.
Inductive lin : expr -> Prop :=
| l_mono e : mono e -> lin e
| l_add x y ys : mono x -> Forall nmono (y :: ys) -> lin (Fn NAdd (x :: y :: ys)).

Lemma nmono_const e : nmono e -> is_constant e = false.
Proof. intros []; cbn; rewrite H; reflexivity. Qed.
Lemma lin_cexp e : lin e -> cexp e.
Proof.
  intros [e' [H|[z ->]]|x y ys Hx H].
  - left. apply nmono_const. exact H.
  - right. exists z. reflexivity.
  - left. inversion H as [|? ? Hy]. subst. apply nmono_const in Hy. cbn. rewrite Hy. destruct (is_constant x); reflexivity.
Qed.
Lemma cv_mono z : mono (CV z). Proof. right. exists z. reflexivity. Qed.
Lemma mk_add_lin xs t : Forall nmono xs -> mk_add xs = Some t -> lin t.
Proof.
  intros H. destruct xs as [|x [|y ys]]; cbn [mk_add].
  - intros [= <-]. apply l_mono, cv_mono.
  - intros [= <-]. inversion H. apply l_mono. left. assumption.
  - destruct (_ && _)%bool; [discriminate|]. intros [= <-]. inversion H as [|? ? Hx Hy]. subst. apply l_add; [left|]; assumption.
Qed.
Lemma mk_add_lin' x xs t : mono x -> Forall nmono xs -> mk_add (x :: xs) = Some t -> lin t.
Proof.
  intros Hx H. destruct xs as [|y ys]; cbn [mk_add].
  - intros [= <-]. apply l_mono. exact Hx.
  - destruct (_ && _)%bool; [discriminate|]. intros [= <-]. apply l_add; assumption.
Qed.

(** ** Products by an integer *)
Lemma mul_at F z x r : is_constant x = false -> eng F OMul (CV z) (Fn NCount [x]) = Some r -> mono r.
Proof.
  intros Hx. destruct F; [discriminate|]. cbn [eng]. unfold product_step. cbn [apply_rules]. unfold mul_zero, mul_one.
  destruct (Z.eq_dec z 0) as [->|Z0]; [cbn; intros [= <-]; apply cv_mono|].
  destruct (Z.eq_dec z 1) as [->|Z1]; [cbn; intros [= <-]; left; constructor; exact Hx|].
  replace (match CV z with CV 0 => yes (Some (CV 0)) | _ => no end) with no by (destruct z; congruence).
  replace (match CV z with CV 1 => yes (Some (Fn NCount [x])) | _ => no end) with no by (destruct z as [|[]|]; congruence).
  unfold no at 1 2. cbn match. unfold mul_distr, mul_helper. cbn [split_add split_mul no]. unfold mul_collect1. cbn [expr_eqb no mul_collect2 mul_collect3 mul_const1 mul_const2].
  unfold mul_merge_lt. cbn [split_mul]. replace (lt (CV z) (Fn NCount [x])) with true by reflexivity.
  unfold mk_mul. cbn [existsb is_cv]. replace (_ || _)%bool with false by (destruct (Z.eqb_spec z 0), (Z.eqb_spec z 1); try congruence; reflexivity).
  cbn [yes]. intros [= <-]. left. constructor. exact Hx.
Qed.
Lemma mul_lin F z e r : mono e -> eng F OMul (CV z) e = Some r -> mono r.
Proof.
  intros [[x Hx|w x Hx]|[w ->]].
  - apply mul_at. exact Hx.
  - destruct F; [discriminate|]. cbn [eng]. unfold product_step. cbn [apply_rules]. unfold mul_zero, mul_one.
    destruct (Z.eq_dec z 0) as [->|Z0]; [cbn; intros [= <-]; apply cv_mono|].
    destruct (Z.eq_dec z 1) as [->|Z1]; [cbn; intros [= <-]; left; constructor; exact Hx|].
    replace (match CV z with CV 0 => yes (Some (CV 0)) | _ => no end) with no by (destruct z; congruence).
    replace (match CV z with CV 1 => yes (Some (Fn NMul [CV w; Fn NCount [x]])) | _ => no end) with no by (destruct z as [|[]|]; congruence).
    unfold no at 1 2. cbn match. unfold mul_distr, mul_helper. cbn [split_add split_mul no mk_mul]. unfold mul_collect1. cbn [expr_eqb].
    destruct (Z.eqb z w).
    + destruct (eng F OPow (CV z) (CV 2)) eqn:P; cbn [yes]; [|discriminate]. apply pow2_const in P as ->.
      destruct (eng F OMul _ (Fn NCount [x])) eqn:M; [|discriminate]. intros [= <-]. exact (mul_at _ _ _ _ Hx M).
    + cbn [no mul_collect2 mul_collect3 mul_const1]. destruct (cv (z * w)) eqn:C; cbn [yes]; [|discriminate]. apply cv_Some in C as ->.
      destruct (eng F OMul _ (Fn NCount [x])) eqn:M; [|discriminate]. intros [= <-]. exact (mul_at _ _ _ _ Hx M).
  - intros H. rewrite (mul_const _ _ _ _ H). apply cv_mono.
Qed.

(** ** Sums that stay as they are *)
Definition at_ (x : expr) := Fn NCount [x].
Ltac merges :=
  unfold add_merge_lt, add_merge_gt, add_merge_eq; cbn [split_add].
Lemma add_at_1 F x r : eng F OAdd (at_ x) (CV 1) = Some r -> r = Fn NAdd [CV 1; at_ x].
Proof.
  destruct F; [discriminate|]. unfold at_. cbn [eng]. unfold addition_step. cbn [apply_rules]. unfold add_zero, no at 1. cbn match.
  unfold add_helper. cbn [split_add]. unfold add_collect1. cbn [expr_eqb no add_collect2 add_collect3 add_collect4 add_collect5 add_collect6 add_collect7 add_const1 add_const2 add_const3 add_const4 add_const5].
  merges. replace (lt (Fn NCount [x]) (CV 1)) with false by reflexivity. replace (lt (CV 1) (Fn NCount [x])) with true by reflexivity.
  cbn. intros [= <-]. reflexivity.
Qed.
Lemma add_1_at F x r : eng F OAdd (CV 1) (at_ x) = Some r -> r = Fn NAdd [CV 1; at_ x].
Proof.
  destruct F; [discriminate|]. unfold at_. cbn [eng]. unfold addition_step. cbn [apply_rules]. unfold add_zero, no at 1. cbn match.
  unfold add_helper. cbn [split_add]. unfold add_collect1. cbn [expr_eqb no add_collect2 add_collect3 add_collect4 add_collect5 add_collect6 add_collect7 add_const1 add_const2 add_const3 add_const4 add_const5].
  merges. replace (lt (CV 1) (Fn NCount [x])) with true by reflexivity.
  cbn. intros [= <-]. reflexivity.
Qed.
Lemma add_at_at F x y r : x <> y -> eng F OAdd (at_ x) (at_ y) = Some r -> r = Fn NAdd [at_ x; at_ y] \/ r = Fn NAdd [at_ y; at_ x].
Proof.
  intros Nxy. destruct F; [discriminate|]. unfold at_. cbn [eng]. unfold addition_step. cbn [apply_rules]. unfold add_zero, no at 1. cbn match.
  unfold add_helper. cbn [split_add]. unfold add_collect1.
  replace (expr_eqb (Fn NCount [x]) (Fn NCount [y])) with false by (destruct (expr_eqb (Fn NCount [x]) (Fn NCount [y])) eqn:E; [apply expr_eqb_eq in E; congruence|reflexivity]).
  cbn [no add_collect2 add_collect3 add_collect4 add_collect5 add_collect6 add_collect7 add_const1 add_const2 add_const3 add_const4 add_const5].
  merges. destruct (lt (Fn NCount [x]) (Fn NCount [y])); [cbn; intros [= <-]; auto|]. cbn [no].
  destruct (lt (Fn NCount [y]) (Fn NCount [x])); cbn; intros [= <-]; auto.
Qed.

(** ** The head rules on two monomials *)
Definition good (o : option (option expr)) : Prop := match o with Some (Some z) => mono z | _ => True end.
Lemma good_no : good no. Proof. exact I. Qed.
Lemma good_yes r : (forall z, r = Some z -> mono z) -> good (yes r).
Proof. intros H. destruct r; cbn; auto. Qed.
Lemma simp_const F p q s : simplified (eng F) (CV p) (CV q) = Some (Some s) -> s = CV (p + q).
Proof.
  unfold simplified. destruct (eng F OAdd (CV p) (CV q)) eqn:E; [|discriminate]. apply add_const in E as ->.
  destruct (mk_add [CV p; CV q]), (mk_add [CV q; CV p]); try discriminate. destruct (_ || _)%bool; [discriminate|]. intros [= <-]. reflexivity.
Qed.
Lemma simp_const_not F p q : simplified (eng F) (CV p) (CV q) <> Some None.
Proof.
  unfold simplified. destruct (eng F OAdd (CV p) (CV q)) eqn:E; [|discriminate]. apply add_const in E as ->.
  destruct (mk_add [CV p; CV q]) as [u|] eqn:U; [|discriminate]. destruct (mk_add [CV q; CV p]) as [v|] eqn:V; [|discriminate].
  assert (A : u = Fn NAdd [CV p; CV q]) by (unfold mk_add in U; destruct (_ && _)%bool; [discriminate|congruence]).
  assert (B : v = Fn NAdd [CV q; CV p]) by (unfold mk_add in V; destruct (_ && _)%bool; [discriminate|congruence]).
  subst. cbn. discriminate.
Qed.
Lemma collect_const F p q e : mono e -> good (collect_with (eng F) (CV p) (CV q) (fun s => eng F OMul s e)).
Proof.
  intros He. unfold collect_with. destruct (simplified _ _ _) as [[s|]|] eqn:E; [|exact I|exact I].
  apply simp_const in E as ->. apply good_yes. intros z. apply mul_lin. exact He.
Qed.
Lemma simp_at_1 F x s : simplified (eng F) (at_ x) (CV 1) <> Some (Some s).
Proof.
  unfold simplified. destruct (eng F OAdd (at_ x) (CV 1)) eqn:E; [|discriminate]. apply add_at_1 in E as ->. cbn [mk_add is_neg_mul at_ negb existsb is_cv andb orb Z.eqb].
  rewrite expr_eqb_refl, orb_true_r. discriminate.
Qed.
Lemma simp_1_at F x s : simplified (eng F) (CV 1) (at_ x) <> Some (Some s).
Proof.
  unfold simplified. destruct (eng F OAdd (CV 1) (at_ x)) eqn:E; [|discriminate]. apply add_1_at in E as ->. cbn [mk_add is_neg_mul at_ negb existsb is_cv andb orb Z.eqb].
  rewrite expr_eqb_refl. discriminate.
Qed.
Lemma simp_at_at F x y s : x <> y -> simplified (eng F) (at_ x) (at_ y) <> Some (Some s).
Proof.
  intros N. unfold simplified. destruct (eng F OAdd (at_ x) (at_ y)) eqn:E; [|discriminate]. cbn [mk_add is_neg_mul at_ negb existsb is_cv andb orb].
  destruct (add_at_at F x y _ N E) as [->| ->]; unfold at_; rewrite expr_eqb_refl, ?orb_true_r; discriminate.
Qed.
Lemma collect_none rec p q k : (forall s, simplified rec p q <> Some (Some s)) -> good (collect_with rec p q k).
Proof. intros H. unfold collect_with. destruct (simplified rec p q) as [[s|]|]; [exfalso; exact (H s eq_refl)|exact I|exact I]. Qed.

Ltac monos := intros [[?x ?Hx|?z ?x ?Hx]|[?z ->]] [[?y ?Hy|?w ?y ?Hy]|[?w ->]].
Lemma g1 F x y : mono x -> mono y -> good (add_collect1 (eng F) x y).
Proof. intros Hx Hy. unfold add_collect1. destruct (expr_eqb x y); [|exact I]. apply good_yes. intros z. apply mul_lin. exact Hx. Qed.
Lemma g2 F x y : mono x -> mono y -> good (add_collect2 (eng F) x y).
Proof.
  intros Hx Hy. destruct Hx as [[a Ha|z a Ha]|[z ->]]; try exact I. cbn [add_collect2]. destruct (_ || _)%bool; [|exact I].
  apply (collect_const F z 1 y Hy).
Qed.
Lemma g3 F x y : mono x -> mono y -> good (add_collect3 (eng F) x y).
Proof.
  intros Hx Hy. destruct Hy as [[a Ha|z a Ha]|[z ->]]; try exact I. cbn [add_collect3]. destruct (_ || _)%bool; [|exact I].
  apply (collect_const F 1 z x Hx).
Qed.
Lemma g4 F x y : mono x -> mono y -> good (add_collect4 (eng F) x y).
Proof.
  intros Hx Hy. destruct Hx as [[a Ha|z a Ha]|[z ->]]; try exact I. destruct Hy as [[b Hb|w b Hb]|[w ->]]; try exact I.
  cbn [add_collect4]. destruct (exprs_eqb _ _); [|exact I]. cbn [mk_mul]. apply collect_const. left. constructor. exact Ha.
Qed.
Lemma g5 F x y : mono x -> mono y -> good (add_collect5 (eng F) x y).
Proof.
  intros Hx Hy. destruct Hx as [[a Ha|z a Ha]|[z ->]]; try exact I. cbn [add_collect5 mk_mul]. destruct (expr_eqb _ _); [|exact I].
  apply collect_none, simp_at_1.
Qed.
Lemma g6 F x y : mono x -> mono y -> good (add_collect6 (eng F) x y).
Proof.
  intros Hx Hy. destruct Hy as [[a Ha|z a Ha]|[z ->]]; try exact I. cbn [add_collect6 mk_mul]. destruct (expr_eqb _ _); [|exact I].
  apply collect_none, simp_1_at.
Qed.
Lemma g7 F x y : mono x -> mono y -> add_collect4 (eng F) x y = no -> good (add_collect7 (eng F) x y).
Proof.
  intros Hx Hy. destruct Hx as [[a Ha|z a Ha]|[z ->]]; try (intros; exact I). destruct Hy as [[b Hb|w b Hb]|[w ->]]; try (intros; exact I).
  cbn [add_collect4 add_collect7 mk_mul]. intros H. destruct (expr_eqb (CV z) (CV w)); [|exact I]. apply collect_none. intros s. apply simp_at_at.
  intros ->. replace (exprs_eqb [Fn NCount [b]] [Fn NCount [b]]) with true in H.
  - unfold collect_with in H. destruct (simplified _ _ _) as [[t|]|] eqn:E; [|exact (simp_const_not _ _ _ E)|discriminate].
    unfold yes in H. destruct (eng F OMul _ _); discriminate.
  - symmetry. cbn [exprs_eqb]. change (expr_eqb (Fn NCount [b]) (Fn NCount [b]) && true = true)%bool. rewrite expr_eqb_refl. reflexivity.
Qed.
Lemma g8 x y : mono x -> mono y -> good (add_const1 x y).
Proof.
  monos; try exact I. cbn [add_const1]. apply good_yes. intros v H. apply cv_Some in H as ->. apply cv_mono.
Qed.
Lemma c2 rec x y : mono x -> mono y -> add_const2 rec x y = no. Proof. monos; reflexivity. Qed.
Lemma c3 rec x y : mono x -> mono y -> add_const3 rec x y = no. Proof. monos; reflexivity. Qed.
Lemma c4 rec x y : mono x -> mono y -> add_const4 rec x y = no. Proof. monos; reflexivity. Qed.
Lemma c5 rec x y : mono x -> mono y -> add_const5 rec x y = no. Proof. monos; reflexivity. Qed.

(** ** Addition preserves the form *)
Lemma lin_split a : lin a -> exists x xs, split_add a = (x, xs) /\ mono x /\ match xs with None => a = x | Some l => Forall nmono l /\ a = Fn NAdd (x :: l) end.
Proof.
  intros [e He|x y ys Hx H].
  - exists e, None. split; [|auto]. destruct He as [[]|[z ->]]; reflexivity.
  - exists x, (Some (y :: ys)). auto.
Qed.
Section Add.
  Variable F : nat.
  Hypothesis IH : forall a b r, lin a -> lin b -> eng F OAdd a b = Some r -> lin r.
  Lemma helper_lin k a b x xs y ys : split_add a = (x, xs) -> split_add b = (y, ys) ->
    match xs with None => True | Some l => Forall nmono l end -> match ys with None => True | Some l => Forall nmono l end ->
    good (k x y) -> match add_helper (eng F) k a b with Some (Some r) => lin r | Some None => k x y = no | None => True end.
  Proof.
    intros Sa Sb Hx Hy G. unfold add_helper. rewrite Sa, Sb. destruct (k x y) as [[z|]|]; [|reflexivity|exact I]. cbn in G.
    destruct xs as [xs|], ys as [ys|]; unfold yes.
    - destruct (mk_add xs) as [t|] eqn:T; [|exact I]. destruct (mk_add ys) as [u|] eqn:U; [|exact I]. destruct (eng F OAdd t u) as [v|] eqn:V; [|exact I].
      destruct (eng F OAdd z v) as [r|] eqn:R; [|exact I]. apply (IH z v r); [constructor; exact G| |exact R].
      apply (IH t u v); [apply (mk_add_lin xs)|apply (mk_add_lin ys)|]; auto.
    - destruct (mk_add xs) as [t|] eqn:T; [|exact I]. destruct (eng F OAdd z t) as [r|] eqn:R; [|exact I].
      apply (IH z t r); [constructor; exact G|apply (mk_add_lin xs); auto|exact R].
    - destruct (mk_add ys) as [t|] eqn:T; [|exact I]. destruct (eng F OAdd z t) as [r|] eqn:R; [|exact I].
      apply (IH z t r); [constructor; exact G|apply (mk_add_lin ys); auto|exact R].
    - constructor. exact G.
  Qed.
  Lemma lt_cv_r e z : nmono e -> lt e (CV z) = false. Proof. intros []; reflexivity. Qed.
  Lemma lt_cv_l e z : nmono e -> lt (CV z) e = true. Proof. intros []; reflexivity. Qed.
  Lemma lin_step a b r : lin a -> lin b -> eng (S F) OAdd a b = Some r -> lin r.
  Proof.
    intros La Lb. cbn [eng]. unfold addition_step.
    destruct (lin_split a La) as (x & xs & Sa & Mx & Ha). destruct (lin_split b Lb) as (y & ys & Sb & My & Hb).
    assert (Hxs : match xs with None => True | Some l => Forall nmono l end) by (destruct xs; tauto).
    assert (Hys : match ys with None => True | Some l => Forall nmono l end) by (destruct ys; tauto).
    pose proof (fun k => helper_lin k a b x xs y ys Sa Sb Hxs Hys) as HL.
    cbn [apply_rules].
    assert (Z : add_zero a b = no \/ exists q, add_zero a b = Some (Some q) /\ lin q).
    { assert (K : add_zero a b = no \/ add_zero a b = Some (Some a) \/ add_zero a b = Some (Some b)).
      { unfold add_zero. destruct a as [[]| | | | | | | | | |]; destruct b as [[]| | | | | | | | | |]; auto. }
      destruct K as [K|[K|K]]; [left; exact K|right; exists a; auto|right; exists b; auto]. }
    destruct Z as [-> | (q & -> & Lq)]; [|intros [= <-]; exact Lq]. unfold no at 1. cbn match.
    pose proof (HL _ (g1 F x y Mx My)) as H1. destruct (add_helper (eng F) (add_collect1 (eng F)) a b) as [[u|]|]; [intros [= <-]; exact H1| |discriminate].
    pose proof (HL _ (g2 F x y Mx My)) as H2. destruct (add_helper (eng F) (add_collect2 (eng F)) a b) as [[u|]|]; [intros [= <-]; exact H2| |discriminate].
    pose proof (HL _ (g3 F x y Mx My)) as H3. destruct (add_helper (eng F) (add_collect3 (eng F)) a b) as [[u|]|]; [intros [= <-]; exact H3| |discriminate].
    pose proof (HL _ (g4 F x y Mx My)) as H4. destruct (add_helper (eng F) (add_collect4 (eng F)) a b) as [[u|]|]; [intros [= <-]; exact H4| |discriminate].
    pose proof (HL _ (g5 F x y Mx My)) as H5. destruct (add_helper (eng F) (add_collect5 (eng F)) a b) as [[u|]|]; [intros [= <-]; exact H5| |discriminate].
    pose proof (HL _ (g6 F x y Mx My)) as H6. destruct (add_helper (eng F) (add_collect6 (eng F)) a b) as [[u|]|]; [intros [= <-]; exact H6| |discriminate].
    pose proof (HL _ (g7 F x y Mx My H4)) as H7. destruct (add_helper (eng F) (add_collect7 (eng F)) a b) as [[u|]|]; [intros [= <-]; exact H7| |discriminate].
    pose proof (HL _ (g8 x y Mx My)) as H8. destruct (add_helper (eng F) add_const1 a b) as [[u|]|]; [intros [= <-]; exact H8| |discriminate].
    assert (N : forall k, k x y = no -> add_helper (eng F) k a b = no) by (intros k E; unfold add_helper; rewrite Sa, Sb, E; reflexivity).
    rewrite (N _ (c2 (eng F) x y Mx My)), (N _ (c3 (eng F) x y Mx My)), (N _ (c4 (eng F) x y Mx My)), (N _ (c5 (eng F) x y Mx My)).
    unfold no at 1 2 3 4. cbn match. clear N HL H1 H2 H3 H4 H5 H6 H7.
    unfold add_merge_lt, add_merge_gt, add_merge_eq. rewrite Sa, Sb.
    assert (Ny : lt x y = true -> nmono y).
    { destruct My as [My|[w ->]]; [auto|]. destruct Mx as [Mx|[z ->]]; [rewrite (lt_cv_r _ _ Mx); discriminate|]. intros _. exfalso. cbn [add_const1 yes] in H8. unfold yes in H8; destruct (cv (z + w)); discriminate. }
    assert (Nx : lt y x = true -> nmono x).
    { destruct Mx as [Mx|[w ->]]; [auto|]. destruct My as [My|[z ->]]; [rewrite (lt_cv_r _ _ My); discriminate|]. intros _. exfalso. cbn [add_const1 yes] in H8. unfold yes in H8; destruct (cv (w + z)); discriminate. }
    assert (Nb : lt x y = false -> lt y x = false -> nmono x /\ nmono y).
    { intros A B. destruct Mx as [Mx|[w ->]], My as [My|[z ->]]; [auto| | |].
      - rewrite (lt_cv_l _ _ Mx) in B. discriminate.
      - rewrite (lt_cv_l _ _ My) in A. discriminate.
      - exfalso. unfold add_const1, yes in H8; destruct (cv (w + z)); discriminate. }
    assert (Y : forall o, (forall q, o = Some q -> lin q) -> match yes o with Some (Some q) => lin q | Some None => False | None => True end).
    { intros [q|] Q; cbn; auto. }
    assert (Fin : forall o, match o with Some (Some q) => lin q | Some None => False | None => True end ->
       match o with Some (Some q) => Some q | Some None => @None expr | None => None end = Some r -> lin r).
    { intros [[q|]|] Q E; try discriminate. congruence. }
    destruct (lt x y) eqn:Lxy.
    - match goal with |- match ?o with _ => _ end = _ -> _ => assert (G : match o with Some (Some q) => lin q | Some None => False | None => True end) end.
      { destruct xs as [xs|]; [|destruct ys as [ys|]]; apply Y; intros q.
        - destruct Ha as [Ha _]. destruct (mk_add xs) as [t|] eqn:T; [|discriminate]. destruct (eng F OAdd t b) as [u|] eqn:U; [|discriminate].
          apply IH; [constructor; exact Mx|]. apply (IH t b); auto. apply (mk_add_lin xs); auto.
        - destruct Hb as [Hb _]. rewrite Ha. apply mk_add_lin'; auto.
        - rewrite Ha, Hb. apply mk_add_lin'; auto. }
      match goal with |- match ?o with _ => _ end = _ -> _ => destruct o as [[q|]|] end; [intros [= <-]; exact G|destruct G|discriminate].
    - cbn [no]. destruct (lt y x) eqn:Lyx.
      + match goal with |- match ?o with _ => _ end = _ -> _ => assert (G : match o with Some (Some q) => lin q | Some None => False | None => True end) end.
        { destruct ys as [ys|]; [|destruct xs as [xs|]].
          - assert (G : forall q, (t <- mk_add ys ;; u <- eng F OAdd a t ;; eng F OAdd y u) = Some q -> lin q).
            { intros q. destruct Hb as [Hb _]. destruct (mk_add ys) as [t|] eqn:T; [|discriminate]. destruct (eng F OAdd a t) as [u|] eqn:U; [|discriminate].
              apply IH; [constructor; exact My|]. apply (IH a t); auto. apply (mk_add_lin ys); auto. }
            destruct xs; apply Y; exact G.
          - apply Y. intros q. destruct Ha as [Ha _]. rewrite Hb. apply mk_add_lin'; auto.
          - apply Y. intros q. rewrite Ha, Hb. apply mk_add_lin'; auto. }
        match goal with |- match ?o with _ => _ end = _ -> _ => destruct o as [[q|]|] end; [intros [= <-]; exact G|destruct G|discriminate].
      + cbn [no]. destruct (Nb eq_refl eq_refl) as [Nx' Ny'].
        match goal with |- match ?o with _ => _ end = _ -> _ => assert (G : match o with Some (Some q) => lin q | Some None => False | None => True end) end.
        { destruct xs as [xs|], ys as [ys|]; apply Y; intros q.
          - destruct Ha as [Ha _], Hb as [Hb _]. destruct (mk_add [x; y]) as [h|] eqn:E; [|discriminate]. destruct (mk_add xs) as [t|] eqn:T; [|discriminate]. destruct (mk_add ys) as [u|] eqn:U; [|discriminate].
            destruct (eng F OAdd t u) as [v|] eqn:V; [|discriminate]. apply IH.
            + apply (mk_add_lin [x; y]); auto.
            + apply (IH t u); auto; [apply (mk_add_lin xs)|apply (mk_add_lin ys)]; auto.
          - destruct Ha as [Ha _]. rewrite Hb. apply mk_add_lin; auto.
          - destruct Hb as [Hb _]. rewrite Ha. apply mk_add_lin; auto.
          - rewrite Ha, Hb. apply mk_add_lin; auto. }
        match goal with |- match ?o with _ => _ end = _ -> _ => destruct o as [[q|]|] end; [intros [= <-]; exact G|destruct G|discriminate].
  Qed.
End Add.
Theorem add_lin F : forall a b r, lin a -> lin b -> eng F OAdd a b = Some r -> lin r.
Proof. induction F as [|F IH]; [discriminate|]. intros a b r. apply lin_step. exact IH. Qed.
