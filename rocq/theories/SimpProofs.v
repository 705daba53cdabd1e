From Coq Require Import NArith ZArith List Bool Reals Lra Lia.
From Verif Require Import Bits SpecBits BitsProofs Expr ExprBase Sem Wf RPowProofs Simp.
Import ListNotations.
Local Open Scope R_scope.

Definition rec_t := op -> expr -> expr -> option expr.
Definition binop_ok (f : R -> R -> R) (k : expr -> expr -> option expr) : Prop :=
  forall a b r, wf a = true -> wf b = true -> k a b = Some r ->
  wf r = true /\ (forall g va vb, num g a va -> num g b vb -> num g r (f va vb)).
Definition cond (g : env) (a : expr) (vb : R) : Prop :=
  atomic a = true \/ isint vb \/ nonneg_factors g a.
Definition pow_ok (k : expr -> expr -> option expr) : Prop :=
  forall a b r, wf a = true -> wf b = true -> k a b = Some r ->
  wf r = true /\ (forall g va vb v, num g a va -> num g b vb -> rpow va vb = Some v -> cond g a vb -> num g r v).
Record sound (rec : rec_t) : Prop := {
  s_add : binop_ok Rplus (rec OAdd);
  s_mul : binop_ok Rmult (rec OMul);
  s_pow : pow_ok (rec OPow) }.

Definition rule_ok (f : R -> R -> R) (k : rule) : Prop :=
  forall a b r, wf a = true -> wf b = true -> k a b = Some (Some r) ->
  wf r = true /\ (forall g va vb, num g a va -> num g b vb -> num g r (f va vb)).

Lemma num_eq g e a b : num g e a -> a = b -> num g e b.
Proof. intros H <-. exact H. Qed.
Lemma num_fun g e a b : num g e a -> num g e b -> a = b.
Proof. unfold num. congruence. Qed.
Lemma num_cv g z : num g (CV z) (IZR z).
Proof. reflexivity. Qed.
Lemma num_cv_inv g z v : num g (CV z) v -> v = IZR z.
Proof. intros [= <-]. reflexivity. Qed.

Lemma num_add_cons g x xs v : num g (Fn NAdd (x :: xs)) v <->
  exists a b, num g x a /\ num g (Fn NAdd xs) b /\ v = a + b.
Proof.
  unfold num. cbn [sem map fn_sem vsum fold_right].
  change (fold_right vadd (Some (VN 0)) (map (sem g) xs)) with (vsum (map (sem g) xs)).
  split.
  - unfold vadd at 1. intros H. destruct (sem g x) as [[a| |]|] eqn:Ea; try discriminate.
    destruct (vsum (map (sem g) xs)) as [[b| |]|] eqn:Eb; try discriminate.
    injection H as <-. eauto.
  - intros (a & b & -> & -> & ->). reflexivity.
Qed.
Lemma num_add_nil g v : num g (Fn NAdd []) v <-> v = 0.
Proof. unfold num. cbn. split; [intros [= <-]; reflexivity|intros ->; reflexivity]. Qed.
Lemma num_mul_cons g x xs v : num g (Fn NMul (x :: xs)) v <->
  exists a b, num g x a /\ num g (Fn NMul xs) b /\ v = a * b.
Proof.
  unfold num. cbn [sem map fn_sem vprod fold_right].
  change (fold_right vmul (Some (VN 1)) (map (sem g) xs)) with (vprod (map (sem g) xs)).
  split.
  - unfold vmul at 1. intros H. destruct (sem g x) as [[a| |]|] eqn:Ea; try discriminate.
    destruct (vprod (map (sem g) xs)) as [[b| |]|] eqn:Eb; try discriminate.
    injection H as <-. eauto.
  - intros (a & b & -> & -> & ->). reflexivity.
Qed.
Lemma num_mul_nil g v : num g (Fn NMul []) v <-> v = 1.
Proof. unfold num. cbn. split; [intros [= <-]; reflexivity|intros ->; reflexivity]. Qed.
Lemma num_pow g a b v : num g (Fn NPow [a; b]) v <->
  exists x y, num g a x /\ num g b y /\ rpow x y = Some v.
Proof.
  unfold num. cbn [sem map fn_sem]. split.
  - destruct (sem g a) as [[x| |]|]; try discriminate. destruct (sem g b) as [[y| |]|]; try discriminate.
    destruct (rpow x y) eqn:E; [|discriminate]. intros [= <-]. eauto.
  - intros (x & y & -> & -> & E). rewrite E. reflexivity.
Qed.

(** ** Smart constructors *)
Lemma mk_add_num xs t g v : mk_add xs = Some t -> (num g t v <-> num g (Fn NAdd xs) v).
Proof.
  destruct xs as [|x [|y ys]]; cbn [mk_add].
  - intros [= <-]. rewrite num_add_nil. split; [apply num_cv_inv|intros ->; apply num_cv].
  - intros [= <-]. rewrite num_add_cons. split.
    + intros H. exists v, 0. rewrite num_add_nil. repeat split; auto; lra.
    + intros (a & b & H & Hb & ->). apply num_add_nil in Hb as ->. eapply num_eq; eauto; lra.
  - destruct (_ && _)%bool; [discriminate|]. intros [= <-]. reflexivity.
Qed.
Lemma mk_add_wf xs t : forallb wf xs = true -> mk_add xs = Some t -> wf t = true.
Proof.
  destruct xs as [|x [|y ys]]; cbn [mk_add].
  - intros _ [= <-]. reflexivity.
  - cbn. intros H [= <-]. now apply andb_true_iff in H.
  - destruct (_ && _)%bool; [discriminate|]. intros H [= <-]. cbn [wf length Nat.leb andb]. exact H.
Qed.
Lemma mk_mul_num xs t g v : mk_mul xs = Some t -> xs <> [] -> (num g t v <-> num g (Fn NMul xs) v).
Proof.
  destruct xs as [|x [|y ys]]; cbn [mk_mul].
  - congruence.
  - intros [= <-] _. rewrite num_mul_cons. split.
    + intros H. exists v, 1. rewrite num_mul_nil. repeat split; auto; lra.
    + intros (a & b & H & Hb & ->). apply num_mul_nil in Hb as ->. eapply num_eq; eauto; lra.
  - destruct (existsb _ _); [discriminate|]. intros [= <-] _. reflexivity.
Qed.
Lemma mk_mul_wf xs t : forallb wf xs = true -> mk_mul xs = Some t -> wf t = true.
Proof.
  destruct xs as [|x [|y ys]]; cbn [mk_mul].
  - intros _ [= <-]. reflexivity.
  - cbn. intros H [= <-]. now apply andb_true_iff in H.
  - destruct (existsb _ _); [discriminate|]. intros H [= <-]. cbn [wf length Nat.leb andb]. exact H.
Qed.

Lemma wf_add_inv x xs : wf (Fn NAdd (x :: xs)) = true -> wf x = true /\ forallb wf xs = true /\ xs <> [].
Proof.
  cbn [wf length forallb]. rewrite !andb_true_iff. intros (L & A & B). repeat split; auto.
  intros ->. discriminate.
Qed.
Lemma wf_mul_inv x xs : wf (Fn NMul (x :: xs)) = true -> wf x = true /\ forallb wf xs = true /\ xs <> [].
Proof.
  cbn [wf length forallb]. rewrite !andb_true_iff. intros (L & A & B). repeat split; auto.
  intros ->. discriminate.
Qed.
Lemma wf_pow_inv a b : wf (Fn NPow [a; b]) = true -> atomic a = true /\ wf a = true /\ wf b = true.
Proof. cbn [wf]. rewrite !andb_true_iff. tauto. Qed.

(** Sum (product) with an optional tail, as produced by [split_add] / [split_mul]. *)
Definition tail_sum g (xs : option (list expr)) (v : R) : Prop :=
  match xs with None => v = 0 | Some l => num g (Fn NAdd l) v end.
Definition tail_prod g (xs : option (list expr)) (v : R) : Prop :=
  match xs with None => v = 1 | Some l => num g (Fn NMul l) v end.
Definition tail_wf (xs : option (list expr)) : Prop :=
  match xs with None => True | Some l => forallb wf l = true /\ l <> [] end.

Lemma split_add_ok a x xs : split_add a = (x, xs) -> wf a = true ->
  wf x = true /\ tail_wf xs /\ (xs = None -> x = a) /\ (forall l, xs = Some l -> a = Fn NAdd (x :: l)) /\
  (forall g v, num g a v -> exists u w, num g x u /\ tail_sum g xs w /\ v = u + w).
Proof.
  intros H W.
  assert (D : (x = a /\ xs = None) \/ (exists l, a = Fn NAdd (x :: l) /\ xs = Some l)).
  { destruct a as [| | | | | | | | | |f l]; cbn in H; try (injection H as <- <-; auto).
    destruct f; try (injection H as <- <-; auto). destruct l; injection H as <- <-; eauto. }
  destruct D as [[-> ->]|[l [-> ->]]].
  - repeat split; auto; try discriminate. intros g v Hv. exists v, 0. repeat split; auto; lra.
  - destruct (wf_add_inv _ _ W) as (? & ? & ?). repeat split; auto; try discriminate.
    + intros ? [= <-]; reflexivity.
    + intros g v Hv. now apply num_add_cons in Hv.
Qed.
Lemma split_mul_ok a x xs : split_mul a = (x, xs) -> wf a = true ->
  wf x = true /\ tail_wf xs /\ (xs = None -> x = a) /\ (forall l, xs = Some l -> a = Fn NMul (x :: l)) /\
  (forall g v, num g a v -> exists u w, num g x u /\ tail_prod g xs w /\ v = u * w).
Proof.
  intros H W.
  assert (D : (x = a /\ xs = None) \/ (exists l, a = Fn NMul (x :: l) /\ xs = Some l)).
  { destruct a as [| | | | | | | | | |f l]; cbn in H; try (injection H as <- <-; auto).
    destruct f; try (injection H as <- <-; auto). destruct l; injection H as <- <-; eauto. }
  destruct D as [[-> ->]|[l [-> ->]]].
  - repeat split; auto; try discriminate. intros g v Hv. exists v, 1. repeat split; auto; lra.
  - destruct (wf_mul_inv _ _ W) as (? & ? & ?). repeat split; auto; try discriminate.
    + intros ? [= <-]; reflexivity.
    + intros g v Hv. now apply num_mul_cons in Hv.
Qed.

(** ** Automation *)
Ltac unbind :=
  repeat match goal with
  | H : yes ?x = Some (Some _) |- _ =>
      unfold yes in H; let E := fresh "E" in destruct x eqn:E; [|discriminate H]; injection H as <-
  | H : no = Some (Some _) |- _ => discriminate H
  | H : Some (Some _) = Some (Some _) |- _ => injection H as <-
  | H : Some _ = Some _ |- _ => injection H as <-
  | H : None = Some _ |- _ => discriminate H
  | H : match ?e with Some x => _ | None => None end = Some _ |- _ =>
      let E := fresh "E" in destruct e eqn:E; [|discriminate H]
  end.

(** For each known call, derive well-formedness and meaning of its result. *)
Ltac fwd S :=
  repeat match goal with
  | H : mk_add ?l = Some ?t, W : forallb wf ?l = true |- _ =>
      lazymatch goal with
      | _ : wf t = true |- _ => fail
      | _ => assert (wf t = true) by (exact (mk_add_wf _ _ W H))
      end
  | H : mk_mul ?l = Some ?t, W : forallb wf ?l = true |- _ =>
      lazymatch goal with
      | _ : wf t = true |- _ => fail
      | _ => assert (wf t = true) by (exact (mk_mul_wf _ _ W H))
      end
  | H : ?rec OAdd ?a ?b = Some ?t |- _ =>
      let W := fresh "W" in let N := fresh "N" in
      destruct (s_add rec S a b t) as [W N]; [first [assumption|reflexivity]|first [assumption|reflexivity]|exact H|]; clear H
  | H : ?rec OMul ?a ?b = Some ?t |- _ =>
      let W := fresh "W" in let N := fresh "N" in
      destruct (s_mul rec S a b t) as [W N]; [first [assumption|reflexivity]|first [assumption|reflexivity]|exact H|]; clear H
  | H : ?rec OPow ?a ?b = Some ?t |- _ =>
      let W := fresh "W" in let N := fresh "N" in
      destruct (s_pow rec S a b t) as [W N]; [first [assumption|reflexivity]|first [assumption|reflexivity]|exact H|]; clear H
  end.

Ltac nums := first [ eassumption | apply num_cv | (eapply mk_mul_num; [eassumption|eassumption|nums]) | (eapply mk_add_num; [eassumption|nums])
  | match goal with N : forall g va vb, num g _ va -> _ -> num g ?t _ |- num _ ?t _ => apply N; nums end ].

Lemma add_helper_ok rec r : sound rec -> rule_ok Rplus r -> rule_ok Rplus (add_helper rec r).
Proof.
  intros S R a b z Wa Wb H. unfold add_helper in H.
  destruct (split_add a) as [x xs] eqn:Ea. destruct (split_add b) as [y ys] eqn:Eb.
  destruct (split_add_ok _ _ _ Ea Wa) as (Wx & Wxs & _ & _ & Na).
  destruct (split_add_ok _ _ _ Eb Wb) as (Wy & Wys & _ & _ & Nb).
  destruct (r x y) as [[w|]|] eqn:E; try discriminate.
  destruct (R x y w Wx Wy E) as [Ww Nw].
  assert (K : wf z = true /\ forall g vw tx ty, num g w vw -> tail_sum g xs tx -> tail_sum g ys ty -> num g z (vw + (tx + ty))).
  { destruct xs as [xs|], ys as [ys|]; cbn [tail_wf tail_sum] in *; unbind;
      try destruct Wxs as [Wxs _]; try destruct Wys as [Wys _]; fwd S; split; auto; intros g vw tx ty Hw Hx Hy.
    - apply N0; auto. apply N; eapply mk_add_num; eauto.
    - subst ty. rewrite Rplus_0_r. apply N; auto. eapply mk_add_num; eauto.
    - subst tx. rewrite Rplus_0_l. apply N; auto. eapply mk_add_num; eauto.
    - subst. eapply num_eq; eauto; lra. }
  destruct K as [Wz K]. split; auto. intros g va vb Ha Hb.
  destruct (Na _ _ Ha) as (u & v & Hu & Hv & ->). destruct (Nb _ _ Hb) as (u' & v' & Hu' & Hv' & ->).
  eapply num_eq; [apply K; eauto|]. lra.
Qed.

Lemma mul_helper_ok rec r : sound rec -> rule_ok Rmult r -> rule_ok Rmult (mul_helper rec r).
Proof.
  intros S R a b z Wa Wb H. unfold mul_helper in H.
  destruct (split_mul a) as [x xs] eqn:Ea. destruct (split_mul b) as [y ys] eqn:Eb.
  destruct (split_mul_ok _ _ _ Ea Wa) as (Wx & Wxs & _ & _ & Na).
  destruct (split_mul_ok _ _ _ Eb Wb) as (Wy & Wys & _ & _ & Nb).
  destruct (r x y) as [[w|]|] eqn:E; try discriminate.
  destruct (R x y w Wx Wy E) as [Ww Nw].
  assert (K : wf z = true /\ forall g vw tx ty, num g w vw -> tail_prod g xs tx -> tail_prod g ys ty -> num g z (vw * (tx * ty))).
  { destruct xs as [xs|], ys as [ys|]; cbn [tail_wf tail_prod] in *; unbind;
      try destruct Wxs as [Wxs ?]; try destruct Wys as [Wys ?]; fwd S; split; auto; intros g vw tx ty Hw Hx Hy.
    - apply N0; auto. apply N; eapply mk_mul_num; eauto.
    - subst ty. rewrite Rmult_1_r. apply N; auto. eapply mk_mul_num; eauto.
    - subst tx. rewrite Rmult_1_l. apply N; auto. eapply mk_mul_num; eauto.
    - subst. eapply num_eq; eauto; lra. }
  destruct K as [Wz K]. split; auto. intros g va vb Ha Hb.
  destruct (Na _ _ Ha) as (u & v & Hu & Hv & ->). destruct (Nb _ _ Hb) as (u' & v' & Hu' & Hv' & ->).
  eapply num_eq; [apply K; eauto|]. ring.
Qed.

(** ** Addition rules *)
Lemma add_zero_inv a b r : add_zero a b = Some (Some r) -> (a = CV 0 /\ r = b) \/ (b = CV 0 /\ r = a).
Proof.
  unfold add_zero. destruct a as [[]| | | | | | | | | |]; destruct b as [[]| | | | | | | | | |]; intros H; unbind; auto.
Qed.
Lemma add_zero_ok : rule_ok Rplus add_zero.
Proof.
  intros a b r Wa Wb H. apply add_zero_inv in H as [[-> ->]|[-> ->]]; split; auto; intros g va vb Ha Hb.
  - apply num_cv_inv in Ha as ->. rewrite Rplus_0_l. auto.
  - apply num_cv_inv in Hb as ->. rewrite Rplus_0_r. auto.
Qed.

Lemma add_collect1_ok rec : sound rec -> rule_ok Rplus (add_collect1 rec).
Proof.
  intros S a b r Wa Wb H. unfold add_collect1 in H. destruct (expr_eqb a b) eqn:E; [|discriminate].
  apply expr_eqb_eq in E as <-. unbind. fwd S. split; auto. intros g va vb Ha Hb.
  pose proof (num_fun _ _ _ _ Hb Ha); subst. eapply num_eq; [nums|]. lra.
Qed.

Lemma collect_with_ok rec p q k r : sound rec -> collect_with rec p q k = Some (Some r) ->
  wf p = true -> wf q = true ->
  exists s, k s = Some r /\ wf s = true /\
    forall g va vb, num g p va -> num g q vb -> num g s (va + vb).
Proof.
  intros S H Wp Wq. unfold collect_with, simplified in H.
  destruct (rec OAdd p q) as [s|] eqn:E; [|discriminate].
  destruct (mk_add [p; q]); [|discriminate]. destruct (mk_add [q; p]); [|discriminate].
  destruct (_ || _)%bool; [discriminate|]. unbind. fwd S. exists s. auto.
Qed.

Lemma add_collect2_ok rec : sound rec -> rule_ok Rplus (add_collect2 rec).
Proof.
  intros S a b r Wa Wb H. unfold add_collect2 in H.
  destruct a as [| | | | | | | | | |[] l]; try discriminate. destruct l as [|p cs]; [discriminate|].
  destruct (_ || _)%bool eqn:C in H; [|discriminate].
  destruct (wf_mul_inv _ _ Wa) as (Wp & Wcs & Ncs).
  assert (M : forall g v, num g (Fn NMul cs) v <-> num g b v).
  { intros g v. apply orb_true_iff in C as [C|C].
    - destruct cs as [|c [|]]; try discriminate. apply expr_eqb_eq in C as <-.
      symmetry. apply (mk_mul_num [c]); [reflexivity|discriminate].
    - apply expr_eqb_eq in C as <-. reflexivity. }
  destruct (collect_with_ok _ _ _ _ _ S H Wp eq_refl) as (s & Es & Ws & Ns). fwd S.
  split; auto. intros g va vb Ha Hb. apply num_mul_cons in Ha as (x & y & Hx & Hy & ->).
  apply M in Hy. pose proof (num_fun _ _ _ _ Hb Hy); subst. eapply num_eq; [nums|]. lra.
Qed.

Lemma add_collect3_ok rec : sound rec -> rule_ok Rplus (add_collect3 rec).
Proof.
  intros S a b r Wa Wb H. unfold add_collect3 in H.
  destruct b as [| | | | | | | | | |[] l]; try discriminate. destruct l as [|p cs]; [discriminate|].
  destruct (_ || _)%bool eqn:C in H; [|discriminate].
  destruct (wf_mul_inv _ _ Wb) as (Wp & Wcs & Ncs).
  assert (M : forall g v, num g (Fn NMul cs) v <-> num g a v).
  { intros g v. apply orb_true_iff in C as [C|C].
    - destruct cs as [|c [|]]; try discriminate. apply expr_eqb_eq in C as <-.
      symmetry. apply (mk_mul_num [c]); [reflexivity|discriminate].
    - apply expr_eqb_eq in C as <-. reflexivity. }
  destruct (collect_with_ok _ _ _ _ _ S H eq_refl Wp) as (s & Es & Ws & Ns). fwd S.
  split; auto. intros g va vb Ha Hb. apply num_mul_cons in Hb as (x & y & Hx & Hy & ->).
  apply M in Hy. pose proof (num_fun _ _ _ _ Ha Hy); subst. eapply num_eq; [nums|]. lra.
Qed.

Lemma add_collect4_ok rec : sound rec -> rule_ok Rplus (add_collect4 rec).
Proof.
  intros S a b r Wa Wb H. unfold add_collect4 in H.
  destruct a as [| | | | | | | | | |[] la]; try discriminate. destruct la as [|p cs]; [discriminate|].
  destruct b as [| | | | | | | | | |[] lb]; try discriminate. destruct lb as [|q ds]; [discriminate|].
  destruct (exprs_eqb cs ds) eqn:C; [|discriminate]. apply exprs_eqb_eq in C as <-.
  destruct (wf_mul_inv _ _ Wa) as (Wp & Wcs & Ncs). destruct (wf_mul_inv _ _ Wb) as (Wq & _ & _).
  destruct (collect_with_ok _ _ _ _ _ S H Wp Wq) as (s & Es & Ws & Ns). unbind. fwd S.
  split; auto. intros g va vb Ha Hb.
  apply num_mul_cons in Ha as (x & y & Hx & Hy & ->). apply num_mul_cons in Hb as (x' & y' & Hx' & Hy' & ->).
  pose proof (num_fun _ _ _ _ Hy' Hy); subst.
  eapply num_eq; [nums|]. lra.
Qed.

Lemma add_collect5_ok rec : sound rec -> rule_ok Rplus (add_collect5 rec).
Proof.
  intros S a b r Wa Wb H. unfold add_collect5 in H.
  destruct a as [| | | | | | | | | |[] la]; try discriminate. destruct la as [|c ls]; [discriminate|].
  destruct (expr_eqb c b) eqn:C; [|discriminate]. apply expr_eqb_eq in C as <-.
  destruct (wf_mul_inv _ _ Wa) as (Wc & Wls & Nls).
  destruct (mk_mul ls) as [t|] eqn:Et; [|discriminate]. fwd S.
  destruct (collect_with_ok _ _ _ _ _ S H H0 eq_refl) as (s & Es & Ws & Ns). fwd S.
  split; auto. intros g va vb Ha Hb. apply num_mul_cons in Ha as (x & y & Hx & Hy & ->).
  pose proof (num_fun _ _ _ _ Hb Hx); subst. eapply num_eq; [nums|]. lra.
Qed.

Lemma add_collect6_ok rec : sound rec -> rule_ok Rplus (add_collect6 rec).
Proof.
  intros S a b r Wa Wb H. unfold add_collect6 in H.
  destruct b as [| | | | | | | | | |[] la]; try discriminate. destruct la as [|c ls]; [discriminate|].
  destruct (expr_eqb c a) eqn:C; [|discriminate]. apply expr_eqb_eq in C as <-.
  destruct (wf_mul_inv _ _ Wb) as (Wc & Wls & Nls).
  destruct (mk_mul ls) as [t|] eqn:Et; [|discriminate]. fwd S.
  destruct (collect_with_ok _ _ _ _ _ S H eq_refl H0) as (s & Es & Ws & Ns). fwd S.
  split; auto. intros g va vb Ha Hb. apply num_mul_cons in Hb as (x & y & Hx & Hy & ->).
  pose proof (num_fun _ _ _ _ Ha Hx); subst. eapply num_eq; [nums|]. lra.
Qed.

Lemma add_collect7_ok rec : sound rec -> rule_ok Rplus (add_collect7 rec).
Proof.
  intros S a b r Wa Wb H. unfold add_collect7 in H.
  destruct a as [| | | | | | | | | |[] la]; try discriminate. destruct la as [|c ps]; [discriminate|].
  destruct b as [| | | | | | | | | |[] lb]; try discriminate. destruct lb as [|d qs]; [discriminate|].
  destruct (expr_eqb c d) eqn:C; [|discriminate]. apply expr_eqb_eq in C as <-.
  destruct (wf_mul_inv _ _ Wa) as (Wc & Wps & Nps). destruct (wf_mul_inv _ _ Wb) as (_ & Wqs & Nqs).
  destruct (mk_mul ps) as [t|] eqn:Et; [|discriminate]. destruct (mk_mul qs) as [u|] eqn:Eu; [|discriminate]. fwd S.
  destruct (collect_with_ok _ _ _ _ _ S H) as (s & Es & Ws & Ns); auto. fwd S.
  split; auto. intros g va vb Ha Hb.
  apply num_mul_cons in Ha as (x & y & Hx & Hy & ->). apply num_mul_cons in Hb as (x' & y' & Hx' & Hy' & ->).
  pose proof (num_fun _ _ _ _ Hx' Hx); subst.
  eapply num_eq; [nums|]. lra.
Qed.

Lemma cv_Some z e : cv z = Some e -> e = CV z.
Proof. unfold cv. destruct (_ && _)%bool; [|discriminate]. intros [= <-]. reflexivity. Qed.

Lemma add_const1_ok : rule_ok Rplus add_const1.
Proof.
  intros a b r Wa Wb H. unfold add_const1 in H.
  destruct a; try discriminate. destruct b; try discriminate. unbind. apply cv_Some in E as ->.
  split; auto. intros g va vb Ha Hb. rewrite (num_cv_inv _ _ _ Ha), (num_cv_inv _ _ _ Hb), <- plus_IZR. apply num_cv.
Qed.

Lemma over_ok rec n d r : sound rec -> over rec n d = Some r ->
  wf r = true /\ (IZR d <> 0 -> forall g, num g r (IZR n / IZR d)).
Proof.
  intros S H. unfold over in H. unbind. apply cv_Some in E as ->. apply cv_Some in E0 as ->. fwd S.
  split; auto. intros Hd g. unfold Rdiv. apply N0; [apply num_cv|].
  eapply N; [apply num_cv|apply num_cv|apply rpow_m1'; auto|left; reflexivity].
Qed.

Lemma num_inv_cv g x v : num g (Fn NPow [CV x; CV (-1)]) v -> IZR x <> 0 /\ v = / IZR x.
Proof.
  intros H. apply num_pow in H as (a & b & Ha & Hb & H). apply num_cv_inv in Ha as ->. apply num_cv_inv in Hb as ->.
  apply rpow_m1; auto.
Qed.
Lemma num_frac_cv g n d v : num g (Fn NMul [CV n; Fn NPow [CV d; CV (-1)]]) v -> IZR d <> 0 /\ v = IZR n / IZR d.
Proof.
  intros H. apply num_mul_cons in H as (a & b & Ha & Hb & ->). apply num_cv_inv in Ha as ->.
  apply num_mul_cons in Hb as (c & e & Hc & He & ->). apply num_mul_nil in He as ->.
  apply num_inv_cv in Hc as [N ->]. split; auto. unfold Rdiv. lra.
Qed.

Ltac pat_const H :=
  repeat match type of H with
  | context [match ?e with CV _ => _ | _ => _ end] => is_var e; destruct e; try discriminate H
  | context [match ?e with NSign => _ | _ => _ end] => is_var e; destruct e; try discriminate H
  | context [match ?e with [] => _ | _ :: _ => _ end] => is_var e; destruct e; try discriminate H
  | context [match ?e with Z0 => _ | Zpos _ => _ | Zneg _ => _ end] => is_var e; destruct e; try discriminate H
  | context [match ?e with xH => _ | xO _ => _ | xI _ => _ end] => is_var e; destruct e; try discriminate H
  end.

Ltac const_vals :=
  repeat match goal with
  | H : num _ (Fn NPow [CV _; CV (-1)]) _ |- _ => apply num_inv_cv in H as [? ->]
  | H : num _ (Fn NMul [CV _; Fn NPow [CV _; CV (-1)]]) _ |- _ => apply num_frac_cv in H as [? ->]
  | H : num _ (CV _) _ |- _ => apply num_cv_inv in H as ->
  end.

Lemma add_const2_ok rec : sound rec -> rule_ok Rplus (add_const2 rec).
Proof.
  intros S a b r Wa Wb H. unfold add_const2 in H. pat_const H; unbind;
  destruct (over_ok _ _ _ _ S E) as [W N]; split; auto; intros g va vb Ha Hb; const_vals;
  (eapply num_eq; [apply N; auto|]); rewrite plus_IZR, mult_IZR; field; auto.
Qed.
Lemma add_const3_ok rec : sound rec -> rule_ok Rplus (add_const3 rec).
Proof.
  intros S a b r Wa Wb H. unfold add_const3 in H. pat_const H; unbind;
  destruct (over_ok _ _ _ _ S E) as [W N]; split; auto; intros g va vb Ha Hb; const_vals;
  (eapply num_eq; [apply N; rewrite mult_IZR; apply Rmult_integral_contrapositive; auto|]);
  rewrite plus_IZR, !mult_IZR; field; auto.
Qed.
Lemma add_const4_ok rec : sound rec -> rule_ok Rplus (add_const4 rec).
Proof.
  intros S a b r Wa Wb H. unfold add_const4 in H. pat_const H; unbind;
  destruct (over_ok _ _ _ _ S E) as [W N]; split; auto; intros g va vb Ha Hb; const_vals;
  (eapply num_eq; [apply N; rewrite mult_IZR; apply Rmult_integral_contrapositive; auto|]);
  rewrite plus_IZR, !mult_IZR; field; auto.
Qed.
Lemma add_const5_ok rec : sound rec -> rule_ok Rplus (add_const5 rec).
Proof.
  intros S a b r Wa Wb H. unfold add_const5 in H. pat_const H; unbind;
  destruct (over_ok _ _ _ _ S E) as [W N]; split; auto; intros g va vb Ha Hb; const_vals;
  (eapply num_eq; [apply N; rewrite mult_IZR; apply Rmult_integral_contrapositive; auto|]);
  rewrite plus_IZR, !mult_IZR; field; auto.
Qed.
