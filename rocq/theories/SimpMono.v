(** The result of the simplifier does not depend on the recursion depth allowed. *)
From Coq Require Import NArith ZArith List Bool Lia.
From Verif Require Import Bits Expr Simp.
Import ListNotations.

Definition le_rec (r r' : op -> expr -> expr -> option expr) : Prop :=
  forall o a b x, r o a b = Some x -> r' o a b = Some x.

Ltac dm H :=
  repeat (match type of H with
  | context [match ?e with Some _ => _ | None => _ end] => destruct e eqn:?; try discriminate H
  | context [if ?e then _ else _] => destruct e eqn:?; try discriminate H
  end).

(** Replay: every recursive call that succeeded with [r] succeeds with [r']. *)
Ltac replay L :=
  repeat match goal with
  | E : ?r ?o ?a ?b = Some ?x |- context [?r' ?o ?a ?b] =>
      lazymatch r with r' => fail | _ => rewrite (L _ _ _ _ E) end
  | E : ?e = _ |- context [match ?e with _ => _ end] => rewrite E
  end.

Section Mono.
Context (r r' : op -> expr -> expr -> option expr) (L : le_rec r r').

Definition mono_rule (k k' : rule) : Prop := forall a b x, k a b = Some x -> k' a b = Some x.

Lemma yes_mono (x x' : option expr) y : (forall z, x = Some z -> x' = Some z) -> yes x = Some y -> yes x' = Some y.
Proof. intros H. destruct x; [|discriminate]. rewrite (H _ eq_refl). auto. Qed.
Lemma bind_mono (x x' : option expr) (k k' : expr -> option expr) z :
  (forall y, x = Some y -> x' = Some y) -> (forall y z, k y = Some z -> k' y = Some z) ->
  (match x with Some y => k y | None => None end) = Some z -> (match x' with Some y => k' y | None => None end) = Some z.
Proof. intros H K. destruct x; [|discriminate]. rewrite (H _ eq_refl). auto. Qed.

Ltac mo := first
  [ exact (fun z H => H)
  | (intros z; apply L)
  | (intros ?; apply bind_mono; [mo|intros ?; mo]) ].
Ltac ym := apply yes_mono; intros ?; repeat first [ apply L | (apply bind_mono; [intros ?|intros ? ?]) | exact (fun H => H) ].

Lemma add_helper_mono k k' : mono_rule k k' -> mono_rule (add_helper r k) (add_helper r' k').
Proof.
  intros M a b x. unfold add_helper. destruct (split_add a) as [u us], (split_add b) as [v vs].
  destruct (k u v) as [[z|]|] eqn:E; [|rewrite (M _ _ _ E); auto|discriminate]. rewrite (M _ _ _ E).
  destruct us, vs; ym.
Qed.
Lemma mul_helper_mono k k' : mono_rule k k' -> mono_rule (mul_helper r k) (mul_helper r' k').
Proof.
  intros M a b x. unfold mul_helper. destruct (split_mul a) as [u us], (split_mul b) as [v vs].
  destruct (k u v) as [[z|]|] eqn:E; [|rewrite (M _ _ _ E); auto|discriminate]. rewrite (M _ _ _ E).
  destruct us, vs; ym.
Qed.
Lemma mono_refl k : mono_rule k k. Proof. intros a b x H. exact H. Qed.

Lemma add_collect1_mono : mono_rule (add_collect1 r) (add_collect1 r').
Proof. intros a b x. unfold add_collect1. destruct (expr_eqb a b); [ym|auto]. Qed.
Lemma simplified_mono p q x : simplified r p q = Some x -> simplified r' p q = Some x.
Proof. unfold simplified. destruct (r OAdd p q) eqn:E; [|discriminate]. rewrite (L _ _ _ _ E). auto. Qed.
Lemma collect_mono p q k k' x : (forall s z, k s = Some z -> k' s = Some z) ->
  collect_with r p q k = Some x -> collect_with r' p q k' = Some x.
Proof.
  intros K. unfold collect_with. destruct (simplified r p q) as [[s|]|] eqn:E; [| |discriminate];
  rewrite (simplified_mono _ _ _ E); [apply yes_mono; auto|auto].
Qed.
Ltac cm := match goal with |- collect_with r ?p ?q _ = Some ?x -> _ => apply collect_mono; intros ? ?;
  repeat first [ apply L | (apply bind_mono; [intros ?|intros ? ?]) | exact (fun H => H) ] end.
Lemma add_collect2_mono : mono_rule (add_collect2 r) (add_collect2 r').
Proof.
  intros a b x. unfold add_collect2. destruct a as [| | | | | | | | | |f l]; auto. destruct f; auto. destruct l; auto.
  match goal with |- context [if ?c then _ else _] => destruct c end; [cm|auto].
Qed.
Lemma add_collect3_mono : mono_rule (add_collect3 r) (add_collect3 r').
Proof.
  intros a b x. unfold add_collect3. destruct b as [| | | | | | | | | |f l]; auto. destruct f; auto. destruct l; auto.
  match goal with |- context [if ?c then _ else _] => destruct c end; [cm|auto].
Qed.
Lemma add_collect4_mono : mono_rule (add_collect4 r) (add_collect4 r').
Proof.
  intros a b x. unfold add_collect4. destruct a as [| | | | | | | | | |f l]; auto. destruct f; auto. destruct l; auto.
  destruct b as [| | | | | | | | | |f m]; auto. destruct f; auto. destruct m; auto.
  destruct (exprs_eqb _ _); [cm|auto].
Qed.
Lemma add_collect5_mono : mono_rule (add_collect5 r) (add_collect5 r').
Proof.
  intros a b x. unfold add_collect5. destruct a as [| | | | | | | | | |f l]; auto. destruct f; auto. destruct l; auto.
  destruct (expr_eqb _ _); [|auto]. destruct (mk_mul l); [cm|auto].
Qed.
Lemma add_collect6_mono : mono_rule (add_collect6 r) (add_collect6 r').
Proof.
  intros a b x. unfold add_collect6. destruct b as [| | | | | | | | | |f l]; auto. destruct f; auto. destruct l; auto.
  destruct (expr_eqb _ _); [|auto]. destruct (mk_mul l); [cm|auto].
Qed.
Lemma add_collect7_mono : mono_rule (add_collect7 r) (add_collect7 r').
Proof.
  intros a b x. unfold add_collect7. destruct a as [| | | | | | | | | |f l]; auto. destruct f; auto. destruct l; auto.
  destruct b as [| | | | | | | | | |f m]; auto. destruct f; auto. destruct m; auto.
  destruct (expr_eqb _ _); [|auto]. destruct (mk_mul l); [|auto]. destruct (mk_mul m); [cm|auto].
Qed.
Lemma over_mono n d x : over r n d = Some x -> over r' n d = Some x.
Proof.
  unfold over. destruct (cv n); [|discriminate]. destruct (cv d); [|discriminate].
  apply bind_mono; intros; apply L; auto.
Qed.
Ltac walk_const := intros a b x;
  repeat match goal with
  | |- match ?e with CV _ => _ | _ => _ end = _ -> _ => destruct e; try (exact (fun H => H))
  | |- match ?e with NSign => _ | _ => _ end = _ -> _ => destruct e; try (exact (fun H => H))
  | |- match ?e with [] => _ | _ :: _ => _ end = _ -> _ => destruct e; try (exact (fun H => H))
  | |- match ?e with Z0 => _ | Zpos _ => _ | Zneg _ => _ end = _ -> _ => destruct e; try (exact (fun H => H))
  | |- match ?e with xH => _ | xO _ => _ | xI _ => _ end = _ -> _ => destruct e; try (exact (fun H => H))
  end.
Lemma add_const2_mono : mono_rule (add_const2 r) (add_const2 r').
Proof. unfold mono_rule, add_const2. walk_const; apply yes_mono; intros; apply over_mono; auto. Qed.
Lemma add_const3_mono : mono_rule (add_const3 r) (add_const3 r').
Proof. unfold mono_rule, add_const3. walk_const; apply yes_mono; intros; apply over_mono; auto. Qed.
Lemma add_const4_mono : mono_rule (add_const4 r) (add_const4 r').
Proof. unfold mono_rule, add_const4. walk_const; apply yes_mono; intros; apply over_mono; auto. Qed.
Lemma add_const5_mono : mono_rule (add_const5 r) (add_const5 r').
Proof. unfold mono_rule, add_const5. walk_const; apply yes_mono; intros; apply over_mono; auto. Qed.
Lemma add_merge_lt_mono : mono_rule (add_merge_lt r) (add_merge_lt r').
Proof.
  intros a b x. unfold add_merge_lt. destruct (split_add a) as [u us], (split_add b) as [v vs].
  destruct (lt u v); [|auto]. destruct us, vs; ym.
Qed.
Lemma add_merge_gt_mono : mono_rule (add_merge_gt r) (add_merge_gt r').
Proof.
  intros a b x. unfold add_merge_gt. destruct (split_add a) as [u us], (split_add b) as [v vs].
  destruct (lt v u); [|auto]. destruct us, vs; ym.
Qed.
Lemma add_merge_eq_mono : mono_rule (add_merge_eq r) (add_merge_eq r').
Proof.
  intros a b x. unfold add_merge_eq. destruct (split_add a) as [u us], (split_add b) as [v vs].
  destruct us, vs; ym.
Qed.
Lemma mul_merge_lt_mono : mono_rule (mul_merge_lt r) (mul_merge_lt r').
Proof.
  intros a b x. unfold mul_merge_lt. destruct (split_mul a) as [u us], (split_mul b) as [v vs].
  destruct (lt u v); [|auto]. destruct us, vs; ym.
Qed.
Lemma mul_merge_gt_mono : mono_rule (mul_merge_gt r) (mul_merge_gt r').
Proof.
  intros a b x. unfold mul_merge_gt. destruct (split_mul a) as [u us], (split_mul b) as [v vs].
  destruct (lt v u); [|auto]. destruct us, vs; ym.
Qed.
Lemma mul_merge_eq_mono : mono_rule (mul_merge_eq r) (mul_merge_eq r').
Proof.
  intros a b x. unfold mul_merge_eq. destruct (split_mul a) as [u us], (split_mul b) as [v vs].
  destruct us, vs; ym.
Qed.
Lemma mul_distr_mono : mono_rule (mul_distr r) (mul_distr r').
Proof.
  intros a b x. unfold mul_distr. destruct (split_add a) as [u us], (split_add b) as [v vs].
  destruct us, vs; [ym|ym|ym|auto].
Qed.
Lemma mul_collect1_mono : mono_rule (mul_collect1 r) (mul_collect1 r').
Proof. intros a b x. unfold mul_collect1. destruct (expr_eqb a b); [ym|auto]. Qed.
Lemma or_else_mono (q q' k k' : option (option expr)) (x : option expr) :
  (forall y, q = Some y -> q' = Some y) -> (forall y, k = Some y -> k' = Some y) ->
  match q with Some (Some e) => Some (Some e) | Some None => k | None => None end = Some x ->
  match q' with Some (Some e) => Some (Some e) | Some None => k' | None => None end = Some x.
Proof. intros H K. destruct q as [[y|]|]; [| |discriminate]; rewrite (H _ eq_refl); auto. Qed.
Lemma mul_collect2_mono : mono_rule (mul_collect2 r) (mul_collect2 r').
Proof.
  intros a b x. unfold mul_collect2. refine (or_else_mono _ _ _ _ _ _ _); clear x; intros x.
  - destruct a as [| | | | | | | | | |f l]; auto. destruct f; auto. destruct l as [|? [|? [|]]]; auto.
    destruct (expr_eqb _ _); [ym|auto].
  - destruct b as [| | | | | | | | | |f l]; auto. destruct f; auto. destruct l as [|? [|? [|]]]; auto.
    destruct (expr_eqb _ _); [ym|auto].
Qed.
Lemma mul_collect3_mono : mono_rule (mul_collect3 r) (mul_collect3 r').
Proof.
  intros a b x. unfold mul_collect3. destruct a as [| | | | | | | | | |f l]; auto. destruct f; auto. destruct l as [|? [|? [|]]]; auto.
  destruct b as [| | | | | | | | | |f m]; auto. destruct f; auto. destruct m as [|? [|? [|]]]; auto.
  destruct (expr_eqb _ _); [ym|auto].
Qed.
Lemma mul_const1_mono : mono_rule (mul_const1 r) (mul_const1 r').
Proof. unfold mono_rule, mul_const1. walk_const; ym. Qed.
Lemma simpler_rational_mono n d x : simpler_rational r n d = Some x -> simpler_rational r' n d = Some x.
Proof.
  unfold simpler_rational. destruct (cv (iabs n)); [|auto]. destruct (cv (iabs d)); [|auto]. destruct (gcd _ _); [|auto].
  destruct (Z.eqb _ 1); [|destruct (Z.eqb _ 0); [auto|]]; apply bind_mono; intros; try (apply L; auto); auto.
Qed.
Lemma mul_const2_mono : mono_rule (mul_const2 r) (mul_const2 r').
Proof. unfold mono_rule, mul_const2. walk_const; apply yes_mono; intros; apply simpler_rational_mono; auto. Qed.
Lemma pow_distr_mono : mono_rule (pow_distr r) (pow_distr r').
Proof.
  intros a b x. unfold pow_distr. destruct a as [| | | | | | | | | |f l]; auto. destruct f; auto.
  - destruct l as [|? [|? [|]]]; auto. ym.
  - destruct l; auto. ym.
Qed.
Lemma apply_rules_mono ks ks' : Forall2 mono_rule ks ks' -> forall a b x, apply_rules ks a b = Some x -> apply_rules ks' a b = Some x.
Proof.
  induction 1 as [|k k' ks ks' M F IH]; intros a b x; [auto|]. cbn.
  destruct (k a b) as [[y|]|] eqn:E; [| |discriminate]; rewrite (M _ _ _ E); auto.
Qed.
End Mono.

Theorem eng_mono n : le_rec (eng n) (eng (S n)).
Proof.
  induction n as [|n IH]; [intros o a b x H; discriminate|].
  intros o a b x. destruct o; cbn [eng]; apply apply_rules_mono; repeat (apply Forall2_cons || apply Forall2_nil);
    auto using mono_refl, add_helper_mono, mul_helper_mono, add_collect1_mono, add_collect2_mono, add_collect3_mono,
     add_collect4_mono, add_collect5_mono, add_collect6_mono, add_collect7_mono, add_const2_mono, add_const3_mono,
     add_const4_mono, add_const5_mono, add_merge_lt_mono, add_merge_gt_mono, add_merge_eq_mono, mul_merge_lt_mono,
     mul_merge_gt_mono, mul_merge_eq_mono, mul_distr_mono, mul_collect1_mono, mul_collect2_mono, mul_collect3_mono,
     mul_const1_mono, mul_const2_mono, pow_distr_mono.
Qed.
Theorem eng_mono_le n m o a b x : (n <= m)%nat -> eng n o a b = Some x -> eng m o a b = Some x.
Proof. induction 1; auto. intros H'. apply eng_mono. auto. Qed.
Theorem eng_fun n m o a b x y : eng n o a b = Some x -> eng m o a b = Some y -> x = y.
Proof.
  intros H H'. destruct (Nat.le_ge_cases n m) as [L|L].
  - rewrite (eng_mono_le _ _ _ _ _ _ L H) in H'. congruence.
  - rewrite (eng_mono_le _ _ _ _ _ _ L H') in H. congruence.
Qed.
