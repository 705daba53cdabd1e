(** Algebra of formal sums (specification side only). *)
From Coq Require Import NArith ZArith List Bool Reals Lra Lia Setoid Morphisms.
From Verif Require Import Bits SpecBits Sem SpecMv.
Import ListNotations.
Local Open Scope R_scope.

(** Sum of [c * h b] over the terms of [m]. *)
Fixpoint sumf (m : mv) (h : N -> R) : R :=
  match m with [] => 0 | (c, b) :: m' => c * h b + sumf m' h end.
Definition delta (k b : N) : R := if N.eqb b k then 1 else 0.

Lemma coef_sumf m k : coef m k = sumf m (delta k).
Proof.
  induction m as [|[c b] m IH]; [reflexivity|]. cbn [coef sumf]. rewrite IH. unfold delta at 2.
  destruct (N.eqb b k); lra.
Qed.
Lemma sumf_app a b h : sumf (a ++ b) h = sumf a h + sumf b h.
Proof. induction a as [|[c x] a IH]; cbn [app sumf]; lra. Qed.
Lemma sumf_scale c m h : sumf (scale c m) h = c * sumf m h.
Proof. induction m as [|[d x] m IH]; cbn [scale map sumf fst snd]; [lra|]. fold (scale c m). rewrite IH. lra. Qed.
Lemma sumf_linear f a h : sumf (linear f a) h = sumf a (fun i => sumf (f i) h).
Proof.
  induction a as [|[c b] a IH]; [reflexivity|]. cbn [linear flat_map sumf fst snd].
  rewrite sumf_app, sumf_scale. fold (linear f a). rewrite IH. reflexivity.
Qed.
Lemma sumf_ext a h h' : (forall b, h b = h' b) -> sumf a h = sumf a h'.
Proof. intros E. induction a as [|[c b] a IH]; cbn [sumf]; [reflexivity|]. rewrite IH, E. reflexivity. Qed.
Lemma sumf_ext_in a h h' : (forall p, In p a -> h (snd p) = h' (snd p)) -> sumf a h = sumf a h'.
Proof.
  induction a as [|[c b] a IH]; intros E; cbn [sumf]; [reflexivity|]. rewrite IH by (intros; apply E; right; auto).
  rewrite (E (c, b) (or_introl eq_refl) : h b = h' b). reflexivity.
Qed.
Lemma sumf_0 a : sumf a (fun _ => 0) = 0.
Proof. induction a as [|[c b] a IH]; cbn [sumf]; lra. Qed.
Lemma sumf_plus a h h' : sumf a (fun b => h b + h' b) = sumf a h + sumf a h'.
Proof. induction a as [|[c b] a IH]; cbn [sumf]; lra. Qed.
Lemma sumf_mult a c h : sumf a (fun b => c * h b) = c * sumf a h.
Proof. induction a as [|[d b] a IH]; cbn [sumf]; lra. Qed.
Lemma sumf_exch a b (h : N -> N -> R) : sumf a (fun i => sumf b (h i)) = sumf b (fun j => sumf a (fun i => h i j)).
Proof.
  induction a as [|[c x] a IH]; cbn [sumf].
  - rewrite sumf_0. reflexivity.
  - rewrite IH, <- sumf_mult, <- sumf_plus. reflexivity.
Qed.

(** The sum only depends on the coefficients. *)
Fixpoint suml (L : list N) (h : N -> R) : R := match L with [] => 0 | k :: L' => h k + suml L' h end.
Lemma suml_plus L h h' : suml L (fun k => h k + h' k) = suml L h + suml L h'.
Proof. induction L; cbn [suml]; lra. Qed.
Lemma suml_ext L h h' : (forall k, h k = h' k) -> suml L h = suml L h'.
Proof. intros E. induction L; cbn [suml]; [reflexivity|]. rewrite IHL, E. reflexivity. Qed.
Lemma suml_0 L h : (forall k, In k L -> h k = 0) -> suml L h = 0.
Proof. induction L; intros E; cbn [suml]; [reflexivity|]. rewrite IHL, (E a) by (intros; try apply E; cbn; auto). lra. Qed.
Lemma suml_delta L b (v : N -> R) : NoDup L -> In b L -> suml L (fun k => (if N.eqb b k then v k else 0)) = v b.
Proof.
  induction L as [|x L IH]; intros D I; [destruct I|]. inversion D; subst. cbn [suml].
  destruct (N.eqb_spec b x) as [->|Hn].
  - rewrite suml_0; [lra|]. intros k K. destruct (N.eqb_spec x k); [subst; tauto|reflexivity].
  - rewrite IH; [lra|assumption|]. destruct I; [congruence|assumption].
Qed.
Lemma sumf_coef L m h : NoDup L -> (forall p, In p m -> In (snd p) L) ->
  sumf m h = suml L (fun k => coef m k * h k).
Proof.
  intros D. induction m as [|[c b] m IH]; intros I.
  - cbn [sumf coef]. rewrite suml_0; [reflexivity|]. intros; lra.
  - cbn [sumf coef]. rewrite IH by (intros; apply I; right; auto).
    rewrite <- (suml_delta L b (fun k => c * h k) D (I (c, b) (or_introl eq_refl))).
    rewrite <- suml_plus. apply suml_ext. intros k. destruct (N.eqb b k); lra.
Qed.
Lemma sumf_meq a b h : meq a b -> sumf a h = sumf b h.
Proof.
  intros E. set (L := nodup N.eq_dec (map snd (a ++ b))).
  assert (D : NoDup L) by apply NoDup_nodup.
  rewrite (sumf_coef L a), (sumf_coef L b); auto.
  - apply suml_ext. intros k. rewrite (E k). reflexivity.
  - intros p I. apply nodup_In, in_map, in_or_app. now right.
  - intros p I. apply nodup_In, in_map, in_or_app. now left.
Qed.
Lemma meq_sumf a b : (forall h, sumf a h = sumf b h) -> meq a b.
Proof. intros E k. rewrite !coef_sumf. apply E. Qed.
Lemma meq_iff a b : meq a b <-> forall h, sumf a h = sumf b h.
Proof. split; [intros E h; apply sumf_meq; auto|apply meq_sumf]. Qed.

Global Instance meq_equiv : Equivalence meq.
Proof. split; [intros x k; reflexivity|intros x y E k; symmetry; apply E|intros x y z E E' k; rewrite E; apply E']. Qed.
Global Instance app_meq : Proper (meq ==> meq ==> meq) (@app (R * N)).
Proof. intros a a' E b b' E'. apply meq_sumf. intros h. rewrite !sumf_app, (sumf_meq _ _ h E), (sumf_meq _ _ h E'). reflexivity. Qed.
Global Instance scale_meq : Proper (eq ==> meq ==> meq) scale.
Proof. intros c c' <- a a' E. apply meq_sumf. intros h. rewrite !sumf_scale, (sumf_meq _ _ h E). reflexivity. Qed.
Lemma linear_meq f f' a a' : (forall i, meq (f i) (f' i)) -> meq a a' -> meq (linear f a) (linear f' a').
Proof.
  intros E E'. apply meq_sumf. intros h. rewrite !sumf_linear, (sumf_meq _ _ _ E').
  apply sumf_ext. intros i. apply sumf_meq, E.
Qed.
Lemma sumf_bilinear f a b h : sumf (bilinear f a b) h = sumf a (fun i => sumf b (fun j => sumf (f i j) h)).
Proof. unfold bilinear. rewrite sumf_linear. apply sumf_ext. intros. apply sumf_linear. Qed.
Global Instance bilinear_meq f : Proper (meq ==> meq ==> meq) (bilinear f).
Proof. intros a a' E b b' E'. apply linear_meq; auto. intros i. apply linear_meq; auto. reflexivity. Qed.
Lemma bilinear_app_l f a a' b : meq (bilinear f (a ++ a') b) (bilinear f a b ++ bilinear f a' b).
Proof. apply meq_sumf. intros h. rewrite sumf_app, !sumf_bilinear, sumf_app. reflexivity. Qed.
Lemma bilinear_app_r f a b b' : meq (bilinear f a (b ++ b')) (bilinear f a b ++ bilinear f a b').
Proof.
  apply meq_sumf. intros h. rewrite sumf_app, !sumf_bilinear, <- sumf_plus. apply sumf_ext. intros. apply sumf_app.
Qed.
Lemma bilinear_1 f v i w j : meq (bilinear f [(v, i)] [(w, j)]) (scale (v * w) (f i j)).
Proof. apply meq_sumf. intros h. rewrite sumf_bilinear, sumf_scale. cbn [sumf]. lra. Qed.
Lemma bilinear_0_l f a b : meq a [] -> meq (bilinear f a b) [].
Proof. intros E. rewrite E. reflexivity. Qed.
Lemma bilinear_0_r f a b : meq b [] -> meq (bilinear f a b) [].
Proof. intros E. rewrite E. apply meq_sumf. intros h. rewrite sumf_bilinear. cbn [sumf]. apply sumf_0. Qed.
Lemma meq_zero i : meq [(0, i)] [].
Proof. intros k. cbn. destruct (N.eqb i k); lra. Qed.
Lemma meq_cons_app p a : meq (p :: a) ([p] ++ a).
Proof. reflexivity. Qed.
Lemma meq_comm a b : meq (a ++ b) (b ++ a).
Proof. apply meq_sumf. intros h. rewrite !sumf_app. lra. Qed.
Lemma scale_0 m : meq (scale 0 m) [].
Proof. apply meq_sumf. intros h. rewrite sumf_scale. cbn. lra. Qed.
Lemma linear_app f a b : meq (linear f (a ++ b)) (linear f a ++ linear f b).
Proof. apply meq_sumf. intros h. rewrite sumf_app, !sumf_linear, sumf_app. reflexivity. Qed.
Lemma linear_1 f v i : meq (linear f [(v, i)]) (scale v (f i)).
Proof. apply meq_sumf. intros h. rewrite sumf_linear, sumf_scale. cbn [sumf]. lra. Qed.
Lemma meq_add1 v w i : meq [(v + w, i)] ([(v, i)] ++ [(w, i)]).
Proof. intros k. cbn. destruct (N.eqb i k); lra. Qed.
Lemma in_space_app n a b : in_space n (a ++ b) <-> in_space n a /\ in_space n b.
Proof. apply Forall_app. Qed.
Lemma in_space_scale n c m : in_space n m -> in_space n (scale c m).
Proof. intros H. apply Forall_map. exact H. Qed.
