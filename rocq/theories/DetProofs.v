(** Expansion along the first row computes the Leibniz determinant (specification side only). *)
From Coq Require Import NArith ZArith List Bool Reals Lra Lia Permutation.
From Verif Require Import Bits SpecBits Sem SpecMv SpecAlg MvBase SpecGeneral Wick.
Import ListNotations.
Local Open Scope R_scope.

Lemma fold_lsum {A} (f : A -> R) l : fold_right Rplus 0 (map f l) = lsum f l.
Proof. induction l; cbn [map fold_right lsum]; [reflexivity|]. rewrite IHl. reflexivity. Qed.
Lemma lsum_flat {A B} (f : B -> R) (g : A -> list B) l : lsum f (flat_map g l) = lsum (fun x => lsum f (g x)) l.
Proof. induction l; cbn [flat_map lsum]; [reflexivity|]. rewrite lsum_app, IHl. reflexivity. Qed.
Lemma choices_perm l p : In p (choices l) -> Permutation (fst p :: snd p) l.
Proof.
  revert p. induction l as [|x l IH]; intros p; cbn [choices]; [intros []|]. intros [<-|H]; [reflexivity|]. apply in_map_iff in H. destruct H as (q & <- & Hq). cbn [fst snd].
  rewrite perm_swap. constructor. exact (IH q Hq).
Qed.
Lemma choices_incr l p : incr l -> In p (choices l) -> incr (snd p).
Proof.
  revert p. induction l as [|x l IH]; intros p I; cbn [choices]; [intros []|]. intros [<-|H]; [exact (proj2 (proj2 I))|]. apply in_map_iff in H. destruct H as (q & <- & Hq). cbn [fst snd].
  split; [exact (proj1 I)|]. split; [|exact (IH q (proj2 (proj2 I)) Hq)]. intros y Y. apply (proj1 (proj2 I)). apply (Permutation_in y (choices_perm l q Hq)). right. exact Y.
Qed.
Lemma perms_perm m : forall l p, length l = m -> In p (perms m l) -> Permutation p l.
Proof.
  induction m as [|m IH]; intros l p Hl; cbn [perms].
  - intros [<-|[]]. destruct l; [reflexivity|discriminate].
  - rewrite in_flat_map. intros (q & Hq & Hp). apply in_map_iff in Hp. destruct Hp as (r & <- & Hr). pose proof (choices_perm l q Hq) as Q. rewrite <- Q. constructor. apply IH; [|exact Hr].
    apply Permutation_length in Q. cbn [length] in Q. lia.
Qed.
Lemma filter_perm_len {A} (f : A -> bool) l m : Permutation l m -> length (filter f l) = length (filter f m).
Proof. induction 1; cbn [filter]; try destruct (f x); try destruct (f y); cbn [length]; congruence. Qed.
Lemma alt_odd l : alt l = if Nat.odd (length l) then -1 else 1.
Proof. induction l as [|x l IH]; [reflexivity|]. cbn [alt length]. rewrite IH, Nat.odd_succ, <- Nat.negb_odd. destruct (Nat.odd (length l)); cbn [negb]; ring. Qed.
Lemma rsum_choices f a : incr a -> forall phi, rsum f a phi = lsum (fun p => alt (filter (fun y => N.ltb y (fst p)) (snd p)) * f (fst p) * phi (snd p)) (choices a).
Proof.
  induction a as [|l a IH]; intros I phi; cbn [rsum choices]; [reflexivity|]. cbn [lsum fst snd]. rewrite lsum_map. cbn [fst snd].
  assert (E1 : filter (fun y => N.ltb y l) a = []).
  { pose proof (proj1 (proj2 I)) as H. clear - H. induction a as [|x a IH]; [reflexivity|]. cbn [filter]. pose proof (H x (or_introl eq_refl)). destruct (N.ltb_spec x l); [lia|]. apply IH. intros; apply H; right; assumption. }
  rewrite E1. cbn [alt]. rewrite (IH (proj2 (proj2 I))). rewrite (lsum_ext (fun x => alt (filter (fun y => N.ltb y (fst x)) (l :: snd x)) * f (fst x) * phi (l :: snd x)) (fun x => -1 * (alt (filter (fun y => N.ltb y (fst x)) (snd x)) * f (fst x) * phi (l :: snd x)))).
  - rewrite lsum_mult. ring.
  - intros p Hp. cbn [filter]. assert (H : In (fst p) a) by (apply (Permutation_in _ (choices_perm a p Hp)); left; reflexivity). apply (proj1 (proj2 I)) in H. destruct (N.ltb_spec l (fst p)); [|lia]. cbn [alt]. ring.
Qed.
Theorem minor_leibniz A rows : forall cols, incr cols -> length rows = length cols -> leibniz A rows cols = minor (fun i j => A j i) rows cols.
Proof.
  unfold leibniz. induction rows as [|r rows IH]; intros cols I Hl; rewrite fold_lsum.
  - destruct cols; [|discriminate]. cbn [length perms lsum minor]. unfold perm_sign. cbn. ring.
  - destruct cols as [|c0 cols0] eqn:Ec; [discriminate|]. rewrite <- Ec in *. assert (El : length cols = S (length rows)) by (rewrite Ec in *; cbn [length] in *; lia). clear Ec.
    rewrite El. cbn [perms minor]. rewrite lsum_flat, (rsum_choices (fun y => A r y) cols I). apply lsum_ext. intros p Hp. rewrite lsum_map.
    pose proof (choices_perm cols p Hp) as Q. assert (Lp : length (snd p) = length rows) by (apply Permutation_length in Q; cbn [length] in Q; lia).
    rewrite <- (IH (snd p) (choices_incr cols p I Hp) (eq_sym Lp)), fold_lsum, Lp, <- lsum_mult. apply lsum_ext. intros t Ht. pose proof (perms_perm (length rows) (snd p) t Lp Ht) as T.
    unfold perm_sign. cbn [disorder diagonal]. rewrite Nat.odd_add, (filter_perm_len (fun y => N.ltb y (fst p)) t (snd p) T), alt_odd.
    destruct (Nat.odd (length (filter (fun y => N.ltb y (fst p)) (snd p)))), (Nat.odd (disorder t)); cbn [xorb]; ring.
Qed.
