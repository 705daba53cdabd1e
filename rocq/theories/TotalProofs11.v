(** The product of a multivector with stored coefficients and a basis blade always has a result. *)
From Coq Require Import NArith ZArith List Bool Lia Sorting.Sorted.
From Verif Require Import Bits SpecBits Expr ExprBase Simp SimpMono SpecOrder OrderProofs Comp Mapping CanonProofs LazyProofs2 TotalProofs TotalProofs2 TotalProofs3 TotalProofs10.
Import ListNotations.

Lemma lsum_of_nz l : l <> [] -> lsum 1 l <> CV 0.
Proof. intros H. destruct l as [|t l]; [congruence|]. intros E. pose proof (lsum_nz 1 t l) as Z. rewrite E in Z. discriminate. Qed.
(** Multivectors whose coefficients are lsums of at most [b] multiples of coefficients in [P]. *)
Definition lis_sum (P : N -> Prop) (b : nat) (c : expr) : Prop :=
  exists l, c = lsum 1 l /\ l <> [] /\ lincreasing l /\ (forall t, In t l -> P (snd t)) /\ (length l <= b)%nat.
Definition lsums (P : N -> Prop) (b : nat) (M : entries) : Prop :=
  canonical M /\ (length M <= b)%nat /\ forall k c, listed M k = Some c -> lis_sum P b c.
Lemma lis_sum_weak (P Q : N -> Prop) b b' c : (forall k, P k -> Q k) -> (b <= b')%nat -> lis_sum P b c -> lis_sum Q b' c.
Proof. intros H Hb (l & -> & N & I & K & L). exists l. split; [reflexivity|]. split; [exact N|]. split; [exact I|]. split; [auto|lia]. Qed.
Lemma lsums_weak (P Q : N -> Prop) b b' M : (forall k, P k -> Q k) -> (b <= b')%nat -> lsums P b M -> lsums Q b' M.
Proof. intros H Hb (C & L & S). split; [exact C|]. split; [lia|]. intros k c E. eapply lis_sum_weak; eauto. Qed.
Lemma lsum_add F (P Q : N -> Prop) b b' c d : (forall k, P k -> Q k -> False) -> (b + b' + 3 <= F)%nat -> lis_sum P b c -> lis_sum Q b' d ->
  exists s, eng F OAdd c d = Some s /\ s <> CV 0 /\ lis_sum (fun k => P k \/ Q k) (b + b') s.
Proof.
  intros Ap HF (l & -> & Nl & Il & Kl & Ll) (m & -> & Nm & Im & Km & Lm).
  destruct (lsum_merge 1 (F - (b + b') - 3) (b + b') l m ltac:(lia) Nl Nm Il Im) as (r & E & Ir & Mr & Lr).
  { intros k A B. apply in_map_iff in A as (t & <- & A). apply in_map_iff in B as (u & Eu & B). apply (Ap (snd t)); [auto|]. rewrite <- Eu. auto. }
  replace (b + b' + 3 + (F - (b + b') - 3))%nat with F in E by lia. assert (Nr : r <> []) by (intros ->; destruct l; [congruence|discriminate]).
  exists (lsum 1 r). split; [exact E|]. split; [apply lsum_of_nz, Nr|]. exists r. split; [reflexivity|]. split; [exact Nr|]. split; [exact Ir|]. split; [|lia]. intros t T. apply Mr in T as [T|T]; auto.
Qed.
Lemma lsums_add F n (P Q : N -> Prop) b b' M M' : lsums P b M -> lsums Q b' M' -> (forall k, P k -> Q k -> False) -> (b + b' + 3 <= F)%nat -> (b + b' <= n)%nat ->
  exists R, cadd F (S n) (mv_of M) (mv_of M') = Some (mv_of R) /\ lsums (fun k => P k \/ Q k) (b + b') R.
Proof.
  intros (C & L & S) (C' & L' & S') Ap HF Hn. assert (HS : summable F M M').
  { intros k c d Hc Hd. destruct (lsum_add F P Q b b' c d Ap HF (S _ _ Hc) (S' _ _ Hd)) as (s & -> & _). discriminate. }
  pose proof (cadd_total F n M M' ltac:(lia) C C' HS) as T. destruct (cadd F (Datatypes.S n) (mv_of M) (mv_of M')) as [r|] eqn:E; [|congruence].
  destruct (cadd_canonical F _ _ _ _ C C' E) as [(R & -> & CR & LR) _]. exists R. split; [reflexivity|]. split; [exact CR|]. split; [pose proof (comb_length F _ _ _ CR LR); lia|].
  intros k c Hc. rewrite LR in Hc. destruct (listed M k) as [x|] eqn:Ex, (listed M' k) as [y|] eqn:Ey; cbn [comb] in Hc; try discriminate.
  - destruct (lsum_add F P Q b b' x y Ap HF (S _ _ Ex) (S' _ _ Ey)) as (s & Es & Ns & Is). rewrite Es in Hc. assert (D : Some s = Some c) by (destruct s as [[]| | | | | | | | | |]; try exact Hc; congruence). injection D as <-. exact Is.
  - injection Hc as <-. refine (lis_sum_weak _ _ _ _ _ _ _ (S _ _ Ex)); [tauto|lia].
  - injection Hc as <-. refine (lis_sum_weak _ _ _ _ _ _ _ (S' _ _ Ey)); [tauto|lia].
Qed.


(** One product. *)
Lemma lmul_one F i : eng (S F) OMul (GV 1 i) (CV 1) = Some (GV 1 i) /\ eng (S F) OMul (CV 1) (GV 1 i) = Some (GV 1 i). Proof. split; reflexivity. Qed.
Lemma lmul_cv F i z : eng (S F) OMul (GV 1 i) (CV z) = Some (if Z.eqb z 0 then CV 0 else lterm 1 (z, i)).
Proof.
  destruct (Z.eqb_spec z 0) as [->|N0]; [reflexivity|]. destruct (Z.eqb_spec z 1) as [->|N1]; [reflexivity|].
  unfold lterm. cbn [fst snd]. rewrite (proj2 (Z.eqb_neq z 1) N1). cbn [eng]. unfold product_step. cbn [apply_rules].
  assert (Z0 : mul_zero (GV 1 i) (CV z) = no) by (destruct z as [|[]|]; try reflexivity; congruence).
  assert (Z1 : mul_one (GV 1 i) (CV z) = no) by (destruct z as [|[]|]; try reflexivity; congruence).
  rewrite Z0, Z1. cbn -[mk_mul]. unfold mul_merge_lt, mul_merge_gt. cbn [split_mul].
  change (lt (GV 1 i) (CV z)) with false. change (lt (CV z) (GV 1 i)) with true. unfold yes, mk_mul. cbn [existsb is_cv orb].
  rewrite (proj2 (Z.eqb_neq z 0) N0), (proj2 (Z.eqb_neq z 1) N1). reflexivity.
Qed.
Definition unit_mv (k : N) : entries := [(k, CV 1)].
Section Blade.
  Variable dim : N.
  Variable F : nat.
  Variable mult : expr -> expr -> option expr.
  Hypothesis HC : const_mult dim mult.
  Hypothesis HT : forall x y, (x < 2 ^ 63)%N -> (y < 2 ^ 63)%N -> (x < 2 ^ dim)%N -> (y < 2 ^ dim)%N -> mult (CBlade x) (CBlade y) <> None.
  Variable b : N.
  Hypothesis B63 : (b < 2 ^ 63)%N.
  Hypothesis Bd : (b < 2 ^ dim)%N.
  Lemma cell_right n p i : (1 <= F)%nat -> snd p = GV 1 i -> (fst p < 2 ^ 63)%N -> (fst p < 2 ^ dim)%N ->
    exists M, cmul F (S n) mult (mv_of [p]) (mv_of (unit_mv b)) = Some (mv_of M) /\ lsums (eq i) 1 M.
  Proof.
    intros HF Ep Lp Dp. destruct F as [|f]; [lia|]. rewrite cmul_S. unfold cmul_step, unit_mv. rewrite !csplit_mv, Ep.
    rewrite (zero_mv p []) by (rewrite Ep; discriminate). rewrite (zero_mv (b, CV 1) []) by discriminate. cbn [fst snd]. rewrite (proj1 (lmul_one f i)).
    pose proof (HT _ _ Lp B63 Dp Bd) as T. destruct (mult (CBlade (fst p)) (CBlade b)) as [m|] eqn:Em; [|congruence].
    destruct (HC _ _ _ Lp B63 Dp Bd Em) as (z & k & -> & K & Kd). destruct (Z.eq_dec z 0) as [->|Nz].
    - exists []. split; [cbn [component_t comps_of distribute]; rewrite lmul_cv; reflexivity|]. split; [apply canonical_nil|]. split; [cbn [length]; lia|]. intros ? ? [=].
    - assert (E : component_t (CV z) (CBlade k) = Comp (CV z) (CBlade k)) by (destruct z; [congruence|reflexivity|reflexivity]). rewrite E. cbn [comps_of distribute]. rewrite lmul_cv, (proj2 (Z.eqb_neq z 0) Nz).
      exists [(k, lsum 1 [(z, i)])]. split.
      + cbn [lsum mv_of entry fst snd]. unfold lterm. cbn [fst snd]. destruct (Z.eqb z 1); reflexivity.
      + split; [apply canonical_one; [apply lsum_of_nz; discriminate|exact K]|]. split; [cbn [length]; lia|]. intros k' c. cbn [listed fst snd]. destruct (N.eqb k k'); [|discriminate]. intros [= <-].
        exists [(z, i)]. split; [reflexivity|]. split; [discriminate|]. split; [repeat constructor|]. split; [|cbn [length]; lia]. intros t [<-|[]]. reflexivity.
  Qed.
  Lemma cell_left n p i : (1 <= F)%nat -> snd p = GV 1 i -> (fst p < 2 ^ 63)%N -> (fst p < 2 ^ dim)%N ->
    exists M, cmul F (S n) mult (mv_of (unit_mv b)) (mv_of [p]) = Some (mv_of M) /\ lsums (eq i) 1 M.
  Proof.
    intros HF Ep Lp Dp. destruct F as [|f]; [lia|]. rewrite cmul_S. unfold cmul_step, unit_mv. rewrite !csplit_mv, Ep.
    rewrite (zero_mv p []) by (rewrite Ep; discriminate). rewrite (zero_mv (b, CV 1) []) by discriminate. cbn [fst snd]. rewrite (proj2 (lmul_one f i)).
    pose proof (HT _ _ B63 Lp Bd Dp) as T. destruct (mult (CBlade b) (CBlade (fst p))) as [m|] eqn:Em; [|congruence].
    destruct (HC _ _ _ B63 Lp Bd Dp Em) as (z & k & -> & K & Kd). destruct (Z.eq_dec z 0) as [->|Nz].
    - exists []. split; [cbn [component_t comps_of distribute]; rewrite lmul_cv; reflexivity|]. split; [apply canonical_nil|]. split; [cbn [length]; lia|]. intros ? ? [=].
    - assert (E : component_t (CV z) (CBlade k) = Comp (CV z) (CBlade k)) by (destruct z; [congruence|reflexivity|reflexivity]). rewrite E. cbn [comps_of distribute]. rewrite lmul_cv, (proj2 (Z.eqb_neq z 0) Nz).
      exists [(k, lsum 1 [(z, i)])]. split.
      + cbn [lsum mv_of entry fst snd]. unfold lterm. cbn [fst snd]. destruct (Z.eqb z 1); reflexivity.
      + split; [apply canonical_one; [apply lsum_of_nz; discriminate|exact K]|]. split; [cbn [length]; lia|]. intros k' c. cbn [listed fst snd]. destruct (N.eqb k k'); [|discriminate]. intros [= <-].
        exists [(z, i)]. split; [reflexivity|]. split; [discriminate|]. split; [repeat constructor|]. split; [|cbn [length]; lia]. intros t [<-|[]]. reflexivity.
  Qed.
  Theorem right_total : forall A I m, (length A + 4 <= F)%nat -> (length A + length A <= m)%nat -> lazy_mv 1 A I -> blades_in dim A ->
    exists M, cmul F (S m) mult (mv_of A) (mv_of (unit_mv b)) = Some (mv_of M) /\ lsums (fun i => In i I) (length A) M.
  Proof.
    induction A as [|p A IH]; intros I m HF Hm LA DA.
    { exists []. split; [reflexivity|]. split; [apply canonical_nil|]. split; [cbn [length]; lia|]. intros ? ? [=]. }
    destruct I as [|i I]; [destruct (lazy_nil _ _ _ LA)|]. destruct (lazy_tail _ _ _ _ _ LA) as (Ep & L1 & LA' & Ni & Lp). inversion DA as [|? ? Dp DA']; subst. cbn [length] in *.
    destruct m as [|m]; [lia|]. destruct (cell_right m p i ltac:(lia) Ep Lp Dp) as (M1 & E1 & S1). destruct A as [|p' A].
    - destruct (cell_right (S m) p i ltac:(lia) Ep Lp Dp) as (M1' & E1' & S1'). exists M1'. split; [exact E1'|]. refine (lsums_weak _ _ _ _ _ _ _ S1'); [|cbn [length]; lia]. intros k <-. left. reflexivity.
    - remember (p' :: A) as A' eqn:EA. destruct (IH I m ltac:(lia) ltac:(lia) LA' DA') as (M2 & E2 & S2).
      destruct (lsums_add F m _ _ _ _ M1 M2 S1 S2) as (R & ER & SR); [intros k <- H; exact (Ni H)|lia|lia|].
      exists R. split.
      + rewrite cmul_S. unfold cmul_step, unit_mv. rewrite !csplit_mv. rewrite (zero_mv p A') by (rewrite Ep; discriminate). rewrite (zero_mv (b, CV 1) []) by discriminate. subst A'. rewrite mk_add_entries. cbn [fst snd].
        change (Comp (snd p) (CBlade (fst p))) with (mv_of [p]). change (mv_of [(b, CV 1)]) with (mv_of (unit_mv b)). change (Comp (CV 1) (CBlade b)) with (mv_of (unit_mv b)). rewrite E1, E2. exact ER.
      + refine (lsums_weak _ _ _ _ _ _ _ SR); [|lia]. intros k [<-|H]; [left; reflexivity|right; exact H].
  Qed.
  Theorem left_total : forall A I m, (length A + 4 <= F)%nat -> (length A + length A <= m)%nat -> lazy_mv 1 A I -> blades_in dim A ->
    exists M, cmul F (S m) mult (mv_of (unit_mv b)) (mv_of A) = Some (mv_of M) /\ lsums (fun i => In i I) (length A) M.
  Proof.
    induction A as [|p A IH]; intros I m HF Hm LA DA.
    { exists []. split; [reflexivity|]. split; [apply canonical_nil|]. split; [cbn [length]; lia|]. intros ? ? [=]. }
    destruct I as [|i I]; [destruct (lazy_nil _ _ _ LA)|]. destruct (lazy_tail _ _ _ _ _ LA) as (Ep & L1 & LA' & Ni & Lp). inversion DA as [|? ? Dp DA']; subst. cbn [length] in *.
    destruct m as [|m]; [lia|]. destruct (cell_left m p i ltac:(lia) Ep Lp Dp) as (M1 & E1 & S1). destruct A as [|p' A].
    - destruct (cell_left (S m) p i ltac:(lia) Ep Lp Dp) as (M1' & E1' & S1'). exists M1'. split; [exact E1'|]. refine (lsums_weak _ _ _ _ _ _ _ S1'); [|cbn [length]; lia]. intros k <-. left. reflexivity.
    - remember (p' :: A) as A' eqn:EA. destruct (IH I m ltac:(lia) ltac:(lia) LA' DA') as (M2 & E2 & S2).
      destruct (lsums_add F m _ _ _ _ M1 M2 S1 S2) as (R & ER & SR); [intros k <- H; exact (Ni H)|lia|lia|].
      exists R. split.
      + rewrite cmul_S. unfold cmul_step, unit_mv. rewrite !csplit_mv. rewrite (zero_mv p A') by (rewrite Ep; discriminate). rewrite (zero_mv (b, CV 1) []) by discriminate. subst A'. rewrite mk_add_entries. cbn [fst snd].
        change (Comp (snd p) (CBlade (fst p))) with (mv_of [p]). change (mv_of [(b, CV 1)]) with (mv_of (unit_mv b)). change (Comp (CV 1) (CBlade b)) with (mv_of (unit_mv b)). rewrite E1, E2. exact ER.
      + refine (lsums_weak _ _ _ _ _ _ _ SR); [|lia]. intros k [<-|H]; [left; reflexivity|right; exact H].
  Qed.
End Blade.
