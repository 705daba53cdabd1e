(** Products of multivectors with stored coefficients always have a result. *)
From Coq Require Import NArith ZArith List Bool Lia Sorting.Sorted.
From Verif Require Import Bits SpecBits Expr ExprBase Simp SimpMono SpecOrder OrderProofs Comp Mapping CanonProofs LazyProofs2 TotalProofs TotalProofs2.
Import ListNotations.

Lemma sum_of_nz l : l <> [] -> sum_of l <> CV 0.
Proof. intros H. destruct l as [|t l]; [congruence|]. intros E. pose proof (sum_nz t l) as Z. rewrite E in Z. discriminate. Qed.
(** Multivectors whose coefficients are sums of at most [b] products with keys in [P]. *)
Definition is_sum (P : key -> Prop) (b : nat) (c : expr) : Prop :=
  exists l, c = sum_of l /\ l <> [] /\ increasing l /\ (forall t, In t l -> P (snd t)) /\ (length l <= b)%nat.
Definition sums (P : key -> Prop) (b : nat) (M : entries) : Prop :=
  canonical M /\ (length M <= b)%nat /\ forall k c, listed M k = Some c -> is_sum P b c.
Lemma is_sum_weak (P Q : key -> Prop) b b' c : (forall k, P k -> Q k) -> (b <= b')%nat -> is_sum P b c -> is_sum Q b' c.
Proof. intros H Hb (l & -> & N & I & K & L). exists l. split; [reflexivity|]. split; [exact N|]. split; [exact I|]. split; [auto|lia]. Qed.
Lemma sums_weak (P Q : key -> Prop) b b' M : (forall k, P k -> Q k) -> (b <= b')%nat -> sums P b M -> sums Q b' M.
Proof. intros H Hb (C & L & S). split; [exact C|]. split; [lia|]. intros k c E. eapply is_sum_weak; eauto. Qed.
Lemma sum_add F (P Q : key -> Prop) b b' c d : (forall k, P k -> Q k -> False) -> (b + b' + 3 <= F)%nat -> is_sum P b c -> is_sum Q b' d ->
  exists s, eng F OAdd c d = Some s /\ s <> CV 0 /\ is_sum (fun k => P k \/ Q k) (b + b') s.
Proof.
  intros Ap HF (l & -> & Nl & Il & Kl & Ll) (m & -> & Nm & Im & Km & Lm).
  destruct (sum_merge (F - (b + b') - 3) (b + b') l m ltac:(lia) Nl Nm Il Im) as (r & E & Ir & Mr & Lr).
  { intros k A B. apply in_map_iff in A as (t & <- & A). apply in_map_iff in B as (u & Eu & B). apply (Ap (snd t)); [auto|]. rewrite <- Eu. auto. }
  replace (b + b' + 3 + (F - (b + b') - 3))%nat with F in E by lia. assert (Nr : r <> []) by (intros ->; destruct l; [congruence|discriminate]).
  exists (sum_of r). split; [exact E|]. split; [apply sum_of_nz, Nr|]. exists r. split; [reflexivity|]. split; [exact Nr|]. split; [exact Ir|]. split; [|lia]. intros t T. apply Mr in T as [T|T]; auto.
Qed.
Lemma sums_add F n (P Q : key -> Prop) b b' M M' : sums P b M -> sums Q b' M' -> (forall k, P k -> Q k -> False) -> (b + b' + 3 <= F)%nat -> (b + b' <= n)%nat ->
  exists R, cadd F (S n) (mv_of M) (mv_of M') = Some (mv_of R) /\ sums (fun k => P k \/ Q k) (b + b') R.
Proof.
  intros (C & L & S) (C' & L' & S') Ap HF Hn. assert (HS : summable F M M').
  { intros k c d Hc Hd. destruct (sum_add F P Q b b' c d Ap HF (S _ _ Hc) (S' _ _ Hd)) as (s & -> & _). discriminate. }
  pose proof (cadd_total F n M M' ltac:(lia) C C' HS) as T. destruct (cadd F (Datatypes.S n) (mv_of M) (mv_of M')) as [r|] eqn:E; [|congruence].
  destruct (cadd_canonical F _ _ _ _ C C' E) as [(R & -> & CR & LR) _]. exists R. split; [reflexivity|]. split; [exact CR|]. split; [pose proof (comb_length F _ _ _ CR LR); lia|].
  intros k c Hc. rewrite LR in Hc. destruct (listed M k) as [x|] eqn:Ex, (listed M' k) as [y|] eqn:Ey; cbn [comb] in Hc; try discriminate.
  - destruct (sum_add F P Q b b' x y Ap HF (S _ _ Ex) (S' _ _ Ey)) as (s & Es & Ns & Is). rewrite Es in Hc. assert (D : Some s = Some c) by (destruct s as [[]| | | | | | | | | |]; try exact Hc; congruence). injection D as <-. exact Is.
  - injection Hc as <-. refine (is_sum_weak _ _ _ _ _ _ _ (S _ _ Ex)); [tauto|lia].
  - injection Hc as <-. refine (is_sum_weak _ _ _ _ _ _ _ (S' _ _ Ey)); [tauto|lia].
Qed.

(** One product. *)
Lemma mul_gv F i j : eng (S F) OMul (GV 1 i) (GV 2 j) = Some (prod (i, j)).
Proof. reflexivity. Qed.
Lemma mul_cv F p z : eng (S F) OMul (prod p) (CV z) = Some (if Z.eqb z 0 then CV 0 else term (z, p)).
Proof.
  destruct (Z.eqb_spec z 0) as [->|N0]; [reflexivity|]. destruct (Z.eqb_spec z 1) as [->|N1]; [reflexivity|].
  unfold term. cbn [fst snd]. rewrite (proj2 (Z.eqb_neq z 1) N1). unfold prod. cbn [eng]. unfold product_step. cbn [apply_rules].
  assert (Z0 : mul_zero (Fn NMul [GV 1 (fst p); GV 2 (snd p)]) (CV z) = no) by (destruct z as [|[]|]; try reflexivity; congruence).
  assert (Z1 : mul_one (Fn NMul [GV 1 (fst p); GV 2 (snd p)]) (CV z) = no) by (destruct z as [|[]|]; try reflexivity; congruence).
  rewrite Z0, Z1. cbn -[mk_mul]. unfold mul_merge_lt, mul_merge_gt. cbn [split_mul].
  change (lt (GV 1 (fst p)) (CV z)) with false. change (lt (CV z) (GV 1 (fst p))) with true. unfold yes, mk_mul. cbn [existsb is_cv orb].
  rewrite (proj2 (Z.eqb_neq z 0) N0), (proj2 (Z.eqb_neq z 1) N1). reflexivity.
Qed.

(** Multivectors whose coefficients are the getters [I] of the argument [t]. *)
Definition lazy_mv (t : N) (A : entries) (I : list N) : Prop := canonical A /\ map snd A = map (GV t) I /\ NoDup I.
Lemma lazy_tail t p A i I : lazy_mv t (p :: A) (i :: I) -> snd p = GV t i /\ lazy_mv t [p] [i] /\ lazy_mv t A I /\ ~ In i I /\ (fst p < 2 ^ 63)%N.
Proof.
  intros (C & E & D). cbn [map] in E. injection E as Ep E. inversion D; subst. destruct (canonical_tail _ _ C) as (C' & _ & Nz & L).
  split; [exact Ep|]. split; [split; [|split; [cbn [map]; rewrite Ep; reflexivity|constructor; [intros []|constructor]]]|split; [split; [exact C'|auto]|auto]].
  destruct p as [k c]. apply canonical_one; auto.
Qed.
Lemma lazy_nil t p A : lazy_mv t (p :: A) [] -> False. Proof. intros (_ & E & _). discriminate. Qed.
Lemma lazy_length t A I : lazy_mv t A I -> length A = length I.
Proof. intros (_ & E & _). rewrite <- (map_length snd A), E. apply map_length. Qed.
Definition cell (I J : list N) (k : key) : Prop := In (fst k) I /\ In (snd k) J.

Lemma cmul_S F n mult a b : cmul F (S n) mult a b = cmul_step F n mult (cmul F n mult) a b. Proof. reflexivity. Qed.
Section Mul.
  Variable dim : N.
  Variable F : nat.
  Variable mult : expr -> expr -> option expr.
  Hypothesis HC : const_mult dim mult.
  Hypothesis HT : forall x y, (x < 2 ^ 63)%N -> (y < 2 ^ 63)%N -> (x < 2 ^ dim)%N -> (y < 2 ^ dim)%N -> mult (CBlade x) (CBlade y) <> None.
  Definition blades_in (A : entries) : Prop := Forall (fun p => (fst p < 2 ^ dim)%N) A.
  Lemma mul_one_cell n p q i j : (1 <= F)%nat -> snd p = GV 1 i -> snd q = GV 2 j -> (fst p < 2 ^ 63)%N -> (fst q < 2 ^ 63)%N -> (fst p < 2 ^ dim)%N -> (fst q < 2 ^ dim)%N ->
    exists M, cmul F (S n) mult (mv_of [p]) (mv_of [q]) = Some (mv_of M) /\ sums (cell [i] [j]) 1 M.
  Proof.
    intros HF Ep Eq Lp Lq Dp Dq. destruct F as [|f]; [lia|]. cbn [cmul]. unfold cmul_step. rewrite !csplit_mv, Ep, Eq.
    rewrite (zero_mv p []) by (rewrite Ep; discriminate). rewrite (zero_mv q []) by (rewrite Eq; discriminate). rewrite mul_gv.
    pose proof (HT _ _ Lp Lq Dp Dq) as T. destruct (mult (CBlade (fst p)) (CBlade (fst q))) as [m|] eqn:Em; [|congruence].
    destruct (HC _ _ _ Lp Lq Dp Dq Em) as (z & k & -> & K & Kd). destruct (Z.eq_dec z 0) as [->|Nz].
    - exists []. split; [cbn [component_t comps_of distribute]; rewrite mul_cv; reflexivity|]. split; [apply canonical_nil|]. split; [cbn [length]; lia|]. intros ? ? [=].
    - assert (E : component_t (CV z) (CBlade k) = Comp (CV z) (CBlade k)) by (destruct z; [congruence|reflexivity|reflexivity]). rewrite E. cbn [comps_of distribute]. rewrite mul_cv, (proj2 (Z.eqb_neq z 0) Nz).
      exists [(k, sum_of [(z, (i, j))])]. split.
      + cbn [sum_of mv_of entry fst snd]. unfold term. cbn [fst snd]. destruct (Z.eqb z 1); reflexivity.
      + split; [apply canonical_one; [apply sum_of_nz; discriminate|exact K]|]. split; [cbn [length]; lia|]. intros k' c. cbn [listed fst snd]. destruct (N.eqb k k'); [|discriminate]. intros [= <-].
        exists [(z, (i, j))]. split; [reflexivity|]. split; [discriminate|]. split; [repeat constructor|]. split; [|cbn [length]; lia]. intros t [<-|[]]. split; left; reflexivity.
  Qed.
  Theorem cmul_total : forall n m A B I J, (length A + length B <= n)%nat -> (length A * length B + 4 <= F)%nat -> (length A * length B + n <= m)%nat ->
    lazy_mv 1 A I -> lazy_mv 2 B J -> blades_in A -> blades_in B ->
    exists M, cmul F (S m) mult (mv_of A) (mv_of B) = Some (mv_of M) /\ sums (cell I J) (length A * length B) M.
  Proof.
    induction n as [|n IH]; intros m A B I J Kn HF Hm LA LB DA DB.
    { destruct A; [|cbn [length] in Kn; lia]. destruct B; [|cbn [length] in Kn; lia]. exists []. split; [reflexivity|]. split; [apply canonical_nil|]. split; [cbn [length]; lia|]. intros ? ? [=]. }
    destruct A as [|p A].
    { exists []. split; [|split; [apply canonical_nil|split; [cbn [length]; lia|intros ? ? [=]]]]. cbn [cmul]. unfold cmul_step. change (csplit (mv_of [])) with (Some (CV 0, CBlade 0, @None (list expr))).
      pose proof (csplit_mv_of B) as H. destruct (csplit (mv_of B)) as [[[d y] ys]|]; [|congruence]. reflexivity. }
    destruct I as [|i I]; [destruct (lazy_nil _ _ _ LA)|]. destruct (lazy_tail _ _ _ _ _ LA) as (Ep & L1 & LA' & Ni & Lp). inversion DA as [|? ? Dp DA']; subst.
    destruct B as [|q B].
    { exists []. split; [|split; [apply canonical_nil|split; [cbn [length]; lia|intros ? ? [=]]]]. cbn [cmul]. unfold cmul_step. rewrite csplit_mv. change (csplit (mv_of [])) with (Some (CV 0, CBlade 0, @None (list expr))).
      rewrite (zero_mv p A) by (rewrite Ep; discriminate). reflexivity. }
    destruct J as [|j J]; [destruct (lazy_nil _ _ _ LB)|]. destruct (lazy_tail _ _ _ _ _ LB) as (Eq & L2 & LB' & Nj & Lq). inversion DB as [|? ? Dq DB']; subst.
    assert (D1 : blades_in [p]) by (constructor; [exact Dp|constructor]). assert (D2 : blades_in [q]) by (constructor; [exact Dq|constructor]).
    destruct m as [|m]; [cbn [length] in *; lia|].
    destruct (mul_one_cell m p q i j ltac:(lia) Ep Eq Lp Lq Dp Dq) as (M1 & E1 & S1).
    destruct A as [|p' A], B as [|q' B].
    - destruct (mul_one_cell (S m) p q i j ltac:(lia) Ep Eq Lp Lq Dp Dq) as (M1' & E1' & S1'). exists M1'. split; [exact E1'|]. refine (sums_weak _ _ _ _ _ _ _ S1'); [|cbn [length]; lia].
      intros k [H1 H2]. split; [destruct H1 as [H1|[]]; left; exact H1|destruct H2 as [H2|[]]; left; exact H2].
    - remember (q' :: B) as B' eqn:EB. assert (Hb : exists b, length B' = S b) by (subst B'; eexists; reflexivity). destruct Hb as [b Hb]. cbn [length] in *. rewrite Hb in *.
      destruct (IH m [p] B' [i] J) as (M2 & E2 & S2); auto; try (cbn [length]; rewrite Hb; lia).
      destruct (sums_add F m _ _ _ _ M1 M2 S1 S2) as (R & ER & SR).
      { intros k [_ H1] [_ H2]. destruct H1 as [H1|[]]. apply Nj. rewrite H1. exact H2. }
      { cbn [length]. rewrite Hb. lia. } { cbn [length]. rewrite Hb. lia. }
      exists R. split.
      + rewrite cmul_S. unfold cmul_step. rewrite !csplit_mv. rewrite (zero_mv p []) by (rewrite Ep; discriminate). rewrite (zero_mv q B') by (rewrite Eq; discriminate). subst B'. rewrite mk_add_entries.
        change (Comp (snd q) (CBlade (fst q))) with (mv_of [q]). rewrite E1, E2. exact ER.
      + refine (sums_weak _ _ _ _ _ _ _ SR); [|cbn [length]; rewrite Hb; lia]. intros k [[H1 H2]|[H1 H2]]; (split; [destruct H1 as [H1|[]]; left; exact H1|]); [destruct H2 as [H2|[]]; left; exact H2|right; exact H2].
    - remember (p' :: A) as A' eqn:EA. assert (Ha : exists a, length A' = S a) by (subst A'; eexists; reflexivity). destruct Ha as [a Ha]. cbn [length] in *. rewrite Ha in *.
      destruct (IH m A' [q] I [j]) as (M2 & E2 & S2); auto; try (cbn [length]; rewrite Ha; lia).
      destruct (sums_add F m _ _ _ _ M1 M2 S1 S2) as (R & ER & SR).
      { intros k [H1 _] [H2 _]. destruct H1 as [H1|[]]. apply Ni. rewrite H1. exact H2. }
      { cbn [length]. rewrite Ha. lia. } { cbn [length]. rewrite Ha. lia. }
      exists R. split.
      + rewrite cmul_S. unfold cmul_step. rewrite !csplit_mv. rewrite (zero_mv p A') by (rewrite Ep; discriminate). rewrite (zero_mv q []) by (rewrite Eq; discriminate). subst A'. rewrite mk_add_entries.
        change (Comp (snd p) (CBlade (fst p))) with (mv_of [p]). rewrite E1, E2. exact ER.
      + refine (sums_weak _ _ _ _ _ _ _ SR); [|cbn [length]; rewrite Ha; lia]. intros k [[H1 H2]|[H1 H2]]; (split; [|destruct H2 as [H2|[]]; left; exact H2]); [destruct H1 as [H1|[]]; left; exact H1|right; exact H1].
    - remember (p' :: A) as A' eqn:EA. assert (Ha : exists a, length A' = S a) by (subst A'; eexists; reflexivity). destruct Ha as [a Ha].
      remember (q' :: B) as B' eqn:EB. assert (Hb : exists b, length B' = S b) by (subst B'; eexists; reflexivity). destruct Hb as [b Hb]. cbn [length] in *. rewrite Ha, Hb in *.
      assert (Q : (S (S a) * S (S b) = S a * S b + S a + S b + 1)%nat) by (cbn [Nat.mul]; lia). rewrite Q in *.
      destruct (IH m A' [q] I [j]) as (M2 & E2 & S2); auto; try (cbn [length]; rewrite Ha; lia).
      destruct (IH m [p] B' [i] J) as (M3 & E3 & S3); auto; try (cbn [length]; rewrite Hb; lia).
      destruct (IH m A' B' I J) as (M4 & E4 & S4); auto; try (rewrite Ha, Hb; lia).
      destruct (sums_add F m _ _ _ _ M1 M2 S1 S2) as (R & ER & SR).
      { intros k [H1 _] [H2 _]. destruct H1 as [H1|[]]. apply Ni. rewrite H1. exact H2. }
      { cbn [length]. rewrite Ha. lia. } { cbn [length]. rewrite Ha. lia. }
      destruct (sums_add F m _ _ _ _ M3 M4 S3 S4) as (R' & ER' & SR').
      { intros k [H1 _] [H2 _]. destruct H1 as [H1|[]]. apply Ni. rewrite H1. exact H2. }
      { cbn [length]. rewrite Ha, Hb. lia. } { cbn [length]. rewrite Ha, Hb. lia. }
      destruct (sums_add F m _ _ _ _ R R' SR SR') as (T & ET & ST).
      { intros k H1 H2. assert (A1 : In (snd k) [j]) by (destruct H1 as [[_ H]|[_ H]]; exact H). assert (A2 : In (snd k) J) by (destruct H2 as [[_ H]|[_ H]]; exact H). destruct A1 as [A1|[]]. apply Nj. rewrite A1. exact A2. }
      { cbn [length]. rewrite Ha, Hb. lia. } { cbn [length]. rewrite Ha, Hb. lia. }
      exists T. split.
      + rewrite cmul_S. unfold cmul_step. rewrite !csplit_mv. rewrite (zero_mv p A') by (rewrite Ep; discriminate). rewrite (zero_mv q B') by (rewrite Eq; discriminate). subst A' B'. rewrite !mk_add_entries.
        change (Comp (snd p) (CBlade (fst p))) with (mv_of [p]). change (Comp (snd q) (CBlade (fst q))) with (mv_of [q]). rewrite E1, E2, E3, E4, ER, ER'. exact ET.
      + refine (sums_weak _ _ _ _ _ _ _ ST); [|cbn [length]; rewrite Ha, Hb; lia]. intros k [[[H1 H2]|[H1 H2]]|[[H1 H2]|[H1 H2]]]; (split; [first [destruct H1 as [H1|[]]; left; exact H1|right; exact H1]|first [destruct H2 as [H2|[]]; left; exact H2|right; exact H2]]).
  Qed.
End Mul.
