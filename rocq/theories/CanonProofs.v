(** Products, sums and sign changes of canonical multivectors with compile-time blades are canonical,
    and their coefficients stay in any class of coefficient expressions closed under the simplifier. *)
From Coq Require Import NArith ZArith List Bool Lia Sorting.Sorted.
From Verif Require Import Bits SpecBits BitsBase GradeProofs Expr ExprBase SpecOrder OrderProofs Simp PresProofs Comp Mapping Ops MappingProofs OuterProofs GumProofs.
Import ListNotations.

Section Class.
  Variable F : nat.
  Variable P : expr -> bool.
  Variable dim : N.
  Hypothesis Pcv : forall z, P (CV z) = true.
  Hypothesis Padd : forall a b r, eng F OAdd a b = Some r -> P a = true -> P b = true -> P r = true.
  Hypothesis Pmul : forall a b r, eng F OMul a b = Some r -> P a = true -> P b = true -> P r = true.

  Definition good (e : expr) : Prop := exists M, e = mv_of M /\ canonical M /\ Forall (fun p => P (snd p) = true /\ (fst p < 2 ^ dim)%N) M.
  Lemma listed_entry M p : canonical M -> In p M -> listed M (fst p) = Some (snd p).
  Proof.
    induction M as [|q M IH]; intros C I; [destruct I|]. destruct (canonical_tail _ _ C) as (C' & A & _). cbn [listed]. destruct I as [->|I]; [rewrite N.eqb_refl; reflexivity|].
    destruct (N.eqb_spec (fst q) (fst p)) as [E|]; [|auto]. exfalso. rewrite Forall_forall in A. apply (blade_lt_irrefl (fst q)). rewrite E at 2. apply A, in_map, I.
  Qed.
  Lemma listed_P M k c : Forall (fun p => P (snd p) = true /\ (fst p < 2 ^ dim)%N) M -> listed M k = Some c -> P c = true /\ (k < 2 ^ dim)%N.
  Proof. induction 1 as [|p M H HM IH]; cbn [listed]; [discriminate|]. destruct (N.eqb_spec (fst p) k) as [<-|]; [intros [= <-]; exact H|exact IH]. Qed.
  Lemma good_add n a b r : good a -> good b -> cadd F n a b = Some r -> good r.
  Proof.
    intros (A & -> & CA & PA) (B & -> & CB & PB) E. destruct (cadd_canonical F n A B r CA CB E) as [(M & -> & CM & LM) _]. exists M. split; [reflexivity|]. split; [exact CM|].
    apply Forall_forall. intros p I. pose proof (listed_entry M p CM I) as L. rewrite LM in L. unfold comb in L.
    destruct (listed A (fst p)) as [c|] eqn:Ea; [|exact (listed_P B _ _ PB L)]. pose proof (listed_P A _ _ PA Ea) as [Pc Lc].
    destruct (listed B (fst p)) as [d|] eqn:Eb; [|injection L as <-; auto]. pose proof (listed_P B _ _ PB Eb) as [Pd _].
    destruct (eng F OAdd c d) as [s|] eqn:Es; [|discriminate]. pose proof (Padd _ _ _ Es Pc Pd) as Ps. destruct s as [[]| | | | | | | | | |]; try discriminate; injection L as <-; auto.
  Qed.
  Lemma good_zero : good (Comp (CV 0) (CBlade 0)).
  Proof. exists []. split; [reflexivity|]. split; [split; constructor|constructor]. Qed.
  Lemma good_comp c k : P c = true -> (k < 2 ^ 63)%N -> (k < 2 ^ dim)%N -> good (component_t c (CBlade k)).
  Proof.
    intros Pc K Kd. assert (D : c = CV 0 \/ c <> CV 0 /\ component_t c (CBlade k) = Comp c (CBlade k)) by (destruct c as [[]| | | | | | | | | |]; auto; right; (split; [discriminate|reflexivity])).
    destruct D as [->|[Nz ->]]; [exact good_zero|]. exists [(k, c)]. split; [reflexivity|]. split; [apply canonical_cons; [split; constructor|constructor|exact Nz|exact K]|constructor; auto].
  Qed.
  Lemma good_tail p M : canonical (p :: M) -> Forall (fun p => P (snd p) = true /\ (fst p < 2 ^ dim)%N) (p :: M) -> good (mv_of [p]) /\ good (mv_of M) /\ P (snd p) = true /\ (fst p < 2 ^ 63)%N /\ (fst p < 2 ^ dim)%N.
  Proof.
    intros C H. inversion H as [|? ? [Hp Hd] HM]; subst. destruct (canonical_tail _ _ C) as (C' & A & Nz & L). split; [|split; [exists M; auto|auto]].
    exists [p]. split; [reflexivity|]. split; [apply canonical_cons; [split; constructor|constructor|auto|auto]|constructor; auto].
  Qed.
  Lemma good_distribute n s m r : P s = true -> good m -> distribute F n s (comps_of m) = Some r -> good r.
  Proof.
    intros Ps (M & -> & CM & PM). destruct M as [|p M].
    - cbn. destruct (eng F OMul s (CV 0)) as [x|] eqn:E; [|discriminate]. intros [= <-]. apply good_comp; [apply (Pmul _ _ _ E); auto|reflexivity|apply N.neq_0_lt_0, N.pow_nonzero; discriminate].
    - assert (X : comps_of (mv_of (p :: M)) = map entry (p :: M)) by (destruct M; reflexivity). rewrite X. clear X.
      revert p CM PM r. induction M as [|q M IH]; intros p CM PM r; destruct (good_tail _ _ CM PM) as (_ & G & Pp & L & Ld); cbn [map entry distribute].
      + destruct (eng F OMul s (snd p)) as [x|] eqn:E; [|discriminate]. intros [= <-]. apply good_comp; [apply (Pmul _ _ _ E); auto|exact L|exact Ld].
      + destruct (eng F OMul s (snd p)) as [x|] eqn:E; [|discriminate]. fold (distribute F n s). change (Comp (snd q) (CBlade (fst q)) :: map entry M) with (map entry (q :: M)).
        match goal with |- match ?d with _ => _ end = _ -> _ => destruct d as [t|] eqn:D; [|discriminate] end. intros A.
        destruct (canonical_tail _ _ CM) as (C' & _). inversion PM; subst. apply (good_add n (component_t x (CBlade (fst p))) t); [apply good_comp; [apply (Pmul _ _ _ E); auto|exact L|exact Ld]| |exact A].
        apply (IH q); auto.
  Qed.
  Variable mult : expr -> expr -> option expr.
  Hypothesis Hm : forall x y r, (x < 2 ^ 63)%N -> (y < 2 ^ 63)%N -> (x < 2 ^ dim)%N -> (y < 2 ^ dim)%N -> mult (CBlade x) (CBlade y) = Some r -> good r.
  Lemma good_mul : forall n a b r, good a -> good b -> cmul F n mult a b = Some r -> good r.
  Proof.
    induction n as [|n IH]; intros a b r Ga Gb; [discriminate|]. cbn [cmul]. unfold cmul_step.
    pose proof Ga as (A & -> & CA & PA). pose proof Gb as (B & -> & CB & PB).
    destruct A as [|p A].
    { change (csplit (mv_of [])) with (Some (CV 0, CBlade 0, @None (list expr))). destruct (csplit (mv_of B)) as [[[d y] ys]|]; [|discriminate]. intros [= <-]. exact Ga. }
    rewrite csplit_mv. destruct B as [|q B].
    { change (csplit (mv_of [])) with (Some (CV 0, CBlade 0, @None (list expr))). cbv iota beta. destruct (is_zero_comp (mv_of (p :: A))); intros [= <-]; auto. }
    rewrite csplit_mv. cbv iota beta. destruct (canonical_tail _ _ CA) as (_ & _ & Np & _). destruct (canonical_tail _ _ CB) as (_ & _ & Nq & _).
    rewrite (zero_mv p A Np), (zero_mv q B Nq). destruct (good_tail _ _ CA PA) as (Gp & GA & Pp & Lp & Ldp). destruct (good_tail _ _ CB PB) as (Gq & GB & Pq & Lq & Ldq).
    change (Comp (snd p) (CBlade (fst p))) with (mv_of [p]) in *. change (Comp (snd q) (CBlade (fst q))) with (mv_of [q]) in *.
    destruct A as [|p' A], B as [|q' B].
    - destruct (eng F OMul (snd p) (snd q)) as [s|] eqn:E; [|discriminate]. destruct (mult (CBlade (fst p)) (CBlade (fst q))) as [m|] eqn:M; [|discriminate]. intros D.
      apply (good_distribute n s m r); [apply (Pmul _ _ _ E); auto|apply (Hm _ _ _ Lp Lq Ldp Ldq M)|exact D].
    - rewrite mk_add_entries. destruct (cmul F n mult (mv_of [p]) (mv_of [q])) as [x|] eqn:E1; [|discriminate]. destruct (cmul F n mult (mv_of [p]) (mv_of (q' :: B))) as [y|] eqn:E2; [|discriminate].
      intros D. apply (good_add n x y); [apply (IH _ _ _ Gp Gq E1)|apply (IH _ _ _ Gp GB E2)|exact D].
    - rewrite mk_add_entries. destruct (cmul F n mult (mv_of [p]) (mv_of [q])) as [x|] eqn:E1; [|discriminate]. destruct (cmul F n mult (mv_of (p' :: A)) (mv_of [q])) as [y|] eqn:E2; [|discriminate].
      intros D. apply (good_add n x y); [apply (IH _ _ _ Gp Gq E1)|apply (IH _ _ _ GA Gq E2)|exact D].
    - rewrite !mk_add_entries.
      destruct (cmul F n mult (mv_of [p]) (mv_of [q])) as [x|] eqn:E1; [|discriminate]. destruct (cmul F n mult (mv_of (p' :: A)) (mv_of [q])) as [y|] eqn:E2; [|discriminate].
      destruct (cadd F n x y) as [xy|] eqn:E3; [|discriminate].
      destruct (cmul F n mult (mv_of [p]) (mv_of (q' :: B))) as [z|] eqn:E4; [|discriminate]. destruct (cmul F n mult (mv_of (p' :: A)) (mv_of (q' :: B))) as [w|] eqn:E5; [|discriminate].
      destruct (cadd F n z w) as [zw|] eqn:E6; [|discriminate]. intros D.
      apply (good_add n xy zw); [|  |exact D].
      + apply (good_add n x y); [apply (IH _ _ _ Gp Gq E1)|apply (IH _ _ _ GA Gq E2)|exact E3].
      + apply (good_add n z w); [apply (IH _ _ _ Gp GB E4)|apply (IH _ _ _ GA GB E5)|exact E6].
  Qed.
End Class.

Section Gum.
  Variable F : nat.
  Variable P : expr -> bool.
  Variable dim : N.
  Hypothesis Pcv : forall z, P (CV z) = true.
  Hypothesis Padd : forall a b r, eng F OAdd a b = Some r -> P a = true -> P b = true -> P r = true.
  Hypothesis Pmul : forall a b r, eng F OMul a b = Some r -> P a = true -> P b = true -> P r = true.
  Lemma good_gum n pat a r : good P dim a -> gum F n pat a = Some r -> good P dim r.
  Proof.
    assert (G1 : forall p r, good P dim (mv_of [p]) -> P (snd p) = true -> (fst p < 2 ^ 63)%N -> (fst p < 2 ^ dim)%N -> gum1 F pat (entry p) = Some r -> good P dim r).
    { intros [k c] r0 G Pc K Kd. cbn [fst snd] in *. unfold entry, gum1. cbn [fst snd]. destruct (eng F OMul (CV (-1)) c) as [m|] eqn:E; [|discriminate]. intros D. apply Some_inj in D. subst r0. generalize (N.eqb (N.land pat (wrap (N.shiftl 1 (ones k)))) 0). intros [|]; [exact G|]. apply good_comp; [apply (Pmul _ _ _ E); auto|exact K|exact Kd]. }
    intros (M & -> & CM & PM). unfold gum. destruct M as [|p M].
    - cbn [comps_of mv_of gum_list]. unfold gum1. destruct (eng F OMul (CV (-1)) (CV 0)) as [m|] eqn:E; [|discriminate]. intros D. apply Some_inj in D. subst r. generalize (N.eqb (N.land pat (wrap (N.shiftl 1 (ones 0)))) 0). intros [|]; [apply good_zero|]. apply good_comp; [apply (Pmul _ _ _ E); auto|reflexivity|apply N.neq_0_lt_0, N.pow_nonzero; discriminate].
    - assert (X : comps_of (mv_of (p :: M)) = map entry (p :: M)) by (destruct M; reflexivity). rewrite X. clear X.
      revert p CM PM r. induction M as [|q M IH]; intros p CM PM r; destruct (good_tail P dim _ _ CM PM) as (Gp & GA & Pp & Lp & Ldp).
      + cbn [map gum_list]. apply G1; auto.
      + change (gum_list F n pat (map entry (p :: q :: M))) with
          (h <- gum1 F pat (entry p) ;; t <- gum_list F n pat (map entry (q :: M)) ;; cadd F n h t).
        destruct (gum1 F pat (entry p)) as [h|] eqn:E1; [|discriminate]. destruct (gum_list F n pat (map entry (q :: M))) as [t|] eqn:E2; [|discriminate]. intros D.
        destruct (canonical_tail _ _ CM) as (C' & _). inversion PM; subst. apply (good_add F P dim Padd n h t); [apply (G1 p); auto|apply (IH q); auto|exact D].
  Qed.
End Gum.

(** A blade product maps compile-time blades to a constant multiple of a compile-time blade. *)
Definition const_mult (dim : N) (mult : expr -> expr -> option expr) : Prop :=
  forall x y r, (x < 2 ^ 63)%N -> (y < 2 ^ 63)%N -> (x < 2 ^ dim)%N -> (y < 2 ^ dim)%N -> mult (CBlade x) (CBlade y) = Some r ->
  exists z k, r = component_t (CV z) (CBlade k) /\ (k < 2 ^ 63)%N /\ (k < 2 ^ dim)%N.
Definition bool_valid (valid : valid_t) : Prop := forall a b c v, valid (CV a) (CV b) (CV c) = Some v -> exists t, v = CBool t.


Lemma ps_lt n : (n <= 63)%N -> (2 ^ n - 1 < 2 ^ 63)%N.
Proof. intros H. pose proof (N.pow_le_mono_r 2 n 63 ltac:(discriminate) H). assert (0 < 2 ^ n)%N by (apply N.neq_0_lt_0, N.pow_nonzero; discriminate). lia. Qed.
Lemma ps_lt' n dim : (n <= dim)%N -> (2 ^ n - 1 < 2 ^ dim)%N.
Proof. intros H. pose proof (N.pow_le_mono_r 2 n dim ltac:(discriminate) H). assert (0 < 2 ^ n)%N by (apply N.neq_0_lt_0, N.pow_nonzero; discriminate). lia. Qed.
Lemma choice_const dim n (t : bool) k : (n <= 63)%N -> (n <= dim)%N \/ t = false -> (k < 2 ^ 63)%N -> (k < 2 ^ dim)%N ->
  exists k', (if t then CBlade (2 ^ n - 1) else CBlade k) = CBlade k' /\ (k' < 2 ^ 63)%N /\ (k' < 2 ^ dim)%N.
Proof. intros H D K Kd. destruct t; [exists (2 ^ n - 1)%N; split; [reflexivity|split; [apply ps_lt, H|apply ps_lt'; destruct D; [auto|discriminate]]]|exists k; auto]. Qed.
Lemma if_const (t : bool) b z w : exists v, mk_if (if t then CBool false else CBool b) (CV z) (CV w) = CV v.
Proof. destruct t, b; cbn [mk_if]; eauto. Qed.
Lemma int_shape e : is_int e = true -> exists z, e = CV z.
Proof. destruct e; cbn [is_int]; try discriminate; eauto. Qed.
Lemma equal_cv a b : exists t, mk_equal (CV a) (CV b) = CBool t.
Proof. unfold mk_equal. cbn [has_stored is_constant negb]. destruct (expr_eqb (CV a) (CV b)); cbn; eauto. Qed.
Lemma equal_cbits a b : exists t, mk_equal (CBits a) (CBits b) = CBool t.
Proof. unfold mk_equal. cbn [has_stored is_constant negb]. destruct (expr_eqb (CBits a) (CBits b)); cbn; eauto. Qed.
Lemma eng_cv F o a b r : o <> OPow -> eng F o (CV a) (CV b) = Some r -> exists z, r = CV z.
Proof. intros H E. apply int_shape, (proj1 (eng_int F) o a b); auto. Qed.
Lemma minus_cv F a b r : minus_t F (CV a) (CV b) = Some r -> exists z, r = CV z.
Proof. unfold minus_t. destruct (eng F OMul (CV (-1)) (CV b)) as [m|] eqn:E; [|discriminate]. apply eng_cv in E; [|discriminate]. destruct E as [z ->]. apply eng_cv. discriminate. Qed.

Lemma xor_bits a b : mk_xor (CBits a) (CBits b) = CBits (N.lxor a b). Proof. destruct a; reflexivity. Qed.
Lemma or_bits a b : mk_or (CBits a) (CBits b) = CBits (N.lor a b). Proof. destruct a; reflexivity. Qed.
Lemma and_bits a b : mk_and (CBits a) (CBits b) = CBits (N.land a b). Proof. destruct a; reflexivity. Qed.
Lemma and_cv a b : mk_and (CV a) (CV b) = CV (Z.land a b). Proof. destruct a; reflexivity. Qed.
Lemma sign_bits a b : exists z, mk_sign (CBits a) (CBits b) = CV z. Proof. destruct a, b; eexists; reflexivity. Qed.
Lemma orth_const dim F n grades valid factor : (n <= 63)%N -> bool_valid valid -> (forall c, exists z, factor (CBits c) = CV z) ->
  ((n <= dim)%N \/ forall x y, (x < 2 ^ dim)%N -> (y < 2 ^ dim)%N -> N.eqb (grades (possible_grades (CBlade x)) (possible_grades (CBlade y)) n) (bit n) = false) ->
  const_mult dim (orth F n grades valid factor).
Proof.
  intros Hn HV HF HD x y r X Y Xd Yd. unfold orth. assert (HT : (n <= dim)%N \/ N.eqb (grades (possible_grades (CBlade x)) (possible_grades (CBlade y)) n) (bit n) = false) by (destruct HD as [D|D]; [auto|right; apply D; auto]).
  revert HT. generalize (grades_fit n (CBlade x) (CBlade y)), (grades (possible_grades (CBlade x)) (possible_grades (CBlade y)) n). intros [|] pg HT; [|discriminate].
  cbn [basis_vectors]. rewrite !xor_bits, !and_bits. cbn [mk_count deduce_blade]. unfold pseudoscalar. rewrite all_ones_shift by lia. destruct (sign_bits x y) as [sg ->].
  match goal with |- (match ?d with _ => _ end) = _ -> _ => destruct d as [v|] eqn:E; [|discriminate] end. destruct (HV _ _ _ _ E) as [t ->].
  destruct (HF (N.land x y)) as [f ->]. match goal with |- (match ?d with _ => _ end) = _ -> _ => destruct d as [q|] eqn:E2; [|discriminate] end.
  destruct (eng_cv F OMul _ _ q ltac:(discriminate) E2) as [z ->]. intros D. apply Some_inj in D. subst r.
  destruct (if_const (N.eqb pg 0) t z 0) as [v ->]. destruct (choice_const dim n (N.eqb pg (bit n)) (N.lxor x y) Hn HT (lxor_lt x y 63 X Y) (lxor_lt x y dim Xd Yd)) as (k & -> & K). exists v, k. auto.
Qed.
Lemma factor_const P Q R c : exists z, signed_factor P Q R (CBits c) = CV z.
Proof.
  unfold signed_factor. rewrite !and_bits. cbn [mk_count]. rewrite and_cv. destruct (equal_cbits (N.land c (zero_mask P Q R)) 0) as [t ->]. destruct (equal_cv (Z.land (Z.of_N (ones (N.land c (neg_mask P Q)))) 1) 0) as [u ->].
  destruct t, u; cbn [mk_if]; eauto.
Qed.
Lemma gp_bv F : bool_valid (gp_valid F). Proof. intros a b c v [= <-]. eauto. Qed.
Lemma lcont_bv F : bool_valid (lcont_valid F).
Proof. intros a b c v. unfold lcont_valid. destruct (minus_t F (CV b) (CV a)) as [d|] eqn:E; [|discriminate]. apply minus_cv in E as [z ->]. intros D. apply Some_inj in D as <-. apply equal_cv. Qed.
Lemma rcont_bv F : bool_valid (rcont_valid F).
Proof. intros a b c v. unfold rcont_valid. destruct (minus_t F (CV a) (CV b)) as [d|] eqn:E; [|discriminate]. apply minus_cv in E as [z ->]. intros D. apply Some_inj in D as <-. apply equal_cv. Qed.
Lemma sp_bv F : bool_valid (sp_valid F).
Proof. intros a b c v. unfold sp_valid. intros D. apply Some_inj in D as <-. apply equal_cv. Qed.
Lemma dot_bv F : bool_valid (dot_valid F).
Proof.
  intros a b c v. unfold dot_valid. destruct (minus_t F (CV b) (CV a)) as [d|] eqn:E; [|discriminate]. apply minus_cv in E as [z ->].
  destruct (minus_t F (CV a) (CV b)) as [d|] eqn:E; [|discriminate]. apply minus_cv in E as [w ->]. intros D. apply Some_inj in D as <-. cbn [mk_le].
  destruct (equal_cv c z) as [t ->], (equal_cv c w) as [u ->], (Z.leb a b); cbn [mk_if]; eauto.
Qed.
Lemma hip_bv F : bool_valid (hip_valid F).
Proof.
  intros a b c v. unfold hip_valid. destruct (minus_t F (CV b) (CV a)) as [d|] eqn:E; [|discriminate]. apply minus_cv in E as [z ->].
  destruct (minus_t F (CV a) (CV b)) as [d|] eqn:E; [|discriminate]. apply minus_cv in E as [w ->]. intros D. apply Some_inj in D as <-. cbn [mk_le].
  destruct (equal_cv c z) as [t ->], (equal_cv c w) as [u ->], (equal_cv a 0) as [p ->], (equal_cv b 0) as [q ->], (Z.leb a b), p, q; cbn [mk_lor mk_if]; eauto.
Qed.
Lemma op_const F n : (n <= 63)%N -> const_mult n (op_map F n).
Proof.
  intros Hn x y r X Y Xd Yd. unfold op_map. generalize (grades_fit n (CBlade x) (CBlade y)), (op_grades n (possible_grades (CBlade x)) (possible_grades (CBlade y))). intros [|] pg; [|discriminate].
  cbn [basis_vectors]. rewrite !or_bits. cbn [mk_count deduce_blade]. destruct (sign_bits x y) as [sg ->]. rewrite op_ps by exact Hn.
  match goal with |- (match ?d with _ => _ end) = _ -> _ => destruct d as [v|] eqn:E; [|discriminate] end. destruct (eng_cv F OAdd _ _ v ltac:(discriminate) E) as [z ->].
  intros D. apply Some_inj in D. subst r. destruct (equal_cv z (Z.of_N (ones (N.lor x y)))) as [t ->].
  match goal with |- context [mk_if _ (CV ?s) _] => destruct (if_const (N.eqb pg 0) t s 0) as [v ->] end.
  destruct (choice_const n n (N.eqb pg (bit n)) (N.lor x y) Hn (or_introl (N.le_refl n)) (lor_lt x y 63 X Y) (lor_lt x y n Xd Yd)) as (k & -> & K). exists v, k. auto.
Qed.
Lemma rp_const F n : (n <= 63)%N -> const_mult n (rp_map F n).
Proof.
  intros Hn x y r X Y Xd Yd. unfold rp_map. generalize (grades_fit n (CBlade x) (CBlade y)), (rp_grades n (possible_grades (CBlade x)) (possible_grades (CBlade y))). intros [|] pg; [|discriminate].
  cbn [basis_vectors]. rewrite !and_bits, !xor_bits. cbn [mk_count deduce_blade]. destruct (sign_bits (N.lxor x (N.land x y)) (N.lxor y (N.land x y))) as [sg ->]. unfold pseudoscalar. rewrite all_ones_shift by lia.
  match goal with |- (match ?d with _ => _ end) = _ -> _ => destruct d as [v|] eqn:E; [|discriminate] end. destruct (eng_cv F OAdd _ _ v ltac:(discriminate) E) as [z ->].
  match goal with |- (match ?d with _ => _ end) = _ -> _ => destruct d as [v|] eqn:E1; [|discriminate] end. destruct (eng_cv F OMul _ _ v ltac:(discriminate) E1) as [z1 ->].
  match goal with |- (match ?d with _ => _ end) = _ -> _ => destruct d as [v|] eqn:E2; [|discriminate] end. destruct (eng_cv F OAdd _ _ v ltac:(discriminate) E2) as [z2 ->].
  intros D. apply Some_inj in D. subst r. destruct (equal_cv z2 (Z.of_N n)) as [t ->].
  match goal with |- context [mk_if _ (CV ?s) _] => destruct (if_const (N.eqb pg 0) t s 0) as [v ->] end.
  destruct (choice_const n n (N.eqb pg (bit n)) (N.land x y) Hn (or_introl (N.le_refl n)) (land_lt x y 63 X) (land_lt x y n Xd)) as (k & -> & K). exists v, k. auto.
Qed.
Lemma const_good P dim mult : (forall z, P (CV z) = true) -> const_mult dim mult ->
  forall x y r, (x < 2 ^ 63)%N -> (y < 2 ^ 63)%N -> (x < 2 ^ dim)%N -> (y < 2 ^ dim)%N -> mult (CBlade x) (CBlade y) = Some r -> good P dim r.
Proof. intros HP HM x y r X Y Xd Yd E. destruct (HM x y r X Y Xd Yd E) as (z & k & -> & K & Kd). apply good_comp; auto. Qed.
