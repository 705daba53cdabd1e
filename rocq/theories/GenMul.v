(** Proofs: value of the product of two compile-time blades in a general metric space. *)
From Coq Require Import NArith ZArith List Bool Reals Lra Lia Sorted Permutation.
From Verif Require Import Bits BitsBase SpecBits BitsProofs BitsOnes Visit VisitProofs Expr Sem Wf SpecMv MvBase Simp SimpProofs SimpProofs2 Comp CompProofs CompProofs2 Mapping GradeProofs MappingProofs ProductProofs OuterProofs SpecOrder OrderProofs PresProofs GumProofs CanonProofs SmartProofs General Clifford Clifford2 Clifford3 Wick Wick2 SpecGeneral DetProofs GenDet GenSum.
Import ListNotations.
Local Open Scope R_scope.
Local Opaque sign_of indices idx.

Lemma equal_cv_val a b : mk_equal (CV a) (CV b) = CBool (Z.eqb a b).
Proof.
  unfold mk_equal. cbn [has_stored is_constant negb andb]. assert (E : expr_eqb (CV a) (CV b) = Z.eqb a b) by reflexivity. rewrite E. destruct (Z.eqb a b); reflexivity.
Qed.
Lemma blade_grades i n : (i < 2 ^ n)%N -> (n <= 63)%N -> possible_grades (CBlade i) = (2 ^ grade_of i)%N.
Proof.
  intros Hi Hn. cbn [possible_grades]. rewrite ones_correct by (apply (pow2_64 n); [lia|exact Hi]). pose proof (grade_le i n ltac:(lia) Hi). apply bit_pow. lia.
Qed.
Lemma rp_cols n l c H : (n <= 63)%N -> (l < 2 ^ n)%N -> (c < 2 ^ n)%N ->
  sumf (rp_blade n l (N.lxor c (2 ^ n - 1))) H = if N.eqb (N.land c l) c then sign_of c (N.lxor (2 ^ n - 1) l) * H (N.lxor l c) else 0.
Proof.
  intros Hn Hl Hc. set (p := (2 ^ n - 1)%N).
  assert (Tp : forall k, N.testbit p k = (k <? n)%N) by (intros; apply testbit_mask).
  assert (Bl : forall k, N.testbit l k = true -> (k < n)%N) by (intros k T; destruct (N.ltb_spec k n); [assumption|rewrite (testbit_high l n k Hl) in T by assumption; discriminate]).
  assert (Bc : forall k, N.testbit c k = true -> (k < n)%N) by (intros k T; destruct (N.ltb_spec k n); [assumption|rewrite (testbit_high c n k Hc) in T by assumption; discriminate]).
  unfold rp_blade. fold p.
  assert (E : N.eqb (N.lor l (N.lxor c p)) p = N.eqb (N.land c l) c).
  { apply eq_true_iff_eq. rewrite !N.eqb_eq. split; intros Q; apply N.bits_inj; intros k.
    - assert (K : N.testbit (N.lor l (N.lxor c p)) k = N.testbit p k) by (rewrite Q; reflexivity). rewrite N.lor_spec, N.lxor_spec, Tp in K. rewrite N.land_spec.
      destruct (N.testbit c k) eqn:T; [|reflexivity]. rewrite (proj2 (N.ltb_lt k n) (Bc k T)) in K. destruct (N.testbit l k); [reflexivity|discriminate].
    - assert (K : N.testbit (N.land c l) k = N.testbit c k) by (rewrite Q; reflexivity). rewrite N.land_spec in K. rewrite N.lor_spec, N.lxor_spec, Tp.
      destruct (N.testbit l k) eqn:T; [rewrite (proj2 (N.ltb_lt k n) (Bl k T)); reflexivity|]. rewrite andb_false_r in K. rewrite <- K. destruct (k <? n)%N; reflexivity. }
  rewrite E. destruct (N.eqb_spec (N.land c l) c) as [Q|_]; [|reflexivity]. cbn [sumf].
  assert (K : forall k, N.testbit c k = true -> N.testbit l k = true) by (intros k T; pose proof T as T'; rewrite <- Q, N.land_spec, T in T'; exact T').
  replace (N.land l (N.lxor c p)) with (N.lxor l c).
  2:{ apply N.bits_inj. intros k. rewrite N.land_spec, !N.lxor_spec, Tp. destruct (N.testbit l k) eqn:T; [rewrite (proj2 (N.ltb_lt k n) (Bl k T)); destruct (N.testbit c k); reflexivity|].
      destruct (N.testbit c k) eqn:T2; [rewrite (K k T2) in T; discriminate|reflexivity]. }
  replace (N.lxor l (N.lxor l c)) with c by (rewrite <- N.lxor_assoc, N.lxor_nilpotent, N.lxor_0_l; reflexivity).
  replace (N.lxor (N.lxor c p) (N.lxor l c)) with (N.lxor p l).
  2:{ apply N.bits_inj. intros k. rewrite !N.lxor_spec. destruct (N.testbit l k), (N.testbit c k), (N.testbit p k); reflexivity. }
  ring.
Qed.

(** The faulty search for the leftmost bit gives the index 7 from 2^7 on; its result for 2^8 is 255, which makes no
    difference for the next combination. *)
Lemma next_254 t : (t < 2 ^ 8)%N -> next_combination t 254 = next_combination t 255.
Proof.
  intros T. assert (C : forallb (fun i => match next_combination (N.of_nat i) 254, next_combination (N.of_nat i) 255 with Some x, Some y => N.eqb x y | None, None => true | _, _ => false end) (seq 0 256) = true) by (vm_compute; reflexivity).
  rewrite forallb_forall in C. specialize (C (N.to_nat t)). rewrite N2Nat.id in C. assert (I : In (N.to_nat t) (seq 0 256)) by (apply in_seq; change (2 ^ 8)%N with 256%N in T; lia). apply C in I.
  destruct (next_combination t 254) as [x|], (next_combination t 255) as [y|]; try discriminate; [|reflexivity]. apply N.eqb_eq in I. congruence.
Qed.
Lemma lm_any g : (g <= 63)%N -> exists m, leftmost_set_bit (2 ^ g) = Some m /\ set_bit_index m = N.min g 7.
Proof.
  intros H. assert (C : forallb (fun i => match leftmost_set_bit (2 ^ N.of_nat i) with Some m => N.eqb (set_bit_index m) (N.min (N.of_nat i) 7) | None => false end) (seq 0 64) = true) by (vm_compute; reflexivity).
  rewrite forallb_forall in C. specialize (C (N.to_nat g)). rewrite N2Nat.id in C. assert (I : In (N.to_nat g) (seq 0 64)) by (apply in_seq; lia). apply C in I.
  destruct (leftmost_set_bit (2 ^ g)) as [m|]; [|discriminate]. exists m. split; [reflexivity|]. apply N.eqb_eq, I.
Qed.
Section Mul.
Variables (F k d : nat) (n : N) (ent : expr -> expr -> option expr) (g : env) (A : N -> N -> R).
Variables (P : expr -> bool) (grades : N -> N -> N -> N) (valid : valid_t) (V : N -> N -> N -> bool).
Hypothesis Hn : (n <= 63)%N.
Hypothesis HE : forall i j e, (i < n)%N -> (j < n)%N -> ent (CV (Z.of_N i + 1)) (CV (Z.of_N j + 1)) = Some e -> wf e = true /\ num g e (A i j).
Hypothesis HP : forall a b e, ent (CV a) (CV b) = Some e -> P e = true.
Hypothesis Pcv : forall z, P (CV z) = true.
Hypothesis Padd : forall a b r, eng F OAdd a b = Some r -> P a = true -> P b = true -> P r = true.
Hypothesis Pmul : forall a b r, eng F OMul a b = Some r -> P a = true -> P b = true -> P r = true.
Hypothesis HV : valid_ok valid V.
Hypothesis HB : bool_valid valid.
Hypothesis HG : forall L R a b c, (L < 2 ^ 64)%N -> (R < 2 ^ 64)%N -> N.testbit L a = true -> N.testbit R b = true -> (a <= n)%N -> (b <= n)%N -> (c <= n)%N ->
    (a - b <= c)%N -> (b - a <= c)%N -> (c <= a + b)%N -> N.even (c + a + b) = true -> V a b c = true -> N.testbit (grades L R n) c = true.
Variables (l r : N).
Hypothesis Hl : (l < 2 ^ n)%N.
Hypothesis Hr : (r < 2 ^ n)%N.
Let gl := grade_of l.
Let gr := grade_of r.

Lemma gl_n : (gl <= n)%N. Proof. apply grade_le; [lia|exact Hl]. Qed.
Lemma gr_n : (gr <= n)%N. Proof. apply grade_le; [lia|exact Hr]. Qed.
Lemma lt64 x : (x < 2 ^ n)%N -> (x < 2 ^ 64)%N. Proof. apply pow2_64. lia. Qed.
Lemma lt63 x : (x < 2 ^ n)%N -> (x < 2 ^ 63)%N. Proof. intros H. apply (N.lt_le_trans _ _ _ H), N.pow_le_mono_r; [discriminate|exact Hn]. Qed.

(** ** Values *)
Definition vals (e : expr) (phi : (N -> R) -> R) : Prop :=
  mv_ok e = true /\ good P n e /\ exists m, den g e m /\ in_space n m /\ forall h, sumf m h = phi h.
Lemma vals_ext e phi psi : (forall h, phi h = psi h) -> vals e phi -> vals e psi.
Proof. intros H (W & G & m & D & I & S). split; [exact W|]. split; [exact G|]. exists m. split; [exact D|]. split; [exact I|]. intros h. rewrite S. apply H. Qed.
Lemma vals_comp c b v : wf c = true -> P c = true -> num g c v -> (b < 2 ^ n)%N -> vals (component_t c (CBlade b)) (fun h => v * h b).
Proof.
  intros W Pc N H. destruct (component_t_den c (CBlade b) _ W ltac:(cbn [blade_ok]; apply N.ltb_lt, lt64, H) eq_refl) as [M D]. split; [exact M|]. split; [apply good_comp; [exact Pc|apply lt63, H|exact H]|].
  destruct (D g (v, b)) as (m & D1 & D2 & D3); [split; [exact N|split; [reflexivity|intros _; exact Logic.I]]|]. exists m. split; [exact D1|]. split; [apply D3; repeat constructor; exact H|].
  intros h. rewrite (sumf_meq _ _ h D2). cbn [sumf]. ring.
Qed.
Lemma vals_add a b e phi psi : vals a phi -> vals b psi -> cadd F k a b = Some e -> vals e (fun h => phi h + psi h).
Proof.
  intros (W1 & G1 & m1 & D1 & I1 & S1) (W2 & G2 & m2 & D2 & I2 & S2) E. destruct (cadd_ok F k a b e W1 W2 E) as [W K]. split; [exact W|]. split; [exact (good_add F P n Padd k a b e G1 G2 E)|].
  destruct (K g m1 m2 D1 D2) as (m & D & M & I). exists m. split; [exact D|]. split; [apply I; assumption|]. intros h. rewrite (sumf_meq _ _ h M), sumf_app, S1, S2. reflexivity.
Qed.
Lemma vals_mul mult f a b e phi psi : mult_ok mult f n -> const_mult n mult -> vals a phi -> vals b psi -> cmul F k mult a b = Some e ->
  vals e (fun h => phi (fun i => psi (fun j => sumf (f i j) h))).
Proof.
  intros HM HC (W1 & G1 & m1 & D1 & I1 & S1) (W2 & G2 & m2 & D2 & I2 & S2) E. destruct (cmul_ok F mult f n HM k a b e W1 W2 E) as [W K]. split; [exact W|].
  split; [exact (good_mul F P n Pcv Padd Pmul mult (const_good P n mult Pcv HC) k a b e G1 G2 E)|].
  destruct (K g m1 m2 D1 D2 I1 I2) as (m & D & M & I). exists m. split; [exact D|]. split; [exact I|]. intros h. rewrite (sumf_meq _ _ h M), sumf_bilinear, S1. f_equal.
  apply FunctionalExtensionality.functional_extensionality. intros i. apply S2.
Qed.
Lemma vals_sign s v a e phi : wf s = true -> P s = true -> num g s v -> vals a phi -> cmul F k (op_map F n) (component_t s (CBlade 0)) a = Some e -> vals e (fun h => v * phi h).
Proof.
  intros W Ps N Va E. assert (Z : (0 < 2 ^ n)%N) by (apply N.neq_0_lt_0, N.pow_nonzero; discriminate).
  refine (vals_ext _ _ _ _ (vals_mul _ _ _ _ _ _ _ (op_map_ok F n Hn) (op_const F n Hn) (vals_comp s 0%N v W Ps N Z) Va E)).
  intros h. cbv beta. f_equal. f_equal. apply FunctionalExtensionality.functional_extensionality. intros j. apply op_unit.
Qed.

(** ** result_component *)
Definition hV (h : N -> R) (b : N) : R := if V gl gr (grade_of b) then h b else 0.
Lemma valid_const c v : valid (CV (Z.of_N gl)) (CV (Z.of_N gr)) (CV (Z.of_N c)) = Some v -> v = CBool (V gl gr c).
Proof.
  intros E. destruct (HB _ _ _ _ E) as [t ->].
  destruct (HV (CV (Z.of_N gl)) (CV (Z.of_N gr)) (CV (Z.of_N c)) (CBool t) eq_refl eq_refl eq_refl) as [_ K]; [right; eauto|right; eauto|right; do 3 eexists; split; [reflexivity|split; reflexivity]|exact E|].
  specialize (K g gl gr c eq_refl eq_refl eq_refl). injection K as ->. reflexivity.
Qed.
Lemma single_good e c b : e = Comp c b -> good P n e -> exists i, b = CBlade i /\ (i < 2 ^ n)%N /\ P c = true.
Proof.
  intros -> (M & E & C & Q). destruct M as [|p [|q M]]; [| |discriminate].
  - injection E as -> ->. exists 0%N. split; [reflexivity|]. split; [apply N.neq_0_lt_0, N.pow_nonzero; discriminate|apply Pcv].
  - injection E as -> ->. inversion Q as [|? ? [Q1 Q2] _]; subst. exists (fst p). auto.
Qed.
Lemma vals_result cand e w b : vals cand (fun h => w * h b) ->
  (w <> 0 -> (gl - gr <= grade_of b)%N /\ (gr - gl <= grade_of b)%N /\ (grade_of b <= gl + gr)%N /\ N.even (grade_of b + gl + gr) = true) ->
  result_component n grades valid (CBlade l) (CBlade r) cand = Some e -> vals e (fun h => w * hV h b).
Proof.
  intros (W & G & m & D & I & S) Hw. unfold result_component. destruct cand as [| | | | | | | | |c x|]; try discriminate.
  destruct (single_good _ _ _ eq_refl G) as (i & -> & Hi & Pc). cbn [basis_vectors deduce_blade].
  destruct D as (p & D & ->). destruct p as [v i']. cbn [dcomp fst snd dblade] in D. destruct D as (N & Ei & _). subst i'.
  assert (Wc : wf c = true) by exact (proj1 (mv_ok_head (Comp c (CBlade i)) c (CBlade i) None eq_refl W)).
  assert (Pgi : possible_grades (CBlade i) = (2 ^ grade_of i)%N) by (apply (blade_grades i n); assumption).
  assert (Pgl : possible_grades (CBlade l) = (2 ^ gl)%N) by (apply (blade_grades l n); assumption).
  assert (Pgr : possible_grades (CBlade r) = (2 ^ gr)%N) by (apply (blade_grades r n); assumption).
  rewrite Pgi, Pgl, Pgr. clear Pgi Pgl Pgr.
  set (pg := N.land (grades (2 ^ gl)%N (2 ^ gr)%N n) (2 ^ grade_of i)).
  assert (Gi : (grade_of i <= n)%N) by (apply grade_le; [lia|exact Hi]).
  assert (Pg : pg <> 0%N -> pg = (2 ^ grade_of i)%N).
  { intros Z. unfold pg in *. rewrite N.land_comm, land_pow2_bit in *. destruct (N.testbit _ _); [reflexivity|congruence]. }
  assert (Bb : (if N.eqb pg (bit n) then CBlade (pseudoscalar n) else CBlade i) = CBlade i).
  { destruct (N.eqb_spec pg (bit n)) as [Q|]; [|reflexivity]. rewrite bit_pow in Q by lia. assert (Z : pg <> 0%N) by (rewrite Q; apply N.pow_nonzero; discriminate). rewrite (Pg Z) in Q.
    apply N.pow_inj_r in Q; [|lia]. unfold pseudoscalar. rewrite all_ones_shift by lia. rewrite <- (grade_full i n); auto. lia. }
  rewrite Bb. cbn [basis_vectors mk_count]. rewrite !ones_correct by (apply lt64; assumption). fold gl gr.
  destruct (valid (CV (Z.of_N gl)) (CV (Z.of_N gr)) (CV (Z.of_N (grade_of i)))) as [t|] eqn:Ev; [|discriminate]. apply valid_const in Ev. subst t.
  intros E. apply Some_inj in E. subst e.
  assert (Eh : forall h, w * hV h b = v * hV h i) by (intros h; rewrite <- (S (hV h)); cbn [sumf]; ring).
  assert (T : v <> 0 -> i = b /\ w = v).
  { intros Nz. pose proof (S (delta i)) as Q. cbn [sumf] in Q. unfold delta in Q. rewrite N.eqb_refl in Q. destruct (N.eqb_spec b i) as [->|]; [split; [reflexivity|lra]|lra]. }
  assert (X : mk_if (if N.eqb pg 0 then CBool false else CBool (V gl gr (grade_of i))) c (CV 0) = if (negb (N.eqb pg 0) && V gl gr (grade_of i))%bool then c else CV 0) by (destruct (N.eqb pg 0), (V gl gr (grade_of i)); reflexivity).
  rewrite X. clear X.
  refine (vals_ext _ _ _ _ (vals_comp (if (negb (N.eqb pg 0) && V gl gr (grade_of i))%bool then c else CV 0) i (if (negb (N.eqb pg 0) && V gl gr (grade_of i))%bool then v else 0) _ _ _ Hi)).
  - intros h. rewrite Eh. unfold hV. destruct (V gl gr (grade_of i)) eqn:Vt; [|rewrite andb_false_r; ring]. rewrite andb_true_r. destruct (N.eqb_spec pg 0) as [Z|_]; cbn [negb]; [|reflexivity].
    destruct (Req_EM_T v 0) as [->|Nz]; [ring|]. exfalso. destruct (T Nz) as [-> ->]. destruct (Hw Nz) as (H1 & H2 & H3 & H4).
    assert (Q : N.testbit pg (grade_of b) = true); [|rewrite Z, N.bits_0 in Q; discriminate]. unfold pg. rewrite N.land_spec, N.pow2_bits_true, andb_true_r.
    pose proof gl_n. pose proof gr_n. apply (HG _ _ gl gr (grade_of b)); auto; try (apply N.pow_lt_mono_r; lia); apply N.pow2_bits_true.
  - destruct (_ && _)%bool; [exact Wc|reflexivity]. - destruct (_ && _)%bool; [exact Pc|apply Pcv]. - destruct (_ && _)%bool; [exact N|reflexivity].
Qed.

(** ** The determinants are in the class *)
Lemma element_bits i : forall b, exists c, indirect_element (CBits b) i = CBits c.
Proof. induction i as [|i IH]; intros b; cbn [indirect_element]; unfold rightmost_one; cbn [mk_uminus]; rewrite CanonProofs.and_bits; [eauto|]. rewrite CanonProofs.xor_bits. apply IH. Qed.
Lemma rightmost_bits b : exists c, rightmost_one (CBits b) = CBits c.
Proof. unfold rightmost_one. cbn [mk_uminus]. rewrite CanonProofs.and_bits. eauto. Qed.
Lemma index_bits b e : index_of F (CBits b) = Some e -> exists z, e = CV z.
Proof. unfold index_of. cbn [mk_dec mk_count]. apply eng_cv. discriminate. Qed.
Lemma entry_P a b e : entry_at F ent (CBits a) (CBits b) = Some e -> P e = true.
Proof.
  unfold entry_at. destruct (index_of F (CBits a)) as [x|] eqn:E1; [|discriminate]. destruct (index_of F (CBits b)) as [y|] eqn:E2; [|discriminate].
  apply index_bits in E1. apply index_bits in E2. destruct E1 as [z ->], E2 as [z' ->]. apply HP.
Qed.
Lemma determinant_P N : forall a b e, determinant F ent N (CBits a) (CBits b) = Some e -> P e = true.
Proof.
  induction N as [|[|[|M]] IH]; intros a b e.
  - intros [= <-]. apply Pcv.
  - apply entry_P.
  - cbn [determinant]. destruct (rightmost_bits a) as [a1 ->]. destruct (rightmost_bits b) as [b1 ->]. rewrite !CanonProofs.xor_bits.
    destruct (entry_at F ent (CBits a1) (CBits b1)) as [e11|] eqn:E11; [|discriminate]. destruct (entry_at F ent (CBits a1) (CBits (N.lxor b b1))) as [e12|] eqn:E12; [|discriminate].
    destruct (entry_at F ent (CBits (N.lxor a a1)) (CBits b1)) as [e21|] eqn:E21; [|discriminate]. destruct (entry_at F ent (CBits (N.lxor a a1)) (CBits (N.lxor b b1))) as [e22|] eqn:E22; [|discriminate].
    apply entry_P in E11. apply entry_P in E12. apply entry_P in E21. apply entry_P in E22.
    destruct (eng F OMul e11 e22) as [p|] eqn:Ep; [|discriminate]. destruct (eng F OMul e21 e12) as [q|] eqn:Eq; [|discriminate]. destruct (eng F OMul (CV (-1)) q) as [m|] eqn:Em; [|discriminate].
    intros E. apply (Padd _ _ _ E); [exact (Pmul _ _ _ Ep E11 E22)|]. apply (Pmul _ _ _ Em (Pcv _)). exact (Pmul _ _ _ Eq E21 E12).
  - remember (S (S M)) as M2 eqn:HM.
    assert (K : forall a1 oa ci e, (fix sum (ci : nat) : option expr :=
        match ci with
        | O => None
        | S O =>
          let col1 := rightmost_one (CBits b) in
          e <- entry_at F ent (CBits a1) col1 ;; m <- determinant F ent M2 (CBits oa) (mk_xor (CBits b) col1) ;; eng F OMul e m
        | S cj =>
          let coli := indirect_element (CBits b) cj in
          s0 <- sum cj ;;
          e <- entry_at F ent (CBits a1) coli ;; p <- eng F OMul (CV (if Nat.even ci then -1 else 1)) e ;;
          m <- determinant F ent M2 (CBits oa) (mk_xor (CBits b) coli) ;; q <- eng F OMul p m ;;
          eng F OAdd s0 q
        end) ci = Some e -> P e = true).
    { intros a1 oa ci. induction ci as [|[|ci] IHc]; intros e0; [discriminate| |].
      - destruct (rightmost_bits b) as [b1 ->]. cbv zeta. rewrite CanonProofs.xor_bits. destruct (entry_at F ent (CBits a1) (CBits b1)) as [e1|] eqn:E1; [|discriminate]. apply entry_P in E1.
        destruct (determinant F ent M2 (CBits oa) (CBits (N.lxor b b1))) as [m|] eqn:Em; [|discriminate]. apply IH in Em. intros E. exact (Pmul _ _ _ E E1 Em).
      - destruct (element_bits (S ci) b) as [c Ec]. rewrite Ec. cbv zeta. rewrite CanonProofs.xor_bits. cbn beta iota.
        match goal with |- match ?t with Some _ => _ | None => _ end = _ -> _ => destruct t as [s0|] eqn:E0; [|discriminate] end. clear E0. pose proof (IHc s0 eq_refl) as E0.
        destruct (entry_at F ent (CBits a1) (CBits c)) as [e1|] eqn:E1; [|discriminate]. apply entry_P in E1.
        destruct (eng F OMul _ e1) as [p|] eqn:Ep; [|discriminate]. apply (fun X => Pmul _ _ _ X (Pcv _) E1) in Ep.
        destruct (determinant F ent M2 (CBits oa) (CBits (N.lxor b c))) as [m|] eqn:Em; [|discriminate]. apply IH in Em.
        destruct (eng F OMul p m) as [q|] eqn:Eq; [|discriminate]. intros E. exact (Padd _ _ _ E E0 (Pmul _ _ _ Eq Ep Em)). }
    intros D. subst M2. destruct (rightmost_bits a) as [a1 Ea]. apply (K a1 (N.lxor a a1) (S (S (S M))) e). cbn [determinant] in D |- *. rewrite Ea, CanonProofs.xor_bits in D. exact D.
Qed.

(** ** One row and column selection *)
Hypothesis H7 : (gr <= 8)%N.
Let Bt := fun i j => A j i.
Definition chosen (t : N) : N := bits (sel (indices r) (indices t)).
Definition row_term (h : N -> R) (c t : N) : R :=
  if N.eqb (N.land c l) c then sign_of c (N.lxor (2 ^ n - 1) l) * minor Bt (indices (chosen t)) (indices c) * sign_of (chosen t) (N.lxor r (chosen t)) * sumf (op_blade (N.lxor l c) (N.lxor r (chosen t))) (hV h) else 0.
Lemma r_len : length (indices r) = N.to_nat gr. Proof. unfold gr, grade_of. lia. Qed.
Lemma t_range t i : (t < 2 ^ gr)%N -> In i (indices t) -> (N.to_nat i < length (indices r))%nat.
Proof. intros T H. rewrite r_len. pose proof (indices_below _ _ _ T H). lia. Qed.
Lemma t_64 t : (t < 2 ^ gr)%N -> (t < 2 ^ 64)%N. Proof. apply pow2_64. lia. Qed.
Lemma chosen_incr t : (t < 2 ^ gr)%N -> incr (sel (indices r) (indices t)).
Proof. intros T. apply sel_incr; [apply indices_incr|apply indices_incr|]. intros i. apply t_range, T. Qed.
Lemma chosen_indices t : (t < 2 ^ gr)%N -> indices (chosen t) = sel (indices r) (indices t).
Proof. intros T. apply indices_bits, chosen_incr, T. Qed.
Lemma chosen_subset t : (t < 2 ^ gr)%N -> indirect_subset 64 (CBits r) t = CBits (chosen t).
Proof.
  intros T. pose proof (subset_const (indices r) (indices_incr r) (indices t) 64 (indices_incr t) (fun i => t_range t i T)) as Q. rewrite (bits_indices r (lt64 r Hr)), (bits_indices t (t_64 t T)) in Q. apply Q.
  pose proof (grade_le t gr ltac:(lia) T) as G. unfold grade_of in G. lia.
Qed.
Lemma chosen_grade t : (t < 2 ^ gr)%N -> grade_of (chosen t) = grade_of t.
Proof. intros T. unfold grade_of. rewrite (chosen_indices t T). unfold sel. rewrite map_length. reflexivity. Qed.
Lemma chosen_sub t i : (t < 2 ^ gr)%N -> In i (indices (chosen t)) -> N.testbit r i = true.
Proof. intros T. rewrite (chosen_indices t T). unfold sel. rewrite in_map_iff. intros (j & <- & J). apply (indices_spec r), nth_In, (t_range t); assumption. Qed.
Lemma chosen_land t : (t < 2 ^ gr)%N -> N.land r (chosen t) = chosen t.
Proof.
  intros T. apply N.bits_inj. intros i. rewrite N.land_spec. destruct (N.testbit (chosen t) i) eqn:Q; [|apply andb_false_r]. rewrite andb_true_r.
  apply (chosen_sub t i T). apply indices_spec. split; [|exact Q]. destruct (N.ltb_spec i 64); [assumption|]. rewrite (testbit_high (chosen t) 64 i) in Q; [discriminate|apply bits_64, chosen_incr, T|assumption].
Qed.
Lemma chosen_lt t : (t < 2 ^ gr)%N -> (chosen t < 2 ^ n)%N.
Proof. intros T. rewrite <- (chosen_land t T). apply land_lt, Hr. Qed.
Lemma sub_grade a c : N.land c a = c -> (grade_of (N.lxor a c) = grade_of a - grade_of c)%N /\ (grade_of c <= grade_of a)%N.
Proof.
  intros H. pose proof (grade_lxor a c) as Q. rewrite N.land_comm, H in Q. pose proof (grade_land_l a c) as Q2. rewrite N.land_comm, H in Q2. split; lia.
Qed.
Lemma sumf_op_one a b h : sumf (op_blade a b) h = (if N.eqb (N.land a b) 0 then sign_of a b else 0) * h (N.lor a b).
Proof. unfold op_blade. destruct (N.eqb (N.land a b) 0); cbn [sumf]; ring. Qed.
Lemma bits_num a : isbits g (CBits a) a. Proof. reflexivity. Qed.
Lemma row_ok c t e : (c < 2 ^ n)%N -> (t < 2 ^ gr)%N -> grade_of c = grade_of t -> (grade_of t <= gl)%N ->
  (det <- determinant F ent (N.to_nat (grade_of c)) (CBits (chosen t)) (CBits c) ;;
   a <- cmul F k (rp_map F n) (component_t (CV 1) (CBlade l)) (component_t det (CBlade (N.lxor c (pseudoscalar n)))) ;;
   cand <- cmul F k (op_map F n) a (component_t (mk_sign (CBits (chosen t)) (CBits (N.lxor r (chosen t)))) (CBlade (N.lxor r (chosen t)))) ;;
   result_component n grades valid (CBlade l) (CBlade r) cand) = Some e -> vals e (fun h => row_term h c t).
Proof.
  intros Hc Ht Hg Hgl.
  destruct (determinant F ent _ _ _) as [det|] eqn:Ed; [|discriminate].
  assert (Pd : P det = true) by exact (determinant_P _ _ _ _ Ed).
  assert (Dd : wf det = true /\ num g det (minor Bt (indices (chosen t)) (indices c))).
  { apply (determinant_ok F n ent g A Hn HE (N.to_nat (grade_of c))).
    - apply indices_incr. - apply indices_incr. - intros y. apply indices_below, chosen_lt, Ht. - intros y. apply indices_below, Hc.
    - pose proof (chosen_grade t Ht) as Q. unfold grade_of in Q, Hg |- *. lia. - unfold grade_of. lia.
    - rewrite (bits_indices c (lt64 c Hc)), (bits_indices (chosen t) (lt64 _ (chosen_lt t Ht))). exact Ed. }
  destruct Dd as [Wd Nd]. clear Ed.
  destruct (cmul F k (rp_map F n) _ _) as [a|] eqn:Ea; [|discriminate].
  assert (Pp : pseudoscalar n = (2 ^ n - 1)%N) by (unfold pseudoscalar; apply all_ones_shift; lia). rewrite Pp in Ea.
  assert (Lc : (N.lxor c (2 ^ n - 1) < 2 ^ n)%N) by (apply lxor_lt; [exact Hc|apply mask_lt]).
  assert (Va := vals_mul _ _ _ _ _ _ _ (rp_map_ok F n Hn) (rp_const F n Hn) (vals_comp (CV 1) l 1 eq_refl (Pcv 1) eq_refl Hl) (vals_comp det _ _ Wd Pd Nd Lc) Ea).
  cbv beta in Va. clear Ea.
  assert (Ls : (N.lxor r (chosen t) < 2 ^ n)%N) by (apply lxor_lt; [exact Hr|apply chosen_lt, Ht]).
  assert (Ns : num g (mk_sign (CBits (chosen t)) (CBits (N.lxor r (chosen t)))) (sign_of (chosen t) (N.lxor r (chosen t)))).
  { apply MappingProofs.sign_bits; try apply bits_num; cbn [wf]; apply N.ltb_lt, lt64; [apply chosen_lt, Ht|exact Ls]. }
  assert (Ps : wf (mk_sign (CBits (chosen t)) (CBits (N.lxor r (chosen t)))) = true /\ P (mk_sign (CBits (chosen t)) (CBits (N.lxor r (chosen t)))) = true).
  { destruct (CanonProofs.sign_bits (chosen t) (N.lxor r (chosen t))) as [z ->]. split; [reflexivity|apply Pcv]. }
  destruct Ps as [Ws Ps].
  destruct (cmul F k (op_map F n) _ _) as [cand|] eqn:Ec; [|discriminate].
  assert (Vc := vals_mul _ _ _ _ _ _ _ (op_map_ok F n Hn) (op_const F n Hn) Va (vals_comp _ _ _ Ws Ps Ns Ls) Ec). cbv beta in Vc. clear Ec Va.
  set (mi := minor Bt (indices (chosen t)) (indices c)) in *.
  set (w := if N.eqb (N.land c l) c then sign_of c (N.lxor (2 ^ n - 1) l) * mi * sign_of (chosen t) (N.lxor r (chosen t)) * (if N.eqb (N.land (N.lxor l c) (N.lxor r (chosen t))) 0 then sign_of (N.lxor l c) (N.lxor r (chosen t)) else 0) else 0).
  assert (Vw : vals cand (fun h => w * h (N.lor (N.lxor l c) (N.lxor r (chosen t))))).
  { refine (vals_ext _ _ _ _ Vc). intros h. rewrite (rp_cols n l c _ Hn Hl Hc). unfold w. destruct (N.eqb (N.land c l) c); [|ring]. rewrite sumf_op_one.
    generalize (sign_of c (N.lxor (2 ^ n - 1) l)) (sign_of (chosen t) (N.lxor r (chosen t))) (h (N.lor (N.lxor l c) (N.lxor r (chosen t)))) mi. intros. ring. }
  intros E. refine (vals_ext _ _ _ _ (vals_result cand e w _ Vw _ E)).
  - intros h. unfold row_term. fold mi. unfold w. destruct (N.eqb (N.land c l) c); [|ring]. rewrite sumf_op_one.
    generalize (sign_of c (N.lxor (2 ^ n - 1) l)) (sign_of (chosen t) (N.lxor r (chosen t))) (hV h (N.lor (N.lxor l c) (N.lxor r (chosen t)))) mi. intros. ring.
  - intros Nz. unfold w in Nz. destruct (N.eqb_spec (N.land c l) c) as [S1|]; [|contradiction Nz; reflexivity]. destruct (N.eqb_spec (N.land (N.lxor l c) (N.lxor r (chosen t))) 0) as [Z|]; [|exfalso; apply Nz; ring].
    clear Nz. destruct (sub_grade l c S1) as [G1 G2]. pose proof (chosen_land t Ht) as S2. rewrite N.land_comm in S2. destruct (sub_grade r _ S2) as [G3 G4].
    pose proof (grade_lor (N.lxor l c) (N.lxor r (chosen t))) as G5. rewrite Z, grade_of_0, G1, G3, (chosen_grade t Ht) in G5. rewrite (chosen_grade t Ht) in G4. fold gl in G2, G5 |- *. fold gr in G4, G5 |- *. rewrite Hg in G2, G5.
    clear - G5 G2 G4. revert G5 G2 G4. generalize (grade_of (N.lor (N.lxor l c) (N.lxor r (chosen t)))) (grade_of t) gl gr. intros x y z u. intros.
    repeat split; try lia. rewrite N.even_spec. exists (z + u - y)%N. lia.
Qed.

(** ** The summations *)
Lemma zero_vals : vals zero_comp (fun _ => 0).
Proof.
  assert (Z : (0 < 2 ^ n)%N) by (apply N.neq_0_lt_0, N.pow_nonzero; discriminate).
  refine (vals_ext _ _ _ _ (vals_comp (CV 0) 0%N 0 eq_refl (Pcv 0) eq_refl Z)). intros h. ring.
Qed.
Lemma pg_r : possible_grades (CBlade r) = (2 ^ gr)%N. Proof. exact (blade_grades r n Hr Hn). Qed.
Lemma lm_r : exists m, leftmost_set_bit (2 ^ gr) = Some m /\ set_bit_index m = N.min gr 7 /\ forall t, (t < 2 ^ gr)%N -> next_combination t (dec64 m) = next_combination t (2 ^ gr - 1).
Proof.
  destruct (N.eq_dec gr 8) as [->|N8].
  - exists 255%N. split; [reflexivity|]. split; [reflexivity|]. intros t T. change (dec64 255) with 254%N. change (2 ^ 8 - 1)%N with 255%N. exact (next_254 t T).
  - exists (2 ^ gr)%N. split; [rewrite leftmost_set_bit_small; [rewrite N.log2_pow2 by apply N.le_0_l; reflexivity|apply pow2_pos|apply N.pow_lt_mono_r; lia]|]. split; [rewrite set_bit_index_correct; lia|].
    intros t _. rewrite dec64_pos; [reflexivity|apply pow2_pos|]. apply N.pow_le_mono_r; [discriminate|lia].
Qed.
Lemma rows_ok c : (c < 2 ^ n)%N -> (grade_of c <= gl)%N -> (grade_of c <= gr)%N -> forall fuel t e, t = 0%N \/ ((t < 2 ^ gr)%N /\ grade_of t = grade_of c) ->
  rows_summation F k n ent grades valid (CBlade l) (CBlade r) fuel c t = Some e ->
  exists L, StronglySorted N.lt L /\ (t = 0%N -> L = []) /\ (t <> 0%N -> forall z, In z L <-> (t <= z)%N /\ (z < 2 ^ gr)%N /\ grade_of z = grade_of c) /\ vals e (fun h => lsum (row_term h c) L).
Proof.
  intros Hc Gl Gr. induction fuel as [|f IH]; intros t e Ht; [discriminate|]. cbn [rows_summation].
  destruct (N.eqb_spec t 0) as [->|Nz].
  { intros E. apply Some_inj in E. subst e. exists []. split; [constructor|]. split; [reflexivity|]. split; [congruence|]. exact zero_vals. }
  destruct Ht as [|[Ht Hg]]; [contradiction|]. cbn [basis_vectors].
  destruct lm_r as (lm & Elm & _ & Nlm). rewrite pg_r, Elm, (Nlm t Ht), (ones_correct c (lt64 c Hc)), (chosen_subset t Ht), CanonProofs.xor_bits. cbn [deduce_blade mk_count].
  rewrite (ones_correct l (lt64 l Hl)), (ones_correct r (lt64 r Hr)).
  replace (mk_if (mk_land (mk_le (CV (Z.of_N (grade_of c))) (CV (Z.of_N (grade_of l)))) (mk_le (CV (Z.of_N (grade_of c))) (CV (Z.of_N (grade_of r))))) (CV 1) (CV 0)) with (CV 1).
  2:{ cbn [mk_le]. rewrite (proj2 (Z.leb_le _ _)) by (fold gl; lia). rewrite (proj2 (Z.leb_le _ _)) by (fold gr; lia). reflexivity. }
  destruct (determinant F ent _ _ _) as [det|] eqn:E1; [|discriminate]. destruct (cmul F k (rp_map F n) _ _) as [a|] eqn:E2; [|discriminate].
  destruct (cmul F k (op_map F n) a _) as [cand|] eqn:E3; [|discriminate]. destruct (result_component _ _ _ _ _ cand) as [h0|] eqn:E4; [|discriminate].
  assert (R0 : vals h0 (fun h => row_term h c t)) by (apply row_ok; try assumption; [congruence|rewrite Hg; exact Gl|rewrite E1, E2, E3; exact E4]).
  destruct (next_combination_correct t gr ltac:(lia) Ht ltac:(lia)) as [y [-> K]].
  destruct (rows_summation F k n ent grades valid (CBlade l) (CBlade r) f c y) as [t0|] eqn:E5; [|discriminate].
  intros E6. destruct (IH y t0) as (L & S1 & S2 & S3 & S4); [|exact E5|].
  { destruct K as [(_ & _ & K1 & K2 & _)|[K1 _]]; [right; split; [exact K1|congruence]|left; exact K1]. }
  exists (t :: L). destruct K as [(K0 & K1 & K2 & K3 & K4)|[K1 K2]].
  - pose proof (S3 K0) as S5. split; [constructor; [exact S1|apply Forall_forall; intros z Z; apply S5 in Z; lia]|]. split; [contradiction|].
    split; [|exact (vals_add _ _ _ _ _ R0 S4 E6)]. intros _ z. cbn [In]. rewrite S5. split.
    + intros [<-|(Z1 & Z2 & Z3)]; [split; [apply N.le_refl|auto]|split; [lia|auto]].
    + intros (Z1 & Z2 & Z3). destruct (N.eq_dec t z) as [|Q]; [left; assumption|right]. split; [|auto]. destruct (N.lt_ge_cases z y) as [Q2|]; [|assumption]. exfalso. apply (K4 z); [lia|exact Q2|congruence].
  - rewrite (S2 K1) in S4 |- *. split; [repeat constructor|]. split; [contradiction|]. split; [|exact (vals_add _ _ _ _ _ R0 S4 E6)].
    intros _ z. cbn [In]. split; [intros [<-|[]]; split; [apply N.le_refl|auto]|]. intros (Z1 & Z2 & Z3). destruct (N.eq_dec t z) as [|Q]; [left; assumption|]. exfalso. apply (K2 z); [lia|exact Z2|congruence].
Qed.
Lemma sorted_nodup L : StronglySorted N.lt L -> NoDup L.
Proof. induction 1 as [|x L S IH H]; constructor; [|exact IH]. intros I. rewrite Forall_forall in H. specialize (H x I). lia. Qed.
Lemma inner_ok o c e Lt : (1 <= o)%N -> (o <= gl)%N -> (o <= gr)%N -> (c < 2 ^ n)%N -> grade_of c = o -> NoDup Lt -> (forall z, In z Lt <-> (z < 2 ^ gr)%N /\ grade_of z = o) ->
  rows_summation F k n ent grades valid (CBlade l) (CBlade r) d c (first_combination (ones c)) = Some e -> vals e (fun h => lsum (row_term h c) Lt).
Proof.
  intros H1 Hgl Hgr Hc Gc ND HL E. rewrite (ones_correct c (lt64 c Hc)), Gc in E. destruct (first_combination_correct o gr Hgr ltac:(lia)) as (F1 & F2 & F3).
  assert (Fz : first_combination o <> 0%N) by (intros Z; rewrite Z, grade_of_0 in F1; lia).
  destruct (rows_ok c Hc ltac:(lia) ltac:(lia) d (first_combination o) e) as (L & S1 & _ & S3 & S4); [right; split; [exact F2|congruence]|exact E|].
  refine (vals_ext _ _ _ _ S4). intros h. apply lsum_perm, NoDup_Permutation; [apply sorted_nodup, S1|exact ND|].
  intros z. rewrite (S3 Fz), HL, Gc. split; [tauto|]. intros [Z1 Z2]. split; [|auto]. destruct (N.lt_ge_cases z (first_combination o)) as [Q|]; [|assumption]. exfalso. exact (F3 z Q Z2).
Qed.
Definition col_term (Lt : list N) (h : N -> R) (c : N) : R := csg (indices c) * lsum (row_term h c) Lt.
Lemma columns_ok o Lt : (1 <= o)%N -> (o <= gl)%N -> (o <= gr)%N -> NoDup Lt -> (forall z, In z Lt <-> (z < 2 ^ gr)%N /\ grade_of z = o) ->
  forall fuel c e, c = 0%N \/ ((c < 2 ^ n)%N /\ grade_of c = o) -> columns_summation F k d n ent grades valid (CBlade l) (CBlade r) fuel c = Some e ->
  exists L, StronglySorted N.lt L /\ (c = 0%N -> L = []) /\ (c <> 0%N -> forall z, In z L <-> (c <= z)%N /\ (z < 2 ^ n)%N /\ grade_of z = o) /\ vals e (fun h => lsum (col_term Lt h) L).
Proof.
  intros H1 Hgl Hgr ND HL. induction fuel as [|f IH]; intros c e Hc; [discriminate|]. cbn [columns_summation].
  destruct (N.eqb_spec c 0) as [->|Nz].
  { intros E. apply Some_inj in E. subst e. exists []. split; [constructor|]. split; [reflexivity|]. split; [congruence|]. exact zero_vals. }
  destruct Hc as [|[Hc Hg]]; [contradiction|].
  destruct (rows_summation F k n ent grades valid (CBlade l) (CBlade r) d c (first_combination (ones c))) as [inner|] eqn:E1; [|discriminate].
  assert (V1 := inner_ok o c inner Lt H1 Hgl Hgr Hc Hg ND HL E1).
  destruct (cmul F k (op_map F n) _ inner) as [p|] eqn:E2; [|discriminate].
  assert (V2 : vals p (fun h => col_term Lt h c)).
  { refine (vals_sign _ _ inner p _ _ _ _ V1 E2); [reflexivity|apply Pcv|]. pose proof (csg_ones (indices c) (indices_incr c)) as Q. rewrite (bits_indices c (lt64 c Hc)) in Q. rewrite Q.
    destruct (N.even _); reflexivity. }
  assert (Pp : pseudoscalar n = (2 ^ n - 1)%N) by (unfold pseudoscalar; apply all_ones_shift; lia). rewrite Pp.
  destruct (next_combination_correct c n ltac:(lia) Hc Hn) as [y [-> K]].
  destruct (columns_summation F k d n ent grades valid (CBlade l) (CBlade r) f y) as [t0|] eqn:E5; [|discriminate].
  intros E6. destruct (IH y t0) as (L & S1 & S2 & S3 & S4); [|exact E5|].
  { destruct K as [(_ & _ & K1 & K2 & _)|[K1 _]]; [right; split; [exact K1|congruence]|left; exact K1]. }
  exists (c :: L). destruct K as [(K0 & K1 & K2 & K3 & K4)|[K1 K2]].
  - pose proof (S3 K0) as S5. split; [constructor; [exact S1|apply Forall_forall; intros z Z; apply S5 in Z; lia]|]. split; [contradiction|].
    split; [|exact (vals_add _ _ _ _ _ V2 S4 E6)]. intros _ z. cbn [In]. rewrite S5. split.
    + intros [<-|(Z1 & Z2 & Z3)]; [split; [apply N.le_refl|auto]|split; [lia|auto]].
    + intros (Z1 & Z2 & Z3). destruct (N.eq_dec c z) as [|Q]; [left; assumption|right]. split; [|auto]. destruct (N.lt_ge_cases z y) as [Q2|]; [|assumption]. exfalso. apply (K4 z); [lia|exact Q2|congruence].
  - rewrite (S2 K1) in S4 |- *. split; [repeat constructor|]. split; [contradiction|]. split; [|exact (vals_add _ _ _ _ _ V2 S4 E6)].
    intros _ z. cbn [In]. split; [intros [<-|[]]; split; [apply N.le_refl|auto]|]. intros (Z1 & Z2 & Z3). destruct (N.eq_dec c z) as [|Q]; [left; assumption|]. exfalso. apply (K2 z); [lia|exact Z2|congruence].
Qed.
Lemma order_zero e : order_summation F k d n ent grades valid (CBlade l) (CBlade r) 0 = Some e -> vals e (fun h => order_part Bt l r (hV h) 0).
Proof.
  intros E. assert (Z1 : (0 < 2 ^ n)%N) by apply pow2_pos. assert (Z2 : (0 < 2 ^ gr)%N) by apply pow2_pos.
  assert (C0 : chosen 0 = 0%N) by reflexivity.
  refine (vals_ext _ _ _ _ (row_ok 0 0 e Z1 Z2 eq_refl ltac:(rewrite grade_of_0; apply N.le_0_l) _)).
  - intros h. rewrite (order_enum Bt n l r (hV h) Hn Hl Hr 0 [0%N] [0%N]).
    + cbn [lsum]. unfold row_term, wterm. fold (chosen 0). rewrite !C0, N.land_0_l, N.eqb_refl, indices_0. cbn [wsg]. rewrite sign_0_l. ring.
    + constructor; [intros []|constructor].
    + intros z. cbn [In]. split; [intros [<-|[]]; split; [exact Z1|apply grade_of_0]|]. intros [Q G]. left. symmetry. exact (grade_0 z (lt64 z Q) G).
    + constructor; [intros []|constructor].
    + intros z. cbn [In]. split; [intros [<-|[]]; split; [exact Z2|apply grade_of_0]|]. intros [Q G]. left. symmetry. exact (grade_0 z (t_64 z Q) G).
  - rewrite C0, N.lxor_0_r, grade_of_0, N.lxor_0_l. change (mk_sign (CBits 0) (CBits r)) with (CV 1). cbn [N.to_nat determinant]. exact E.
Qed.
Lemma len_grade x : length (indices x) = N.to_nat (grade_of x). Proof. unfold grade_of. lia. Qed.
Lemma order_ok o : (N.of_nat o <= gl)%N -> (N.of_nat o <= gr)%N -> forall e, order_summation F k d n ent grades valid (CBlade l) (CBlade r) o = Some e ->
  vals e (fun h => upto (order_part Bt l r (hV h)) (S o)).
Proof.
  induction o as [|o IH]; intros Ol Or e E.
  - refine (vals_ext _ _ _ _ (order_zero e E)). intros h. cbn [upto]. ring.
  - cbn [order_summation] in E. destruct (order_summation F k d n ent grades valid (CBlade l) (CBlade r) o) as [prev|]; [|discriminate]. pose proof (IH ltac:(lia) ltac:(lia) prev eq_refl) as V0. clear IH.
    cbn [basis_vectors mk_count] in E. rewrite (ones_correct l (lt64 l Hl)) in E. fold gl in E.
    destruct (eng F OMul _ (CV (Z.of_N gl))) as [x|] eqn:Ex; [|discriminate]. apply mul_const in Ex. subst x.
    match type of E with match ?t with _ => _ end = _ => destruct t as [y|] eqn:Ey; [|discriminate] end. apply add_const in Ey. subst y.
    rewrite and_cv, equal_cv_val in E.
    destruct (columns_summation F k d n ent grades valid (CBlade l) (CBlade r) d (first_combination (N.of_nat (S o)))) as [cols|] eqn:Ec; [|discriminate].
    set (oo := N.of_nat (S o)) in *.
    destruct (kvector_enumeration oo gr ltac:(lia) Or ltac:(lia)) as (f0 & Lt & _ & St & HL).
    destruct (first_combination_correct oo n ltac:(pose proof gr_n; lia) Hn) as (F1 & F2 & F3).
    assert (Fz : first_combination oo <> 0%N) by (intros Z; rewrite Z, grade_of_0 in F1; lia).
    destruct (columns_ok oo Lt ltac:(lia) Ol Or (sorted_nodup Lt St) HL d (first_combination oo) cols (or_intror (conj F2 F1)) Ec) as (L & S1 & _ & S3 & S4).
    specialize (S3 Fz).
    assert (HLc : forall z, In z L <-> (z < 2 ^ n)%N /\ grade_of z = oo).
    { intros z. rewrite S3. split; [tauto|]. intros [Z1 Z2]. split; [|auto]. destruct (N.lt_ge_cases z (first_combination oo)) as [Q|]; [|assumption]. exfalso. exact (F3 z Q Z2). }
    match type of E with match ?t with _ => _ end = _ => destruct t as [p|] eqn:Ep; [|discriminate] end.
    set (eps := if Z.eqb (Z.land (-2 * Z.of_nat (S o) + Z.of_nat (S o) * Z.of_N gl) 1) 0 then 1 else -1).
    assert (V1 : vals p (fun h => order_part Bt l r (hV h) (S o))).
    { refine (vals_ext _ _ _ _ (vals_sign _ eps cols p _ _ _ _ S4 Ep)).
      - intros h. rewrite (order_enum Bt n l r (hV h) Hn Hl Hr (S o) L Lt (sorted_nodup L S1) HLc (sorted_nodup Lt St) HL). rewrite <- lsum_mult. apply lsum_ext. intros c C. apply HLc in C. destruct C as [C1 C2].
        unfold col_term. rewrite <- Rmult_assoc, <- lsum_mult. unfold row_term. destruct (N.eqb_spec (N.land c l) c) as [Sub|]; [|apply lsum_zero; intros; ring].
        apply lsum_ext. intros t _. unfold wterm. fold (chosen t). rewrite <- (sign_columns n l (indices c) Hn Hl).
        + rewrite (bits_indices c (lt64 c C1)), rep_pow. rewrite !len_grade, C2. fold gl. unfold oo. rewrite Nnat.Nat2N.id, N_nat_Z. fold eps.
          generalize (csg (indices c)) (sign_of c (N.lxor (2 ^ n - 1) l)) (minor Bt (indices (chosen t)) (indices c)) (sign_of (chosen t) (N.lxor r (chosen t))) (sumf (op_blade (N.lxor l c) (N.lxor r (chosen t))) (hV h)). intros. ring.
        + intros i Hi. apply indices_spec in Hi. destruct Hi as [_ Hi]. rewrite <- Sub, N.land_spec, andb_true_iff in Hi. apply Hi.
      - destruct (Z.eqb _ 0); reflexivity.
      - destruct (Z.eqb _ 0); apply Pcv.
      - unfold eps. destruct (Z.eqb _ 0); reflexivity. }
    refine (vals_ext _ _ _ _ (vals_add _ _ _ _ _ V0 V1 E)). intros h. reflexivity.
Qed.
Hypothesis H7' : (gr <= 7)%N \/ (gl <= 7)%N.
Theorem general_ok e : general_multiply F k d n ent grades valid (CBlade l) (CBlade r) = Some e -> vals e (fun h => M Bt l (hV h) r).
Proof.
  unfold general_multiply. destruct (grades_fit n (CBlade l) (CBlade r)); [|discriminate].
  assert (Pl : possible_grades (CBlade l) = (2 ^ gl)%N) by exact (blade_grades l n Hl Hn). destruct lm_r as (lr & Er & Sr & _). pose proof gl_n. destruct (lm_any gl ltac:(lia)) as (ll & El & Sl). rewrite Pl, pg_r, El, Er, Sl, Sr.
  replace (N.min (N.min gl 7) (N.min gr 7)) with (N.min gl gr) by lia.
  intros E. apply order_ok in E; [|lia|lia]. refine (vals_ext _ _ _ _ E). intros h. symmetry. apply (by_orders Bt n l r (hV h) Hn Hl Hr). rewrite !len_grade. fold gl gr. lia.
Qed.
End Mul.
