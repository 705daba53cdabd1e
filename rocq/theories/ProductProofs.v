(** Each graded product of a space of signature (P, Q, R) computes the specified product of blades. *)
From Coq Require Import NArith ZArith List Bool Reals Lra Lia Setoid Morphisms.
From Verif Require Import Bits SpecBits BitsBase BitsOnes BitsProofs Expr ExprBase Sem Wf SpecMv MvBase RPowProofs Simp SimpProofs SimpProofs2 SimpMono SmartProofs.
From Verif Require Import Comp CompProofs CompProofs2 Mapping GradeProofs MappingProofs.
Import ListNotations.
Local Open Scope R_scope.

(** ** Metric factors *)
Lemma neg_mask_bit P Q i : (P + Q <= 64)%N -> N.testbit (neg_mask P Q) i = (P <=? i)%N && (i <? P + Q)%N.
Proof.
  intros H. unfold neg_mask. destruct (N.eqb_spec Q 0) as [->|Z].
  - rewrite N.bits_0. destruct (N.leb_spec P i), (N.ltb_spec i (P + 0)); auto; lia.
  - rewrite all_ones_shift, wrap_bits by lia. destruct (N.ltb_spec i 64).
    + destruct (N.leb_spec P i).
      * rewrite N.shiftl_spec_high', testbit_mask by lia. destruct (N.ltb_spec (i - P) Q), (N.ltb_spec i (P + Q)); auto; lia.
      * rewrite N.shiftl_spec_low by lia. reflexivity.
    + destruct (N.leb_spec P i), (N.ltb_spec i (P + Q)); auto; lia.
Qed.
Lemma zero_mask_bit P Q R i : (P + Q + R <= 64)%N -> N.testbit (zero_mask P Q R) i = (P + Q <=? i)%N && (i <? P + Q + R)%N.
Proof.
  intros H. unfold zero_mask. destruct (N.eqb_spec R 0) as [->|Z].
  - rewrite N.bits_0. destruct (N.leb_spec (P + Q) i), (N.ltb_spec i (P + Q + 0)); auto; lia.
  - rewrite all_ones_shift, wrap_bits by lia. destruct (N.ltb_spec i 64).
    + destruct (N.leb_spec (P + Q) i).
      * rewrite N.shiftl_spec_high', testbit_mask by lia. destruct (N.ltb_spec (i - (P + Q)) R), (N.ltb_spec i (P + Q + R)); auto; lia.
      * rewrite N.shiftl_spec_low by lia. reflexivity.
    + destruct (N.leb_spec (P + Q) i), (N.ltb_spec i (P + Q + R)); auto; lia.
Qed.
Lemma neg_mask_lt P Q : (neg_mask P Q < 2 ^ 64)%N.
Proof. unfold neg_mask. destruct (Q =? 0)%N; [reflexivity|apply N.mod_lt; discriminate]. Qed.
Lemma zero_mask_lt P Q R : (zero_mask P Q R < 2 ^ 64)%N.
Proof. unfold zero_mask. destruct (R =? 0)%N; [reflexivity|apply N.mod_lt; discriminate]. Qed.

(** Value of signed_factor. *)
Definition sphi (P Q R : N) (b : N) : Rdefinitions.R :=
  if N.eqb (N.land b (zero_mask P Q R)) 0 then (if N.odd (grade_of (N.land b (neg_mask P Q))) then -1 else 1) else 0.

Lemma signed_factor_ok P Q R : factor_ok (signed_factor P Q R) (sphi P Q R).
Proof.
  intros c W B. unfold signed_factor.
  assert (Wz : wf (CBits (zero_mask P Q R)) = true) by (apply N.ltb_lt, zero_mask_lt).
  assert (Wn : wf (CBits (neg_mask P Q)) = true) by (apply N.ltb_lt, neg_mask_lt).
  destruct (mk_and_bexp c _ B (or_intror (ex_intro _ (zero_mask P Q R) eq_refl)) W Wz) as [Bz Wz'].
  destruct (mk_and_bexp c _ B (or_intror (ex_intro _ (neg_mask P Q) eq_refl)) W Wn) as [Bn Wn'].
  destruct (mk_count_cexp _ Bn Wn') as [Cn Wc].
  set (cnt := mk_count (mk_and c (CBits (neg_mask P Q)))) in *.
  assert (K : wf (mk_and cnt (CV 1)) = true /\ cexp (mk_and cnt (CV 1))).
  { destruct (mk_count_shape _ Bn) as [(b & _ & E)|[E N]]; fold cnt in E; rewrite E.
    - destruct (Z.of_N (ones b)); (split; [reflexivity|right; eexists; reflexivity]).
    - fold cnt in N. rewrite E in N. cbn [mk_and]. rewrite E in Wc. split; [apply wf_fn2; try discriminate; [exact Wc|reflexivity]|]. left. cbn [is_constant forallb] in *. rewrite N. reflexivity. }
  destruct K as [Wk Ck].
  split.
  - apply mk_if_wf; [apply mk_equal_wf; [exact Wz'|reflexivity]| |reflexivity]. apply mk_if_wf; [|reflexivity|reflexivity]. apply mk_equal_wf; [exact Wk|reflexivity].
  - intros g b Lb Hb. unfold num.
    assert (Sz : istrue g (mk_equal (mk_and c (CBits (zero_mask P Q R))) (CBits 0)) (N.eqb (N.land b (zero_mask P Q R)) 0)).
    { apply equal_bits; [exact Bz|right; eauto|apply and_bits; [exact Hb|reflexivity]|reflexivity]. }
    apply (if_num _ _ _ _ _ _ Sz). unfold sphi. destruct (N.eqb _ 0); [|reflexivity].
    assert (Sn : numN g cnt (grade_of (N.land b (neg_mask P Q)))) by (apply count_bits; [exact Wn'|apply and_bits; [exact Hb|reflexivity]]).
    set (k := grade_of (N.land b (neg_mask P Q))) in *.
    assert (Sa : num g (mk_and cnt (CV 1)) (IZR (Z.land (Z.of_N k) 1))).
    { apply and_ok. unfold numN, num in Sn. cbn [sem map fn_sem]. rewrite Sn. cbn [bitop]. rewrite !Zof_IZR. reflexivity. }
    assert (Se : istrue g (mk_equal (mk_and cnt (CV 1)) (CV 0)) (eqR (IZR (Z.land (Z.of_N k) 1)) 0)).
    { apply equal_num; [right; right; split; [apply cexp_plain; exact Ck|reflexivity]|exact Sa|reflexivity]. }
    apply (if_num _ _ _ _ _ _ Se). change 0 with (IZR 0) at 1. rewrite eqR_Z.
    change 1%Z with (Z.ones 1) at 1. rewrite Z.land_ones by lia. change (2 ^ 1)%Z with 2%Z.
    replace (Z.of_N k mod 2 =? 0)%Z with (negb (N.odd k)).
    + destruct (N.odd k); reflexivity.
    + pose proof (Zmod_even (Z.of_N k)) as E. rewrite E. destruct k as [|[]]; reflexivity.
Qed.
Lemma real_factor_ok : factor_ok real_factor (fun _ => 1).
Proof. intros c W B. split; [reflexivity|]. intros g b _ _. apply num_cv. Qed.

(** ... is the product of the squares of the basis vectors. *)
Lemma squares_list q m (L : list N) b : (forall i, In i L -> N.testbit b i = true -> q i = if N.testbit m i then -1 else 1) ->
  fold_right Rmult 1 (map q (filter (N.testbit b) L)) =
  if Nat.odd (length (filter (N.testbit (N.land b m)) L)) then -1 else 1.
Proof.
  induction L as [|x L IH]; intros H; [reflexivity|]. cbn [filter]. rewrite N.land_spec. destruct (N.testbit b x) eqn:Tb; cbn [andb].
  - cbn [map fold_right]. rewrite IH by (intros; apply H; [right; auto|auto]). rewrite (H x (or_introl eq_refl) Tb). destruct (N.testbit m x).
    + cbn [length]. rewrite Nat.odd_succ, <- Nat.negb_odd. destruct (Nat.odd _); cbn; lra.
    + destruct (Nat.odd _); lra.
  - apply IH. intros; apply H; [right; auto|auto].
Qed.
Lemma squares_zero q (L : list N) i : In i L -> q i = 0 -> fold_right Rmult 1 (map q L) = 0.
Proof. induction L as [|x L IH]; intros I Z; [destruct I|]. cbn [map fold_right]. destruct I as [->|I]; [rewrite Z; lra|rewrite IH; auto; lra]. Qed.
Lemma in_indices b i : (b < 2 ^ 64)%N -> (In i (indices b) <-> N.testbit b i = true).
Proof.
  intros H. unfold indices. rewrite filter_In. split; [tauto|]. intros T. split; [|exact T]. apply in_map_iff. exists (N.to_nat i). split; [lia|].
  apply in_seq. destruct (N.lt_ge_cases i 64) as [|Q]; [lia|]. rewrite (testbit_high b 64 i H Q) in T. discriminate.
Qed.
Lemma sphi_squares P Q R b : (P + Q + R <= 64)%N -> (b < 2 ^ (P + Q + R))%N -> sphi P Q R b = squares (signature P Q) b.
Proof.
  intros Hn Hb. assert (H64 : (b < 2 ^ 64)%N) by (apply N.lt_le_trans with (1 := Hb); apply pow_le_mono; lia).
  unfold sphi. destruct (N.eqb_spec (N.land b (zero_mask P Q R)) 0) as [E|E].
  - unfold squares, indices at 1. rewrite (squares_list (signature P Q) (neg_mask P Q)).
    + unfold grade_of, indices. rewrite odd_of_nat. reflexivity.
    + intros i _ T. unfold signature. rewrite neg_mask_bit by lia.
      assert (Z : N.testbit (N.land b (zero_mask P Q R)) i = false) by (rewrite E; apply N.bits_0).
      rewrite N.land_spec, T, zero_mask_bit in Z by lia. cbn [andb] in Z.
      assert (I : (i < P + Q + R)%N). { destruct (N.lt_ge_cases i (P + Q + R)) as [|G]; [auto|]. rewrite (testbit_high b _ i Hb G) in T. discriminate. }
      destruct (N.leb_spec P i), (N.ltb_spec i P), (N.ltb_spec i (P + Q)), (N.leb_spec (P + Q) i), (N.ltb_spec i (P + Q + R)); try reflexivity; try discriminate; lia.
  - symmetry. unfold squares. assert (Ex : exists i, N.testbit (N.land b (zero_mask P Q R)) i = true).
    { exists (N.log2 (N.land b (zero_mask P Q R))). apply N.bit_log2. exact E. }
    destruct Ex as (i & T). rewrite N.land_spec, zero_mask_bit in T by lia. apply andb_true_iff in T as [T1 T2]. apply andb_true_iff in T2 as [T2 T3].
    apply (squares_zero _ _ i); [apply in_indices; auto|]. unfold signature. apply N.leb_le in T2. apply N.ltb_lt in T3.
    destruct (N.ltb_spec i P); [lia|]. destruct (N.ltb_spec i (P + Q)); [lia|]. reflexivity.
Qed.

(** ** Validity tests *)
Definition subV (a b c : N) : bool := (Z.of_N b - Z.of_N a =? Z.of_N c)%Z.
Lemma subV_iff a b c : subV a b c = true <-> (a <= b)%N /\ c = (b - a)%N.
Proof. unfold subV. rewrite Z.eqb_eq. lia. Qed.
Definition eqsub (a b c : N) := eqR (IZR (Z.of_N b) - IZR (Z.of_N a)) (IZR (Z.of_N c)).
Lemma eqsub_V a b c : eqsub a b c = subV a b c.
Proof. unfold eqsub. rewrite <- minus_IZR, eqR_Z. reflexivity. Qed.
Lemma eqR_sym a b : eqR a b = eqR b a.
Proof. unfold eqR. destruct (Req_EM_T a b), (Req_EM_T b a); congruence. Qed.

Lemma gp_valid_ok F : valid_ok (gp_valid F) (fun _ _ _ => true).
Proof. intros l r k v _ _ _ _ _ _ [= <-]. split; [reflexivity|]. reflexivity. Qed.
Lemma minus_cond F l r k d : wf l = true -> wf r = true -> is_constant k = false \/ (exists a b c, l = CV a /\ r = CV b /\ k = CV c) -> minus_t F l r = Some d ->
  is_constant k = false \/ (plain_const d = true /\ plain_const k = true).
Proof. intros Wl Wr [K|(a & b & c & -> & -> & ->)] H; [auto|]. right. apply minus_const in H as ->. split; reflexivity. Qed.
Lemma lcont_valid_ok F : valid_ok (lcont_valid F) subV.
Proof.
  intros l r k v Wl Wr Wk Cl Cr D. unfold lcont_valid. destruct (minus_t F r l) as [d|] eqn:E; [|discriminate]. intros [= <-].
  destruct (minus_ok F r l d Wr Wl E) as [Wd Vd]. split; [apply mk_equal_wf; auto|]. intros g a b c A B C. rewrite <- eqsub_V. unfold eqsub.
  assert (D' : is_constant k = false \/ (exists a b c, r = CV a /\ l = CV b /\ k = CV c)) by (destruct D as [|(x & y & z & -> & -> & ->)]; eauto 8).
  destruct (minus_cond F r l k d Wr Wl D' E); apply equal_num; auto; apply Vd; auto.
Qed.
Lemma rcont_valid_ok F : valid_ok (rcont_valid F) (fun a b c => subV b a c).
Proof.
  intros l r k v Wl Wr Wk Cl Cr D. unfold rcont_valid. destruct (minus_t F l r) as [d|] eqn:E; [|discriminate]. intros [= <-].
  destruct (minus_ok F l r d Wl Wr E) as [Wd Vd]. split; [apply mk_equal_wf; auto|]. intros g a b c A B C. rewrite <- eqsub_V. unfold eqsub.
  destruct (minus_cond F l r k d Wl Wr D E); apply equal_num; auto; apply Vd; auto.
Qed.
Lemma cexp_k l r k : is_constant k = false \/ (exists a b c, l = CV a /\ r = CV b /\ k = CV c) -> cexp k.
Proof. intros [H|(a & b & c & -> & -> & ->)]; [left; auto|right; eauto]. Qed.
Lemma sp_valid_ok F : valid_ok (sp_valid F) (fun a b c => N.eqb c 0).
Proof.
  intros l r k v Wl Wr Wk Cl Cr D. unfold sp_valid. intros [= <-]. split; [apply mk_equal_wf; auto|]. intros g a b c A B C.
  replace (c =? 0)%N with (eqR (IZR (Z.of_N c)) 0). 2:{ change 0 with (IZR 0). rewrite eqR_Z. destruct c; reflexivity. }
  apply equal_num; [right; right; split; [apply cexp_plain, (cexp_k l r); auto|reflexivity]|exact C|reflexivity].
Qed.
Definition dotV (a b c : N) : bool := if (a <=? b)%N then subV a b c else subV b a c.
Lemma le_num g l r a b : numN g l a -> numN g r b -> istrue g (mk_le l r) (a <=? b)%N.
Proof.
  intros A B. apply le_ok. unfold numN, num in *. cbn [sem map fn_sem]. rewrite A, B. f_equal. f_equal.
  destruct (Rle_dec (IZR (Z.of_N a)) (IZR (Z.of_N b))) as [L|L], (N.leb_spec a b) as [Q|Q]; auto; exfalso.
  - apply le_IZR in L. lia.
  - apply L, IZR_le. lia.
Qed.
Lemma dot_valid_ok F : valid_ok (dot_valid F) dotV.
Proof.
  intros l r k v Wl Wr Wk Cl Cr D. unfold dot_valid. destruct (minus_t F r l) as [d|] eqn:E; [|discriminate]. destruct (minus_t F l r) as [e|] eqn:E'; [|discriminate]. intros [= <-].
  destruct (minus_ok F r l d Wr Wl E) as [Wd Vd]. destruct (minus_ok F l r e Wl Wr E') as [We Ve].
  assert (D' : is_constant k = false \/ (exists a b c, r = CV a /\ l = CV b /\ k = CV c)) by (destruct D as [|(x & y & z & -> & -> & ->)]; eauto 8).
  split; [apply mk_if_wf; [apply mk_le_wf; auto|apply mk_equal_wf; auto|apply mk_equal_wf; auto]|]. intros g a b c A B C.
  apply (if_num _ _ _ _ _ _ (le_num g l r a b A B)). unfold dotV. destruct (a <=? b)%N.
  - rewrite <- eqsub_V. unfold eqsub. rewrite eqR_sym. destruct (minus_cond F r l k d Wr Wl D' E) as [|[]]; apply equal_num; auto; apply Vd; auto.
  - rewrite <- eqsub_V. unfold eqsub. rewrite eqR_sym. destruct (minus_cond F l r k e Wl Wr D E') as [|[]]; apply equal_num; auto; apply Ve; auto.
Qed.
Definition hipV (a b c : N) : bool := if ((a =? 0) || (b =? 0))%N then false else dotV a b c.
Lemma zero_num g l a : cexp l -> numN g l a -> istrue g (mk_equal l (CV 0)) (a =? 0)%N.
Proof.
  intros C A. replace (a =? 0)%N with (eqR (IZR (Z.of_N a)) 0). 2:{ change 0 with (IZR 0). rewrite eqR_Z. destruct a; reflexivity. }
  apply equal_num; [right; right; split; [apply cexp_plain; auto|reflexivity]|exact A|reflexivity].
Qed.
Lemma hip_valid_ok F : valid_ok (hip_valid F) hipV.
Proof.
  intros l r k v Wl Wr Wk Cl Cr D H. unfold hip_valid in H.
  pose proof (dot_valid_ok F l r k) as K. unfold dot_valid in K. destruct (minus_t F r l) as [d|]; [|discriminate]. destruct (minus_t F l r) as [e|]; [|discriminate].
  destruct (K _ Wl Wr Wk Cl Cr D eq_refl) as [W V]. injection H as <-. split.
  - apply mk_if_wf; [apply mk_lor_wf; apply mk_equal_wf; auto|reflexivity|exact W].
  - intros g a b c A B C. assert (T : istrue g (mk_lor (mk_equal l (CV 0)) (mk_equal r (CV 0))) ((a =? 0) || (b =? 0))%N).
    { apply lor_ok. pose proof (zero_num g l a Cl A) as Z1. pose proof (zero_num g r b Cr B) as Z2. unfold istrue in *. cbn [sem map fn_sem]. rewrite Z1, Z2. reflexivity. }
    apply (if_num _ _ _ _ _ _ T). unfold hipV. destruct ((a =? 0) || (b =? 0))%N; [reflexivity|]. apply (V g); auto.
Qed.

(** ** Bounds on the declared grades *)
Lemma gp_grades_lt L R n : (n <= 63)%N -> (gp_grades L R n < 2 ^ 64)%N.
Proof.
  intros H. unfold gp_grades. rewrite all_ones_shift by lia. rewrite N.land_comm. pose proof (pow2_pos (n + 1)). apply land_lt.
  pose proof (pow_le_mono (n + 1) 64 ltac:(lia)). lia.
Qed.
Lemma div_lt R k : (R < 2 ^ 64 -> R / k < 2 ^ 64)%N.
Proof. intros H. destruct (N.eq_dec k 0) as [->|Z]; [destruct R; reflexivity|]. apply N.le_lt_trans with R; [|exact H]. apply N.div_le_upper_bound; [exact Z|]. nia. Qed.
Lemma lcont_rec_lt fuel : forall L R, (R < 2 ^ 64)%N -> (lcont_grades_rec fuel L R < 2 ^ 64)%N.
Proof.
  induction fuel as [|f IH]; intros L R H; [reflexivity|]. cbn [lcont_grades_rec]. destruct (L =? 0)%N; [reflexivity|]. apply lor_lt; [apply IH; auto|apply div_lt; auto].
Qed.
Lemma rcont_rec_lt fuel : forall L R, (L < 2 ^ 64)%N -> (rcont_grades_rec fuel L R < 2 ^ 64)%N.
Proof.
  induction fuel as [|f IH]; intros L R H; [reflexivity|]. cbn [rcont_grades_rec]. destruct (R =? 0)%N; [reflexivity|]. apply lor_lt; [apply IH; auto|apply div_lt; auto].
Qed.

(** ** The products *)
Section Orth.
Variables (n : N) (q : N -> Rdefinitions.R) (factor : expr -> expr) (phi : N -> Rdefinitions.R).
Hypothesis HN : (n <= 63)%N.
Hypothesis FO : factor_ok factor phi.
Hypothesis phi_sq : forall i j, (i < 2 ^ n)%N -> phi (N.land i j) = squares q (N.land i j).

Lemma gp_orth_ok F : mult_ok (orth F n gp_grades (gp_valid F) factor) (gp_blade q) n.
Proof.
  apply (orth_ok F n _ _ _ _ _ _ HN (gp_valid_ok F) FO).
  - intros L R' _ _. apply gp_grades_lt. exact HN.
  - intros L R' a b k HL HR TL TR An Bn Kn H1 H2 H3 E _. apply (gp_grades_ok L R' n a b k); auto.
  - intros i j Hi Hj. unfold gp_blade. rewrite phi_sq by auto. reflexivity.
Qed.
Lemma grade_part_1 k c b : grade_part k [(c, b)] = if N.eqb (grade_of b) k then [(c, b)] else [].
Proof. cbn [grade_part filter snd]. destruct (N.eqb _ _); reflexivity. Qed.
Lemma lcont_orth_ok F : mult_ok (orth F n lcont_grades (lcont_valid F) factor) (lcont_blade q) n.
Proof.
  apply (orth_ok F n _ _ _ _ _ _ HN (lcont_valid_ok F) FO).
  - intros L R' _ HR. apply lcont_rec_lt. exact HR.
  - intros L R' a b k HL HR TL TR An Bn Kn H1 H2 H3 E V. apply subV_iff in V as [V ->]. apply lcont_rec_ok; auto using pop_le_64.
  - intros i j Hi Hj. unfold lcont_blade, gp_blade. rewrite grade_part_1, phi_sq by auto.
    destruct (subV _ _ _) eqn:V.
    + apply subV_iff in V as [V ->]. apply N.leb_le in V. rewrite V, N.eqb_refl. reflexivity.
    + destruct (N.leb_spec (grade_of i) (grade_of j)) as [L|L]; [|reflexivity]. destruct (N.eqb_spec (grade_of (N.lxor i j)) (grade_of j - grade_of i)) as [E|_]; [|reflexivity].
      rewrite (proj2 (subV_iff _ _ _) (conj L E)) in V. discriminate.
Qed.
Lemma rcont_orth_ok F : mult_ok (orth F n rcont_grades (rcont_valid F) factor) (rcont_blade q) n.
Proof.
  apply (orth_ok F n _ _ _ _ _ _ HN (rcont_valid_ok F) FO).
  - intros L R' HL _. apply rcont_rec_lt. exact HL.
  - intros L R' a b k HL HR TL TR An Bn Kn H1 H2 H3 E V. apply subV_iff in V as [V ->]. apply rcont_rec_ok; auto using pop_le_64.
  - intros i j Hi Hj. unfold rcont_blade, gp_blade. rewrite grade_part_1, phi_sq by auto.
    destruct (subV _ _ _) eqn:V.
    + apply subV_iff in V as [V ->]. apply N.leb_le in V. rewrite V, N.eqb_refl. reflexivity.
    + destruct (N.leb_spec (grade_of j) (grade_of i)) as [L|L]; [|reflexivity]. destruct (N.eqb_spec (grade_of (N.lxor i j)) (grade_of i - grade_of j)) as [E|_]; [|reflexivity].
      rewrite (proj2 (subV_iff _ _ _) (conj L E)) in V. discriminate.
Qed.
Lemma sp_orth_ok F : mult_ok (orth F n sp_grades (sp_valid F) factor) (sp_blade q) n.
Proof.
  apply (orth_ok F n _ _ _ _ _ _ HN (sp_valid_ok F) FO).
  - intros L R' _ _. unfold sp_grades. destruct (negb _); reflexivity.
  - intros L R' a b k HL HR TL TR An Bn Kn H1 H2 H3 E V. apply N.eqb_eq in V. subst k. assert (a = b) by lia. subst b.
    unfold sp_grades. destruct (N.eqb_spec (N.land L R') 0) as [Z|Z]; [|reflexivity].
    assert (T : N.testbit (N.land L R') a = true) by (rewrite N.land_spec, TL, TR; reflexivity). rewrite Z, N.bits_0 in T. discriminate.
  - intros i j Hi Hj. unfold sp_blade, gp_blade. rewrite grade_part_1, phi_sq by auto. reflexivity.
Qed.
Lemma dotV_iff a b c : dotV a b c = true <-> c = absdiff a b.
Proof. unfold dotV, absdiff. destruct (N.leb_spec a b); rewrite subV_iff; lia. Qed.
Lemma dot_grades_ok L R' a b : (L < 2 ^ 64)%N -> (R' < 2 ^ 64)%N -> N.testbit L a = true -> N.testbit R' b = true ->
  N.testbit (N.lor (lcont_grades_rec 64 L R') (lcont_grades_rec 64 R' L)) (absdiff a b) = true.
Proof.
  intros HL HR TL TR. rewrite N.lor_spec. unfold absdiff. destruct (N.leb_spec a b).
  - rewrite lcont_rec_ok; auto using pop_le_64.
  - rewrite (lcont_rec_ok b a L); auto using pop_le_64, orb_true_r. lia.
Qed.
Lemma dot_orth_ok F : mult_ok (orth F n dot_grades (dot_valid F) factor) (dot_blade q) n.
Proof.
  apply (orth_ok F n _ _ _ _ _ _ HN (dot_valid_ok F) FO).
  - intros L R' HL HR. apply lor_lt; apply lcont_rec_lt; auto.
  - intros L R' a b k HL HR TL TR An Bn Kn H1 H2 H3 E V. apply dotV_iff in V as ->. apply dot_grades_ok; auto.
  - intros i j Hi Hj. unfold dot_blade, gp_blade. rewrite grade_part_1, phi_sq by auto.
    destruct (dotV _ _ _) eqn:V.
    + apply dotV_iff in V as ->. rewrite N.eqb_refl. reflexivity.
    + destruct (N.eqb_spec (grade_of (N.lxor i j)) (absdiff (grade_of i) (grade_of j))) as [E|_]; [|reflexivity].
      rewrite (proj2 (dotV_iff _ _ _) E) in V. discriminate.
Qed.
Lemma drop_scalar_bit L a : (0 < a)%N -> N.testbit (N.lxor (N.lor L 1) 1) a = N.testbit L a.
Proof. intros H. rewrite N.lxor_spec, N.lor_spec. assert (E : N.testbit 1 a = false) by (apply N.bits_above_log2; cbn; lia). rewrite E, orb_false_r, xorb_false_r. reflexivity. Qed.
Lemma drop_scalar_lt L : (L < 2 ^ 64)%N -> (N.lxor (N.lor L 1) 1 < 2 ^ 64)%N.
Proof. intros H. apply lxor_lt; [apply lor_lt; [auto|reflexivity]|reflexivity]. Qed.
Lemma hip_orth_ok F : mult_ok (orth F n hip_grades (hip_valid F) factor) (hip_blade q) n.
Proof.
  apply (orth_ok F n _ _ _ _ _ _ HN (hip_valid_ok F) FO).
  - intros L R' HL HR. apply lor_lt; apply lcont_rec_lt; apply drop_scalar_lt; auto.
  - intros L R' a b k HL HR TL TR An Bn Kn H1 H2 H3 E V. unfold hipV in V. destruct (N.eqb_spec a 0) as [|Za]; [discriminate|]. destruct (N.eqb_spec b 0) as [|Zb]; [discriminate|].
    apply dotV_iff in V as ->. apply dot_grades_ok; auto using drop_scalar_lt; rewrite drop_scalar_bit; auto; lia.
  - intros i j Hi Hj. unfold hip_blade, hipV. destruct (_ || _)%bool; [reflexivity|]. unfold dot_blade, gp_blade. rewrite grade_part_1, phi_sq by auto.
    destruct (dotV _ _ _) eqn:V.
    + apply dotV_iff in V as ->. rewrite N.eqb_refl. reflexivity.
    + destruct (N.eqb_spec (grade_of (N.lxor i j)) (absdiff (grade_of i) (grade_of j))) as [E|_]; [|reflexivity].
      rewrite (proj2 (dotV_iff _ _ _) E) in V. discriminate.
Qed.

End Orth.

(** In the space of signature (P, Q, R). *)
Section Signed.
Variables (P Q R : N).
Hypothesis HN : (P + Q + R <= 63)%N.
Let n := (P + Q + R)%N.
Let q := signature P Q.

Lemma phi_sq i j : (i < 2 ^ n)%N -> sphi P Q R (N.land i j) = squares q (N.land i j).
Proof. intros Hi. apply sphi_squares; [unfold n in *; lia|]. apply land_lt. exact Hi. Qed.
Lemma gp_map_ok F : mult_ok (gp_map F P Q R) (gp_blade q) n.
Proof. exact (gp_orth_ok n q _ _ HN (signed_factor_ok P Q R) phi_sq F). Qed.
Lemma lcont_map_ok F : mult_ok (lcont_map F P Q R) (lcont_blade q) n.
Proof. exact (lcont_orth_ok n q _ _ HN (signed_factor_ok P Q R) phi_sq F). Qed.
Lemma rcont_map_ok F : mult_ok (rcont_map F P Q R) (rcont_blade q) n.
Proof. exact (rcont_orth_ok n q _ _ HN (signed_factor_ok P Q R) phi_sq F). Qed.
Lemma sp_map_ok F : mult_ok (sp_map F P Q R) (sp_blade q) n.
Proof. exact (sp_orth_ok n q _ _ HN (signed_factor_ok P Q R) phi_sq F). Qed.
Lemma dot_map_ok F : mult_ok (dot_map F P Q R) (dot_blade q) n.
Proof. exact (dot_orth_ok n q _ _ HN (signed_factor_ok P Q R) phi_sq F). Qed.
Lemma hip_map_ok F : mult_ok (hip_map F P Q R) (hip_blade q) n.
Proof. exact (hip_orth_ok n q _ _ HN (signed_factor_ok P Q R) phi_sq F). Qed.
End Signed.

(** In the space with the real metric (all squares 1), 63 dimensions, which the library uses when an argument is a scalar. *)
Lemma squares_1 b : squares (fun _ => 1) b = 1.
Proof. unfold squares. induction (indices b) as [|x l IH]; cbn [map fold_right]; [reflexivity|]. rewrite IH. lra. Qed.
Lemma real_sq i j : (i < 2 ^ 63)%N -> 1 = squares (fun _ => 1) (N.land i j).
Proof. intros _. symmetry. apply squares_1. Qed.
Lemma le63 : (63 <= 63)%N. Proof. apply N.le_refl. Qed.
Lemma gp_real_map_ok F : mult_ok (gp_real_map F) (gp_blade (fun _ => 1)) 63.
Proof. exact (gp_orth_ok 63 _ _ _ le63 real_factor_ok real_sq F). Qed.
Lemma lcont_real_map_ok F : mult_ok (lcont_real_map F) (lcont_blade (fun _ => 1)) 63.
Proof. exact (lcont_orth_ok 63 _ _ _ le63 real_factor_ok real_sq F). Qed.
Lemma rcont_real_map_ok F : mult_ok (rcont_real_map F) (rcont_blade (fun _ => 1)) 63.
Proof. exact (rcont_orth_ok 63 _ _ _ le63 real_factor_ok real_sq F). Qed.
Lemma sp_real_map_ok F : mult_ok (sp_real_map F) (sp_blade (fun _ => 1)) 63.
Proof. exact (sp_orth_ok 63 _ _ _ le63 real_factor_ok real_sq F). Qed.
Lemma dot_real_map_ok F : mult_ok (dot_real_map F) (dot_blade (fun _ => 1)) 63.
Proof. exact (dot_orth_ok 63 _ _ _ le63 real_factor_ok real_sq F). Qed.
Lemma hip_real_map_ok F : mult_ok (hip_real_map F) (hip_blade (fun _ => 1)) 63.
Proof. exact (hip_orth_ok 63 _ _ _ le63 real_factor_ok real_sq F). Qed.
