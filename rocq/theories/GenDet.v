(** Proofs: the helpers on constant bitsets and the compile-time determinant. *)
From Coq Require Import NArith ZArith List Bool Reals Lra Lia.
From Verif Require Import Bits BitsBase SpecBits BitsProofs BitsOnes Expr Sem Wf SpecMv MvBase Simp SimpProofs SimpProofs2 Comp Mapping GradeProofs MappingProofs General Clifford Clifford2 Clifford3 Wick Wick2 SpecGeneral DetProofs.
Import ListNotations.
Local Open Scope R_scope.
Local Opaque sign_of indices idx.

(** ** Lists of indices *)
Lemma indices_nil b : (b < 2 ^ 64)%N -> indices b = [] -> b = 0%N.
Proof. intros H E. rewrite <- (bits_indices b H), E. reflexivity. Qed.
Lemma bits_64 l : incr l -> (bits l < 2 ^ 64)%N.
Proof. intros I. apply bits_lt; [exact I|apply incr_lt, I]. Qed.
Lemma low_cons x l : incr (x :: l) -> rightmost_set_bit (bits (x :: l)) = (2 ^ x)%N.
Proof.
  intros I. assert (T : N.testbit (bits (x :: l)) x = true) by (apply bits_bit; [exact I|left; reflexivity]).
  destruct (rightmost_set_bit_correct (bits (x :: l))) as (i & R & Ti & J); [pose proof (nonzero_bit _ _ T); lia|apply bits_64, I|]. rewrite R. f_equal.
  apply bits_bit in Ti; [|exact I]. destruct Ti as [->|Hi]; [reflexivity|]. pose proof (proj1 (proj2 I) i Hi) as L. rewrite (J x L) in T. discriminate.
Qed.
Lemma drop_cons x l : N.lxor (bits (x :: l)) (2 ^ x) = bits l.
Proof. rewrite bits_cons. apply flip2. Qed.

(** ** rightmost_one, indirect_element, indirect_subset *)
Lemma rightmost_const x l : incr (x :: l) -> rightmost_one (CBits (bits (x :: l))) = CBits (2 ^ x).
Proof. intros I. unfold rightmost_one. cbn [mk_uminus]. rewrite <- (low_cons x l I). generalize (bits (x :: l)). intros b. unfold rightmost_set_bit. destruct b; reflexivity. Qed.
Lemma xor_const a b : mk_xor (CBits a) (CBits b) = CBits (N.lxor a b). Proof. destruct a; reflexivity. Qed.
Lemma or_const a b : mk_or (CBits a) (CBits b) = CBits (N.lor a b). Proof. destruct a; reflexivity. Qed.
Lemma element_const i : forall l, incr l -> (i < length l)%nat -> indirect_element (CBits (bits l)) i = CBits (2 ^ nth i l 0%N).
Proof.
  induction i as [|i IH]; intros [|x l] I H; cbn [length] in H; try lia; cbn [indirect_element nth]; rewrite (rightmost_const x l I); [reflexivity|].
  rewrite xor_const, drop_cons. apply IH; [exact (proj2 (proj2 I))|lia].
Qed.
Definition sel (L : list N) (T : list N) : list N := map (fun i => nth (N.to_nat i) L 0%N) T.
Lemma incr_nth L : incr L -> forall i j, (i < j)%nat -> (j < length L)%nat -> (nth i L 0 < nth j L 0)%N.
Proof.
  induction L as [|x L IH]; intros I i j H HJ; cbn [length] in HJ; [lia|]. destruct j as [|j]; [lia|]. destruct i as [|i]; cbn [nth].
  - apply (proj1 (proj2 I)), nth_In. lia.
  - apply IH; [exact (proj2 (proj2 I))|lia|lia].
Qed.
Lemma sel_incr L T : incr L -> incr T -> (forall i, In i T -> (N.to_nat i < length L)%nat) -> incr (sel L T).
Proof.
  intros I. induction T as [|t T IH]; intros IT H; cbn [sel map incr]; [exact Logic.I|]. split; [|split].
  - apply (incr_lt L I), nth_In, H. left; reflexivity.
  - intros y Y. apply in_map_iff in Y. destruct Y as (u & <- & U). apply incr_nth; [exact I| |apply H; right; exact U]. pose proof (proj1 (proj2 IT) u U). lia.
  - apply IH; [exact (proj2 (proj2 IT))|]. intros i Hi. apply H. right; exact Hi.
Qed.
Lemma land_disjoint x l : incr (x :: l) -> N.land (2 ^ x) (bits l) = 0%N.
Proof. intros I. rewrite land_pow2_bit, (bits_high l x I). reflexivity. Qed.
Lemma subset_const L : incr L -> forall T fuel, incr T -> (forall i, In i T -> (N.to_nat i < length L)%nat) -> (length T <= fuel)%nat ->
  indirect_subset fuel (CBits (bits L)) (bits T) = CBits (bits (sel L T)).
Proof.
  intros IL. induction T as [|t T IH]; intros fuel IT H HF.
  - destruct fuel; reflexivity.
  - cbn [length] in HF. destruct fuel as [|fuel]; [lia|]. cbn [indirect_subset].
    assert (T0 : N.testbit (bits (t :: T)) t = true) by (apply bits_bit; [exact IT|left; reflexivity]).
    destruct (N.eqb_spec (bits (t :: T)) 0) as [Z|_]; [destruct (nonzero_bit _ _ T0 Z)|].
    rewrite (low_cons t T IT), (set_bit_index_correct t (proj1 IT)), drop_cons.
    rewrite element_const by (auto; apply H; left; reflexivity). rewrite IH; [|exact (proj2 (proj2 IT))|intros i Hi; apply H; right; exact Hi|lia].
    rewrite or_const. f_equal. pose proof (sel_incr L (t :: T) IL IT H) as IS. cbn [sel map] in IS |- *. rewrite lor_lxor by exact (land_disjoint _ _ IS). reflexivity.
Qed.

(** ** The determinant *)
Section Det.
Variables (F : nat) (n : N) (entry : expr -> expr -> option expr) (g : env) (A : N -> N -> R).
Hypothesis Hn : (n <= 63)%N.
Hypothesis HE : forall i j e, (i < n)%N -> (j < n)%N -> entry (CV (Z.of_N i + 1)) (CV (Z.of_N j + 1)) = Some e -> wf e = true /\ num g e (A i j).

Lemma index_const i r : (i < 64)%N -> index_of F (CBits (2 ^ i)) = Some r -> r = CV (Z.of_N i + 1).
Proof.
  intros H. unfold index_of. cbn [mk_dec mk_count]. change (ones (dec64 (2 ^ i))) with (set_bit_index (2 ^ i)). rewrite (set_bit_index_correct i H). intros D. apply add_const in D. rewrite D. f_equal. lia.
Qed.
Lemma entry_const i j e : (i < n)%N -> (j < n)%N -> entry_at F entry (CBits (2 ^ i)) (CBits (2 ^ j)) = Some e -> wf e = true /\ num g e (A i j).
Proof.
  intros Hi Hj. unfold entry_at. destruct (index_of F (CBits (2 ^ i))) as [a|] eqn:E1; [|discriminate]. destruct (index_of F (CBits (2 ^ j))) as [b|] eqn:E2; [|discriminate].
  apply index_const in E1; [|lia]. apply index_const in E2; [|lia]. subst a b. apply HE; auto.
Qed.
Lemma mul_num a b r x y : eng F OMul a b = Some r -> wf a = true /\ num g a x -> wf b = true /\ num g b y -> wf r = true /\ num g r (x * y).
Proof. intros E [Wa Na] [Wb Nb]. destruct (s_mul _ (eng_ok F) a b r Wa Wb E) as [W K]. split; [exact W|apply K; auto]. Qed.
Lemma add_num a b r x y : eng F OAdd a b = Some r -> wf a = true /\ num g a x -> wf b = true /\ num g b y -> wf r = true /\ num g r (x + y).
Proof. intros E [Wa Na] [Wb Nb]. destruct (s_add _ (eng_ok F) a b r Wa Wb E) as [W K]. split; [exact W|apply K; auto]. Qed.
Lemma cv_num z : wf (CV z) = true /\ num g (CV z) (IZR z).
Proof. split; reflexivity. Qed.

(** One term of the expansion, by position. *)
Definition without (i : nat) (l : list N) : list N := firstn i l ++ skipn (S i) l.
Definition rterm (f : N -> R) (a : list N) (phi : list N -> R) (i : nat) : R := (if Nat.even i then 1 else -1) * f (nth i a 0%N) * phi (without i a).
Fixpoint upto (t : nat -> R) (k : nat) : R := match k with O => 0 | S j => upto t j + t j end.
Lemma upto_S t k : upto t (S k) = t O + upto (fun i => t (S i)) k.
Proof. induction k as [|k IH]; [cbn [upto]; ring|]. change (upto t (S (S k))) with (upto t (S k) + t (S k)). rewrite IH. cbn [upto]. ring. Qed.
Lemma upto_ext t u k : (forall i, (i < k)%nat -> t i = u i) -> upto t k = upto u k.
Proof. induction k as [|k IH]; intros H; cbn [upto]; [reflexivity|]. rewrite IH, (H k) by (auto with arith); reflexivity. Qed.
Lemma upto_opp t k : upto (fun i => - t i) k = - upto t k.
Proof. induction k as [|k IH]; cbn [upto]; [ring|]. rewrite IH. ring. Qed.
Lemma rsum_upto f a : forall phi, rsum f a phi = upto (rterm f a phi) (length a).
Proof.
  induction a as [|x a IH]; intros phi; cbn [rsum length]; [reflexivity|]. rewrite upto_S, (IH (fun l => phi (x :: l))).
  unfold Rminus. rewrite <- upto_opp. rewrite (upto_ext (fun i => - rterm f a (fun l => phi (x :: l)) i) (fun i => rterm f (x :: a) phi (S i)) (length a)).
  - f_equal. unfold rterm, without. cbn [nth firstn skipn app Nat.even]. ring.
  - intros i _. unfold rterm, without. cbn [nth firstn app]. change (skipn (S (S i)) (x :: a)) with (skipn (S i) a). rewrite Nat.even_succ, <- Nat.negb_even. destruct (Nat.even i); cbn [negb]; ring.
Qed.
Lemma without_bits i : forall l, (i < length l)%nat -> N.lxor (bits l) (2 ^ nth i l 0%N) = bits (without i l).
Proof.
  unfold without. induction i as [|i IH]; intros [|x l] H; cbn [length] in H; try lia; cbn [nth firstn app].
  - change (skipn 1 (x :: l)) with l. apply drop_cons.
  - change (skipn (S (S i)) (x :: l)) with (skipn (S i) l). rewrite !bits_cons, flip_comm, IH by lia. reflexivity.
Qed.
Lemma without_in i l y : In y (without i l) -> In y l.
Proof. unfold without. intros H. apply in_app_or in H. destruct H as [H|H]; [rewrite <- (firstn_skipn i l); apply in_or_app; auto|rewrite <- (firstn_skipn (S i) l); apply in_or_app; auto]. Qed.
Lemma without_incr i : forall l, incr l -> incr (without i l).
Proof.
  unfold without. induction i as [|i IH]; intros [|x l] I; cbn [firstn app].
  - exact I. - exact (proj2 (proj2 I)). - exact I.
  - change (skipn (S (S i)) (x :: l)) with (skipn (S i) l). cbn [incr]. split; [exact (proj1 I)|]. split; [|apply IH; exact (proj2 (proj2 I))].
    intros y Y. apply (proj1 (proj2 I)), (without_in i l y Y).
Qed.
Lemma without_len i l : (i < length l)%nat -> S (length (without i l)) = length l.
Proof. intros H. unfold without. rewrite app_length, firstn_length, skipn_length. lia. Qed.

Local Notation Bt := (fun i j => A j i).
Theorem determinant_ok N : forall s c e, incr s -> incr c -> (forall y, In y s -> (y < n)%N) -> (forall y, In y c -> (y < n)%N) ->
  length s = N -> length c = N -> determinant F entry N (CBits (bits s)) (CBits (bits c)) = Some e ->
  wf e = true /\ num g e (minor Bt s c).
Proof.
  induction N as [|M IH]; intros s c e Is Ic Ss Sc Ls Lc.
  - destruct s, c; try discriminate. cbn. intros [= <-]. exact (cv_num 1).
  - destruct s as [|x s]; [discriminate|]. destruct c as [|y c]; [discriminate|]. cbn [length] in Ls, Lc. injection Ls as Ls. injection Lc as Lc.
    assert (Hx : (x < n)%N) by (apply Ss; left; reflexivity). assert (Hy : (y < n)%N) by (apply Sc; left; reflexivity).
    destruct M as [|[|M']].
    + destruct s, c; try discriminate. cbn [determinant]. replace (bits [x]) with (2 ^ x)%N by (cbn; symmetry; apply N.lxor_0_r). replace (bits [y]) with (2 ^ y)%N by (cbn; symmetry; apply N.lxor_0_r).
      intros D. apply entry_const in D; auto. cbn [minor rsum]. replace (A x y * 1 - 0) with (A x y) by ring. exact D.
    + destruct s as [|x2 [|? ?]]; try discriminate. destruct c as [|y2 [|? ?]]; try discriminate. cbn [determinant].
      rewrite (rightmost_const x [x2] Is), (rightmost_const y [y2] Ic), !xor_const, !drop_cons.
      replace (bits [x2]) with (2 ^ x2)%N by (cbn; symmetry; apply N.lxor_0_r). replace (bits [y2]) with (2 ^ y2)%N by (cbn; symmetry; apply N.lxor_0_r).
      assert (Hx2 : (x2 < n)%N) by (apply Ss; right; left; reflexivity). assert (Hy2 : (y2 < n)%N) by (apply Sc; right; left; reflexivity).
      destruct (entry_at F entry (CBits (2 ^ x)) (CBits (2 ^ y))) as [a11|] eqn:E11; [|discriminate]. apply entry_const in E11; auto.
      destruct (entry_at F entry (CBits (2 ^ x)) (CBits (2 ^ y2))) as [a12|] eqn:E12; [|discriminate]. apply entry_const in E12; auto.
      destruct (entry_at F entry (CBits (2 ^ x2)) (CBits (2 ^ y))) as [a21|] eqn:E21; [|discriminate]. apply entry_const in E21; auto.
      destruct (entry_at F entry (CBits (2 ^ x2)) (CBits (2 ^ y2))) as [a22|] eqn:E22; [|discriminate]. apply entry_const in E22; auto.
      destruct (eng F OMul a11 a22) as [p|] eqn:P1; [|discriminate]. destruct (eng F OMul a21 a12) as [q|] eqn:P2; [|discriminate]. destruct (eng F OMul (CV (-1)) q) as [m|] eqn:P3; [|discriminate]. intros P4.
      pose proof (mul_num _ _ _ _ _ P1 E11 E22) as V1. pose proof (mul_num _ _ _ _ _ P2 E21 E12) as V2. pose proof (mul_num _ _ _ _ _ P3 (cv_num (-1)) V2) as V3. pose proof (add_num _ _ _ _ _ P4 V1 V3) as V4.
      cbn [minor rsum]. replace (A x y * (A x2 y2 * 1 - 0) - (A x y2 * (A x2 y * 1 - 0) - 0)) with (A x y * A x2 y2 + -1 * (A x2 y * A x y2)) by ring. exact V4.
    + remember (S (S M')) as M eqn:EM. cbn [minor]. rewrite rsum_upto.
      assert (K : forall ci e, (1 <= ci)%nat -> (ci <= length (y :: c))%nat ->
        (fix sum (ci : nat) : option expr :=
        match ci with
        | O => None
        | S O =>
          let col1 := rightmost_one (CBits (bits (y :: c))) in
          e <- entry_at F entry (CBits (2 ^ x)) col1 ;; m <- determinant F entry M (CBits (bits s)) (mk_xor (CBits (bits (y :: c))) col1) ;; eng F OMul e m
        | S cj =>
          let coli := indirect_element (CBits (bits (y :: c))) cj in
          s0 <- sum cj ;;
          e <- entry_at F entry (CBits (2 ^ x)) coli ;; p <- eng F OMul (CV (if Nat.even ci then -1 else 1)) e ;;
          m <- determinant F entry M (CBits (bits s)) (mk_xor (CBits (bits (y :: c))) coli) ;; q <- eng F OMul p m ;;
          eng F OAdd s0 q
        end) ci = Some e -> wf e = true /\ num g e (upto (rterm (fun z => A x z) (y :: c) (minor Bt s)) ci)).
      { assert (T : forall i m, (i < length (y :: c))%nat -> determinant F entry M (CBits (bits s)) (mk_xor (CBits (bits (y :: c))) (CBits (2 ^ nth i (y :: c) 0%N))) = Some m ->
          wf m = true /\ num g m (minor Bt s (without i (y :: c)))).
        { intros i m Hi. rewrite xor_const, without_bits by exact Hi. apply IH.
          - exact (proj2 (proj2 Is)). - apply without_incr, Ic. - intros z Z. apply Ss. right; exact Z. - intros z Z. apply Sc, (without_in i _ _ Z).
          - exact Ls. - pose proof (without_len i (y :: c) Hi) as Q. cbn [length] in Q. lia. }
        induction ci as [|ci IHc]; intros d H1 H2; [lia|]. destruct ci as [|cj].
        - rewrite (rightmost_const y c Ic). cbv zeta. destruct (entry_at F entry (CBits (2 ^ x)) (CBits (2 ^ y))) as [a|] eqn:E1; [|discriminate]. apply entry_const in E1; auto.
          destruct (determinant F entry M (CBits (bits s)) (mk_xor (CBits (bits (y :: c))) (CBits (2 ^ y)))) as [m|] eqn:E2; [|discriminate]. apply (T 0%nat m) in E2; [|cbn [length]; lia]. intros E3.
          pose proof (mul_num _ _ _ _ _ E3 E1 E2) as V. cbn [upto]. unfold rterm. cbn [Nat.even nth]. replace (0 + 1 * A x y * minor Bt s (without 0 (y :: c))) with (A x y * minor Bt s (without 0 (y :: c))) by ring. exact V.
        - rewrite (element_const (S cj) (y :: c) Ic) by lia. cbv zeta. cbn beta iota.
          match goal with |- match ?t with Some _ => _ | None => _ end = _ -> _ => destruct t as [s0|] eqn:E0; [|discriminate] end. clear E0. pose proof (IHc s0 ltac:(lia) ltac:(lia) eq_refl) as E0.
          assert (Hz : (nth (S cj) (y :: c) 0 < n)%N) by (apply Sc, nth_In; lia).
          destruct (entry_at F entry (CBits (2 ^ x)) (CBits (2 ^ nth (S cj) (y :: c) 0%N))) as [a|] eqn:E1; [|discriminate]. apply entry_const in E1; auto.
          destruct (eng F OMul _ a) as [p|] eqn:E2; [|discriminate]. pose proof (mul_num _ _ _ _ _ E2 (cv_num _) E1) as V2.
          destruct (determinant F entry M (CBits (bits s)) (mk_xor (CBits (bits (y :: c))) (CBits (2 ^ nth (S cj) (y :: c) 0%N)))) as [m|] eqn:E3; [|discriminate]. apply (T (S cj) m) in E3; [|lia].
          destruct (eng F OMul p m) as [q|] eqn:E4; [|discriminate]. pose proof (mul_num _ _ _ _ _ E4 V2 E3) as V4. intros E5. pose proof (add_num _ _ _ _ _ E5 E0 V4) as V5.
          change (upto (rterm (fun z => A x z) (y :: c) (minor Bt s)) (S (S cj))) with (upto (rterm (fun z => A x z) (y :: c) (minor Bt s)) (S cj) + rterm (fun z => A x z) (y :: c) (minor Bt s) (S cj)).
          unfold rterm at 2. destruct V5 as [W5 V5]. split; [exact W5|]. revert V5. rewrite (Nat.even_succ (S cj)), <- Nat.negb_even.
          destruct (Nat.even (S cj)); cbn [negb]; exact (fun v => v). }
      intros D. change (length (y :: c)) with (S (length c)). rewrite Lc. apply (K (S M) e); [lia|cbn [length]; lia|]. subst M. cbn [determinant] in D |- *. rewrite (rightmost_const x s Is), xor_const, drop_cons in D. exact D.
Qed.
End Det.

(** ** The determinant, in terms of the Leibniz formula *)
Theorem determinant_leibniz F n entry g (A : N -> N -> R) rows cols e : (n <= 63)%N ->
  (forall i j e, (i < n)%N -> (j < n)%N -> entry (CV (Z.of_N i + 1)) (CV (Z.of_N j + 1)) = Some e -> wf e = true /\ num g e (A i j)) ->
  (rows < 2 ^ n)%N -> (cols < 2 ^ n)%N -> grade_of rows = grade_of cols ->
  determinant F entry (N.to_nat (grade_of cols)) (CBits rows) (CBits cols) = Some e ->
  wf e = true /\ num g e (leibniz A (indices rows) (indices cols)).
Proof.
  intros Hn HE Hr Hc Hg D. assert (Hl : length (indices rows) = length (indices cols)) by (unfold grade_of in Hg; lia).
  rewrite (minor_leibniz A (indices rows) (indices cols) (indices_incr cols) Hl).
  apply (determinant_ok F n entry g A Hn HE (length (indices cols))); try apply indices_incr; try (intros y; apply indices_below; assumption); auto.
  rewrite (bits_indices rows), (bits_indices cols) by (apply (pow2_64 n); [lia|assumption]). unfold grade_of in D. rewrite Nnat.Nat2N.id in D. exact D.
Qed.
