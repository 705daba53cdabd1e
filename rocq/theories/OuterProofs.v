(** The exterior and the regressive product of blades. *)
From Coq Require Import NArith ZArith List Bool Reals Lra Lia Setoid Morphisms.
From Verif Require Import Bits SpecBits BitsBase BitsOnes BitsProofs Expr ExprBase Sem Wf SpecMv MvBase RPowProofs Simp SimpProofs SimpProofs2 SimpMono SmartProofs.
From Verif Require Import Comp CompProofs CompProofs2 Mapping GradeProofs MappingProofs LinProofs.
Import ListNotations.
Local Open Scope R_scope.

(** ** Exterior product *)
Lemma op_rec_lt all fuel : (all < 2 ^ 64)%N -> forall L R, (op_grades_rec fuel all L R < 2 ^ 64)%N.
Proof.
  intros H. induction fuel as [|f IH]; intros L R; [reflexivity|]. cbn [op_grades_rec]. destruct (L =? 0)%N; [reflexivity|].
  apply lor_lt; [apply IH|]. rewrite N.land_comm. apply land_lt. exact H.
Qed.
Lemma op_all_mask n : (n <= 63)%N -> op_all n = (2 ^ (n + 1) - 1)%N.
Proof. intros H. apply all_ones_shift. lia. Qed.
Lemma op_ps n : (n <= 63)%N -> N.shiftr (op_all n) 1 = (2 ^ n - 1)%N.
Proof.
  intros H. rewrite op_all_mask by exact H. apply N.bits_inj. intros i. rewrite N.shiftr_spec', !testbit_mask.
  destruct (N.ltb_spec (i + 1) (n + 1)), (N.ltb_spec i n); auto; lia.
Qed.
Lemma land_0_grade a b : (a < 2 ^ 64)%N -> (grade_of a + grade_of b = grade_of (N.lor a b))%N <-> N.land a b = 0%N.
Proof.
  intros H. pose proof (grade_lor a b) as E. split; intros Q.
  - apply grade_0; [apply land_lt; exact H|lia].
  - rewrite Q, grade_of_0 in E. lia.
Qed.
Theorem op_map_ok F n : (n <= 63)%N -> mult_ok (op_map F n) op_blade n.
Proof.
  intros Hn x y m Ox Oy. unfold op_map. destruct (grades_fit n x y); [|discriminate].
  destruct (blade_bits x Ox) as (l & -> & Wl & Bl & Pl & Dl & Tl). destruct (blade_bits y Oy) as (r & -> & Wr & Br & Pr & Dr & Tr).
  set (pg := op_grades n (possible_grades x) (possible_grades y)).
  destruct (deduce_blade pg (mk_or l r)) as [cand|] eqn:Ec; [|discriminate].
  destruct (eng F OAdd (mk_count l) (mk_count r)) as [s|] eqn:Es; [|discriminate]. intros [= <-].
  destruct (mk_or_bexp l r Bl Br Wl Wr) as [Bx Wx].
  destruct (mk_count_cexp l Bl Wl) as [Cl Wcl]. destruct (mk_count_cexp r Br Wr) as [Cr Wcr]. destruct (mk_count_cexp _ Bx Wx) as [Cx Wcx].
  destruct (s_add _ (eng_ok F) _ _ _ Wcl Wcr Es) as [Ws Vs].
  assert (Kc : is_constant (mk_count (mk_or l r)) = false \/ (plain_const s = true /\ plain_const (mk_count (mk_or l r)) = true)).
  { destruct (mk_or_shape l r Bl Br) as [(b & c & -> & -> & ->)|[N _]].
    - right. cbn [mk_count] in Es |- *. apply add_const in Es as ->. split; reflexivity.
    - left. destruct (mk_count_shape _ Bx) as [(b & E & _)|[_ E]]; [rewrite E in N; discriminate|exact E]. }
  set (test := if N.eqb pg 0 then CBool false else mk_equal s (mk_count (mk_or l r))).
  assert (Wt : wf test = true) by (unfold test; destruct (N.eqb pg 0); [reflexivity|apply mk_equal_wf; auto]).
  assert (Hpg : (pg < 2 ^ 64)%N).
  { apply op_rec_lt. rewrite op_all_mask by exact Hn. pose proof (pow_le_mono (n + 1) 64 ltac:(lia)). pose proof (pow2_pos (n + 1)). lia. }
  pose proof (mk_if_wf _ _ (CV 0) Wt (mk_sign_wf l r Wl Wr) eq_refl) as Wi.
  destruct (blade_choice n pg cand _ (mk_or l r) (N.shiftr (op_all n) 1) Hn Hpg Wx Bx Wi) as [Okm Dm]; [apply op_ps; lia|exact Ec|].
  split; [exact Okm|]. intros g i j Hi Hj Li Lj.
  assert (P64 : (2 ^ n <= 2 ^ 64)%N) by (apply pow_le_mono; lia).
  pose proof (Dl g i Hi) as Si. pose proof (Dr g j Hj) as Sj.
  set (k := N.lor i j). assert (Lk : (k < 2 ^ n)%N) by (apply lor_lt; auto).
  set (vld := N.eqb (N.land i j) 0).
  assert (St : istrue g test (if N.eqb pg 0 then false else vld)).
  { unfold test. destruct (N.eqb pg 0); [reflexivity|].
    replace vld with (eqR (IZR (Z.of_N (grade_of i)) + IZR (Z.of_N (grade_of j))) (IZR (Z.of_N (grade_of k)))).
    - apply equal_num; [tauto| |apply count_bits; [exact Wx|apply or_bits; auto]]. apply Vs; apply count_bits; auto.
    - rewrite <- plus_IZR, eqR_Z. unfold vld. pose proof (land_0_grade i j ltac:(lia)) as Q. fold k in Q.
      destruct (N.eqb_spec (N.land i j) 0), (Z.eqb_spec (Z.of_N (grade_of i) + Z.of_N (grade_of j)) (Z.of_N (grade_of k))); auto; exfalso.
      + apply n0. lia.
      + apply n0. lia. }
  set (c := if (if N.eqb pg 0 then false else vld) then sign_of i j else 0).
  assert (Sc : num g (mk_if test (mk_sign l r) (CV 0)) c).
  { apply (if_num _ _ _ _ _ _ St). unfold c. destruct (if N.eqb pg 0 then false else vld); [apply sign_bits; auto|apply num_cv]. }
  destruct (Dm g c k Sc (or_bits _ _ _ _ _ Si Sj) Lk) as (ml & M1 & M2 & M3). exists ml. split; [exact M1|]. split; [exact M2|].
  intros Gi Gj.
  assert (T : vld = true -> N.testbit pg (grade_of k) = true).
  { intros Hv. apply N.eqb_eq in Hv. apply (land_0_grade i j ltac:(lia)) in Hv. fold k in Hv. rewrite <- Hv.
    apply op_rec_ok; auto using pop_le_64.
    - apply (Tr g j n); auto.
    - rewrite Hv. apply grade_le; [lia|auto].
    - apply (Tl g i n); auto. }
  destruct M3 as [M3 M4].
  { intros Nz. apply T. unfold c in Nz. destruct vld; [reflexivity|]. exfalso. apply Nz. destruct (N.eqb pg 0); reflexivity. }
  split; [exact M3|]. rewrite M4. unfold op_blade. fold k vld. unfold c. destruct vld.
  - destruct (N.eqb_spec pg 0) as [E|_]; [|reflexivity]. specialize (T eq_refl). rewrite E, N.bits_0 in T. discriminate.
  - destruct (N.eqb pg 0); apply meq_zero.
Qed.

(** ** Regressive product *)
Lemma rp_right_lt fuel n l : forall R, (rp_right fuel n l R < 2 ^ 64)%N.
Proof.
  induction fuel as [|f IH]; intros R; [reflexivity|]. cbn [rp_right]. destruct (R =? 0)%N; [reflexivity|].
  apply lor_lt; [apply IH|]. unfold rp_bits. destruct (_ && _)%bool; [apply N.mod_lt; discriminate|reflexivity].
Qed.
Lemma rp_rec_lt fuel n R : forall L, (rp_grades_rec fuel n L R < 2 ^ 64)%N.
Proof.
  induction fuel as [|f IH]; intros L; [reflexivity|]. cbn [rp_grades_rec]. destruct (L =? 0)%N; [reflexivity|].
  apply lor_lt; [apply IH|]. apply rp_right_lt.
Qed.
Lemma lor_full_grade n a b : (n <= 63)%N -> (a < 2 ^ n)%N -> (b < 2 ^ n)%N -> (grade_of a + grade_of b = n + grade_of (N.land a b))%N <-> N.lor a b = (2 ^ n - 1)%N.
Proof.
  intros Hn Ha Hb. pose proof (grade_lor a b) as E. split; intros Q.
  - apply grade_full; [lia|apply lor_lt; auto|lia].
  - rewrite Q, grade_mask in E by lia. lia.
Qed.

Lemma mk_count_lin l : bexp l -> lin (mk_count l).
Proof.
  intros H. apply l_mono. destruct H as [H|[b ->]]; [|apply cv_mono].
  left. destruct l; try discriminate; cbn [mk_count]; constructor; exact H.
Qed.
Lemma mk_count_mono l : bexp l -> mono (mk_count l).
Proof.
  intros H. destruct H as [H|[b ->]]; [|apply cv_mono].
  left. destruct l; try discriminate; cbn [mk_count]; constructor; exact H.
Qed.
Theorem rp_map_ok F n : (n <= 63)%N -> mult_ok (rp_map F n) (rp_blade n) n.
Proof.
  intros Hn x y m0 Ox Oy. unfold rp_map. destruct (grades_fit n x y); [|discriminate].
  destruct (blade_bits x Ox) as (l & -> & Wl & Bl & Pl & Dl & Tl). destruct (blade_bits y Oy) as (r & -> & Wr & Br & Pr & Dr & Tr).
  set (pg := rp_grades n (possible_grades x) (possible_grades y)). set (res := mk_and l r).
  destruct (deduce_blade pg res) as [cand|] eqn:Ec; [|discriminate].
  destruct (eng F OAdd (mk_count l) (mk_count r)) as [s|] eqn:Es; [|discriminate].
  destruct (eng F OMul (CV (-1)) (mk_count res)) as [m|] eqn:Em; [|discriminate].
  destruct (eng F OAdd s m) as [t|] eqn:Et; [|discriminate]. intros [= <-].
  destruct (mk_and_bexp l r Bl Br Wl Wr) as [Bx Wx]. fold res in Bx, Wx.
  destruct (mk_xor_bexp l res Bl Bx Wl Wx) as [B1 W1]. destruct (mk_xor_bexp r res Br Bx Wr Wx) as [B2 W2].
  destruct (mk_count_cexp l Bl Wl) as [Cl Wcl]. destruct (mk_count_cexp r Br Wr) as [Cr Wcr]. destruct (mk_count_cexp _ Bx Wx) as [Cx Wcx].
  destruct (s_add _ (eng_ok F) _ _ _ Wcl Wcr Es) as [Ws Vs].
  destruct (s_mul _ (eng_ok F) (CV (-1)) _ _ eq_refl Wcx Em) as [Wm Vm].
  destruct (s_add _ (eng_ok F) _ _ _ Ws Wm Et) as [Wt0 Vt].
  assert (Lt : lin t).
  { apply (add_lin F s m t); [|apply l_mono; apply (mul_lin F (-1) (mk_count res)); [apply mk_count_mono; exact Bx|exact Em]|exact Et].
    apply (add_lin F _ _ _ (mk_count_lin l Bl) (mk_count_lin r Br) Es). }
  apply lin_cexp in Lt.
  set (test := if N.eqb pg 0 then CBool false else mk_equal t (CV (Z.of_N n))).
  assert (Wt : wf test = true) by (unfold test; destruct (N.eqb pg 0); [reflexivity|apply mk_equal_wf; auto]).
  assert (Hpg : (pg < 2 ^ 64)%N) by apply rp_rec_lt.
  pose proof (mk_if_wf _ _ (CV 0) Wt (mk_sign_wf _ _ W1 W2) eq_refl) as Wi.
  destruct (blade_choice n pg cand _ res (pseudoscalar n) Hn Hpg Wx Bx Wi) as [Okm Dm]; [apply all_ones_shift; lia|exact Ec|].
  split; [exact Okm|]. intros g i j Hi Hj Li Lj.
  assert (P64 : (2 ^ n <= 2 ^ 64)%N) by (apply pow_le_mono; lia).
  pose proof (Dl g i Hi) as Si. pose proof (Dr g j Hj) as Sj.
  set (k := N.land i j). assert (Lk : (k < 2 ^ n)%N) by (apply land_lt; auto).
  assert (Sk : isbits g res k) by (apply and_bits; auto).
  set (vld := N.eqb (N.lor i j) (2 ^ n - 1)).
  assert (St : istrue g test (if N.eqb pg 0 then false else vld)).
  { unfold test. destruct (N.eqb pg 0); [reflexivity|].
    replace vld with (eqR (IZR (Z.of_N (grade_of i)) + IZR (Z.of_N (grade_of j)) + (-1) * IZR (Z.of_N (grade_of k))) (IZR (Z.of_N n))).
    - apply equal_num; [|apply Vt|apply num_cv].
      + destruct Lt as [Lt|[z ->]]; [left; exact Lt|right; right; split; reflexivity].
      + apply Vs; apply count_bits; auto.
      + apply Vm; [apply num_cv|apply count_bits; auto].
    - rewrite <- mult_IZR, <- !plus_IZR, eqR_Z. unfold vld. pose proof (lor_full_grade n i j Hn Li Lj) as Q. fold k in Q.
      destruct (N.eqb_spec (N.lor i j) (2 ^ n - 1)), (Z.eqb_spec (Z.of_N (grade_of i) + Z.of_N (grade_of j) + -1 * Z.of_N (grade_of k)) (Z.of_N n)); auto; exfalso.
      + apply n0. lia.
      + apply n0. apply Q. lia. }
  set (sg := sign_of (N.lxor i k) (N.lxor j k)).
  set (c := if (if N.eqb pg 0 then false else vld) then sg else 0).
  assert (Sc : num g (mk_if test (mk_sign (mk_xor l res) (mk_xor r res)) (CV 0)) c).
  { apply (if_num _ _ _ _ _ _ St). unfold c. destruct (if N.eqb pg 0 then false else vld); [|apply num_cv].
    apply sign_bits; auto; apply xor_bits; auto. }
  destruct (Dm g c k Sc Sk Lk) as (ml & M1 & M2 & M3). exists ml. split; [exact M1|]. split; [exact M2|].
  intros Gi Gj.
  assert (T : vld = true -> N.testbit pg (grade_of k) = true).
  { intros Hv. apply N.eqb_eq in Hv. apply (lor_full_grade n i j Hn Li Lj) in Hv. fold k in Hv.
    replace (grade_of k) with (grade_of i + grade_of j - n)%N by lia.
    apply rp_rec_ok; auto using pop_le_64.
    - apply grade_le; [lia|auto].
    - apply grade_le; [lia|auto].
    - lia.
    - apply (Tr g j n); auto.
    - apply (Tl g i n); auto. }
  destruct M3 as [M3 M4].
  { intros Nz. apply T. unfold c in Nz. destruct vld; [reflexivity|]. exfalso. apply Nz. destruct (N.eqb pg 0); reflexivity. }
  split; [exact M3|]. rewrite M4. unfold rp_blade. fold k vld. unfold c, sg. destruct vld.
  - destruct (N.eqb_spec pg 0) as [E|_]; [|reflexivity]. specialize (T eq_refl). rewrite E, N.bits_0 in T. discriminate.
  - destruct (N.eqb pg 0); apply meq_zero.
Qed.
