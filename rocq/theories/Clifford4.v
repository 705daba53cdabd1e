(** Inverses in a Clifford algebra (specification side only): a right inverse is a left inverse. *)
From Coq Require Import NArith ZArith List Bool Lia Reals Lra Setoid Morphisms.
From Verif Require Import Bits SpecBits BitsBase Sem SpecMv SpecAlg MvBase Clifford Clifford2 Clifford3 SpecExtra AlgProofs.
Import ListNotations.
Local Open Scope R_scope.

(** ** Linear dependence of more than D vectors of R^D *)
Fixpoint dotl (cs : list R) (vs : list (nat -> R)) (i : nat) : R :=
  match cs, vs with c :: cs', v :: vs' => c * v i + dotl cs' vs' i | _, _ => 0 end.
Lemma dotl_0 cs vs i : (forall v, In v vs -> v i = 0) -> dotl cs vs i = 0.
Proof. revert cs. induction vs as [|v vs IH]; intros [|c cs] H; cbn [dotl]; auto. rewrite (H v (or_introl eq_refl)), (IH cs (fun w Hw => H w (or_intror Hw))). ring. Qed.
Lemma split_nonzero (P : (nat -> R) -> bool) vs : (forall v, In v vs -> P v = false) \/ exists l1 v l2, vs = l1 ++ v :: l2 /\ P v = true.
Proof.
  induction vs as [|v vs [IH|(l1 & w & l2 & -> & H)]]; [left; intros v []| |right; exists (v :: l1), w, l2; auto].
  destruct (P v) eqn:E; [right; exists [], v, vs; auto|]. left. intros w [<-|H]; auto.
Qed.
Lemma dotl_app c1 c2 v1 v2 i : length c1 = length v1 -> dotl (c1 ++ c2) (v1 ++ v2) i = dotl c1 v1 i + dotl c2 v2 i.
Proof. revert c1. induction v1 as [|v v1 IH]; intros [|c c1] L; try discriminate L; cbn [app dotl]; [ring|]. rewrite IH by (injection L; auto). ring. Qed.
Lemma dependent D : forall vs, (D < length vs)%nat -> exists cs, length cs = length vs /\ Exists (fun c => c <> 0) cs /\ forall i, (i < D)%nat -> dotl cs vs i = 0.
Proof.
  induction D as [|D IH]; intros vs L.
  - exists (map (fun _ => 1) vs). split; [apply map_length|]. split; [|intros i Hi; lia]. destruct vs; [cbn in L; lia|]. left. lra.
  - destruct (split_nonzero (fun v => if Req_EM_T (v D) 0 then false else true) vs) as [H|(l1 & v & l2 & -> & H)].
    + destruct (IH vs ltac:(lia)) as (cs & L1 & Nz & E). exists cs. split; [exact L1|]. split; [exact Nz|]. intros i Hi. destruct (Nat.eq_dec i D) as [->|Ne]; [|apply E; lia].
      apply dotl_0. intros v Hv. specialize (H v Hv). cbn in H. destruct (Req_EM_T (v D) 0); [assumption|discriminate].
    + cbn in H. destruct (Req_EM_T (v D) 0) as [|Nv]; [discriminate|]. clear H.
      set (red := fun w : nat -> R => fun i => w i - w D / v D * v i).
      destruct (IH (map red (l1 ++ l2)) ltac:(rewrite map_length, app_length; rewrite app_length in L; cbn in L; lia)) as (cs & L1 & Nz & E). rewrite map_length, app_length in L1.
      assert (Cs : exists c1 c2, cs = c1 ++ c2 /\ length c1 = length l1 /\ length c2 = length l2).
      { exists (firstn (length l1) cs), (skipn (length l1) cs). split; [symmetry; apply firstn_skipn|]. rewrite firstn_length, skipn_length. lia. }
      destruct Cs as (c1 & c2 & -> & Lc1 & Lc2). set (d := - (dotl c1 l1 D + dotl c2 l2 D) / v D).
      assert (RD : forall c l i, length c = length l -> dotl c (map red l) i = dotl c l i - dotl c l D / v D * v i).
      { clear -red. intros c l i. revert c. induction l as [|w l IH]; intros [|x c] H; try discriminate H; cbn [map dotl]; [unfold Rdiv; ring|]. rewrite IH by (injection H; auto). unfold red, Rdiv. ring. }
      exists (c1 ++ d :: c2). split; [rewrite !app_length; cbn; lia|]. split.
      * rewrite Exists_app in *. destruct Nz as [Nz|Nz]; [left; exact Nz|right; right; exact Nz].
      * intros i Hi. rewrite dotl_app by exact Lc1. cbn [dotl]. destruct (Nat.eq_dec i D) as [->|Ne].
        -- unfold d. field. exact Nv.
        -- specialize (E i ltac:(lia)). rewrite map_app, dotl_app in E by (rewrite map_length; exact Lc1). rewrite (RD c1 l1 i Lc1), (RD c2 l2 i Lc2) in E. unfold d. unfold Rdiv in *. lra.
Qed.

(** ** Products *)
Section Inv.
Variable q : N -> R.
Notation "a ** b" := (mgp q a b) (at level 40, left associativity).
Global Instance mgp_meq q0 : Proper (meq ==> meq ==> meq) (mgp q0). Proof. intros a a' E b b' E'. apply bilinear_meq; assumption. Qed.
Lemma mA a b c : meq (a ** b ** c) (a ** (b ** c)). Proof. apply gp_assoc. Qed.
Lemma m1l a : meq (one ** a) a. Proof. apply gp_one_l. Qed.
Lemma m1r a : meq (a ** one) a. Proof. apply gp_one_r. Qed.
Lemma mDl a b c : meq ((a ++ b) ** c) (a ** c ++ b ** c). Proof. apply bilinear_app_l. Qed.
Lemma mDr a b c : meq (a ** (b ++ c)) (a ** b ++ a ** c). Proof. apply bilinear_app_r. Qed.
Lemma mSl c a b : meq (scale c a ** b) (scale c (a ** b)). Proof. apply bilinear_scale_l. Qed.
Lemma mSr c a b : meq (a ** scale c b) (scale c (a ** b)). Proof. apply bilinear_scale_r. Qed.
Lemma m0r a : meq (a ** []) []. Proof. apply bilinear_0_r. reflexivity. Qed.
Lemma in_gp n a b : in_space n a -> in_space n b -> in_space n (a ** b).
Proof. intros. apply in_space_bilinear; auto. intros i j Hi Hj. constructor; [|constructor]. cbn. apply lxor_lt; assumption. Qed.
Lemma in_one n : in_space n one. Proof. constructor; [|constructor]. cbn. apply N.neq_0_lt_0, N.pow_nonzero; discriminate. Qed.

Fixpoint gpow (u : mv) (j : nat) : mv := match j with O => one | S j => gpow u j ** u end.
Fixpoint peval (cs : list R) (u : mv) : mv := match cs with [] => [] | c :: cs' => scale c one ++ u ** peval cs' u end.
Fixpoint comb (u : mv) (cs : list R) (j : nat) : mv := match cs with [] => [] | c :: cs' => scale c (gpow u j) ++ comb u cs' (S j) end.
Lemma comb_peval u cs : forall j, meq (gpow u j ** peval cs u) (comb u cs j).
Proof.
  induction cs as [|c cs IH]; intros j; cbn [peval comb]; [apply m0r|]. rewrite mDr, mSr, m1r, <- mA. change (gpow u j ** u) with (gpow u (S j)). rewrite IH. reflexivity.
Qed.
Lemma gpow_in n u j : in_space n u -> in_space n (gpow u j).
Proof. intros H. induction j; [apply in_one|]. cbn [gpow]. apply in_gp; auto. Qed.
Lemma peval_comm u cs : meq (u ** peval cs u) (peval cs u ** u).
Proof.
  induction cs as [|c cs IH]; cbn [peval]; [rewrite m0r; reflexivity|]. rewrite mDr, mDl, mSr, mSl, m1r, m1l. rewrite mA, <- IH. reflexivity.
Qed.
Lemma coef_big n m k : in_space n m -> (2 ^ n <= k)%N -> coef m k = 0.
Proof. induction 1 as [|[c b] m H _ IH]; intros L; [reflexivity|]. cbn [coef snd] in *. destruct (N.eqb_spec b k); [lia|]. rewrite IH by exact L. ring. Qed.
Lemma coef_comb u cs j i : coef (comb u cs j) (N.of_nat i) = dotl cs (map (fun t i => coef (gpow u t) (N.of_nat i)) (seq j (length cs))) i.
Proof. revert j. induction cs as [|c cs IH]; intros j; [reflexivity|]. cbn [comb length seq map dotl]. rewrite coef_app, coef_scale, IH. reflexivity. Qed.
Lemma comb_in n u cs j : in_space n u -> in_space n (comb u cs j).
Proof.
  intros H. revert j. induction cs as [|c cs IH]; intros j; cbn [comb]; [constructor|]. apply Forall_app. split; [|apply IH]. pose proof (gpow_in n u j H) as G. revert G. generalize (gpow u j). intros m G. induction G; constructor; auto.
Qed.
Theorem left_inverse n u v : in_space n u -> meq (v ** u) one -> meq (u ** v) one.
Proof.
  intros Iu E. set (D := N.to_nat (2 ^ n)). destruct (dependent D (map (fun t i => coef (gpow u t) (N.of_nat i)) (seq 0 (S D)))) as (cs & L & Nz & H).
  { rewrite map_length, seq_length. lia. }
  rewrite map_length, seq_length in L. assert (Z : meq (peval cs u) []).
  { rewrite <- m1l. change one with (gpow u 0). rewrite comb_peval. intros k. destruct (N.ltb_spec k (2 ^ n)) as [Lk|Lk]; [|apply (coef_big n); [apply comb_in; exact Iu|exact Lk]].
    replace k with (N.of_nat (N.to_nat k)) by lia. rewrite coef_comb, L. apply H. unfold D. lia. }
  clear H L. induction cs as [|c cs IH]; [inversion Nz|]. cbn [peval] in Z. destruct (Req_EM_T c 0) as [->|Nc].
  - apply IH; [inversion Nz; [congruence|assumption]|]. assert (Z' : meq (u ** peval cs u) []).
    { intros k. specialize (Z k). rewrite coef_app, coef_scale in Z. cbn [coef] in *. lra. }
    rewrite <- (m1l (peval cs u)), <- E, mA, Z'. apply m0r.
  - assert (R1 : meq (u ** scale (- / c) (peval cs u)) one).
    { rewrite mSr. intros k. specialize (Z k). rewrite coef_app, coef_scale in Z. rewrite coef_scale. change (coef [] k) with 0 in Z. replace (coef (u ** peval cs u) k) with (- (c * coef one k)) by lra. field. exact Nc. }
    assert (Ev : meq v (scale (- / c) (peval cs u))). { rewrite <- (m1r v), <- R1, <- mA, E. apply m1l. }
    rewrite Ev. exact R1.
Qed.
End Inv.
