(** The self-simplifying function types keep the meaning of the function. *)
From Coq Require Import NArith ZArith List Bool Reals Lra Lia.
From Verif Require Import Bits SpecBits BitsProofs BitsOnes Expr ExprBase Sem Wf RPowProofs Simp SimpProofs SimpProofs2 EvalC SpecEval EvalCProofs.
Import ListNotations.

Lemma inversions_0_l b : inversions 0 b = 0%nat.
Proof. reflexivity. Qed.
Lemma inversions_0_r a : inversions a 0 = 0%nat.
Proof. unfold inversions. change (indices 0) with (@nil N). induction (indices a); cbn; auto. Qed.

Lemma odd_of_nat n : N.odd (N.of_nat n) = Nat.odd n.
Proof.
  induction n as [|n IH]; [reflexivity|]. rewrite Nat2N.inj_succ, N.odd_succ, <- N.negb_odd, IH, Nat.odd_succ, <- Nat.negb_odd. reflexivity.
Qed.
Lemma sign_const a b : (a < 2 ^ 64)%N -> (b < 2 ^ 64)%N ->
  sign_of a b = IZR (if N.odd (swaps_count (N.shiftr a 1) b) then -1 else 1).
Proof.
  intros A B. unfold sign_of. rewrite swaps_count_correct, odd_of_nat by auto. destruct (Nat.odd _); reflexivity.
Qed.
Lemma sign_ok g l r v : wf l = true -> wf r = true ->
  sem g (Fn NSign [l; r]) = Some v -> sem g (mk_sign l r) = Some v.
Proof.
  intros Wl Wr H.
  assert (C : mk_sign l r = Fn NSign [l; r] \/
     (exists a b, l = CBits a /\ r = CBits b /\ mk_sign l r = CV (if N.odd (swaps_count (N.shiftr a 1) b) then -1 else 1)) \/
     ((l = CBits 0 \/ r = CBits 0) /\ mk_sign l r = CV 1)).
  { destruct l as [| | |b| | | | | | |], r as [| | |b'| | | | | | |]; cbn [mk_sign];
      first [ (right; left; exists b, b'; destruct b; repeat split; fail) | left; reflexivity | destruct b; auto 10; fail | destruct b'; auto 10; fail ]. }
  destruct C as [->|[(a & b & -> & -> & ->)|[C ->]]].
  - exact H.
  - cbn [wf] in Wl, Wr. apply N.ltb_lt in Wl, Wr. cbn in H. injection H as <-. cbn [sem]. rewrite (sign_const a b) by auto. reflexivity.
  - cbn [sem map fn_sem] in H. destruct (sem g l) as [[|a|]|] eqn:El; try discriminate. destruct (sem g r) as [[|b|]|] eqn:Er; try discriminate.
    injection H as <-. cbn [sem]. unfold sign_of. destruct C as [->| ->]; [injection El as <-|injection Er as <-].
    + reflexivity.
    + rewrite inversions_0_r. reflexivity.
Qed.
Lemma count_ok g l v : wf l = true -> sem g (Fn NCount [l]) = Some v -> sem g (mk_count l) = Some v.
Proof.
  intros W H. destruct l; try exact H. cbn [wf] in W. apply N.ltb_lt in W. cbn [mk_count sem]. rewrite ones_correct by auto. exact H.
Qed.
Lemma shl_ok g l r t v : mk_shl l r = Some t -> wf l = true -> (forall b, sem g l = Some (VB b) -> (b < 2 ^ 64)%N) ->
  sem g (Fn NShl [l; r]) = Some v -> sem g t = Some v.
Proof.
  intros M W B H.
  assert (C : t = Fn NShl [l; r] \/ (exists x k, l = CBits x /\ r = CV k /\ (0 <= k < 64)%Z /\ t = CBits (wrap (N.shiftl x (Z.to_N k)))) \/
    (l = CBits 0 /\ t = l) \/ (r = CV 0 /\ t = l)).
  { destruct l as [w| | |b| | | | | | |], r as [z| | |b0| | | | | | |]; unfold mk_shl in M;
      try solve [ injection M as <-; auto | destruct b; injection M as <-; auto 10 | destruct z; injection M as <-; auto 10 ].
    right. left. assert (M' : (if (Z.leb 0 z && Z.ltb z 64)%bool then Some (CBits (wrap (N.shiftl b (Z.to_N z)))) else None) = Some t) by (destruct b; exact M).
    clear M. destruct (_ && _)%bool eqn:Q; [|discriminate]. apply andb_true_iff in Q as [Q1 Q2].
    apply Z.leb_le in Q1. apply Z.ltb_lt in Q2. injection M' as <-. exists b, z. auto. }
  cbn [sem map fn_sem] in H. destruct (sem g l) as [[|a|]|] eqn:El; try discriminate. destruct (sem g r) as [[k| |]|] eqn:Er; try discriminate.
  destruct (Zof k) as [z|] eqn:Zk; [|discriminate].
  destruct C as [->|[(x & k' & -> & -> & K & ->)|[[-> ->]|[-> ->]]]].
  - cbn [sem map fn_sem]. rewrite El, Er, Zk. exact H.
  - injection El as <-. injection Er as <-. rewrite Zof_IZR in Zk. injection Zk as <-.
    destruct (_ && _)%bool; [|discriminate]. exact H.
  - injection El as <-. destruct (_ && _)%bool; [|discriminate]. cbn [sem]. rewrite N.shiftl_0_l in H. exact H.
  - injection Er as <-. rewrite Zof_IZR in Zk. injection Zk as <-. cbn in H. rewrite El. rewrite <- H.
    f_equal. f_equal. unfold wrap. symmetry. rewrite N.shiftl_0_r. apply N.mod_small. auto.
Qed.
Lemma neg64_neg64 x : (x < 2 ^ 64)%N -> neg64 (neg64 x) = x.
Proof.
  intros H. unfold neg64, wrap. rewrite (N.mod_small x) by auto. destruct (N.eq_dec x 0) as [->|Z]; [reflexivity|].
  rewrite !(N.mod_small (2 ^ 64 - x)) by lia. rewrite N.mod_small by lia. lia.
Qed.
Lemma uminus_ok g l v : wf l = true -> (forall e b, wf e = true -> sem g e = Some (VB b) -> (b < 2 ^ 64)%N) ->
  sem g (Fn NUminus [l]) = Some v -> sem g (mk_uminus l) = Some v.
Proof.
  intros W B H. destruct l as [| | |b| | | | | | |f l]; try exact H. destruct f; try exact H. destruct l as [|x [|]]; try exact H.
  cbn [mk_uminus]. cbn [sem map fn_sem] in H. destruct (sem g x) as [[|b|]|] eqn:E; try discriminate. cbn in H. rewrite <- H.
  f_equal. f_equal. symmetry. apply neg64_neg64. eapply B; [|exact E]. cbn in W. apply andb_true_iff in W as [W _]. exact W.
Qed.
Lemma dec_ok g l v : sem g (Fn NDec [l]) = Some v -> sem g (mk_dec l) = Some v.
Proof. intros H. destruct l; exact H. Qed.

(** Shape of the three bitwise connectives. *)
Lemma and_ok g l r v : sem g (Fn NAnd [l; r]) = Some v -> sem g (mk_and l r) = Some v.
Proof.
  intros H.
  assert (C : mk_and l r = Fn NAnd [l; r] \/ (exists x y, l = CV x /\ r = CV y /\ mk_and l r = CV (Z.land x y)) \/
     (exists x y, l = CBits x /\ r = CBits y /\ mk_and l r = CBits (N.land x y)) \/
     ((l = CV 0 \/ r = CV 0) /\ mk_and l r = CV 0) \/ ((l = CBits 0 \/ r = CBits 0) /\ mk_and l r = CBits 0)).
  { destruct l as [[|p|p]| | |[|p]| | | | | | |], r as [[|q|q]| | |[|q]| | | | | | |]; cbn [mk_and];
      first [left; reflexivity | (right; left; do 2 eexists; repeat split; fail) | (right; right; left; do 2 eexists; repeat split; fail) | auto 10]. }
  cbn [sem map fn_sem bitop] in H. destruct C as [->|[(x & y & -> & -> & ->)|[(x & y & -> & -> & ->)|[[C ->]|[C ->]]]]].
  - exact H.
  - cbn in H. rewrite !Zof_IZR in H. exact H.
  - exact H.
  - destruct (sem g l) as [[a|a|]|] eqn:El; try discriminate; destruct (sem g r) as [[b|b|]|] eqn:Er; try discriminate.
    + cbn [bitop] in H. destruct (Zof a) as [p|] eqn:A; [|discriminate]. destruct (Zof b) as [q|] eqn:B; [|discriminate]. rewrite <- H.
      cbn [sem]. destruct C as [->| ->]; [injection El as <-|injection Er as <-]; rewrite Zof_IZR in *.
      * injection A as <-. reflexivity.
      * injection B as <-. rewrite Z.land_0_r. reflexivity.
    + destruct C as [->| ->]; discriminate.
  - destruct (sem g l) as [[a|a|]|] eqn:El; try discriminate; destruct (sem g r) as [[b|b|]|] eqn:Er; try discriminate.
    + destruct C as [->| ->]; discriminate.
    + cbn [sem]. rewrite <- H. destruct C as [->| ->]; [injection El as <-|injection Er as <-].
      * reflexivity.
      * cbn [bitop]. rewrite N.land_0_r. reflexivity.
Qed.
Lemma orx_ok f mk (fN : N -> N -> N) (fZ : Z -> Z -> Z) g l r v :
  (forall a b, fn_sem f [a; b] = bitop fN fZ a b) ->
  (forall x, fN 0%N x = x /\ fN x 0%N = x) -> (forall x, fZ 0%Z x = x /\ fZ x 0%Z = x) ->
  (mk = Fn f [l; r] \/ (exists x y, l = CV x /\ r = CV y /\ mk = CV (fZ x y)) \/
   (exists x y, l = CBits x /\ r = CBits y /\ mk = CBits (fN x y)) \/
   ((l = CV 0 \/ l = CBits 0) /\ mk = r) \/ ((r = CV 0 \/ r = CBits 0) /\ mk = l)) ->
  sem g (Fn f [l; r]) = Some v -> sem g mk = Some v.
Proof.
  intros F HN HZ C H. destruct C as [->|[(x & y & -> & -> & ->)|[(x & y & -> & -> & ->)|C]]]; [exact H| | |];
   cbn [sem map] in *; rewrite F in H; cbn [sem map bitop] in H.
  - rewrite !Zof_IZR in H. exact H.
  - exact H.
  - assert (D : forall u a, sem g u = Some (VN a) -> u <> CBits 0) by (intros u a E ->; discriminate).
    assert (D' : forall u a, sem g u = Some (VB a) -> u <> CV 0) by (intros u a E ->; discriminate).
    destruct (sem g l) as [[a|a|]|] eqn:El; try discriminate; destruct (sem g r) as [[b|b|]|] eqn:Er; try discriminate.
    + cbn [bitop] in H. destruct (Zof a) as [p|] eqn:A; [|discriminate]. destruct (Zof b) as [q|] eqn:B; [|discriminate]. rewrite <- H.
      pose proof (Zof_Some _ _ A) as ->. pose proof (Zof_Some _ _ B) as ->.
      destruct C as [[[->| ->] ->]|[[->| ->] ->]]; try discriminate.
      * injection El as El. apply eq_IZR in El as <-. rewrite Er. rewrite (proj1 (HZ _)). reflexivity.
      * injection Er as Er. apply eq_IZR in Er as <-. rewrite El. rewrite (proj2 (HZ _)). reflexivity.
    + rewrite <- H. destruct C as [[[->| ->] ->]|[[->| ->] ->]]; try discriminate.
      * injection El as <-. cbn [bitop]. rewrite Er, (proj1 (HN _)). reflexivity.
      * injection Er as <-. cbn [bitop]. rewrite El, (proj2 (HN _)). reflexivity.
Qed.
Lemma or_ok g l r v : sem g (Fn NOr [l; r]) = Some v -> sem g (mk_or l r) = Some v.
Proof.
  apply (orx_ok NOr _ N.lor Z.lor); auto using N.lor_0_l, N.lor_0_r, Z.lor_0_l, Z.lor_0_r.
  destruct l as [[|p|p]| | |[|p]| | | | | | |], r as [[|q|q]| | |[|q]| | | | | | |]; cbn [mk_or];
      first [left; reflexivity | (right; left; do 2 eexists; repeat split; fail) | (right; right; left; do 2 eexists; repeat split; fail) | auto 10].
Qed.
Lemma xor_ok g l r v : sem g (Fn NXor [l; r]) = Some v -> sem g (mk_xor l r) = Some v.
Proof.
  apply (orx_ok NXor _ N.lxor Z.lxor); auto using N.lxor_0_l, N.lxor_0_r, Z.lxor_0_l, Z.lxor_0_r.
  destruct l as [[|p|p]| | |[|p]| | | | | | |], r as [[|q|q]| | |[|q]| | | | | | |]; cbn [mk_xor];
      first [left; reflexivity | (right; left; do 2 eexists; repeat split; fail) | (right; right; left; do 2 eexists; repeat split; fail) | auto 10].
Qed.

(** Equality: right unless both sides are distinct constants that are not plain numbers or bitsets. *)
Definition plain_const (e : expr) : bool := match e with CV _ | CBits _ => true | _ => negb (is_constant e) end.
Lemma equal_ok g l r v : plain_const l = true \/ l = r -> plain_const r = true \/ l = r ->
  sem g (Fn NEqual [l; r]) = Some v -> sem g (mk_equal l r) = Some v.
Proof.
  intros Pl Pr H. unfold mk_equal. destruct (expr_eqb l r) eqn:E; cbn [andb negb].
  - apply expr_eqb_eq in E as ->. destruct (negb (has_stored r)); [|exact H]. cbn [sem map fn_sem] in *.
    destruct (sem g r) as [[a|a|]|]; try discriminate; rewrite <- H.
    + destruct (Req_EM_T a a); [reflexivity|congruence].
    + rewrite N.eqb_refl. reflexivity.
  - assert (N : l <> r) by (intros ->; rewrite expr_eqb_refl in E; discriminate).
    destruct (is_constant l) eqn:Cl, (is_constant r) eqn:Cr; cbn [andb]; try exact H.
    destruct Pl as [Pl|]; [|contradiction]. destruct Pr as [Pr|]; [|contradiction].
    destruct l as [x| | |x| | | | | | |]; cbn [plain_const] in Pl; try (rewrite Cl in Pl; discriminate); try discriminate;
    (destruct r as [y| | |y| | | | | | |]; cbn [plain_const] in Pr; try (rewrite Cr in Pr; discriminate); try discriminate).
    + cbn in H. destruct (Req_EM_T (IZR x) (IZR y)) as [Q|Q]; [apply eq_IZR in Q; congruence|exact H].
    + cbn in H. destruct (N.eqb_spec x y) as [Q|Q]; [congruence|exact H].
Qed.
Lemma le_ok g l r v : sem g (Fn NLe [l; r]) = Some v -> sem g (mk_le l r) = Some v.
Proof.
  intros H.
  assert (D : forall t, t = CBool true \/ t = Fn NLe [l; r] -> (t = CBool true -> l = r) -> sem g t = Some v).
  { intros t [->| ->] K; [|exact H]. rewrite (K eq_refl) in H. cbn [sem map fn_sem] in *.
    destruct (sem g r) as [[a|a|]|]; try discriminate; rewrite <- H.
    - destruct (Rle_dec a a) as [_|Q]; [reflexivity|exfalso; apply Q; apply Rle_refl].
    - rewrite N.leb_refl. reflexivity. }
  assert (E : sem g (if expr_eqb l r && negb (has_stored l) then CBool true else Fn NLe [l; r]) = Some v).
  { destruct (expr_eqb l r) eqn:Q; cbn [andb]; [|exact H]. apply expr_eqb_eq in Q. destruct (negb _); [|exact H]. apply D; auto. }
  destruct l as [x| | |x| | | | | | |]; try exact E; destruct r as [y| | |y| | | | | | |]; try exact E.
  - cbn [mk_le sem]. cbn in H. rewrite <- H. f_equal. f_equal. destruct (Z.leb_spec x y) as [Q|Q], (Rle_dec (IZR x) (IZR y)) as [P|P]; auto.
    + exfalso. apply P. apply IZR_le. lia.
    + exfalso. apply le_IZR in P. lia.
  - exact H.
Qed.
Lemma land_ok g l r v : sem g (Fn NLand [l; r]) = Some v -> sem g (mk_land l r) = Some v.
Proof.
  intros H. pose proof H as H0. cbn [sem map fn_sem] in H.
  destruct (sem g l) as [[| |a]|] eqn:El; try discriminate. destruct (sem g r) as [[| |b]|] eqn:Er; try discriminate.
  assert (E : sem g (if expr_eqb l r && negb (has_stored l) then l else Fn NLand [l; r]) = Some v).
  { destruct (expr_eqb l r) eqn:Q; cbn [andb]; [|exact H0]. apply expr_eqb_eq in Q as ->. destruct (negb _); [|exact H0].
    rewrite El in Er. injection Er as <-. rewrite El, <- H. destruct a; reflexivity. }
  assert (C : mk_land l r = (if expr_eqb l r && negb (has_stored l) then l else Fn NLand [l; r]) \/
     ((l = CBool false \/ r = CBool false) /\ mk_land l r = CBool false) \/ (l = CBool true /\ mk_land l r = r) \/ (r = CBool true /\ mk_land l r = l)).
  { destruct l as [| | | | | |[|]| | | |], r as [| | | | | |[|]| | | |]; auto 10. }
  destruct C as [->|[[C ->]|[[-> ->]|[-> ->]]]].
  - exact E.
  - cbn [sem]. rewrite <- H. destruct C as [->| ->]; [injection El as <-|injection Er as <-]; [reflexivity|rewrite andb_false_r; reflexivity].
  - injection El as <-. rewrite Er, <- H. reflexivity.
  - injection Er as <-. rewrite El, <- H. rewrite andb_true_r. reflexivity.
Qed.
Lemma lor_ok g l r v : sem g (Fn NLor [l; r]) = Some v -> sem g (mk_lor l r) = Some v.
Proof.
  intros H. pose proof H as H0. cbn [sem map fn_sem] in H.
  destruct (sem g l) as [[| |a]|] eqn:El; try discriminate. destruct (sem g r) as [[| |b]|] eqn:Er; try discriminate.
  assert (C : mk_lor l r = Fn NLor [l; r] \/
     ((l = CBool true \/ r = CBool true) /\ mk_lor l r = CBool true) \/ (l = CBool false /\ mk_lor l r = r) \/ (r = CBool false /\ mk_lor l r = l)).
  { destruct l as [| | | | | |[|]| | | |], r as [| | | | | |[|]| | | |]; auto 10. }
  destruct C as [->|[[C ->]|[[-> ->]|[-> ->]]]].
  - exact H0.
  - cbn [sem]. rewrite <- H. destruct C as [->| ->]; [injection El as <-|injection Er as <-]; [reflexivity|rewrite orb_true_r; reflexivity].
  - injection El as <-. rewrite Er, <- H. reflexivity.
  - injection Er as <-. rewrite El, <- H. rewrite orb_false_r. reflexivity.
Qed.
Lemma if_ok g t x y v : sem g (Fn NIf [t; x; y]) = Some v -> sem g (mk_if t x y) = Some v.
Proof.
  intros H. assert (E : sem g (if expr_eqb x y && negb (has_stored x) then x else Fn NIf [t; x; y]) = Some v).
  { destruct (expr_eqb x y) eqn:Q; cbn [andb]; [|exact H]. apply expr_eqb_eq in Q as ->. destruct (negb _); [|exact H].
    cbn [sem map fn_sem] in H. destruct (sem g t) as [[| |[|]]|]; try discriminate; exact H. }
  destruct t as [| | | | | |[|]| | | |]; try exact E; exact H.
Qed.
Lemma exp_ok g x v : sem g (Fn NExp [x]) = Some v -> sem g (mk_exp x) = Some v.
Proof.
  intros H. destruct x as [| | | | | | | | | |f l]; try exact H. destruct f; try exact H. destruct l as [|y [|]]; try exact H.
  cbn [mk_exp]. cbn [sem map fn_sem] in H. destruct (sem g y) as [[a| |]|]; try discriminate.
  destruct (Rlt_dec 0 a) as [P|]; [|discriminate]. rewrite exp_ln in H by auto. exact H.
Qed.
Lemma log_ok g x v : sem g (Fn NLog [x]) = Some v -> sem g (mk_log x) = Some v.
Proof.
  intros H. destruct x as [| | | | | | | | | |f l]; try exact H. destruct f; try exact H. destruct l as [|y [|]]; try exact H.
  cbn [mk_log]. cbn [sem map fn_sem] in H. destruct (sem g y) as [[a| |]|]; try discriminate.
  destruct (Rlt_dec 0 (exp a)) as [P|]; [|discriminate]. rewrite ln_exp in H. exact H.
Qed.
