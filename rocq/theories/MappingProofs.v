(** The products of basis blades computed by the library are those of the specification. *)
From Coq Require Import NArith ZArith List Bool Reals Lra Lia Setoid Morphisms.
From Verif Require Import Bits SpecBits BitsBase BitsOnes BitsProofs Expr ExprBase Sem Wf SpecMv MvBase RPowProofs Simp SimpProofs SimpProofs2 SimpMono SmartProofs.
From Verif Require Import Comp CompProofs CompProofs2 Mapping GradeProofs.
Import ListNotations.
Local Open Scope R_scope.

(** ** Constant arithmetic gives constants *)
Lemma cv_Some z r : cv z = Some r -> r = CV z.
Proof. unfold cv. destruct (_ && _)%bool; [intros [= <-]; reflexivity|discriminate]. Qed.
Lemma pow2_const F a r : eng F OPow (CV a) (CV 2) = Some r -> r = CV (a * a).
Proof.
  destruct F; [discriminate|]. cbn [eng]. unfold power_step. cbn [apply_rules].
  assert (K : apply_rules [pow_misc2; pow_misc3; pow_distr (eng F)] (CV a) (CV 2) = Some r -> r = CV (a * a)).
  { cbn [apply_rules pow_misc2 no]. unfold pow_misc3. change (expr_eqb (CV 2) half) with false. cbn match.
    rewrite ipow_correct by (cbn; lia). change (iabs 2) with 2%Z. rewrite Z.pow_2_r.
    destruct (cv (a * a)) as [c|] eqn:E; [|discriminate]. apply cv_Some in E. subst c. cbn [Z.ltb Z.compare].
    destruct (Z.eqb_spec a (-1)) as [->|_]; cbn; intros [= <-]; reflexivity. }
  destruct a as [|[]|]; cbn [pow_misc1 yes no]; try exact K; cbn; intros [= <-]; reflexivity.
Qed.
Lemma mul_const F a b r : eng F OMul (CV a) (CV b) = Some r -> r = CV (a * b).
Proof.
  destruct F; [discriminate|]. cbn [eng]. unfold product_step. cbn [apply_rules].
  unfold mul_zero, mul_one.
  assert (Z0 : a = 0%Z \/ b = 0%Z \/ (match a, b with 0%Z, _ | _, 0%Z => false | _, _ => true end = true)) by (destruct a, b; auto).
  assert (K : forall A, (if Z.eqb a b then yes (eng F OPow (CV a) (CV 2)) else yes (cv (a * b))) = Some (Some A) -> A = CV (a * b)).
  { intros A. destruct (Z.eqb_spec a b) as [->|]; unfold yes.
    - destruct (eng F OPow (CV b) (CV 2)) eqn:E; [|discriminate]. intros [= <-]. apply (pow2_const _ _ _ E).
    - destruct (cv (a * b)) eqn:E; [|discriminate]. intros [= <-]. apply (cv_Some _ _ E). }
  destruct Z0 as [->|[->|Z0]].
  - cbn. intros [= <-]. reflexivity.
  - destruct a; cbn; intros [= <-]; rewrite ?Z.mul_0_r; reflexivity.
  - assert (E1 : match CV a with CV 0 => yes (Some (CV 0)) | _ => match CV b with CV 0 => yes (Some (CV 0)) | _ => no end end = no) by (destruct a, b; try discriminate; reflexivity).
    rewrite E1. cbn match. clear E1.
    destruct (Z.eq_dec a 1) as [->|A1]; [cbn; intros [= <-]; destruct b; reflexivity|].
    destruct (Z.eq_dec b 1) as [->|B1].
    { assert (E1 : match CV a with CV 1 => yes (Some (CV 1)) | _ => yes (Some (CV a)) end = Some (Some (CV a))) by (destruct a as [|[]|]; try reflexivity).
      cbn match. rewrite E1. intros [= <-]. rewrite Z.mul_1_r. reflexivity. }
    assert (E1 : match CV a with CV 1 => yes (Some (CV b)) | _ => match CV b with CV 1 => yes (Some (CV a)) | _ => no end end = no) by (destruct a as [|[]|], b as [|[]|]; try reflexivity; congruence).
    rewrite E1. unfold no at 1. cbn match. clear E1. unfold mul_distr. cbn [split_add no]. 
    unfold mul_helper at 1. cbn [split_mul]. unfold mul_collect1. cbn [expr_eqb]. destruct (Z.eqb a b) eqn:E.
    + unfold yes. destruct (eng F OPow (CV a) (CV 2)) eqn:P; [|discriminate]. intros [= <-]. apply Z.eqb_eq in E as <-. apply (pow2_const _ _ _ P).
    + cbn [no]. unfold mul_helper at 1. cbn [split_mul mul_collect2 no]. unfold mul_helper at 1. cbn [split_mul mul_collect3 no].
      unfold mul_helper at 1. cbn [split_mul mul_const1 yes]. destruct (cv (a * b)) eqn:C; cbn [yes]; [|discriminate]. intros [= <-]. apply (cv_Some _ _ C).
Qed.
Lemma add_const F a b r : eng F OAdd (CV a) (CV b) = Some r -> r = CV (a + b).
Proof.
  destruct F; [discriminate|]. cbn [eng]. unfold addition_step. cbn [apply_rules]. unfold add_zero.
  destruct (Z.eq_dec a 0) as [->|A1]; [cbn; intros [= <-]; reflexivity|].
  destruct (Z.eq_dec b 0) as [->|B1]; [destruct a; [congruence| |]; cbn; intros [= <-]; rewrite ?Z.add_0_r; reflexivity|].
  assert (E1 : match CV a with CV 0 => yes (Some (CV b)) | _ => match CV b with CV 0 => yes (Some (CV a)) | _ => no end end = no) by (destruct a, b; try reflexivity; congruence).
  rewrite E1. unfold no at 1. cbn match. clear E1.
  unfold add_helper at 1. cbn [split_add]. unfold add_collect1. cbn [expr_eqb]. destruct (Z.eqb_spec a b) as [->|_].
  - unfold yes. destruct (eng F OMul (CV 2) (CV b)) eqn:P; [|discriminate]. intros [= <-]. rewrite (mul_const _ _ _ _ P). f_equal. lia.
  - cbn [no]. do 6 (unfold add_helper at 1; cbn [split_add add_collect2 add_collect3 add_collect4 add_collect5 add_collect6 add_collect7 no]).
    unfold add_helper at 1. cbn [split_add add_const1]. destruct (cv (a + b)) eqn:C; cbn [yes]; [|discriminate]. intros [= <-]. apply (cv_Some _ _ C).
Qed.
Lemma minus_const F a b d : minus_t F (CV a) (CV b) = Some d -> d = CV (a - b).
Proof.
  unfold minus_t. destruct (eng F OMul (CV (-1)) (CV b)) eqn:E; [|discriminate]. apply mul_const in E as ->.
  intros H. apply add_const in H as ->. f_equal; lia.
Qed.
Lemma minus_ok F a b d : wf a = true -> wf b = true -> minus_t F a b = Some d ->
  wf d = true /\ forall g x y, num g a x -> num g b y -> num g d (x - y).
Proof.
  intros Wa Wb. unfold minus_t. destruct (eng F OMul (CV (-1)) b) as [m|] eqn:E; [|discriminate]. intros H.
  destruct (s_mul _ (eng_ok F) (CV (-1)) b m eq_refl Wb E) as [Wm Vm]. destruct (s_add _ (eng_ok F) a m d Wa Wm H) as [Wd Vd].
  split; [exact Wd|]. intros g x y Hx Hy. replace (x - y) with (x + (-1) * y) by lra. apply Vd; [exact Hx|]. apply Vm; [apply num_cv|exact Hy].
Qed.

(** ** Bitset expressions: a constant bitset, or not constant *)
Definition bexp (e : expr) : Prop := is_constant e = false \/ exists b, e = CBits b.
Definition cexp (e : expr) : Prop := is_constant e = false \/ exists z, e = CV z.

Lemma mk_and_shape l r : bexp l -> bexp r ->
  (mk_and l r = Fn NAnd [l; r] /\ (is_constant l = false \/ is_constant r = false)) \/
  (exists b c, l = CBits b /\ r = CBits c /\ mk_and l r = CBits (N.land b c)) \/ mk_and l r = CBits 0 .
Proof.
  intros Hl Hr. destruct Hl as [Hl|[b ->]], Hr as [Hr|[c ->]].
  - left. split; [|auto]. destruct l, r; try discriminate; reflexivity.
  - destruct c; [right; right|left; split; [|auto]]; destruct l; try discriminate; reflexivity.
  - destruct b; [right; right|left; split; [|auto]]; destruct r; try discriminate; reflexivity.
  - right. left. exists b, c. destruct b; repeat split.
Qed.
Lemma mk_xor_shape l r : bexp l -> bexp r ->
  (exists b c, l = CBits b /\ r = CBits c /\ mk_xor l r = CBits (N.lxor b c)) \/
  (is_constant (mk_xor l r) = false /\ (mk_xor l r = Fn NXor [l; r] \/ mk_xor l r = l \/ mk_xor l r = r)).
Proof.
  intros Hl Hr. destruct Hl as [Hl|[b ->]], Hr as [Hr|[c ->]].
  - right. destruct l, r; try discriminate; cbn [mk_xor]; (split; [|auto]); cbn [is_constant forallb] in *; rewrite ?Hl; auto.
  - right. destruct l; try discriminate; destruct c; cbn [mk_xor]; (split; [|auto]); cbn [is_constant forallb] in *; rewrite ?Hl; auto.
  - right. destruct r; try discriminate; destruct b; cbn [mk_xor]; (split; [|auto]); cbn [is_constant forallb] in *; rewrite ?Hr; auto.
  - left. exists b, c. destruct b; repeat split.
Qed.
Lemma mk_or_shape l r : bexp l -> bexp r ->
  (exists b c, l = CBits b /\ r = CBits c /\ mk_or l r = CBits (N.lor b c)) \/
  (is_constant (mk_or l r) = false /\ (mk_or l r = Fn NOr [l; r] \/ mk_or l r = l \/ mk_or l r = r)).
Proof.
  intros Hl Hr. destruct Hl as [Hl|[b ->]], Hr as [Hr|[c ->]].
  - right. destruct l, r; try discriminate; cbn [mk_or]; (split; [|auto]); cbn [is_constant forallb] in *; rewrite ?Hl; auto.
  - right. destruct l; try discriminate; destruct c; cbn [mk_or]; (split; [|auto]); cbn [is_constant forallb] in *; rewrite ?Hl; auto.
  - right. destruct r; try discriminate; destruct b; cbn [mk_or]; (split; [|auto]); cbn [is_constant forallb] in *; rewrite ?Hr; auto.
  - left. exists b, c. destruct b; repeat split.
Qed.
Lemma wf_fn2 f l r : f <> NPow -> f <> NMul -> f <> NAdd -> wf l = true -> wf r = true -> wf (Fn f [l; r]) = true.
Proof. intros A B C Wl Wr. destruct f; try congruence; cbn [wf forallb]; rewrite Wl, Wr; reflexivity. Qed.
Lemma mk_and_bexp l r : bexp l -> bexp r -> wf l = true -> wf r = true -> bexp (mk_and l r) /\ wf (mk_and l r) = true.
Proof.
  intros Hl Hr Wl Wr. destruct (mk_and_shape l r Hl Hr) as [[-> D]|[(b & c & -> & -> & ->)| ->]].
  - split; [left; cbn [is_constant forallb]; destruct D as [-> | ->]; rewrite ?andb_false_r; reflexivity|apply wf_fn2; congruence].
  - split; [right; eauto|]. cbn [wf] in *. apply N.ltb_lt in Wl. apply N.ltb_lt. apply land_lt. auto.
  - split; [right; eauto|reflexivity].
Qed.
Lemma mk_xor_bexp l r : bexp l -> bexp r -> wf l = true -> wf r = true -> bexp (mk_xor l r) /\ wf (mk_xor l r) = true.
Proof.
  intros Hl Hr Wl Wr. destruct (mk_xor_shape l r Hl Hr) as [(b & c & -> & -> & ->)|[N E]].
  - split; [right; eauto|]. cbn [wf] in *. apply N.ltb_lt in Wl, Wr. apply N.ltb_lt. apply lxor_lt; auto.
  - split; [left; exact N|]. destruct E as [->|[-> | ->]]; auto. apply wf_fn2; congruence.
Qed.
Lemma mk_or_bexp l r : bexp l -> bexp r -> wf l = true -> wf r = true -> bexp (mk_or l r) /\ wf (mk_or l r) = true.
Proof.
  intros Hl Hr Wl Wr. destruct (mk_or_shape l r Hl Hr) as [(b & c & -> & -> & ->)|[N E]].
  - split; [right; eauto|]. cbn [wf] in *. apply N.ltb_lt in Wl, Wr. apply N.ltb_lt. apply lor_lt; auto.
  - split; [left; exact N|]. destruct E as [->|[-> | ->]]; auto. apply wf_fn2; congruence.
Qed.
Lemma mk_count_shape l : bexp l -> (exists b, l = CBits b /\ mk_count l = CV (Z.of_N (ones b))) \/ (mk_count l = Fn NCount [l] /\ is_constant (mk_count l) = false).
Proof.
  intros [H|[b ->]]; [right|left; exists b; auto]. destruct l; try discriminate; cbn [mk_count]; (split; [reflexivity|]); cbn [is_constant forallb] in *; rewrite ?H; auto.
Qed.
Lemma mk_count_cexp l : bexp l -> wf l = true -> cexp (mk_count l) /\ wf (mk_count l) = true.
Proof.
  intros H W. destruct (mk_count_shape l H) as [(b & -> & ->)|[E N]].
  - split; [right; eauto|reflexivity].
  - split; [left; exact N|]. rewrite E. cbn [wf forallb]. rewrite W. reflexivity.
Qed.
Lemma mk_sign_wf l r : wf l = true -> wf r = true -> wf (mk_sign l r) = true.
Proof.
  intros Wl Wr. assert (K : mk_sign l r = Fn NSign [l; r] \/ exists z, mk_sign l r = CV z).
  { destruct l as [| | |b| | | | | | |]; try (destruct r as [| | |[]| | | | | | |]; cbn [mk_sign]; eauto; fail).
    destruct b, r as [| | |[]| | | | | | |]; cbn [mk_sign]; eauto. }
  destruct K as [->|[z ->]]; [apply wf_fn2; congruence|reflexivity].
Qed.
Lemma mk_equal_wf l r : wf l = true -> wf r = true -> wf (mk_equal l r) = true.
Proof. intros Wl Wr. unfold mk_equal. destruct (_ && _)%bool; [reflexivity|]. destruct (_ && _)%bool; [reflexivity|]. apply wf_fn2; congruence. Qed.
Lemma mk_le_wf l r : wf l = true -> wf r = true -> wf (mk_le l r) = true.
Proof.
  intros Wl Wr. assert (K : wf (if expr_eqb l r && negb (has_stored l) then CBool true else Fn NLe [l; r]) = true).
  { destruct (_ && _)%bool; [reflexivity|]. apply wf_fn2; congruence. }
  destruct l; try exact K; destruct r; try exact K; reflexivity.
Qed.
Lemma mk_lor_wf l r : wf l = true -> wf r = true -> wf (mk_lor l r) = true.
Proof.
  intros Wl Wr. assert (K : wf (Fn NLor [l; r]) = true) by (apply wf_fn2; congruence).
  destruct l as [| | | | | |[|]| | | |]; try exact Wr; try reflexivity; destruct r as [| | | | | |[|]| | | |]; try exact K; try exact Wl; try exact Wr; reflexivity.
Qed.
Lemma mk_if_wf t l r : wf t = true -> wf l = true -> wf r = true -> wf (mk_if t l r) = true.
Proof.
  intros Wt Wl Wr. assert (K : wf (if expr_eqb l r && negb (has_stored l) then l else Fn NIf [t; l; r]) = true).
  { destruct (_ && _)%bool; [exact Wl|]. cbn [wf forallb]. rewrite Wt, Wl, Wr. reflexivity. }
  destruct t as [| | | | | |[|]| | | |]; try exact K; assumption.
Qed.

(** ** Meaning *)
Definition numN (g : env) (e : expr) (k : N) : Prop := num g e (IZR (Z.of_N k)).
Definition isbits (g : env) (e : expr) (b : N) : Prop := sem g e = Some (VB b).
Definition istrue (g : env) (e : expr) (b : bool) : Prop := sem g e = Some (VT b).
Lemma and_bits g l r a b : isbits g l a -> isbits g r b -> isbits g (mk_and l r) (N.land a b).
Proof. intros A B. apply and_ok. cbn [sem map fn_sem]. rewrite A, B. reflexivity. Qed.
Lemma or_bits g l r a b : isbits g l a -> isbits g r b -> isbits g (mk_or l r) (N.lor a b).
Proof. intros A B. apply or_ok. cbn [sem map fn_sem]. rewrite A, B. reflexivity. Qed.
Lemma xor_bits g l r a b : isbits g l a -> isbits g r b -> isbits g (mk_xor l r) (N.lxor a b).
Proof. intros A B. apply xor_ok. cbn [sem map fn_sem]. rewrite A, B. reflexivity. Qed.
Lemma count_bits g l a : wf l = true -> isbits g l a -> numN g (mk_count l) (grade_of a).
Proof. intros W A. apply count_ok; [exact W|]. cbn [sem map]. rewrite A. reflexivity. Qed.
Lemma sign_bits g l r a b : wf l = true -> wf r = true -> isbits g l a -> isbits g r b -> num g (mk_sign l r) (sign_of a b).
Proof. intros Wl Wr A B. apply sign_ok; auto. cbn [sem map fn_sem]. rewrite A, B. reflexivity. Qed.
Lemma equal_gen g l r v : is_constant l = false \/ is_constant r = false \/ (plain_const l = true /\ plain_const r = true) ->
  sem g (Fn NEqual [l; r]) = Some v -> sem g (mk_equal l r) = Some v.
Proof.
  intros D H. destruct D as [D|[D|[D1 D2]]]; [| |apply equal_ok; auto].
  - unfold mk_equal. rewrite D. rewrite andb_false_r. cbn [andb]. destruct (expr_eqb l r && negb (has_stored l))%bool eqn:E; [|exact H].
    apply andb_true_iff in E as [E _]. apply expr_eqb_eq in E as ->. cbn [sem map fn_sem] in *. destruct (sem g r) as [[a|a|]|]; try discriminate; rewrite <- H.
    + destruct (Req_EM_T a a); [reflexivity|congruence].
    + rewrite N.eqb_refl. reflexivity.
  - unfold mk_equal. rewrite D. rewrite andb_false_r. destruct (expr_eqb l r && negb (has_stored l))%bool eqn:E; [|exact H].
    apply andb_true_iff in E as [E _]. apply expr_eqb_eq in E as ->. cbn [sem map fn_sem] in *. destruct (sem g r) as [[a|a|]|]; try discriminate; rewrite <- H.
    + destruct (Req_EM_T a a); [reflexivity|congruence].
    + rewrite N.eqb_refl. reflexivity.
Qed.
Definition eqR (a b : R) : bool := if Req_EM_T a b then true else false.
Lemma eqR_true a b : eqR a b = true <-> a = b.
Proof. unfold eqR. destruct (Req_EM_T a b); split; congruence. Qed.
Lemma eqR_Z x y : eqR (IZR x) (IZR y) = Z.eqb x y.
Proof. unfold eqR. destruct (Req_EM_T (IZR x) (IZR y)) as [E|E], (Z.eqb_spec x y) as [Q|Q]; auto; [apply eq_IZR in E; congruence|congruence]. Qed.
Lemma equal_num g l r a b : is_constant l = false \/ is_constant r = false \/ (plain_const l = true /\ plain_const r = true) ->
  num g l a -> num g r b -> istrue g (mk_equal l r) (eqR a b).
Proof. intros D A B. apply equal_gen; [exact D|]. unfold num in *. cbn [sem map fn_sem]. rewrite A, B. reflexivity. Qed.
Lemma cexp_plain e : cexp e -> plain_const e = true.
Proof. intros [H|[z ->]]; [|reflexivity]. destruct e; cbn [plain_const]; try reflexivity; rewrite H; reflexivity. Qed.
Lemma bexp_plain e : bexp e -> plain_const e = true.
Proof. intros [H|[z ->]]; [|reflexivity]. destruct e; cbn [plain_const]; try reflexivity; rewrite H; reflexivity. Qed.
Lemma equal_bits g l r a b : bexp l -> bexp r -> isbits g l a -> isbits g r b -> istrue g (mk_equal l r) (N.eqb a b).
Proof.
  intros Hl Hr A B. apply equal_gen; [right; right; split; apply bexp_plain; auto|]. unfold isbits in *. cbn [sem map fn_sem]. rewrite A, B. reflexivity.
Qed.
Lemma if_num g t x y b v : istrue g t b -> sem g (if b then x else y) = Some v -> sem g (mk_if t x y) = Some v.
Proof. intros T H. apply if_ok. cbn [sem map fn_sem]. unfold istrue in T. rewrite T. destruct b; exact H. Qed.

(** ** Blades *)
Lemma blade_bits x : blade_ok x = true -> exists l, basis_vectors x = Some l /\ wf l = true /\ bexp l /\
  (possible_grades x < 2 ^ 64)%N /\ (forall g i, dblade g x i -> isbits g l i) /\
  (forall g i n, dblade g x i -> grade_declared x i -> (i < 2 ^ n)%N -> (n <= 63)%N -> N.testbit (possible_grades x) (grade_of i) = true).
Proof.
  intros H. destruct x as [| | | | | | |b|pg e| |]; try discriminate; cbn [blade_ok] in H.
  - exists (CBits b). apply N.ltb_lt in H. split; [reflexivity|]. split; [cbn; apply N.ltb_lt; exact H|]. split; [right; eauto|].
    split; [apply N.mod_lt; discriminate|]. split.
    + intros g i ->. reflexivity.
    + intros g i n -> _ Hi Hn. cbn [possible_grades]. change (wrap (N.shiftl 1 (ones b))) with (bit (ones b)). rewrite ones_correct by auto.
      rewrite bit_pow; [apply N.pow2_bits_true|]. pose proof (grade_le b n ltac:(lia) Hi). lia.
  - apply andb_true_iff in H as [H H3]. apply andb_true_iff in H as [H1 H2]. apply N.ltb_lt in H3. apply negb_true_iff in H2.
    exists e. split; [reflexivity|]. split; [exact H1|]. split; [left; exact H2|]. split; [exact H3|]. split; [intros g i D; exact D|].
    intros g i n _ D _ _. exact D.
Qed.
Lemma deduce_ok pg bits cand : wf bits = true -> bexp bits -> (pg < 2 ^ 64)%N -> deduce_blade pg bits = Some cand ->
  blade_ok cand = true /\ forall g k, isbits g bits k -> (k < 2 ^ 64)%N ->
   exists k', dblade g cand k' /\ ((k' = k) \/ (k' = 0%N)) /\ (N.testbit pg (grade_of k) = true -> k' = k /\ grade_declared cand k).
Proof.
  intros W B Hp D. destruct B as [C|[b ->]].
  - assert (E : cand = (if N.eqb pg 1 then CBlade 0 else DBlade pg bits)).
    { destruct bits; try discriminate; unfold deduce_blade, dyn_blade_t in D; destruct (N.eqb pg 1); congruence. }
    destruct (N.eqb_spec pg 1) as [->|Np]; subst cand.
    + split; [reflexivity|]. intros g k Hk Lk. exists 0%N. split; [reflexivity|]. split; [auto|]. intros T. split; [|exact I].
      symmetry. apply grade_0; [exact Lk|]. destruct (grade_of k) as [|p]; [reflexivity|]. destruct p; discriminate.
    + split; [cbn [blade_ok]; rewrite W, C; apply N.ltb_lt in Hp; rewrite Hp; reflexivity|]. intros g k Hk Lk. exists k. split; [exact Hk|]. split; [auto|].
      intros T. split; [reflexivity|exact T].
  - injection D as <-. split; [exact W|]. intros g k Hk Lk. injection Hk as <-. exists b. split; [reflexivity|]. split; [auto|]. intros _. split; [reflexivity|exact I].
Qed.

(** ** Validity tests and metric factors *)
Definition valid_ok (valid : valid_t) (V : N -> N -> N -> bool) : Prop :=
  forall l r k v, wf l = true -> wf r = true -> wf k = true -> cexp l -> cexp r ->
  is_constant k = false \/ (exists a b c, l = CV a /\ r = CV b /\ k = CV c) -> valid l r k = Some v ->
  wf v = true /\ forall g a b c, numN g l a -> numN g r b -> numN g k c -> istrue g v (V a b c).
Definition factor_ok (factor : expr -> expr) (phi : N -> R) : Prop :=
  forall c, wf c = true -> bexp c -> wf (factor c) = true /\ forall g b, (b < 2 ^ 64)%N -> isbits g c b -> num g (factor c) (phi b).

Lemma pcomp_component_t g c b v i : pcomp g (Comp c b) (v, i) -> exists p, pcomp g (component_t c b) p /\ (forall n, (i < 2 ^ n)%N -> in_space n [p]) /\
  ((v <> 0 -> grade_declared b i) -> dcomp g (component_t c b) p /\ meq [p] [(v, i)]).
Proof.
  intros P. destruct (component_t_cases c b) as [->|[-> D]].
  - exists (v, i). split; [exact P|]. split; [intros n H; repeat constructor; exact H|]. intros H. destruct P. split; [split; auto|reflexivity].
  - exists (0, 0%N). split; [split; reflexivity|]. split; [intros n _; repeat constructor; cbn; apply N.neq_0_lt_0, N.pow_nonzero; discriminate|].
    intros H. split; [split; [reflexivity|]; split; [reflexivity|]; cbn; lra|].
    assert (v = 0).
    { destruct D as [->|[x ->]].
      - destruct P as [P _]. apply num_cv_inv in P. exact P.
      - cbn [grade_declared] in H. destruct (Req_EM_T v 0) as [|Q]; [auto|]. specialize (H Q). rewrite N.bits_0 in H. discriminate. }
    subst v. rewrite (meq_zero i), meq_zero. reflexivity.
Qed.

Lemma comps_component_t c b : comps_of (component_t c b) = [component_t c b].
Proof. destruct (component_t_cases c b) as [->|[-> _]]; reflexivity. Qed.


(** The last step common to the three mappings: choice of the blade. *)
Lemma blade_choice n pg cand coef bits (ps : N) : (n <= 63)%N -> (pg < 2 ^ 64)%N -> wf bits = true -> bexp bits -> wf coef = true ->
  ps = (2 ^ n - 1)%N -> deduce_blade pg bits = Some cand ->
  mv_ok (component_t coef (if N.eqb pg (bit n) then CBlade ps else cand)) = true /\
  forall g v k, num g coef v -> isbits g bits k -> (k < 2 ^ n)%N ->
  exists l, Forall2 (pcomp g) (comps_of (component_t coef (if N.eqb pg (bit n) then CBlade ps else cand))) l /\ in_space n l /\
   ((v <> 0 -> N.testbit pg (grade_of k) = true) ->
     Forall2 (dcomp g) (comps_of (component_t coef (if N.eqb pg (bit n) then CBlade ps else cand))) l /\ meq l [(v, k)]).
Proof.
  intros Hn Hp Wb Bb Wc -> D. destruct (deduce_ok pg bits cand Wb Bb Hp D) as [Ok Dk].
  assert (Pn : (2 ^ n <= 2 ^ 64)%N) by (apply pow_le_mono; lia). pose proof (pow2_pos n) as P0.
  rewrite comps_component_t. set (b := if N.eqb pg (bit n) then CBlade (2 ^ n - 1) else cand).
  assert (Okb : blade_ok b = true) by (unfold b; destruct (N.eqb _ _); [cbn; apply N.ltb_lt; lia|exact Ok]).
  split; [apply (component_t_den coef b _ Wc Okb eq_refl)|]. intros g v k Hv Hk Lk.
  assert (C : exists k', dblade g b k' /\ (k' < 2 ^ n)%N /\ (N.testbit pg (grade_of k) = true -> k' = k /\ grade_declared b k)).
  { unfold b. destruct (N.eqb_spec pg (bit n)) as [->|Ne].
    - exists (2 ^ n - 1)%N. split; [reflexivity|]. split; [lia|]. intros T. split; [|exact I]. symmetry. apply grade_full; [lia|auto|].
      rewrite bit_pow, N.pow2_bits_eqb in T by lia. apply N.eqb_eq in T. auto.
    - destruct (Dk g k Hk ltac:(lia)) as (k' & K1 & K2 & K3). exists k'. split; [exact K1|]. split; [destruct K2; subst; lia|exact K3]. }
  destruct C as (k' & K1 & K2 & K3). destruct (pcomp_component_t g coef b v k') as (p & P1 & P2 & P3); [split; auto|].
  exists [p]. split; [constructor; auto|]. split; [apply P2; exact K2|]. intros T. destruct P3 as [P3 P4].
  - intros Nz. destruct (K3 (T Nz)) as [-> G]. exact G.
  - split; [constructor; auto|]. rewrite P4. destruct (Req_EM_T v 0) as [->|Nz]; [rewrite !meq_zero; reflexivity|]. destruct (K3 (T Nz)) as [-> _]. reflexivity.
Qed.

Theorem orth_ok F n grades valid factor V phi f : (n <= 63)%N ->
  valid_ok valid V -> factor_ok factor phi -> (forall L R, (L < 2 ^ 64)%N -> (R < 2 ^ 64)%N -> (grades L R n < 2 ^ 64)%N) ->
  (forall L R a b k, (L < 2 ^ 64)%N -> (R < 2 ^ 64)%N -> N.testbit L a = true -> N.testbit R b = true -> (a <= n)%N -> (b <= n)%N -> (k <= n)%N ->
    (a - b <= k)%N -> (b - a <= k)%N -> (k <= a + b)%N -> N.even (k + a + b) = true -> V a b k = true -> N.testbit (grades L R n) k = true) ->
  (forall i j, (i < 2 ^ n)%N -> (j < 2 ^ n)%N ->
     meq (f i j) (if V (grade_of i) (grade_of j) (grade_of (N.lxor i j)) then [(sign_of i j * phi (N.land i j), N.lxor i j)] else [])) ->
  mult_ok (orth F n grades valid factor) f n.
Proof.
  intros Hn HV HF HB HG Hf x y m Ox Oy. unfold orth. destruct (grades_fit n x y); [|discriminate].
  destruct (blade_bits x Ox) as (l & -> & Wl & Bl & Pl & Dl & Tl). destruct (blade_bits y Oy) as (r & -> & Wr & Br & Pr & Dr & Tr).
  set (pg := grades (possible_grades x) (possible_grades y) n).
  destruct (deduce_blade pg (mk_xor l r)) as [cand|] eqn:Ec; [|discriminate].
  destruct (valid (mk_count l) (mk_count r) (mk_count (mk_xor l r))) as [v|] eqn:Ev; [|discriminate].
  destruct (eng F OMul (mk_sign l r) (factor (mk_and l r))) as [p|] eqn:Ep; [|discriminate]. intros [= <-].
  destruct (mk_and_bexp l r Bl Br Wl Wr) as [Ba Wa]. destruct (mk_xor_bexp l r Bl Br Wl Wr) as [Bx Wx].
  destruct (mk_count_cexp l Bl Wl) as [Cl Wcl]. destruct (mk_count_cexp r Br Wr) as [Cr Wcr]. destruct (mk_count_cexp _ Bx Wx) as [Cx Wcx].
  destruct (HF _ Wa Ba) as [Wf Vf].
  destruct (s_mul _ (eng_ok F) _ _ _ (mk_sign_wf l r Wl Wr) Wf Ep) as [Wp Vp].
  assert (Kc : is_constant (mk_count (mk_xor l r)) = false \/ exists a b c, mk_count l = CV a /\ mk_count r = CV b /\ mk_count (mk_xor l r) = CV c).
  { destruct (mk_xor_shape l r Bl Br) as [(b & c & -> & -> & ->)|[N _]].
    - right. do 3 eexists. repeat split.
    - left. destruct (mk_count_shape _ Bx) as [(b & E & _)|[_ E]]; [rewrite E in N; discriminate|exact E]. }
  destruct (HV _ _ _ _ Wcl Wcr Wcx Cl Cr Kc Ev) as [Wv Vv].
  set (test := if N.eqb pg 0 then CBool false else v).
  assert (Wt : wf test = true) by (unfold test; destruct (N.eqb pg 0); auto).
  pose proof (HB _ _ Pl Pr : (pg < 2 ^ 64)%N) as Hpg.
  pose proof (mk_if_wf _ _ (CV 0) Wt Wp eq_refl) as Wi.
  destruct (blade_choice n pg cand _ (mk_xor l r) (pseudoscalar n) Hn Hpg Wx Bx Wi) as [Okm Dm]; [apply all_ones_shift; lia|exact Ec|].
  split; [exact Okm|]. intros g i j Hi Hj Li Lj.
  assert (P64 : (2 ^ n <= 2 ^ 64)%N) by (apply pow_le_mono; lia).
  pose proof (Dl g i Hi) as Si. pose proof (Dr g j Hj) as Sj.
  set (k := N.lxor i j). assert (Lk : (k < 2 ^ n)%N) by (apply lxor_lt; auto).
  set (vld := V (grade_of i) (grade_of j) (grade_of k)).
  assert (St : istrue g test (if N.eqb pg 0 then false else vld)).
  { unfold test. destruct (N.eqb pg 0); [reflexivity|]. apply Vv; apply count_bits; auto. apply xor_bits; auto. }
  assert (Sp : num g p (sign_of i j * phi (N.land i j))).
  { apply Vp; [apply sign_bits; auto|]. apply Vf; [|apply and_bits; auto]. apply N.lt_le_trans with (2 ^ n)%N; [apply land_lt; auto|auto]. }
  set (c := if (if N.eqb pg 0 then false else vld) then sign_of i j * phi (N.land i j) else 0).
  assert (Sc : num g (mk_if test p (CV 0)) c).
  { apply (if_num _ _ _ _ _ _ St). unfold c. destruct (if N.eqb pg 0 then false else vld); [exact Sp|apply num_cv]. }
  destruct (Dm g c k Sc (xor_bits _ _ _ _ _ Si Sj) Lk) as (ml & M1 & M2 & M3). exists ml. split; [exact M1|]. split; [exact M2|].
  intros Gi Gj.
  assert (T : vld = true -> N.testbit pg (grade_of k) = true).
  { intros Hv. pose proof (grade_lxor i j) as E1. pose proof (grade_land_l i j) as E2. pose proof (grade_land_r i j) as E3. fold k in E1.
    apply (HG _ _ (grade_of i) (grade_of j)); auto; try lia.
    - apply (Tl g i n); auto. - apply (Tr g j n); auto.
    - apply grade_le; [lia|auto]. - apply grade_le; [lia|auto]. - apply grade_le; [lia|auto].
    - replace (grade_of k + grade_of i + grade_of j)%N with (2 * (grade_of k + grade_of (N.land i j)))%N by lia. rewrite N.even_mul. reflexivity. }
  destruct M3 as [M3 M4].
  { intros Nz. apply T. unfold c in Nz. destruct vld; [reflexivity|]. exfalso. apply Nz. destruct (N.eqb pg 0); reflexivity. }
  split; [exact M3|]. rewrite M4, (Hf i j Li Lj). fold k vld. unfold c. destruct vld.
  - destruct (N.eqb_spec pg 0) as [E|_]; [|reflexivity]. specialize (T eq_refl). rewrite E, N.bits_0 in T. discriminate.
  - destruct (N.eqb pg 0); apply meq_zero.
Qed.
