From Coq Require Import NArith ZArith List Bool Lia Znumtheory.
From Verif Require Import Bits BitsProofs Expr ExprBase Simp SimpProofs SpecRat.
Import ListNotations.
Local Open Scope Z_scope.

Lemma low_cv n : lowest (CV n). Proof. left; eauto. Qed.
Lemma low_inv d : 2 <= d -> lowest (inv_c d). Proof. right; left; eauto. Qed.
Lemma low_frac n d : 2 <= d -> n <> 0 -> n <> 1 -> Z.gcd n d = 1 -> lowest (frac_c n d).
Proof. right; right; exists n, d; auto. Qed.
Local Hint Resolve low_cv low_inv low_frac : low.

Lemma cv_some z e : cv z = Some e -> e = CV z.
Proof. unfold cv. destruct (_ && _)%bool; congruence. Qed.
Lemma iabs_abs z : iabs z = Z.abs z.
Proof. unfold iabs. destruct (Z.leb_spec 0 z); lia. Qed.

(** Inversion of the first rules of the lists. *)
Lemma apply_cons r rs a b x : apply_rules (r :: rs) a b = Some x ->
  r a b = Some (Some x) \/ (r a b = Some None /\ apply_rules rs a b = Some x).
Proof. cbn. destruct (r a b) as [[y|]|]; [left; congruence|right; auto|discriminate]. Qed.

Lemma pow_cv f d k r : 1 <= d -> eng f OPow (CV d) (CV k) = Some r -> lowest r.
Proof.
  destruct f as [|f]; [discriminate|]. intros D. cbn [eng]. unfold power_step. intros H.
  apply apply_cons in H as [H|[H1 H]].
  { unfold pow_misc1 in H. destruct d as [|[p|p|]|p]; try lia; try discriminate. injection H as <-. auto with low. }
  apply apply_cons in H as [H|[H2 H]].
  { unfold pow_misc2, is_cv in H. destruct k as [|[p|p|]|p]; try discriminate.
    - destruct (Z.eqb_spec d 0); [lia|]. injection H as <-; auto with low.
    - injection H as <-; auto with low. }
  assert (D2 : d <> 1) by (intros ->; discriminate).
  apply apply_cons in H as [H|[H3 H]].
  2:{ exfalso. unfold pow_misc3 in H3. cbn [expr_eqb half] in H3. unfold yes in H3.
      destruct (ipow d (iabs k)); [|discriminate]. destruct (cv z); [|discriminate].
      destruct (Z.eqb d (-1)); [destruct (Z.even k)|destruct (Z.ltb 0 k)]; discriminate. }
  unfold pow_misc3 in H. cbn [expr_eqb half] in H. unfold yes in H.
  rewrite iabs_abs, ipow_correct in H by lia. destruct (cv (d ^ Z.abs k)) as [c|] eqn:C; [|discriminate].
  apply cv_some in C as ->. destruct (Z.eqb_spec d (-1)); [lia|]. destruct (Z.ltb_spec 0 k); injection H as <-; auto with low.
  apply low_inv. assert (k <> 0).
  { intros ->. unfold pow_misc2 in H2. cbn in H2. destruct (Z.eqb_spec d 0); [lia|discriminate]. }
  assert (d ^ 1 <= d ^ Z.abs k) by (apply Z.pow_le_mono_r; lia). lia.
Qed.

(** What is needed of the recursive calls. *)
Record low_rec (rec : op -> expr -> expr -> option expr) : Prop := {
  l_mul : forall a b r, lowest a -> lowest b -> rec OMul a b = Some r -> lowest r;
  l_mulc : forall x y r, rec OMul (CV x) (CV y) = Some r -> exists z, r = CV z;
  l_addc : forall x y r, rec OAdd (CV x) (CV y) = Some r -> exists z, r = CV z;
  l_powc : forall d k r, 1 <= d -> rec OPow (CV d) (CV k) = Some r -> lowest r;
  l_inv : forall d r, 2 <= d -> rec OPow (CV d) (CV (-1)) = Some r -> r = inv_c d;
  l_pow2 : forall d r, 2 <= d -> rec OPow (inv_c d) (CV 2) = Some r -> lowest r;
  l_pow2c : forall x r, rec OPow (CV x) (CV 2) = Some r -> exists z, r = CV z }.

Lemma yes_inv x r : yes x = Some (Some r) -> x = Some r.
Proof. destruct x; cbn; congruence. Qed.
Ltac sub := match goal with
  | H : (match ?e with Some _ => _ | None => None end) = Some _ |- _ => destruct e eqn:?; [|discriminate H]
  | H : yes _ = Some (Some _) |- _ => apply yes_inv in H
  | H : yes _ = Some None |- _ => exfalso; revert H; unfold yes; match goal with |- context [match ?e with _ => _ end] => destruct e end; discriminate
  | H : no = Some (Some _) |- _ => discriminate H
  | H : Some _ = Some _ |- _ => injection H as H
  | H : cv _ = Some _ |- _ => apply cv_some in H
  end.

Lemma lt_cv_fn x f l : lt (CV x) (Fn f l) = true.
Proof. unfold lt. cbn [esize Nat.add lt_fuel]. reflexivity. Qed.
Lemma lt_fn_cv x f l : lt (Fn f l) (CV x) = false.
Proof. unfold lt. cbn [esize Nat.add lt_fuel]. destruct l; reflexivity. Qed.

Section Step.
Context (rec : op -> expr -> expr -> option expr) (L : low_rec rec).

Lemma simpler_low n d r : 2 <= d -> simpler_rational rec n d = Some r -> lowest r.
Proof.
  intros D H. unfold simpler_rational in H. rewrite !iabs_abs in H.
  destruct (cv (Z.abs n)) as [an|] eqn:An; [|discriminate]. destruct (cv (Z.abs d)) as [ad|] eqn:Ad; [|discriminate].
  apply cv_some in An as ->. apply cv_some in Ad as ->.
  rewrite gcd_correct in H by lia. rewrite Z.abs_eq with (n := d) in H by lia.
  assert (S : sign n * sign d * Z.abs n = n).
  { unfold sign. destruct (Z.ltb_spec 0 d); [|lia]. destruct (Z.ltb_spec 0 n); [lia|]. destruct (Z.ltb_spec n 0); lia. }
  destruct (Z.eqb_spec (Z.gcd (Z.abs n) d) 1) as [G|G].
  - rewrite S in H. destruct (rec OPow (CV d) (CV (-1))) as [p|] eqn:P; [|discriminate].
    apply (l_inv _ L) in P; [|lia]. subst p.
    unfold mk_mul in H. cbn [existsb is_cv inv_c] in H.
    destruct (Z.eqb_spec n 0); [discriminate|]. destruct (Z.eqb_spec n 1); [discriminate|].
    cbn in H. injection H as <-. apply low_frac; auto. rewrite <- Z.gcd_abs_l. exact G.
  - destruct (Z.eqb_spec (Z.gcd (Z.abs n) d) 0) as [G0|G0]; [discriminate|].
    destruct (rec OPow _ _) as [p|] eqn:P; [|discriminate].
    assert (1 <= Z.quot d (Z.gcd (Z.abs n) d)).
    { pose proof (Z.gcd_nonneg (Z.abs n) d). destruct (Z.gcd_divide_r (Z.abs n) d) as [q Hq].
      set (g := Z.gcd (Z.abs n) d) in *. rewrite Hq. rewrite Z.quot_mul by lia. nia. }
    apply (l_powc _ L) in P; [|lia]. eapply (l_mul _ L); [apply low_cv|exact P|exact H].
Qed.

Lemma expr_eqb_neq_refl a b : expr_eqb a b = true -> a = b.
Proof. apply expr_eqb_eq. Qed.

Lemma mul_zero_low a b r : lowest a -> lowest b -> mul_zero a b = Some (Some r) -> lowest r.
Proof. intros A B H. unfold mul_zero in H. destruct a as [[| |]| | | | | | | | | |], b as [[| |]| | | | | | | | | |]; try discriminate; injection H as <-; auto with low. Qed.
Lemma mul_one_low a b r : lowest a -> lowest b -> mul_one a b = Some (Some r) -> lowest r.
Proof.
  intros A B H. unfold mul_one in H.
  destruct a as [[|[| |]|]| | | | | | | | | |], b as [[|[| |]|]| | | | | | | | | |]; try discriminate; injection H as <-; auto with low.
Qed.
Lemma distr_no a b : lowest a -> lowest b -> mul_distr rec a b = Some None.
Proof. intros [(x & ->)|[(d & _ & ->)|(n & d & _ & _ & _ & _ & ->)]] [(y & ->)|[(e & _ & ->)|(m & e & _ & _ & _ & _ & ->)]]; reflexivity. Qed.

(** The product of two heads (integer or 1/d), rules collect 1-3 and constants 1. *)
Definition head (e : expr) : Prop := (exists n, e = CV n) \/ (exists d, 2 <= d /\ e = inv_c d).
Lemma head_low e : head e -> lowest e.
Proof. intros [(n & ->)|(d & D & ->)]; auto with low. Qed.
Lemma collect1_low x y z : head x -> head y -> mul_collect1 rec x y = Some (Some z) -> lowest z.
Proof.
  intros X Y H. unfold mul_collect1 in H. destruct (expr_eqb x y) eqn:E; [|discriminate]. apply yes_inv in H.
  destruct X as [(n & ->)|(d & D & ->)].
  - apply (l_pow2c _ L) in H as (w & ->). auto with low.
  - apply (l_pow2 _ L) in H; auto.
Qed.
Lemma collect2_low x y z : head x -> head y -> mul_collect2 rec x y = Some (Some z) -> lowest z.
Proof.
  intros [(n & ->)|(d & D & ->)] [(m & ->)|(e & E & ->)] H; unfold mul_collect2, inv_c in H; try discriminate H.
  - cbn [no] in H. destruct (expr_eqb (CV e) (CV n)) eqn:Q; [|discriminate]. apply expr_eqb_eq in Q as [= <-]. apply yes_inv in H.
    destruct (rec OAdd (CV 1) (CV (-1))) eqn:A; [|discriminate]. apply (l_addc _ L) in A as (k & ->).
    apply (l_powc _ L) in H; [auto|lia].
  - destruct (expr_eqb (CV d) (CV m)) eqn:Q; [|discriminate]. apply expr_eqb_eq in Q as [= <-].
    destruct (rec OAdd (CV (-1)) (CV 1)) eqn:A; [|discriminate]. apply (l_addc _ L) in A as (k & ->).
    destruct (rec OPow (CV d) (CV k)) eqn:P; [|discriminate]. apply (l_powc _ L) in P; [|lia]. injection H as <-. auto.
Qed.
Lemma collect3_low x y z : head x -> head y -> mul_collect1 rec x y = Some None -> mul_collect3 rec x y = Some (Some z) -> lowest z.
Proof.
  intros [(n & ->)|(d & D & ->)] [(m & ->)|(e & E & ->)] N H; unfold mul_collect3, inv_c in H; try discriminate H.
  destruct (expr_eqb (CV d) (CV e)) eqn:Q; [|discriminate]. apply expr_eqb_eq in Q as [= <-].
  unfold mul_collect1 in N. rewrite expr_eqb_refl in N. unfold yes in N. destruct (rec OPow _ _); discriminate.
Qed.
Lemma const1_low x y z : head x -> head y -> mul_const1 rec x y = Some (Some z) -> lowest z.
Proof.
  intros [(n & ->)|(d & D & ->)] [(m & ->)|(e & E & ->)] H; unfold mul_const1, inv_c in H; try discriminate H.
  - apply yes_inv in H. apply cv_some in H as ->. auto with low.
  - apply yes_inv in H. destruct (cv (d * e)) eqn:C; [|discriminate]. apply cv_some in C as ->.
    apply (l_powc _ L) in H; [auto|nia].
Qed.
(** A helper-wrapped rule on two lowest operands. *)
Definition hd_of (e : expr) : expr := fst (split_mul e).
Lemma head_of e : lowest e -> head (hd_of e).
Proof. intros [(n & ->)|[(d & D & ->)|(n & d & D & _ & _ & _ & ->)]]; [left|right|left]; cbn; eauto. Qed.
Lemma helper_none k a b : lowest a -> lowest b -> mul_helper rec k a b = Some None -> k (hd_of a) (hd_of b) = Some None.
Proof.
  intros A B. unfold mul_helper, hd_of.
  destruct A as [(n & ->)|[(d & D & ->)|(n & d & D & _ & _ & _ & ->)]], B as [(m & ->)|[(e & E & ->)|(m & e & E & _ & _ & _ & ->)]];
    cbn [split_mul inv_c frac_c fst]; destruct (k _ _) as [[z|]|]; try discriminate; auto;
    unfold yes; repeat match goal with |- context [match ?e with Some _ => _ | None => None end] => destruct e end; discriminate.
Qed.
Lemma helper_low k a b r : lowest a -> lowest b ->
  (forall z, k (hd_of a) (hd_of b) = Some (Some z) -> lowest z) ->
  mul_helper rec k a b = Some (Some r) -> lowest r.
Proof.
  intros A B K. unfold mul_helper, hd_of in *.
  destruct A as [(n & ->)|[(d & D & ->)|(n & d & D & _ & _ & _ & ->)]], B as [(m & ->)|[(e & E & ->)|(m & e & E & _ & _ & _ & ->)]];
    cbn [split_mul inv_c frac_c fst mk_mul] in *; destruct (k _ _) as [[z|]|]; try discriminate; specialize (K _ eq_refl);
    intros H; apply yes_inv in H.
  all: try (injection H as <-; assumption).
  all: try (eapply (l_mul _ L); [exact K| |exact H]; apply low_inv; lia).
  destruct (rec OMul (inv_c d) (inv_c e)) eqn:M; [|discriminate].
  apply (l_mul _ L) in M; [|apply low_inv; lia|apply low_inv; lia].
  eapply (l_mul _ L); [exact K|exact M|exact H].
Qed.
Lemma const2_low a b r : lowest a -> lowest b -> mul_const2 rec a b = Some (Some r) -> lowest r.
Proof.
  intros [(n & ->)|[(d & D & ->)|(n & d & D & _ & _ & _ & ->)]] [(m & ->)|[(e & E & ->)|(m & e & E & _ & _ & _ & ->)]] H;
    unfold mul_const2, inv_c, frac_c in H; try discriminate H; apply yes_inv in H; eapply simpler_low; eauto.
Qed.
Lemma mul_const1_no a b : head a -> head b -> mul_const1 rec a b = Some None ->
  (exists n d, 2 <= d /\ ((a = CV n /\ b = inv_c d) \/ (a = inv_c d /\ b = CV n))).
Proof.
  intros [(n & ->)|(d & D & ->)] [(m & ->)|(e & E & ->)] H; unfold mul_const1, inv_c in H; unfold inv_c; eauto 10.
  - exfalso. unfold yes in H. destruct (cv _); discriminate.
  - exfalso. unfold yes in H. destruct (cv _); [destruct (rec OPow _ _)|]; discriminate.
Qed.

Lemma product_step_low a b r : lowest a -> lowest b -> product_step rec a b = Some r -> lowest r.
Proof.
  intros A B H. pose proof (head_of _ A) as HA. pose proof (head_of _ B) as HB.
  unfold product_step in H.
  apply apply_cons in H as [H|[_ H]]; [apply mul_zero_low in H; auto|].
  apply apply_cons in H as [H|[_ H]]; [apply mul_one_low in H; auto|].
  apply apply_cons in H as [H|[_ H]]; [rewrite distr_no in H by auto; discriminate|].
  apply apply_cons in H as [H|[N1 H]]; [eapply helper_low; [exact A|exact B| |exact H]; intros; eapply collect1_low; [exact HA|exact HB|eassumption]|].
  apply helper_none in N1; auto.
  apply apply_cons in H as [H|[_ H]]; [eapply helper_low; [exact A|exact B| |exact H]; intros; eapply collect2_low; [exact HA|exact HB|eassumption]|].
  apply apply_cons in H as [H|[_ H]]; [eapply helper_low; [exact A|exact B| |exact H]; intros; eapply collect3_low; [exact HA|exact HB|eassumption|eassumption]|].
  apply apply_cons in H as [H|[N2 H]]; [eapply helper_low; [exact A|exact B| |exact H]; intros; eapply const1_low; [exact HA|exact HB|eassumption]|].
  apply helper_none in N2; auto. apply mul_const1_no in N2; auto.
  apply apply_cons in H as [H|[N3 H]]; [apply const2_low in H; auto|].
  assert (NC : forall n d, mul_const2 rec (CV n) (inv_c d) <> Some None /\ mul_const2 rec (inv_c d) (CV n) <> Some None).
  { intros. unfold mul_const2, inv_c, yes. split; destruct (simpler_rational _ _ _); discriminate. }
  destruct A as [(n & ->)|[(d & D & ->)|(n & d & D & _ & _ & _ & ->)]], B as [(m & ->)|[(e & E & ->)|(m & e & E & _ & _ & _ & ->)]];
    cbn [hd_of split_mul fst inv_c frac_c] in N2; destruct N2 as (n' & d' & _ & [[P Q]|[P Q]]); try discriminate;
    try (exfalso; eapply NC; exact N3).
  - (* 1/d * m/e *)
    apply apply_cons in H as [H|[_ H]].
    { unfold mul_merge_lt, inv_c, frac_c in H. cbn [split_mul] in H. rewrite lt_fn_cv in H. discriminate. }
    apply apply_cons in H as [H|[N H]].
    2:{ exfalso. unfold mul_merge_gt, inv_c, frac_c in N. cbn [split_mul] in N. rewrite lt_cv_fn in N.
        unfold yes in N. cbn [mk_mul] in N. repeat match type of N with context [match ?e with Some _ => _ | None => None end] => destruct e end; discriminate. }
    unfold mul_merge_gt, inv_c, frac_c in H. cbn [split_mul mk_mul] in H. rewrite lt_cv_fn in H. apply yes_inv in H.
    match type of H with context [match ?e with Some _ => _ | None => None end] => destruct e eqn:M end; [|discriminate].
    apply (l_mul _ L) in M; [|apply low_inv; lia|apply low_inv; lia]. eapply (l_mul _ L); [|exact M|exact H]; auto with low.
  - (* n/d * 1/e *)
    apply apply_cons in H as [H|[N H]].
    2:{ exfalso. unfold mul_merge_lt, inv_c, frac_c in N. cbn [split_mul] in N. rewrite lt_cv_fn in N.
        unfold yes in N. cbn [mk_mul] in N. repeat match type of N with context [match ?e with Some _ => _ | None => None end] => destruct e end; discriminate. }
    unfold mul_merge_lt, inv_c, frac_c in H. cbn [split_mul mk_mul] in H. rewrite lt_cv_fn in H. apply yes_inv in H.
    match type of H with context [match ?e with Some _ => _ | None => None end] => destruct e eqn:M end; [|discriminate].
    apply (l_mul _ L) in M; [|apply low_inv; lia|apply low_inv; lia]. eapply (l_mul _ L); [|exact M|exact H]; auto with low.
Qed.
End Step.

Lemma mul_cv n x y r : (forall z w, eng n OPow (CV z) (CV 2) = Some w -> exists v, w = CV v) ->
  eng (S n) OMul (CV x) (CV y) = Some r -> exists z, r = CV z.
Proof.
  intros IH H. cbn [eng] in H. unfold product_step in H.
  apply apply_cons in H as [H|[_ H]].
  { unfold mul_zero in H. destruct x, y; try discriminate; injection H as <-; eauto. }
  apply apply_cons in H as [H|[_ H]].
  { unfold mul_one in H. destruct x as [|[| |]|], y as [|[| |]|]; try discriminate; injection H as <-; eauto. }
  apply apply_cons in H as [H|[_ H]]; [discriminate|].
  apply apply_cons in H as [H|[_ H]].
  { unfold mul_helper, mul_collect1 in H. cbn [split_mul] in H. destruct (expr_eqb _ _); [|discriminate].
    destruct (eng n OPow (CV x) (CV 2)) eqn:E; [|discriminate]. injection H as <-. eapply IH; eauto. }
  apply apply_cons in H as [H|[_ H]]; [discriminate|].
  apply apply_cons in H as [H|[_ H]]; [discriminate|].
  apply apply_cons in H as [H|[N H]].
  - unfold mul_helper, mul_const1 in H. cbn [split_mul] in H. destruct (cv (x * y)) eqn:C; [|discriminate].
    apply cv_some in C as ->. injection H as <-. eauto.
  - exfalso. unfold mul_helper, mul_const1 in N. cbn [split_mul] in N. unfold yes in N. destruct (cv (x * y)); discriminate.
Qed.
Lemma pow2_cv n x r : eng n OPow (CV x) (CV 2) = Some r -> exists z, r = CV z.
Proof.
  destruct n; [discriminate|]. cbn [eng]. unfold power_step. intros H.
  apply apply_cons in H as [H|[N H]].
  { unfold pow_misc1 in H. destruct x as [|[| |]|]; cbn in H; try discriminate; injection H as <-; eauto. }
  apply apply_cons in H as [H|[_ H]]; [discriminate|].
  apply apply_cons in H as [H|[N2 H]].
  - unfold pow_misc3 in H. cbn [expr_eqb half] in H. apply yes_inv in H.
    destruct (ipow x (iabs 2)); [|discriminate]. destruct (cv z) eqn:C; [|discriminate]. apply cv_some in C as ->.
    cbn in H. destruct (Z.eqb x (-1)); injection H as <-; eauto.
  - exfalso. unfold pow_misc3 in N2. cbn [expr_eqb half] in N2. unfold yes in N2.
    destruct (ipow x (iabs 2)); [|discriminate]. destruct (cv z); [|discriminate]. destruct (Z.eqb x (-1)); discriminate.
Qed.
Lemma mulc n x y r : eng n OMul (CV x) (CV y) = Some r -> exists z, r = CV z.
Proof. destruct n; [discriminate|]. apply mul_cv. intros. eapply pow2_cv; eauto. Qed.
Lemma addc n x y r : eng n OAdd (CV x) (CV y) = Some r -> exists z, r = CV z.
Proof.
  destruct n; [discriminate|]. intros H. cbn [eng] in H. unfold addition_step in H.
  apply apply_cons in H as [H|[_ H]].
  { unfold add_zero in H. destruct x, y; try discriminate; injection H as <-; eauto. }
  apply apply_cons in H as [H|[_ H]].
  { unfold add_helper, add_collect1 in H. cbn [split_add] in H. destruct (expr_eqb _ _); [|discriminate].
    destruct (eng n OMul (CV 2) (CV x)) eqn:E; [|discriminate]. injection H as <-. eapply mulc; eauto. }
  do 6 (apply apply_cons in H as [H|[_ H]]; [discriminate|]).
  apply apply_cons in H as [H|[N H]].
  - unfold add_helper, add_const1 in H. cbn [split_add] in H. destruct (cv (x + y)) eqn:C; [|discriminate].
    apply cv_some in C as ->. injection H as <-. eauto.
  - exfalso. unfold add_helper, add_const1 in N. cbn [split_add] in N. unfold yes in N. destruct (cv (x + y)); discriminate.
Qed.
Lemma inv_cv n d r : 2 <= d -> eng n OPow (CV d) (CV (-1)) = Some r -> r = inv_c d.
Proof.
  destruct n; [discriminate|]. intros D. cbn [eng]. unfold power_step. intros H.
  apply apply_cons in H as [H|[N H]].
  { unfold pow_misc1 in H. destruct d as [|[| |]|]; try lia; discriminate. }
  apply apply_cons in H as [H|[_ H]]; [discriminate|].
  assert (E : pow_misc3 (CV d) (CV (-1)) = yes (c <- cv d ;; Some (Fn NPow [c; CV (-1)]))).
  { unfold pow_misc3. cbn [expr_eqb half]. rewrite ipow_correct by (cbn; lia).
    replace (d ^ iabs (-1)) with d by (cbn; lia). destruct (cv d); [|reflexivity].
    destruct (Z.eqb_spec d (-1)); [lia|]. reflexivity. }
  apply apply_cons in H as [H|[N2 H]].
  - rewrite E in H. apply yes_inv in H. destruct (cv d) eqn:C; [|discriminate]. apply cv_some in C as ->. injection H as <-. reflexivity.
  - rewrite E in N2. destruct (cv d); discriminate.
Qed.
Lemma pow2_inv n d r : 2 <= d -> eng n OPow (inv_c d) (CV 2) = Some r -> lowest r.
Proof.
  destruct n; [discriminate|]. intros D. cbn [eng]. unfold power_step. intros H.
  do 3 (apply apply_cons in H as [H|[_ H]]; [discriminate|]).
  apply apply_cons in H as [H|[_ H]]; [|discriminate].
  unfold pow_distr, inv_c in H. apply yes_inv in H.
  destruct (eng n OMul (CV (-1)) (CV 2)) eqn:M; [|discriminate]. apply mulc in M as (z & ->).
  apply pow_cv in H; [auto|lia].
Qed.
Theorem eng_low n : low_rec (eng n).
Proof.
  induction n as [|n IH].
  - split; intros; discriminate.
  - split; intros.
    + cbn [eng] in *. eapply product_step_low; [exact IH| | |eassumption]; assumption.
    + eapply mulc; eauto.
    + eapply addc; eauto.
    + eapply pow_cv; [|eassumption]; lia.
    + eapply inv_cv; [|eassumption]; lia.
    + eapply pow2_inv; [|eassumption]; lia.
    + eapply pow2_cv; eauto.
Qed.

(** ** Sums *)
Lemma over_low n x d r : 1 <= d -> over (eng n) x d = Some r -> lowest r.
Proof.
  intros D H. unfold over in H. destruct (cv x) eqn:C; [|discriminate]. destruct (cv d) eqn:C'; [|discriminate].
  apply cv_some in C as ->. apply cv_some in C' as ->. destruct (eng n OPow (CV d) (CV (-1))) eqn:P; [|discriminate].
  apply (l_powc _ (eng_low n)) in P; [|lia]. eapply (l_mul _ (eng_low n)); [|exact P|exact H]; auto with low.
Qed.
Definition add_closed (n : nat) : Prop := forall a b r, lowest a -> lowest b -> ~ int_plus_frac a b ->
  eng n OAdd a b = Some r -> lowest r.
Lemma split_low a : lowest a -> split_add a = (a, None).
Proof. intros [(n & ->)|[(d & D & ->)|(n & d & D & _ & _ & _ & ->)]]; reflexivity. Qed.
Lemma add_helper_low rec k a b : lowest a -> lowest b -> add_helper rec k a b = match k a b with Some (Some z) => Some (Some z) | Some None => no | None => None end.
Proof. intros A B. unfold add_helper. rewrite !split_low by auto. destruct (k a b) as [[z|]|]; reflexivity. Qed.
Lemma collect_with_inv rec p q k r : collect_with rec p q k = Some (Some r) -> exists s, rec OAdd p q = Some s /\ k s = Some r.
Proof.
  unfold collect_with, simplified. destruct (rec OAdd p q) as [s|]; [|discriminate].
  destruct (mk_add [p; q]); [|discriminate]. destruct (mk_add [q; p]); [|discriminate]. destruct (_ || _)%bool; [discriminate|].
  intros H. apply yes_inv in H. eauto.
Qed.
Ltac shapes A B := destruct A as [(n' & ->)|[(d & D & ->)|(n' & d & D & NZ & NO & G & ->)]],
  B as [(m & ->)|[(e & E & ->)|(m & e & E & MZ & MO & G' & ->)]].

Theorem add_low n : add_closed n.
Proof.
  induction n as [|n IH]; intros a b r A B X H; [discriminate|].
  cbn [eng] in H. unfold addition_step in H.
  apply apply_cons in H as [H|[_ H]].
  { unfold add_zero in H. destruct a as [[| |]| | | | | | | | | |], b as [[| |]| | | | | | | | | |]; try discriminate; injection H as <-; auto with low. }
  assert (UN : forall k rs, apply_rules (add_helper (eng n) k :: rs) a b = Some r ->
      k a b = Some (Some r) \/ (k a b = Some None /\ apply_rules rs a b = Some r)).
  { intros k rs Hk. apply apply_cons in Hk. rewrite add_helper_low in Hk by auto. unfold no in Hk.
    destruct (k a b) as [[z|]|]; destruct Hk as [Hk|[Hk Hk']]; try discriminate; auto. }
  pose proof (eng_low n) as L.
  apply UN in H as [H|[N1 H]].
  { unfold add_collect1 in H. destruct (expr_eqb a b); [|discriminate]. apply yes_inv in H. eapply (l_mul _ L); [|exact A|exact H]; auto with low. }
  apply UN in H as [H|[_ H]].
  { unfold add_collect2 in H. shapes A B; try discriminate; unfold frac_c, inv_c in H.
    match type of H with context [if ?c then _ else _] => destruct c end; [|discriminate].
    apply collect_with_inv in H as (s & S & H). apply (l_addc _ L) in S as (z & ->).
    eapply (l_mul _ L); [| |exact H]; [auto with low|apply low_inv; lia]. }
  apply UN in H as [H|[_ H]].
  { unfold add_collect3 in H. shapes A B; try discriminate; unfold frac_c, inv_c in H.
    match type of H with context [if ?c then _ else _] => destruct c end; [|discriminate].
    apply collect_with_inv in H as (s & S & H). apply (l_addc _ L) in S as (z & ->).
    eapply (l_mul _ L); [| |exact H]; [auto with low|apply low_inv; lia]. }
  apply UN in H as [H|[_ H]].
  { unfold add_collect4 in H. shapes A B; try discriminate. unfold frac_c, inv_c in H. destruct (exprs_eqb _ _); [|discriminate].
    apply collect_with_inv in H as (s & S & H). apply (l_addc _ L) in S as (z & ->). cbn [mk_mul] in H.
    eapply (l_mul _ L); [| |exact H]; [auto with low|apply low_inv; lia]. }
  apply UN in H as [H|[_ H]].
  { unfold add_collect5 in H. shapes A B; try discriminate; unfold frac_c, inv_c in H; cbn [mk_mul] in H;
      (destruct (expr_eqb _ _) eqn:Q; [|discriminate]); apply expr_eqb_eq in Q; try discriminate Q.
    exfalso. apply X. unfold int_plus_frac. exists m, n', d. right. auto. }
  apply UN in H as [H|[_ H]].
  { unfold add_collect6 in H. shapes A B; try discriminate; unfold frac_c, inv_c in H; cbn [mk_mul] in H;
      (destruct (expr_eqb _ _) eqn:Q; [|discriminate]); apply expr_eqb_eq in Q; try discriminate Q.
    exfalso. apply X. unfold int_plus_frac. exists n', m, e. left. auto. }
  apply UN in H as [H|[_ H]].
  { unfold add_collect7 in H. shapes A B; try discriminate. unfold frac_c, inv_c in H; cbn [mk_mul] in H.
    destruct (expr_eqb _ _) eqn:Q; [|discriminate].
    apply collect_with_inv in H as (s & S & H). apply IH in S; [|apply low_inv; lia|apply low_inv; lia|].
    - eapply (l_mul _ L); [| |exact H]; auto with low.
    - intros (? & ? & ? & [[? ?]|[? ?]]); discriminate. }
  apply UN in H as [H|[C1 H]].
  { unfold add_const1 in H. shapes A B; try discriminate. apply yes_inv in H. apply cv_some in H as ->. auto with low. }
  apply UN in H as [H|[C2 H]].
  { unfold add_const2 in H. shapes A B; try discriminate; (apply yes_inv in H; eapply over_low; [|exact H]; lia). }
  apply UN in H as [H|[C3 H]].
  { unfold add_const3 in H. shapes A B; try discriminate; (apply yes_inv in H; eapply over_low; [|exact H]; nia). }
  apply UN in H as [H|[C4 H]].
  { unfold add_const4 in H. shapes A B; try discriminate; (apply yes_inv in H; eapply over_low; [|exact H]; nia). }
  apply UN in H as [H|[C5 H]].
  { unfold add_const5 in H. shapes A B; try discriminate; (apply yes_inv in H; eapply over_low; [|exact H]; nia). }
  exfalso. shapes A B.
  - unfold add_const1, yes in C1. destruct (cv _); discriminate.
  - unfold add_const2, yes, inv_c in C2. destruct (over _ _ _); discriminate.
  - apply X. exists n', m, e. auto.
  - unfold add_const2, yes, inv_c in C2. destruct (over _ _ _); discriminate.
  - unfold add_const4, yes, inv_c in C4. destruct (over _ _ _); discriminate.
  - unfold add_const3, yes, frac_c, inv_c in C3. destruct (over _ _ _); discriminate.
  - apply X. exists m, n', d. auto.
  - unfold add_const3, yes, frac_c, inv_c in C3. destruct (over _ _ _); discriminate.
  - unfold add_const5, yes, frac_c, inv_c in C5. destruct (over _ _ _); discriminate.
Qed.
