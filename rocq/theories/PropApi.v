(** C24: the public functions on multivector objects with stored coefficients. *)
From Coq Require Import NArith ZArith List Bool Reals Lra Lia.
From Verif Require Import Bits SpecBits Expr Sem Wf SpecMv SpecAlg SpecOrder Simp Comp Mapping Ops EvalC SpecEval Lazy SpecLazy Api SpecApi.
From Verif Require Import MvBase OrderProofs CompProofs2 ProductProofs OuterProofs GumProofs AlgProofs AlgProofs2 PresProofs CanonProofs PolyProofs LazyProofs2 ApiProofs ApiProofs2 ApiProofs3 PropComp.
Import ListNotations.
Local Open Scope R_scope.

(** Objects that meet the hypotheses: u e1 + v e2 with two stored floating-point numbers, and
    w e1 + 3 e1^e2 with one stored number and a constant. *)
Definition ob_a (u v : R) : cliff := {| cexpr := Fn NAdd [Comp SV (CBlade 1); Comp SV (CBlade 2)]; cint := false; cvals := [u; v]; cbits := [] |}.
Definition ob_b (w : R) : cliff := {| cexpr := Fn NAdd [Comp SV (CBlade 1); Comp (CV 3) (CBlade 3)]; cint := false; cvals := [w]; cbits := [] |}.
Example ob_a_ok : forall u v, int_object 3 (ob_a u v) /\ value (ob_a u v) [(u, 1%N); (v, 2%N)].
Proof.
  intros u v. split.
  - exists [(1%N, SV); (2%N, SV)]. split; [reflexivity|]. split; [apply canonical_check; vm_compute; reflexivity|]. split; [split; [intros H; discriminate H|constructor]|].
    constructor; [|constructor; [|constructor]]; (split; [reflexivity|left; reflexivity]).
  - intros g. exists [(u, 1%N); (v, 2%N)]. split; [|intros j; reflexivity].
    exists ([v], []). split; [exists ([v], []); split; [reflexivity|split; [split; reflexivity|intros _; exact Logic.I]]|].
    exists ([], []). split; [exists ([], []); split; [reflexivity|split; [split; reflexivity|intros _; exact Logic.I]]|]. reflexivity.
Qed.
Example ob_b_ok : forall w, int_object 3 (ob_b w) /\ value (ob_b w) [(w, 1%N); (3, 3%N)].
Proof.
  intros w. split.
  - exists [(1%N, SV); (3%N, CV 3)]. split; [reflexivity|]. split; [apply canonical_check; vm_compute; reflexivity|]. split; [split; [intros H; discriminate H|constructor]|].
    constructor; [split; [reflexivity|left; reflexivity]|]. constructor; [split; [reflexivity|right; split; reflexivity]|constructor].
  - intros g. exists [(w, 1%N); (3, 3%N)]. split; [|intros j; reflexivity].
    exists ([], []). split; [exists ([], []); split; [reflexivity|split; [split; reflexivity|intros _; exact Logic.I]]|].
    exists ([], []). split; [exists ([], []); split; [reflexivity|split; [split; reflexivity|intros _; exact Logic.I]]|]. reflexivity.
Qed.

(** Every function below is applied to objects with compile-time blades whose coefficients are stored
    or integer constants.  Its result, if the call compiles, is again such an object and has the value
    of the operation; [Ovf] is the outcome of a run in which an arithmetic operation between integer
    coefficients leaves the 64-bit range, which cannot happen with floating-point coefficients other
    than through the constants. *)
(** Geometric product. *)
Theorem C24_gp : forall P Q R F k a b ma mb o, (P + Q + R <= 63)%N -> int_object (P + Q + R) a -> int_object (P + Q + R) b -> 
  value a ma -> value b mb -> 
  gp F k P Q R a b = Some o ->
  o = Ovf \/ exists r, o = Done r /\ int_object (P + Q + R) r /\ value r (bilinear (gp_blade (signature P Q)) ma mb).
Proof.
  intros P Q R F k a b ma mb o H Oa Ob Va Vb E.
  exact (int_call F k _ _ [a; b] [ma; mb] _ o (sound_mul is_pos F k _ _ _ _ ma mb (gp_map_ok P Q R H F) (N.le_refl _) (signed_const F P Q R _ _ H (gp_bv F))) ltac:(auto) ltac:(auto) E).
Qed.
Print Assumptions C24_gp.
(** Left contraction, right contraction, scalar product, dot product, Hestenes inner product. *)
Theorem C24_lcont : forall P Q R F k a b ma mb o, (P + Q + R <= 63)%N -> int_object (P + Q + R) a -> int_object (P + Q + R) b -> 
  value a ma -> value b mb -> 
  lcont F k P Q R a b = Some o ->
  o = Ovf \/ exists r, o = Done r /\ int_object (P + Q + R) r /\ value r (bilinear (lcont_blade (signature P Q)) ma mb).
Proof.
  intros P Q R F k a b ma mb o H Oa Ob Va Vb E.
  exact (int_call F k _ _ [a; b] [ma; mb] _ o (sound_mul is_pos F k _ _ _ _ ma mb (lcont_map_ok P Q R H F) (N.le_refl _) (signed_const F P Q R _ _ H (lcont_bv F))) ltac:(auto) ltac:(auto) E).
Qed.
Print Assumptions C24_lcont.
Theorem C24_rcont : forall P Q R F k a b ma mb o, (P + Q + R <= 63)%N -> int_object (P + Q + R) a -> int_object (P + Q + R) b -> 
  value a ma -> value b mb -> 
  rcont F k P Q R a b = Some o ->
  o = Ovf \/ exists r, o = Done r /\ int_object (P + Q + R) r /\ value r (bilinear (rcont_blade (signature P Q)) ma mb).
Proof.
  intros P Q R F k a b ma mb o H Oa Ob Va Vb E.
  exact (int_call F k _ _ [a; b] [ma; mb] _ o (sound_mul is_pos F k _ _ _ _ ma mb (rcont_map_ok P Q R H F) (N.le_refl _) (signed_const F P Q R _ _ H (rcont_bv F))) ltac:(auto) ltac:(auto) E).
Qed.
Print Assumptions C24_rcont.
Theorem C24_sp : forall P Q R F k a b ma mb o, (P + Q + R <= 63)%N -> int_object (P + Q + R) a -> int_object (P + Q + R) b -> 
  value a ma -> value b mb -> 
  sp F k P Q R a b = Some o ->
  o = Ovf \/ exists r, o = Done r /\ int_object (P + Q + R) r /\ value r (bilinear (sp_blade (signature P Q)) ma mb).
Proof.
  intros P Q R F k a b ma mb o H Oa Ob Va Vb E.
  exact (int_call F k _ _ [a; b] [ma; mb] _ o (sound_mul is_pos F k _ _ _ _ ma mb (sp_map_ok P Q R H F) (N.le_refl _) (signed_const F P Q R _ _ H (sp_bv F))) ltac:(auto) ltac:(auto) E).
Qed.
Print Assumptions C24_sp.
Theorem C24_dot : forall P Q R F k a b ma mb o, (P + Q + R <= 63)%N -> int_object (P + Q + R) a -> int_object (P + Q + R) b -> 
  value a ma -> value b mb -> 
  dot F k P Q R a b = Some o ->
  o = Ovf \/ exists r, o = Done r /\ int_object (P + Q + R) r /\ value r (bilinear (dot_blade (signature P Q)) ma mb).
Proof.
  intros P Q R F k a b ma mb o H Oa Ob Va Vb E.
  exact (int_call F k _ _ [a; b] [ma; mb] _ o (sound_mul is_pos F k _ _ _ _ ma mb (dot_map_ok P Q R H F) (N.le_refl _) (signed_const F P Q R _ _ H (dot_bv F))) ltac:(auto) ltac:(auto) E).
Qed.
Print Assumptions C24_dot.
Theorem C24_hip : forall P Q R F k a b ma mb o, (P + Q + R <= 63)%N -> int_object (P + Q + R) a -> int_object (P + Q + R) b -> 
  value a ma -> value b mb -> 
  hip F k P Q R a b = Some o ->
  o = Ovf \/ exists r, o = Done r /\ int_object (P + Q + R) r /\ value r (bilinear (hip_blade (signature P Q)) ma mb).
Proof.
  intros P Q R F k a b ma mb o H Oa Ob Va Vb E.
  exact (int_call F k _ _ [a; b] [ma; mb] _ o (sound_mul is_pos F k _ _ _ _ ma mb (hip_map_ok P Q R H F) (N.le_refl _) (signed_const F P Q R _ _ H (hip_bv F))) ltac:(auto) ltac:(auto) E).
Qed.
Print Assumptions C24_hip.
(** Outer and regressive products. *)
Theorem C24_outer : forall n F k a b ma mb o, (n <= 63)%N -> int_object n a -> int_object n b -> 
  value a ma -> value b mb -> 
  outer F k n a b = Some o ->
  o = Ovf \/ exists r, o = Done r /\ int_object n r /\ value r (bilinear op_blade ma mb).
Proof.
  intros n F k a b ma mb o H Oa Ob Va Vb E.
  exact (int_call F k _ _ [a; b] [ma; mb] _ o (sound_mul is_pos F k _ _ _ _ ma mb (op_map_ok F n H) (N.le_refl _) (op_const F n H)) ltac:(auto) ltac:(auto) E).
Qed.
Print Assumptions C24_outer.
Theorem C24_regressive : forall n F k a b ma mb o, (n <= 63)%N -> int_object n a -> int_object n b -> 
  value a ma -> value b mb -> 
  regressive F k n a b = Some o ->
  o = Ovf \/ exists r, o = Done r /\ int_object n r /\ value r (bilinear (rp_blade n) ma mb).
Proof.
  intros n F k a b ma mb o H Oa Ob Va Vb E.
  exact (int_call F k _ _ [a; b] [ma; mb] _ o (sound_mul is_pos F k _ _ _ _ ma mb (rp_map_ok F n H) (N.le_refl _) (rp_const F n H)) ltac:(auto) ltac:(auto) E).
Qed.
Print Assumptions C24_regressive.
(** Sum, difference and sign change. *)
Theorem C24_plus : forall n F k a b ma mb o, (n <= 63)%N -> int_object n a -> int_object n b -> 
  value a ma -> value b mb -> 
  plus F k a b = Some o ->
  o = Ovf \/ exists r, o = Done r /\ int_object n r /\ value r (ma ++ mb).
Proof.
  intros n F k a b ma mb o H Oa Ob Va Vb E.
  exact (int_call F k _ _ [a; b] [ma; mb] _ o (sound_add is_pos F k n ma mb) ltac:(auto) ltac:(auto) E).
Qed.
Print Assumptions C24_plus.
Theorem C24_minus : forall n F k a b ma mb o, (n <= 63)%N -> int_object n a -> int_object n b -> 
  value a ma -> value b mb -> 
  minus F k a b = Some o ->
  o = Ovf \/ exists r, o = Done r /\ int_object n r /\ value r (ma ++ scale (-1) mb).
Proof.
  intros n F k a b ma mb o H Oa Ob Va Vb E. refine (int_fn F k _ n [a; b] [ma; mb] _ o _ ltac:(auto) ltac:(auto) E).
  intros P g args HP HA. inversion HA as [|x ? ? ? Tx HA1]; subst. inversion HA1 as [|y ? ? ? Ty HA2]; subst. inversion HA2; subst. exact (y_minus is_pos P F k n g HP H x y ma mb Tx Ty).
Qed.
Print Assumptions C24_minus.
Theorem C24_neg : forall n F k a ma o, (n <= 63)%N -> int_object n a -> 
  value a ma -> 
  neg F k a = Some o ->
  o = Ovf \/ exists r, o = Done r /\ int_object n r /\ value r (scale (-1) ma).
Proof.
  intros n F k a ma o H Oa Va E.
  assert (Oc : int_object n (c_obj (-1))).
  { exists [(0%N, CV (-1))]. split; [reflexivity|]. split; [apply canonical_check; vm_compute; reflexivity|]. split; [split; constructor|]. constructor; [|constructor]. split; [apply N.neq_0_lt_0, N.pow_nonzero; discriminate|right; split; reflexivity]. }
  assert (Vc : value (c_obj (-1)) [(-1, 0%N)]).
  { intros g. exists [(-1, 0%N)]. split; [|intros j; reflexivity]. exists ([], []). split; [|reflexivity]. exists ([], []). split; [reflexivity|split; [split; reflexivity|intros _; exact Logic.I]]. }
  destruct (int_call F k _ n [c_obj (-1); a] [[(-1, 0%N)]; ma] _ o (sound_mul is_pos F k n _ _ 63 _ ma (gp_real_map_ok F) H (gp_real_const F n H)) ltac:(auto) ltac:(auto) E) as [->|(r & -> & Or & Vr)]; [auto|].
  right. exists r. split; [reflexivity|]. split; [exact Or|]. intros g. destruct (Vr g) as (m' & S & Q). exists m'. split; [exact S|]. intros j. rewrite (Q j). apply scalar_gp.
Qed.
Print Assumptions C24_neg.
(** Reversion, grade involution and Clifford conjugation. *)
Theorem C24_reverse : forall n F k a ma o, (n <= 63)%N -> int_object n a -> 
  value a ma -> 
  reverse F k a = Some o ->
  o = Ovf \/ exists r, o = Done r /\ int_object n r /\ value r (linear rev_blade ma).
Proof.
  intros n F k a ma o H Oa Va E.
  exact (int_call F k _ n [a] [ma] _ o (sound_gum is_pos F k n _ _ ma (reverse_ok F k) H) ltac:(auto) ltac:(auto) E).
Qed.
Print Assumptions C24_reverse.
Theorem C24_involute : forall n F k a ma o, (n <= 63)%N -> int_object n a -> 
  value a ma -> 
  involute F k a = Some o ->
  o = Ovf \/ exists r, o = Done r /\ int_object n r /\ value r (linear inv_blade ma).
Proof.
  intros n F k a ma o H Oa Va E.
  exact (int_call F k _ n [a] [ma] _ o (sound_gum is_pos F k n _ _ ma (involute_ok F k) H) ltac:(auto) ltac:(auto) E).
Qed.
Print Assumptions C24_involute.
Theorem C24_conjugate : forall n F k a ma o, (n <= 63)%N -> int_object n a -> 
  value a ma -> 
  conjugate F k a = Some o ->
  o = Ovf \/ exists r, o = Done r /\ int_object n r /\ value r (linear conj_blade ma).
Proof.
  intros n F k a ma o H Oa Va E.
  exact (int_call F k _ n [a] [ma] _ o (sound_gum is_pos F k n _ _ ma (conjugate_ok F k) H) ltac:(auto) ltac:(auto) E).
Qed.
Print Assumptions C24_conjugate.
(** Product with a scalar (and products of two multivectors handed to the overloads without a metric). *)
Theorem C24_gp_scalar : forall n q c F k a b ma mb o, (n <= 63)%N -> meq ma [(c, 0%N)] -> int_object n a -> int_object n b -> 
  value a ma -> value b mb -> 
  gp_scalar F k a b = Some o ->
  o = Ovf \/ exists r, o = Done r /\ int_object n r /\ value r (bilinear (gp_blade q) ma mb).
Proof.
  intros n q c F k a b ma mb o H Sc Oa Ob Va Vb E.
  destruct (int_call F k _ n [a; b] [ma; mb] _ o (sound_mul is_pos F k n _ _ 63 ma mb (gp_real_map_ok F) H (gp_real_const F n H)) ltac:(auto) ltac:(auto) E) as [->|(r & -> & Or & Vr)]; [auto|].
  right. exists r. split; [reflexivity|]. split; [exact Or|]. intros g. destruct (Vr g) as (m' & S & Q). exists m'. split; [exact S|]. intros j. rewrite (Q j). rewrite (bilinear_meq _ _ _ Sc mb mb (fun _ => eq_refl) j), (bilinear_meq _ _ _ Sc mb mb (fun _ => eq_refl) j). apply gp_scalar_free.
Qed.
Print Assumptions C24_gp_scalar.
Example C24_case : (* the products of u e1 + v e2 and w e1 + 3 e12 compile and do not overflow *)
  forall u v w, (exists r, gp 30 30 3 0 0 (ob_a u v) (ob_b w) = Some (Done r) /\ cexpr r = Fn NAdd [Comp SV (CBlade 0); Comp SV (CBlade 1); Comp SV (CBlade 2); Comp SV (CBlade 3)]) /\
  (exists r, minus 30 30 (ob_a u v) (ob_b w) = Some (Done r) /\ cexpr r = Fn NAdd [Comp SV (CBlade 1); Comp SV (CBlade 2); Comp (CV (-3)) (CBlade 3)]).
Proof. intros u v w. split; eexists; (split; [lazy; reflexivity|lazy; reflexivity]). Qed.
