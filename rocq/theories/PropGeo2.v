(** C47, C48: inverse, duality and versors in general metric spaces; projection and rejection. *)
From Coq Require Import NArith ZArith List Bool Reals Lra Lia.
From Verif Require Import Bits SpecBits Expr Sem Wf SpecMv SpecAlg SpecExtra Simp Comp Mapping EvalC SpecEval Lazy SpecLazy Api SpecApi Extra SpecUtil General SpecGeneral Spaces SpecSpaces Geo SpecGeo.
From Verif Require Import MvBase SimpProofs CanonProofs ProductProofs ExtraProofs Wick Wick2 VecProofs GaProofs GeoProofs GaRound GeoApi GeoApi2 GeoApi3 GaInverse PresProofs PolyProofs ApiProofs LazyProofs2 PropApi PropExtra PropGeo.
Import ListNotations.
Local Open Scope R_scope.
Local Opaque sign_of indices.

(** ** C47: inverse, duality and versors in spaces with a general metric *)
(** The spaces are those of C33, of dimension at most 7 (C33_refuted); [G] is any geometric product of the
    metric. *)
Lemma g63 s : (gdim s <= 7)%N -> (gdim s <= 63)%N. Proof. lia. Qed.
Lemma g64 s : (gdim s <= 7)%N -> (gdim s <= 64)%N. Proof. lia. Qed.
Theorem C47_inv : forall F j d s G a ma o, (gdim s <= 7)%N -> symmetric_space s -> geometric (gdim s) (metric_of s) G ->
  rat_object (gdim s) a -> value a ma -> gnorm G ma <> 0 ->
  let inv_s := inv_m F j (general_products F j d s) in
  exact (body1 inv_s) [a] -> inv_s a = Some o ->
  o = Ovf \/ exists r, o = Done r /\ rat_object (gdim s) r /\ value r (ginv G ma).
Proof.
  intros F j d s G a ma o H7 HS HG Oa Va Nz f X E. refine (rat1 F j f _ a ma _ o _ (fun x => eq_refl) _ Oa Va X E).
  intros K g x HP Tx. exact (z_inv is_int K F j _ g _ G HP (g63 s H7) (general_sound is_int F j d s G H7 HS HG) eq_refl x ma Nz Tx).
Qed.
Print Assumptions C47_inv.
Theorem C47_igp : forall F j d s G a b ma mb o, (gdim s <= 7)%N -> symmetric_space s -> geometric (gdim s) (metric_of s) G ->
  rat_object (gdim s) a -> rat_object (gdim s) b -> value a ma -> value b mb -> gnorm G mb <> 0 ->
  let igp_s := igp_m F j (general_products F j d s) in
  exact (body2 igp_s) [a; b] -> igp_s a b = Some o ->
  o = Ovf \/ exists r, o = Done r /\ rat_object (gdim s) r /\ value r (ggp G ma (ginv G mb)).
Proof.
  intros F j d s G a b ma mb o H7 HS HG Oa Ob Va Vb Nz f X E. refine (rat2 F j f _ a b ma mb _ o _ (fun x y => eq_refl) _ Oa Ob Va Vb X E).
  intros K g x y HP Tx Ty. exact (z_igp is_int K F j _ g _ G HP (g63 s H7) (general_sound is_int F j d s G H7 HS HG) eq_refl x y ma mb Nz Tx Ty).
Qed.
Print Assumptions C47_igp.
Theorem C47_dual : forall F j d s G a b ma mb o, (gdim s <= 7)%N -> symmetric_space s -> geometric (gdim s) (metric_of s) G ->
  rat_object (gdim s) a -> rat_object (gdim s) b -> value a ma -> value b mb -> gnorm G mb <> 0 ->
  let dual_s := dual_m F j (general_products F j d s) in
  exact (body2 dual_s) [a; b] -> dual_s a b = Some o ->
  o = Ovf \/ exists r, o = Done r /\ rat_object (gdim s) r /\ value r (glc G ma (ginv G mb)).
Proof.
  intros F j d s G a b ma mb o H7 HS HG Oa Ob Va Vb Nz f X E. refine (rat2 F j f _ a b ma mb _ o _ (fun x y => eq_refl) _ Oa Ob Va Vb X E).
  intros K g x y HP Tx Ty. exact (z_dual is_int K F j _ g _ G HP (g63 s H7) (general_sound is_int F j d s G H7 HS HG) eq_refl x y ma mb Nz Tx Ty).
Qed.
Print Assumptions C47_dual.
Theorem C47_undual : forall F j d s G a b ma mb o, (gdim s <= 7)%N -> symmetric_space s -> geometric (gdim s) (metric_of s) G ->
  rat_object (gdim s) a -> rat_object (gdim s) b -> value a ma -> value b mb ->
  let undual_s := undual_m F j (general_products F j d s) in
  exact (body2 undual_s) [a; b] -> undual_s a b = Some o ->
  o = Ovf \/ exists r, o = Done r /\ rat_object (gdim s) r /\ value r (glc G ma mb).
Proof.
  intros F j d s G a b ma mb o H7 HS HG Oa Ob Va Vb f X E. refine (rat2 F j f _ a b ma mb _ o _ (fun x y => eq_refl) _ Oa Ob Va Vb X E).
  intros K g x y HP Tx Ty. exact (z_undual is_int K F j _ g _ G HP (general_sound is_int F j d s G H7 HS HG) x y ma mb Tx Ty).
Qed.
Print Assumptions C47_undual.
Theorem C47_even : forall F j d s G a b ma mb o, (gdim s <= 7)%N -> symmetric_space s -> geometric (gdim s) (metric_of s) G ->
  rat_object (gdim s) a -> rat_object (gdim s) b -> value a ma -> value b mb -> gnorm G ma <> 0 ->
  let even_s := even_m F j (general_products F j d s) in
  exact (body2 even_s) [a; b] -> even_s a b = Some o ->
  o = Ovf \/ exists r, o = Done r /\ rat_object (gdim s) r /\ value r (ggp G (ggp G ma mb) (ginv G ma)).
Proof.
  intros F j d s G a b ma mb o H7 HS HG Oa Ob Va Vb Nz f X E. refine (rat2 F j f _ a b ma mb _ o _ (fun x y => eq_refl) _ Oa Ob Va Vb X E).
  intros K g x y HP Tx Ty. exact (z_even is_int K F j _ g _ G HP (g63 s H7) (general_sound is_int F j d s G H7 HS HG) eq_refl x y ma mb Nz Tx Ty).
Qed.
Print Assumptions C47_even.
Theorem C47_odd : forall F j d s G a b ma mb o, (gdim s <= 7)%N -> symmetric_space s -> geometric (gdim s) (metric_of s) G ->
  rat_object (gdim s) a -> rat_object (gdim s) b -> value a ma -> value b mb -> gnorm G ma <> 0 ->
  let odd_s := odd_m F j (general_products F j d s) in
  exact (body2 odd_s) [a; b] -> odd_s a b = Some o ->
  o = Ovf \/ exists r, o = Done r /\ rat_object (gdim s) r /\ value r (ggp G (ggp G ma (minvol mb)) (ginv G ma)).
Proof.
  intros F j d s G a b ma mb o H7 HS HG Oa Ob Va Vb Nz f X E. refine (rat2 F j f _ a b ma mb _ o _ (fun x y => eq_refl) _ Oa Ob Va Vb X E).
  intros K g x y HP Tx Ty. exact (z_odd is_int K F j _ g _ G HP (g63 s H7) (general_sound is_int F j d s G H7 HS HG) eq_refl x y ma mb Nz Tx Ty).
Qed.
Print Assumptions C47_odd.
Theorem C47_rotor : forall F j d s G a b ma mb o, (gdim s <= 7)%N -> symmetric_space s -> geometric (gdim s) (metric_of s) G ->
  rat_object (gdim s) a -> rat_object (gdim s) b -> value a ma -> value b mb ->
  let rotor_s := rotor_m F j (general_products F j d s) in
  exact (body2 rotor_s) [a; b] -> rotor_s a b = Some o ->
  o = Ovf \/ exists r, o = Done r /\ rat_object (gdim s) r /\ value r (ggp G (ggp G ma mb) (mrev ma)).
Proof.
  intros F j d s G a b ma mb o H7 HS HG Oa Ob Va Vb f X E. refine (rat2 F j f _ a b ma mb _ o _ (fun x y => eq_refl) _ Oa Ob Va Vb X E).
  intros K g x y HP Tx Ty. exact (z_rotor is_int K F j _ g _ G HP (g63 s H7) (general_sound is_int F j d s G H7 HS HG) x y ma mb Tx Ty).
Qed.
Print Assumptions C47_rotor.
(** What these values mean, in the space of any metric: if V ~V is a non-zero scalar then the inverse is
    two-sided, and A -> V A V^-1 is linear, fixes 1, distributes over the geometric product and preserves
    the products of vectors x y + y x. *)
Theorem C47_laws : forall n A G v c, (n <= 64)%N -> geometric n A G -> (forall i j, A i j = A j i) -> in_space n v -> c <> 0 -> meq (ggp G v (mrev v)) [(c, 0%N)] ->
  let T a := ggp G (ggp G v a) (ginv G v) in
  gnorm G v = c /\ meq (ggp G v (ginv G v)) one /\ meq (ggp G (ginv G v) v) one /\
  (forall s t a b, meq (T (scale s a ++ scale t b)) (scale s (T a) ++ scale t (T b))) /\ meq (T one) one /\
  (forall a b, in_space n a -> in_space n b -> meq (T (ggp G a b)) (ggp G (T a) (T b))) /\
  (forall xs ys, (N.of_nat (length xs) <= n)%N -> (N.of_nat (length ys) <= n)%N -> let x := coordinates 0 xs in let y := coordinates 0 ys in
    meq (ggp G (T x) (T y) ++ ggp G (T y) (T x)) (ggp G x y ++ ggp G y x)).
Proof.
  intros n A G v c Hn HG HA Iv Hc E T. pose proof (versor_inv_in n G v Iv) as Ii. pose proof (versor_right n A G Hn HG v c Iv Hc E) as Er. pose proof (versor_left n A G Hn HG v c Iv Hc E) as El.
  split; [exact (versor_norm n A G Hn HG v c Iv E)|]. split; [exact Er|]. split; [exact El|]. split; [intros s t a b; exact (sw_lin G v (ginv G v) s t a b)|].
  split; [exact (sw_one n A G Hn HG v (ginv G v) Iv Er)|]. split; [intros a b Ia Ib; exact (sw_gp n A G Hn HG v (ginv G v) Iv Ii El a b Ia Ib)|].
  intros xs ys Hx Hy x y. pose proof (coords_vec n xs 0 Hx) as Vx. pose proof (coords_vec n ys 0 Hy) as Vy.
  transitivity [(2 * ip A x y, 0%N)]; [exact (sw_vectors n A G Hn HG HA v (ginv G v) Iv Ii Er El x y Vx Vy)|symmetry; exact (vec_swap n A G Hn HG HA x y Vx Vy)].
Qed.
Print Assumptions C47_laws.

(** ** C48: projection and rejection *)
(** For the vector x + y with x in the subspace of [b] (x ^ b = 0) and y orthogonal to it (y . b = 0),
    where [b] has grade [k] and a non-zero square: the projection is x and the rejection is y. *)
Theorem C48_project : forall F j n xs y k b c r u o, (n <= 63)%N -> (N.of_nat (length xs) <= n)%N ->
  let G := gp_blade (signature n 0) in let x := coordinates 0 xs in
  homog k b -> c <> 0 -> meq (ggp G b b) [(c, 0%N)] -> meq (mop x b) [] -> meq (glc G y b) [] ->
  rat_object n r -> rat_object n u -> value r (x ++ y) -> value u b -> in_space n b ->
  let project_n := project F j (signed_products F j n 0 0) in
  exact (body2 project_n) [r; u] -> project_n r u = Some o ->
  o = Ovf \/ exists r', o = Done r' /\ rat_object n r' /\ value r' x.
Proof.
  intros F j n xs y k b c r u o Hn Hx G x Hb Hc Sb Xb Yb Or Ou Vr Vu Ib f X E.
  assert (Hn' : (n + 0 + 0 <= 63)%N) by lia. assert (N64 : (n <= 64)%N) by lia. pose proof (diagonal_geometric (signature n 0) n N64) as HG. pose proof (coords_vec n xs 0 Hx) as Vx.
  pose proof (pr_norm n _ G N64 HG b k c Ib Hb Hc Sb) as Nz. pose proof (pr_value n _ G N64 HG x y b k c Vx Ib Hb Hc Sb Xb Yb) as Q.
  assert (Or' : rat_object (n + 0 + 0) r) by (rewrite !N.add_0_r; exact Or). assert (Ou' : rat_object (n + 0 + 0) u) by (rewrite !N.add_0_r; exact Ou).
  assert (W : o = Ovf \/ exists r', o = Done r' /\ rat_object (n + 0 + 0) r' /\ value r' (glc G (glc G (x ++ y) (ginv G b)) b)).
  { refine (rat2 F j f _ r u (x ++ y) b _ o _ (fun x y => eq_refl) _ Or' Ou' Vr Vu X E).
    intros K g x0 y0 HP Tx Ty. exact (z_project is_int K F j _ g _ G HP Hn' (signed_sound is_int F j n 0 0 Hn') eq_refl x0 y0 _ _ Nz Tx Ty). }
  rewrite !N.add_0_r in W. destruct W as [W|(r' & W & Or2 & Vr2)]; [left; exact W|]. right. exists r'. split; [exact W|]. split; [exact Or2|]. exact (value_meq r' _ _ Vr2 Q).
Qed.
Print Assumptions C48_project.
Theorem C48_reject : forall F j n xs y k b c r u o, (n <= 63)%N -> (N.of_nat (length xs) <= n)%N ->
  let G := gp_blade (signature n 0) in let x := coordinates 0 xs in
  homog k b -> c <> 0 -> meq (ggp G b b) [(c, 0%N)] -> meq (mop x b) [] -> meq (glc G y b) [] ->
  rat_object n r -> rat_object n u -> value r (x ++ y) -> value u b -> in_space n b ->
  let reject_n := reject F j (signed_products F j n 0 0) in
  exact (body2 reject_n) [r; u] -> reject_n r u = Some o ->
  o = Ovf \/ exists r', o = Done r' /\ rat_object n r' /\ value r' y.
Proof.
  intros F j n xs y k b c r u o Hn Hx G x Hb Hc Sb Xb Yb Or Ou Vr Vu Ib f X E.
  assert (Hn' : (n + 0 + 0 <= 63)%N) by lia. assert (N64 : (n <= 64)%N) by lia. pose proof (diagonal_geometric (signature n 0) n N64) as HG. pose proof (coords_vec n xs 0 Hx) as Vx.
  pose proof (pr_norm n _ G N64 HG b k c Ib Hb Hc Sb) as Nz. pose proof (rj_value n _ G N64 HG x y b k c Vx Ib Hb Hc Sb Xb Yb) as Q.
  assert (Or' : rat_object (n + 0 + 0) r) by (rewrite !N.add_0_r; exact Or). assert (Ou' : rat_object (n + 0 + 0) u) by (rewrite !N.add_0_r; exact Ou).
  assert (W : o = Ovf \/ exists r', o = Done r' /\ rat_object (n + 0 + 0) r' /\ value r' (msub (x ++ y) (glc G (glc G (x ++ y) (ginv G b)) b))).
  { refine (rat2 F j f _ r u (x ++ y) b _ o _ (fun x y => eq_refl) _ Or' Ou' Vr Vu X E).
    intros K g x0 y0 HP Tx Ty. exact (z_reject is_int K F j _ g _ G HP Hn' (signed_sound is_int F j n 0 0 Hn') eq_refl x0 y0 _ _ Nz Tx Ty). }
  rewrite !N.add_0_r in W. destruct W as [W|(r' & W & Or2 & Vr2)]; [left; exact W|]. right. exists r'. split; [exact W|]. split; [exact Or2|]. exact (value_meq r' _ _ Vr2 Q).
Qed.
Print Assumptions C48_reject.

(** ** Cases that meet the hypotheses *)
(** The vector u e1 + w e2 of the conformal model of the plane is a versor if it is not zero. *)
Local Transparent sign_of indices.
Example C47_versor : forall G u w, geometric 4 (conformal_metric 2) G -> u * u + w * w <> 0 -> let v := [(u, 1%N); (w, 2%N)] in in_space 4 v /\ meq (ggp G v (mrev v)) [(u * u + w * w, 0%N)] /\ gnorm G v <> 0.
Proof.
  intros G u w HG Nz v. assert (V : vec 4 v) by (apply (vec1 4 u 0); [lia|]; apply (vec1 4 w 1); [lia|constructor]). pose proof (vec_in 4 v V) as Iv.
  assert (E : meq (ggp G v (mrev v)) [(u * u + w * w, 0%N)]).
  { assert (R : mrev v = [(u * 1, 1%N); (w * 1, 2%N)]) by reflexivity. assert (Q : meq (mrev v) v) by (rewrite R; intros i; cbn [coef v]; rewrite !Rmult_1_r; reflexivity).
    transitivity (ggp G v v); [apply ggp_meq; [intros i; reflexivity|exact Q]|]. transitivity [(ip (conformal_metric 2) v v, 0%N)]; [exact (vec_square 4 _ G ltac:(lia) HG (model_sym (ConformalModel 2)) v V)|].
    intros i. cbn [coef]. assert (Z : ip (conformal_metric 2) v v = u * u + w * w). { cbv [ip v sumf]. cbn [N.log2 N.add N.mul N.pow Pos.pow Pos.iter Pos.mul Pos.size Pos.add Pos.succ Pos.pred]. cbv [conformal_metric N.ltb N.compare N.eqb Pos.compare Pos.compare_cont Pos.eqb orb andb N.add Pos.add Pos.succ]. ring. }
    rewrite Z. reflexivity. }
  split; [exact Iv|]. split; [exact E|]. rewrite (versor_norm 4 _ G ltac:(lia) HG v _ Iv E). exact Nz.
Qed.
Local Opaque sign_of indices.
Example C47_calls : forall u w x y, let M := general_products 40 40 9 (Conformal 2) in let a := two_obj 1 2 u w in let b := two_obj 1 9 x y in
  (rat_object 4 a /\ rat_object 4 b /\ value a [(u, 1%N); (w, 2%N)] /\ value b [(x, 1%N); (y, 9%N)]) /\
  (exact (body1 (inv_m 40 40 M)) [a] /\ compiles (inv_m 40 40 M a) = true) /\
  (exact (body2 (igp_m 40 40 M)) [b; a] /\ compiles (igp_m 40 40 M b a) = true) /\
  (exact (body2 (dual_m 40 40 M)) [b; a] /\ compiles (dual_m 40 40 M b a) = true) /\
  (exact (body2 (undual_m 40 40 M)) [b; a] /\ compiles (undual_m 40 40 M b a) = true) /\
  (exact (body2 (even_m 40 40 M)) [a; b] /\ compiles (even_m 40 40 M a b) = true) /\
  (exact (body2 (odd_m 40 40 M)) [a; b] /\ compiles (odd_m 40 40 M a b) = true) /\
  (exact (body2 (rotor_m 40 40 M)) [a; b] /\ compiles (rotor_m 40 40 M a b) = true).
Proof.
  intros u w x y M a b. split; [split; [two_ok 1%N 2%N|]; split; [two_ok 1%N 9%N|]; split; apply two_value|].
  do 6 (split; [split; [apply exact_check; vm_compute; reflexivity|vm_compute; reflexivity]|]). split; [apply exact_check; vm_compute; reflexivity|vm_compute; reflexivity].
Qed.
(** Projection of (x1, x2, z) onto the plane of w e12. *)
Definition one_obj (b : N) (w : R) : cliff := {| cexpr := Comp SV (CBlade b); cint := false; cvals := [w]; cbits := [] |}.
Lemma one_value b w : value (one_obj b w) [(w, b)].
Proof. intros g. exists [(w, b)]. split; [|intros j; reflexivity]. stored [w]. Qed.
Definition three_obj (x y z : R) : cliff := {| cexpr := Fn NAdd [Comp SV (CBlade 1); Comp SV (CBlade 2); Comp SV (CBlade 4)]; cint := false; cvals := [x; y; z]; cbits := [] |}.
Lemma three_value x y z : value (three_obj x y z) [(x, 1%N); (y, 2%N); (z, 4%N)].
Proof. intros g. exists [(x, 1%N); (y, 2%N); (z, 4%N)]. split; [|intros j; reflexivity]. stored [x; y; z]. Qed.
Local Transparent sign_of indices.
Example C48_case : forall x1 x2 z w, w <> 0 -> let G := gp_blade (signature 3 0) in let b := [(w, 3%N)] in
  homog 2 b /\ - (w * w) <> 0 /\ meq (ggp G b b) [(- (w * w), 0%N)] /\ meq (mop (coordinates 0 [x1; x2]) b) [] /\ meq (glc G [(z, 4%N)] b) [] /\
  value (three_obj x1 x2 z) (coordinates 0 [x1; x2] ++ [(z, 4%N)]) /\ value (one_obj 3 w) b /\ in_space 3 b.
Proof.
  intros x1 x2 z w Hw G b. split; [constructor; [reflexivity|constructor]|]. split; [intros Q; apply Hw; apply Rmult_integral in Q || (assert (Q' : w * w = 0) by lra; apply Rmult_integral in Q'); tauto|].
  split; [intros i; cbn; destruct i; cbn; ring|]. split; [intros i; cbn; destruct i; cbn; ring|]. split; [intros i; cbn; destruct i; cbn; ring|]. split; [exact (three_value x1 x2 z)|]. split; [apply one_value|].
  constructor; [reflexivity|constructor].
Qed.
Local Opaque sign_of indices.
Example C48_calls : forall x1 x2 z w, let M := signed_products 40 40 3 0 0 in let r := three_obj x1 x2 z in let u := one_obj 3 w in
  rat_object 3 r /\ rat_object 3 u /\
  (exact (body2 (project 40 40 M)) [r; u] /\ compiles (project 40 40 M r u) = true) /\ (exact (body2 (reject 40 40 M)) [r; u] /\ compiles (reject 40 40 M r u) = true).
Proof.
  intros x1 x2 z w M r u. split; [|split; [|split; (split; [apply exact_check; vm_compute; reflexivity|vm_compute; reflexivity])]].
  - exists [(1%N, SV); (2%N, SV); (4%N, SV)]. split; [reflexivity|]. split; [apply canonical_check; vm_compute; reflexivity|]. split; [split; [intros H; discriminate H|constructor]|].
    repeat (constructor; [split; [reflexivity|left; reflexivity]|]). constructor.
  - exists [(3%N, SV)]. split; [reflexivity|]. split; [apply canonical_check; vm_compute; reflexivity|]. split; [split; [intros H; discriminate H|constructor]|].
    repeat (constructor; [split; [reflexivity|left; reflexivity]|]). constructor.
Qed.
