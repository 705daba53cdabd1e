(** C32-C34: determinants, the products of spaces with a general metric, and the points of the models
    of geometry. *)
From Coq Require Import NArith ZArith List Bool Reals Lra Lia.
From Verif Require Import Bits SpecBits Expr Sem Wf SpecMv SpecAlg SpecOrder Simp Comp Mapping EvalC SpecEval Lazy SpecLazy Api SpecApi Extra Build SpecUtil General SpecGeneral Spaces SpecSpaces Models.
From Verif Require Import MvBase SimpProofs OrderProofs LazyProofs2 CompProofs2 ProductProofs CanonProofs GenDet Wick Wick2 GenMul GenApi VecProofs ModelProofs.
Import ListNotations.
Local Open Scope R_scope.
Local Opaque sign_of indices.

(** ** C32: the determinant *)
(** [entry] computes the entries of the metric matrix, of values [A]; for blades [rows] and [cols] of the
    same grade, the compile-time determinant of the entries in those rows and columns is given by the
    Leibniz formula: the sum over the permutations. *)
Theorem C32_determinant : forall F n entry g (A : N -> N -> R) rows cols e, (n <= 63)%N ->
  (forall i j e, (i < n)%N -> (j < n)%N -> entry (CV (Z.of_N i + 1)) (CV (Z.of_N j + 1)) = Some e -> wf e = true /\ num g e (A i j)) ->
  (rows < 2 ^ n)%N -> (cols < 2 ^ n)%N -> grade_of rows = grade_of cols ->
  determinant F entry (N.to_nat (grade_of cols)) (CBits rows) (CBits cols) = Some e ->
  wf e = true /\ num g e (leibniz A (indices rows) (indices cols)).
Proof. exact determinant_leibniz. Qed.
Print Assumptions C32_determinant.
(** A 3 by 3 minor of a 4 by 4 matrix: rows 1, 2, 4 and columns 2, 3, 4. *)
Example C32_case : determinant 60 (matrix_space_entry 60 4 (map CV [1; 2; 3; 4; 5; 6; 7; 8; 2; 6; 4; 8; 3; 1; 1; 2]%Z)) 3 (CBits 11) (CBits 14) = Some (CV (-4)).
Proof. vm_compute. reflexivity. Qed.

(** ** C33: the products *)
(** The spaces are conformal_metric_space<D> and general_metric_space with a symmetric matrix of integer
    constants, of any dimension up to 63.  A geometric product exists for every form (so the theorems are
    not vacuous) and is determined by the form; for an orthogonal basis it is the product that C14 speaks
    about. *)
Theorem C33_exists : forall n (B : N -> N -> R), (n <= 64)%N -> exists G, geometric n B G.
Proof. intros n B H. exists (wick B). apply wick_geometric, H. Qed.
Print Assumptions C33_exists.
Theorem C33_unique : forall n (B : N -> N -> R) G G', (n <= 64)%N -> geometric n B G -> geometric n B G' ->
  forall a b, (a < 2 ^ n)%N -> (b < 2 ^ n)%N -> meq (G a b) (G' a b).
Proof. intros n B G G' H HG HG' a b Ha Hb. rewrite (geometric_unique B n G H HG a b Ha Hb), (geometric_unique B n G' H HG' a b Ha Hb). reflexivity. Qed.
Print Assumptions C33_unique.
Theorem C33_orthogonal : forall q n, (n <= 64)%N -> geometric n (diagonal_form q) (gp_blade q).
Proof. exact diagonal_geometric. Qed.
Print Assumptions C33_orthogonal.
Lemma space_int F s : symmetric_space s -> int_entries (gdim s) (gentry F s) (metric_of s).
Proof. destruct s as [D|n l]; intros H; [apply conformal_int|apply matrix_int, H]. Qed.

(** [_partial]: the components of the second argument have grade at most 7, or at most 8 if those of the first have
    grade at most 7 (the first argument is otherwise arbitrary).  The claim fails for second arguments of grade 9
    (C33_refuted). *)
Theorem C33_gp_partial : forall s F k d G a b ma mb o, (gdim s <= 63)%N -> symmetric_space s -> geometric (gdim s) (metric_of s) G ->
  int_object (gdim s) a -> int_object (gdim s) b -> 
  grades_upto 7 (cexpr b) = true \/ (grades_upto 7 (cexpr a) = true /\ grades_upto 8 (cexpr b) = true) -> value a ma -> value b mb ->
  gp_g F k d (gdim s) (gentry F s) a b = Some o -> o = Ovf \/ exists r, o = Done r /\ int_object (gdim s) r /\ value r (bilinear G ma mb).
Proof.
  intros s F k d G a b ma mb o Hn HS HG Oa Ob Gb Va Vb E.
  exact (general_call F k d (gdim s) (gentry F s) _ G _ _ _ _ Hn (space_int F s HS) HG (gp_valid_ok F) (gp_bv F) (gp_declares (gdim s) Hn) gp_keeps a b ma mb o Oa Ob (fits_or _ _ Gb) Va Vb E).
Qed.
Print Assumptions C33_gp_partial.
Theorem C33_lcont_partial : forall s F k d G a b ma mb o, (gdim s <= 63)%N -> symmetric_space s -> geometric (gdim s) (metric_of s) G ->
  int_object (gdim s) a -> int_object (gdim s) b -> 
  grades_upto 7 (cexpr b) = true \/ (grades_upto 7 (cexpr a) = true /\ grades_upto 8 (cexpr b) = true) -> value a ma -> value b mb ->
  lcont_g F k d (gdim s) (gentry F s) a b = Some o -> o = Ovf \/ exists r, o = Done r /\ int_object (gdim s) r /\ value r (bilinear (part_lcont G) ma mb).
Proof.
  intros s F k d G a b ma mb o Hn HS HG Oa Ob Gb Va Vb E.
  exact (general_call F k d (gdim s) (gentry F s) _ G _ _ _ _ Hn (space_int F s HS) HG (lcont_valid_ok F) (lcont_bv F) (lcont_declares (gdim s)) lcont_keeps a b ma mb o Oa Ob (fits_or _ _ Gb) Va Vb E).
Qed.
Print Assumptions C33_lcont_partial.
Theorem C33_rcont_partial : forall s F k d G a b ma mb o, (gdim s <= 63)%N -> symmetric_space s -> geometric (gdim s) (metric_of s) G ->
  int_object (gdim s) a -> int_object (gdim s) b -> 
  grades_upto 7 (cexpr b) = true \/ (grades_upto 7 (cexpr a) = true /\ grades_upto 8 (cexpr b) = true) -> value a ma -> value b mb ->
  rcont_g F k d (gdim s) (gentry F s) a b = Some o -> o = Ovf \/ exists r, o = Done r /\ int_object (gdim s) r /\ value r (bilinear (part_rcont G) ma mb).
Proof.
  intros s F k d G a b ma mb o Hn HS HG Oa Ob Gb Va Vb E.
  exact (general_call F k d (gdim s) (gentry F s) _ G _ _ _ _ Hn (space_int F s HS) HG (rcont_valid_ok F) (rcont_bv F) (rcont_declares (gdim s)) rcont_keeps a b ma mb o Oa Ob (fits_or _ _ Gb) Va Vb E).
Qed.
Print Assumptions C33_rcont_partial.
Theorem C33_sp_partial : forall s F k d G a b ma mb o, (gdim s <= 63)%N -> symmetric_space s -> geometric (gdim s) (metric_of s) G ->
  int_object (gdim s) a -> int_object (gdim s) b -> 
  grades_upto 7 (cexpr b) = true \/ (grades_upto 7 (cexpr a) = true /\ grades_upto 8 (cexpr b) = true) -> value a ma -> value b mb ->
  sp_g F k d (gdim s) (gentry F s) a b = Some o -> o = Ovf \/ exists r, o = Done r /\ int_object (gdim s) r /\ value r (bilinear (part_sp G) ma mb).
Proof.
  intros s F k d G a b ma mb o Hn HS HG Oa Ob Gb Va Vb E.
  exact (general_call F k d (gdim s) (gentry F s) _ G _ _ _ _ Hn (space_int F s HS) HG (sp_valid_ok F) (sp_bv F) (sp_declares (gdim s)) sp_keeps a b ma mb o Oa Ob (fits_or _ _ Gb) Va Vb E).
Qed.
Print Assumptions C33_sp_partial.
Theorem C33_dot_partial : forall s F k d G a b ma mb o, (gdim s <= 63)%N -> symmetric_space s -> geometric (gdim s) (metric_of s) G ->
  int_object (gdim s) a -> int_object (gdim s) b -> 
  grades_upto 7 (cexpr b) = true \/ (grades_upto 7 (cexpr a) = true /\ grades_upto 8 (cexpr b) = true) -> value a ma -> value b mb ->
  dot_g F k d (gdim s) (gentry F s) a b = Some o -> o = Ovf \/ exists r, o = Done r /\ int_object (gdim s) r /\ value r (bilinear (part_dot G) ma mb).
Proof.
  intros s F k d G a b ma mb o Hn HS HG Oa Ob Gb Va Vb E.
  exact (general_call F k d (gdim s) (gentry F s) _ G _ _ _ _ Hn (space_int F s HS) HG (dot_valid_ok F) (dot_bv F) (dot_declares (gdim s)) dot_keeps a b ma mb o Oa Ob (fits_or _ _ Gb) Va Vb E).
Qed.
Print Assumptions C33_dot_partial.
Theorem C33_hip_partial : forall s F k d G a b ma mb o, (gdim s <= 63)%N -> symmetric_space s -> geometric (gdim s) (metric_of s) G ->
  int_object (gdim s) a -> int_object (gdim s) b -> 
  grades_upto 7 (cexpr b) = true \/ (grades_upto 7 (cexpr a) = true /\ grades_upto 8 (cexpr b) = true) -> value a ma -> value b mb ->
  hip_g F k d (gdim s) (gentry F s) a b = Some o -> o = Ovf \/ exists r, o = Done r /\ int_object (gdim s) r /\ value r (bilinear (part_hip G) ma mb).
Proof.
  intros s F k d G a b ma mb o Hn HS HG Oa Ob Gb Va Vb E.
  exact (general_call F k d (gdim s) (gentry F s) _ G _ _ _ _ Hn (space_int F s HS) HG (hip_valid_ok F) (hip_bv F) (hip_declares (gdim s)) hip_keeps a b ma mb o Oa Ob (fits_or _ _ Gb) Va Vb E).
Qed.
Print Assumptions C33_hip_partial.
(** gp(u, v) + gp(v, u) = 2 (u . v), in every such space. *)
Theorem C33_vectors : forall s F k d a b xs ys p q o, (gdim s <= 63)%N -> symmetric_space s ->
  int_object (gdim s) a -> int_object (gdim s) b -> grades_upto 1 (cexpr a) = true -> grades_upto 1 (cexpr b) = true ->
  (N.of_nat (length xs) <= gdim s)%N -> (N.of_nat (length ys) <= gdim s)%N -> value a (coordinates 0 xs) -> value b (coordinates 0 ys) ->
  gp_g F k d (gdim s) (gentry F s) a b = Some (Done p) -> gp_g F k d (gdim s) (gentry F s) b a = Some (Done q) -> plus F k p q = Some o ->
  o = Ovf \/ exists r, o = Done r /\ value r [(2 * inner (metric_of s) xs ys, 0%N)].
Proof.
  intros s F k d a b xs ys p q o Hn HS Oa Ob Ga Gb Lx Ly Va Vb Ep Eq E. apply upto_weaken in Ga, Gb. set (G := wick (metric_of s)). assert (HG : geometric (gdim s) (metric_of s) G) by (apply wick_geometric; lia).
  destruct (C33_gp_partial s F k d G a b _ _ _ Hn HS HG Oa Ob (or_introl Gb) Va Vb Ep) as [C|(p' & C & Op & Vp)]; [discriminate C|injection C as <-].
  destruct (C33_gp_partial s F k d G b a _ _ _ Hn HS HG Ob Oa (or_introl Ga) Vb Va Eq) as [C|(q' & C & Oq & Vq)]; [discriminate C|injection C as <-].
  destruct (ApiProofs3.int_call F k _ _ [p; q] [_; _] _ o (ApiProofs2.sound_add PolyProofs.is_pos F k (gdim s) _ _) (Forall_cons _ Op (Forall_cons _ Oq (Forall_nil _))) (Forall2_cons _ _ Vp (Forall2_cons _ _ Vq (Forall2_nil _))) E) as [->|(r & -> & _ & Vr)]; [left; reflexivity|right].
  exists r. split; [reflexivity|]. refine (ExtraProofs.value_meq _ _ _ Vr _). refine (vectors_sum (gdim s) (metric_of s) G _ HG xs ys Lx Ly _); [lia|]. intros i j. apply (space_int F s HS).
Qed.
Print Assumptions C33_vectors.
(** The scalar product of two vectors is their inner product. *)
Theorem C33_vectors_sp : forall s F k d a b xs ys o, (gdim s <= 63)%N -> symmetric_space s ->
  int_object (gdim s) a -> int_object (gdim s) b -> grades_upto 1 (cexpr a) = true -> grades_upto 1 (cexpr b) = true ->
  (N.of_nat (length xs) <= gdim s)%N -> (N.of_nat (length ys) <= gdim s)%N -> value a (coordinates 0 xs) -> value b (coordinates 0 ys) ->
  sp_g F k d (gdim s) (gentry F s) a b = Some o -> o = Ovf \/ exists r, o = Done r /\ value r [(inner (metric_of s) xs ys, 0%N)].
Proof.
  intros s F k d a b xs ys o Hn HS Oa Ob Ga Gb Lx Ly Va Vb E. apply upto_weaken in Ga, Gb. set (G := wick (metric_of s)). assert (HG : geometric (gdim s) (metric_of s) G) by (apply wick_geometric; lia).
  destruct (C33_sp_partial s F k d G a b _ _ _ Hn HS HG Oa Ob (or_introl Gb) Va Vb E) as [C|(r & C & _ & Vr)]; [left; exact C|right].
  exists r. split; [exact C|]. refine (ExtraProofs.value_meq _ _ _ Vr _). exact (vectors_sp (gdim s) (metric_of s) G ltac:(lia) HG xs ys Lx Ly).
Qed.
Print Assumptions C33_vectors_sp.
(** Objects that meet the hypotheses: u e1 + v e5 and w e1^e4 + 3 e5 in conformal_metric_space<3>, where e4
    and e5 are null and have the inner product -1. *)
Definition gob_a (u v : R) : cliff := {| cexpr := Fn NAdd [Comp SV (CBlade 1); Comp SV (CBlade 16)]; cint := false; cvals := [u; v]; cbits := [] |}.
Definition gob_b (w : R) : cliff := {| cexpr := Fn NAdd [Comp (CV 3) (CBlade 16); Comp SV (CBlade 9)]; cint := false; cvals := [w]; cbits := [] |}.
Example C33_case : forall u v w, int_object 5 (gob_a u v) /\ int_object 5 (gob_b w) /\ grades_upto 1 (cexpr (gob_a u v)) = true /\ grades_upto 7 (cexpr (gob_b w)) = true /\
  exists r, gp_g 40 40 9 5 (gentry 40 (Conformal 3)) (gob_a u v) (gob_b w) = Some (Done r) /\
  cexpr r = Fn NAdd [Comp SV (CBlade 1); Comp SV (CBlade 8); Comp SV (CBlade 17); Comp SV (CBlade 25)].
Proof.
  intros u v w. split; [|split; [|split; [reflexivity|split; [reflexivity|]]]].
  - exists [(1%N, SV); (16%N, SV)]. split; [reflexivity|]. split; [apply canonical_check; vm_compute; reflexivity|]. split; [split; [intros H; discriminate H|constructor]|].
    constructor; [|constructor; [|constructor]]; (split; [reflexivity|left; reflexivity]).
  - exists [(16%N, CV 3); (9%N, SV)]. split; [reflexivity|]. split; [apply canonical_check; vm_compute; reflexivity|]. split; [split; [intros H; discriminate H|constructor]|].
    constructor; [split; [reflexivity|right; split; reflexivity]|]. constructor; [split; [reflexivity|left; reflexivity]|constructor].
  - eexists; (split; [lazy; reflexivity|lazy; reflexivity]).
Qed.
(** In conformal_metric_space<7>, the pseudoscalar times e2 is right, but e2 times the pseudoscalar is 0 according to the library: the search for
    the largest possible grade stops at the wrong bit from 2^8 on. *)
Definition gob_e2 : cliff := lazy_obj (Comp (CV 1) (CBlade 2)).
Definition gob_I9 : cliff := lazy_obj (Comp (CV 1) (CBlade 511)).
Example C33_left_case : grades_upto 7 (cexpr gob_e2) = true /\ exists r, gp_g 60 60 20 9 (gentry 60 (Conformal 7)) gob_I9 gob_e2 = Some (Done r) /\ cexpr r = Comp (CV (-1)) (CBlade 509).
Proof. split; [reflexivity|]. eexists. split; [vm_compute; reflexivity|reflexivity]. Qed.
Theorem C33_refuted : exists a b ma mb r, int_object 9 a /\ int_object 9 b /\ value a ma /\ value b mb /\
  gp_g 60 60 20 9 (gentry 60 (Conformal 7)) a b = Some (Done r) /\ value r [] /\
  forall G, geometric 9 (conformal_metric 7) G -> ~ meq (bilinear G ma mb) [].
Proof.
  assert (O : forall b, (b < 2 ^ 9)%N -> int_object 9 (lazy_obj (Comp (CV 1) (CBlade b))) /\ value (lazy_obj (Comp (CV 1) (CBlade b))) [(1, b)]).
  { intros b Hb. split.
    - exists [(b, CV 1)]. split; [reflexivity|]. split; [apply canonical_cons; [apply canonical_nil|constructor|discriminate|]|].
      + apply (N.lt_trans _ _ _ Hb). reflexivity.
      + split; [split; constructor|]. constructor; [|constructor]. split; [exact Hb|right; split; reflexivity].
    - intros g. exists [(1, b)]. split; [|intros j; reflexivity]. exists ([], []). split; [|reflexivity]. exists ([], []). split; [reflexivity|split; [split; reflexivity|intros _; exact Logic.I]]. }
  exists gob_e2, gob_I9, [(1, 2%N)], [(1, 511%N)]. eexists. split; [apply O; reflexivity|]. split; [apply O; reflexivity|]. split; [apply O; reflexivity|]. split; [apply O; reflexivity|].
  split; [vm_compute; reflexivity|]. split.
  { intros g. exists [(0, 0%N)]. split; [|intros j; cbn [coef]; destruct (N.eqb 0 j); lra]. exists ([], []). split; [|reflexivity]. exists ([], []). split; [reflexivity|split; [split; reflexivity|intros _; exact Logic.I]]. }
  intros G (_ & _ & HG & _) Q. specialize (HG 1%N 511%N eq_refl eq_refl).
  assert (E : sumf (bilinear G [(1, 2%N)] [(1, 511%N)]) (fun b => if N.eqb b 509 then 1 else 0) = sumf (G 2%N 511%N) (fun b => if N.eqb b 509 then 1 else 0)) by (rewrite sumf_bilinear; cbn [sumf]; ring).
  rewrite (sumf_meq _ _ _ Q) in E. change (2 ^ 1)%N with 2%N in HG. rewrite (sumf_meq _ _ _ HG), sumf_app in E. unfold contract in E. change (indices 511) with [0; 1; 2; 3; 4; 5; 6; 7; 8]%N in E.
  cbn [map] in E. change (op_blade 2 511) with (@nil (R * N)) in E. cbn [sumf] in E.
  assert (N0 : forall j, j <> 1%N -> conformal_metric 7 1 j = 0). { intros j Hj. unfold conformal_metric. cbn [N.ltb N.compare orb]. destruct (N.eqb_spec 1 j); [congruence|reflexivity]. }
  rewrite (N0 0%N), (N0 2%N), (N0 3%N), (N0 4%N), (N0 5%N), (N0 6%N), (N0 7%N), (N0 8%N) in E by discriminate. rewrite !Rmult_0_l, !Rplus_0_l, !Rplus_0_r in E.
  change (conformal_metric 7 1 1) with 1 in E. change (N.eqb (N.lxor 511 (2 ^ 1)) 509) with true in E. cbv iota in E. rewrite Rmult_1_l, Rmult_1_r in E. exact (Clifford.sign_nz _ _ (eq_sym E)).
Qed.
Print Assumptions C33_refuted.

(** ** C34: points *)
(** point(...) in the conformal model, for native coordinates: p + no + (|p|^2 / 2) ni.  The call always
    compiles; its outcome is the vector, or an overflow of the sum of squares of integer coordinates. *)
Theorem C34_conformal_point : forall F k D l xs, (D + 2 <= 63)%N -> l <> [] -> D = N.of_nat (length l) -> Forall2 native l xs ->
  conformal_point (20 + F) (20 + k) D l = Some Ovf \/
  exists a, conformal_point (20 + F) (20 + k) D l = Some (Done a) /\ int_object (D + 2) a /\ value a (coordinates 0 (xs ++ [1; dotp xs xs / 2])).
Proof.
  intros F k D l xs HD Hl HL H. destruct (conformal_point_ok F k D l xs HD Hl HL H) as [E|(a & E & O & _ & V)]; [left; exact E|right; exists a; auto].
Qed.
Print Assumptions C34_conformal_point.
(** sp(P, Q) = -|p - q|^2 / 2. *)
Theorem C34_conformal_distance : forall F k F' k' d D l m xs ys p q o, (D + 2 <= 63)%N -> l <> [] -> D = N.of_nat (length l) -> length m = length l ->
  Forall2 native l xs -> Forall2 native m ys -> conformal_point (20 + F) (20 + k) D l = Some (Done p) -> conformal_point (20 + F) (20 + k) D m = Some (Done q) ->
  sp_g F' k' d (D + 2) (gentry F' (Conformal D)) p q = Some o -> o = Ovf \/ exists r, o = Done r /\ value r [(- dist2 xs ys / 2, 0%N)].
Proof.
  intros F k F' k' d D l m xs ys p q o HD Hl HL HM Hx Hy Ep Eq E. pose proof (Forall2_len _ _ _ Hx) as Lx. pose proof (Forall2_len _ _ _ Hy) as Ly.
  assert (Hm : m <> []) by (intros ->; destruct l; [congruence|discriminate HM]).
  destruct (conformal_point_ok F k D l xs HD Hl HL Hx) as [C|(p' & C & Vp)]; rewrite C in Ep; [discriminate Ep|]. apply GumProofs.Some_inj in Ep. injection Ep as ->.
  destruct (conformal_point_ok F k D m ys HD Hm ltac:(rewrite HM; exact HL) Hy) as [C'|(q' & C' & Vq)]; rewrite C' in Eq; [discriminate Eq|]. apply GumProofs.Some_inj in Eq. injection Eq as ->.
  destruct (conformal_sp F' k' d D (xs ++ [1; dotp xs xs / 2]) (ys ++ [1; dotp ys ys / 2]) p q o HD ltac:(rewrite app_length; cbn [length]; lia) ltac:(rewrite app_length; cbn [length]; lia) Vp Vq E) as [->|(r & -> & _ & Vr)]; [left; reflexivity|right].
  exists r. split; [reflexivity|]. rewrite conformal_inner in Vr by lia. exact Vr.
Qed.
Print Assumptions C34_conformal_distance.
Theorem C34_conformal_null : forall F k F' k' d D l xs p o, (D + 2 <= 63)%N -> l <> [] -> D = N.of_nat (length l) ->
  Forall2 native l xs -> conformal_point (20 + F) (20 + k) D l = Some (Done p) ->
  sp_g F' k' d (D + 2) (gentry F' (Conformal D)) p p = Some o -> o = Ovf \/ exists r, o = Done r /\ value r [(0, 0%N)].
Proof.
  intros F k F' k' d D l xs p o HD Hl HL Hx Ep E. destruct (C34_conformal_distance F k F' k' d D l l xs xs p p o HD Hl HL eq_refl Hx Hx Ep Ep E) as [C|(r & C & V)]; [left; exact C|right].
  exists r. split; [exact C|]. rewrite dist_self in V. replace 0 with (-0 / 2) by field. exact V.
Qed.
Print Assumptions C34_conformal_null.
(** The same in the Minkowski model. *)
Theorem C34_minkowski_point : forall F k D l xs, (D + 2 <= 63)%N -> l <> [] -> D = N.of_nat (length l) -> Forall2 native l xs ->
  minkowski_point (20 + F) (20 + k) D l = Some Ovf \/
  exists a, minkowski_point (20 + F) (20 + k) D l = Some (Done a) /\ int_object (D + 2) a /\ value a (coordinates 0 (xs ++ [(dotp xs xs - 1) / 2; (dotp xs xs + 1) / 2])).
Proof.
  intros F k D l xs HD Hl HL H. destruct (minkowski_point_ok F k D l xs HD Hl HL H) as [E|(a & E & O & _ & V)]; [left; exact E|right; exists a; auto].
Qed.
Print Assumptions C34_minkowski_point.
Theorem C34_minkowski_distance : forall F k F' k' D l m xs ys p q o, (D + 2 <= 63)%N -> l <> [] -> D = N.of_nat (length l) -> length m = length l ->
  Forall2 native l xs -> Forall2 native m ys -> minkowski_point (20 + F) (20 + k) D l = Some (Done p) -> minkowski_point (20 + F) (20 + k) D m = Some (Done q) ->
  sp F' k' (D + 1) 1 0 p q = Some o -> o = Ovf \/ exists r, o = Done r /\ value r [(- dist2 xs ys / 2, 0%N)].
Proof.
  intros F k F' k' D l m xs ys p q o HD Hl HL HM Hx Hy Ep Eq E. pose proof (Forall2_len _ _ _ Hx) as Lx. pose proof (Forall2_len _ _ _ Hy) as Ly.
  assert (Hm : m <> []) by (intros ->; destruct l; [congruence|discriminate HM]).
  destruct (minkowski_point_ok F k D l xs HD Hl HL Hx) as [C|(p' & C & Vp)]; rewrite C in Ep; [discriminate Ep|]. apply GumProofs.Some_inj in Ep. injection Ep as ->.
  destruct (minkowski_point_ok F k D m ys HD Hm ltac:(rewrite HM; exact HL) Hy) as [C'|(q' & C' & Vq)]; rewrite C' in Eq; [discriminate Eq|]. apply GumProofs.Some_inj in Eq. injection Eq as ->.
  destruct (minkowski_sp F' k' D (xs ++ [(dotp xs xs - 1) / 2; (dotp xs xs + 1) / 2]) (ys ++ [(dotp ys ys - 1) / 2; (dotp ys ys + 1) / 2]) p q o HD ltac:(rewrite app_length; cbn [length]; lia) ltac:(rewrite app_length; cbn [length]; lia) Vp Vq E) as [->|(r & -> & _ & Vr)]; [left; reflexivity|right].
  exists r. split; [reflexivity|]. rewrite minkowski_inner in Vr by lia. exact Vr.
Qed.
Print Assumptions C34_minkowski_distance.
Theorem C34_minkowski_null : forall F k F' k' D l xs p o, (D + 2 <= 63)%N -> l <> [] -> D = N.of_nat (length l) ->
  Forall2 native l xs -> minkowski_point (20 + F) (20 + k) D l = Some (Done p) ->
  sp F' k' (D + 1) 1 0 p p = Some o -> o = Ovf \/ exists r, o = Done r /\ value r [(0, 0%N)].
Proof.
  intros F k F' k' D l xs p o HD Hl HL Hx Ep E. destruct (C34_minkowski_distance F k F' k' D l l xs xs p p o HD Hl HL eq_refl Hx Hx Ep Ep E) as [C|(r & C & V)]; [left; exact C|right].
  exists r. split; [exact C|]. rewrite dist_self in V. replace 0 with (-0 / 2) by field. exact V.
Qed.
Print Assumptions C34_minkowski_null.
(** Homogeneous model: points, directions and translations. *)
Theorem C34_homogeneous_point : forall F k D l xs, (D + 1 <= 63)%N -> D = N.of_nat (length l) -> Forall2 native l xs ->
  (exists a, homogeneous_point (20 + F) (20 + k) D l = Some (Done a) /\ int_object (D + 1) a /\ value a (coordinates 0 (xs ++ [1]))) /\
  (exists a, homogeneous_vector (20 + F) (20 + k) D l = Some (Done a) /\ int_object (D + 1) a /\ value a (coordinates 0 (xs ++ [0]))).
Proof.
  intros F k D l xs HD HL H. destruct (homogeneous_point_ok F k D l xs HD HL H) as (a & E & O & _ & V). destruct (homogeneous_vector_ok F k D l xs HD HL H) as (b & E' & O' & _ & V'). split; [exists a|exists b]; auto.
Qed.
Print Assumptions C34_homogeneous_point.
(** translate(d, f) computes f + d ^ (e << f), for every multivector f ... *)
Theorem C34_translate : forall F k D a b ma mb o, (D + 1 <= 63)%N -> int_object (D + 1) a -> int_object (D + 1) b -> value a ma -> value b mb ->
  translate F k D a b = Some o -> o = Ovf \/ exists r, o = Done r /\ int_object (D + 1) r /\ value r (mtranslate D ma mb).
Proof. exact translate_ok. Qed.
Print Assumptions C34_translate.
(** ... so that the point with coordinates xs is moved to xs + ds, and directions stay as they are. *)
Theorem C34_translate_point : forall F k F' k' D l m xs ds p v o, (D + 1 <= 63)%N -> D = N.of_nat (length l) -> length m = length l -> Forall2 native l xs -> Forall2 native m ds ->
  homogeneous_point (20 + F) (20 + k) D l = Some (Done p) -> homogeneous_vector (20 + F) (20 + k) D m = Some (Done v) ->
  translate F' k' D v p = Some o -> o = Ovf \/ exists r, o = Done r /\ value r (coordinates 0 (vsum xs ds ++ [1])).
Proof.
  intros F k F' k' D l m xs ds p v o HD HL HM Hx Hd Ep Ev E. pose proof (Forall2_len _ _ _ Hx) as Lx. pose proof (Forall2_len _ _ _ Hd) as Ld.
  destruct (homogeneous_point_ok F k D l xs HD HL Hx) as (p' & C & Op & _ & Vp). rewrite C in Ep. apply GumProofs.Some_inj in Ep. injection Ep as ->.
  destruct (homogeneous_vector_ok F k D m ds HD ltac:(rewrite HM; exact HL) Hd) as (v' & C' & Ov & _ & Vv). rewrite C' in Ev. apply GumProofs.Some_inj in Ev. injection Ev as ->.
  destruct (translate_ok F' k' D v p _ _ o HD Ov Op Vv Vp E) as [->|(r & -> & _ & Vr)]; [left; reflexivity|right]. exists r. split; [reflexivity|].
  refine (ExtraProofs.value_meq _ _ _ Vr _). rewrite (translate_vector D xs 1 ds HD) by lia. assert (M : map (Rmult 1) ds = ds) by (rewrite <- (map_id ds) at 2; apply map_ext; intros x; ring). rewrite M. reflexivity.
Qed.
Print Assumptions C34_translate_point.
Theorem C34_translate_direction : forall F k F' k' D l m xs ds p v o, (D + 1 <= 63)%N -> D = N.of_nat (length l) -> length m = length l -> Forall2 native l xs -> Forall2 native m ds ->
  homogeneous_vector (20 + F) (20 + k) D l = Some (Done p) -> homogeneous_vector (20 + F) (20 + k) D m = Some (Done v) ->
  translate F' k' D v p = Some o -> o = Ovf \/ exists r, o = Done r /\ value r (coordinates 0 (xs ++ [0])).
Proof.
  intros F k F' k' D l m xs ds p v o HD HL HM Hx Hd Ep Ev E. pose proof (Forall2_len _ _ _ Hx) as Lx. pose proof (Forall2_len _ _ _ Hd) as Ld.
  destruct (homogeneous_vector_ok F k D l xs HD HL Hx) as (p' & C & Op & _ & Vp). rewrite C in Ep. apply GumProofs.Some_inj in Ep. injection Ep as ->.
  destruct (homogeneous_vector_ok F k D m ds HD ltac:(rewrite HM; exact HL) Hd) as (v' & C' & Ov & _ & Vv). rewrite C' in Ev. apply GumProofs.Some_inj in Ev. injection Ev as ->.
  destruct (translate_ok F' k' D v p _ _ o HD Ov Op Vv Vp E) as [->|(r & -> & _ & Vr)]; [left; reflexivity|right]. exists r. split; [reflexivity|].
  refine (ExtraProofs.value_meq _ _ _ Vr _). rewrite (translate_vector D xs 0 ds HD) by lia.
  assert (M : forall xs' ds', length ds' = length xs' -> vsum xs' (map (Rmult 0) ds') = xs'). { induction xs' as [|x xs' IH]; intros [|y ds'] L; try discriminate L; cbn [map vsum]; [reflexivity|]. injection L as L. rewrite (IH ds' L). f_equal. ring. }
  rewrite M by lia. reflexivity.
Qed.
Print Assumptions C34_translate_direction.
(** The calls compile: two points of the plane, with stored coordinates, and a translation. *)
Definition plane_point (x y : R) : cliff := {| cexpr := Fn NAdd [Comp SV (CBlade 1); Comp SV (CBlade 2); Comp (CV 1) (CBlade 4); Comp SV (CBlade 8)]; cint := false; cvals := [x; y; 1 / 2 * (x * x + y * y)]; cbits := [] |}.
Example C34_case_point : forall x y, conformal_point (20 + 20) (20 + 20) 2 [Num false x; Num false y] = Some (Done (plane_point x y)).
Proof.
  intros x y. unfold conformal_point. assert (S : sum_of_squares (20 + 20) (20 + 20) [Num false x; Num false y] = Some (Done (scalar_obj false (x * x + y * y)))) by (lazy -[Rmult Rplus IZR Rinv Rdiv]; reflexivity).
  rewrite S. cbn [andthen]. rewrite divide_two. cbn [andthen]. lazy -[Rmult Rplus IZR Rinv Rdiv]. reflexivity.
Qed.
Example C34_case : forall x y u v, exists r, sp_g 40 40 9 4 (gentry 40 (Conformal 2)) (plane_point x y) (plane_point u v) = Some (Done r) /\ cexpr r = Comp SV (CBlade 0).
Proof. intros x y u v. eexists. split; lazy -[Rmult Rplus IZR Rinv Rdiv]; reflexivity. Qed.
Example C34_case_translate : forall x y u v, exists p d r, homogeneous_point 40 40 2 [Num false x; Num false y] = Some (Done p) /\ homogeneous_vector 40 40 2 [Num false u; Num false v] = Some (Done d) /\
  translate 40 40 2 d p = Some (Done r) /\ cexpr r = Fn NAdd [Comp SV (CBlade 1); Comp SV (CBlade 2); Comp (CV 1) (CBlade 4)].
Proof. intros x y u v. do 3 eexists. split; [lazy -[Rmult Rplus IZR]; reflexivity|]. split; [lazy -[Rmult Rplus IZR]; reflexivity|]. split; lazy -[Rmult Rplus IZR]; reflexivity. Qed.
