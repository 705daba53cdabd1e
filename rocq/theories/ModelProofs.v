(** Proofs: the points of the models of geometry. *)
From Coq Require Import NArith ZArith List Bool Reals Lra Lia.
From Verif Require Import Bits BitsBase SpecBits BitsProofs Expr Sem Wf SpecMv SpecAlg SpecOrder OrderProofs GradeProofs MvBase Simp SimpProofs Comp Mapping EvalC SpecEval RPowProofs EvalCProofs Lazy SpecLazy LazyProofs LazyProofs2 Api SpecApi CompProofs2 ProductProofs OuterProofs CanonProofs PolyProofs ApiProofs Extra ApiProofs2 ApiProofs3 ExtraProofs Build SpecUtil BuildProofs General SpecGeneral Clifford Wick Wick2 GenMul SpecSpaces Spaces GenApi Models VecProofs.
Import ListNotations.
Local Open Scope R_scope.

Section Scalars.
Variables (F k : nat).
Lemma Zof_int v : isint v -> exists z, Zof v = Some z /\ v = IZR z.
Proof. intros [z ->]. exists z. rewrite Zof_IZR. auto. Qed.
Lemma plus_false i j y s : (i && j)%bool = false -> plus (20 + F) (20 + k) (scalar_obj i y) (scalar_obj j s) = Some (Done (scalar_obj false (y + s))).
Proof. destruct i, j; try discriminate; intros _; reflexivity. Qed.
Lemma plus_true y s : plus (20 + F) (20 + k) (scalar_obj true y) (scalar_obj true s) = Some Ovf \/ plus (20 + F) (20 + k) (scalar_obj true y) (scalar_obj true s) = Some Bad \/ 
  plus (20 + F) (20 + k) (scalar_obj true y) (scalar_obj true s) = Some (Done (scalar_obj true (y + s))).
Proof.
  match goal with |- ?x = _ \/ _ => let r := eval lazy -[Rmult Rplus IZR arith] in x in replace x with r by (lazy -[Rmult Rplus IZR arith]; reflexivity) end.
  unfold arith. destruct (Zof (y + s)); [|auto]. destruct (_ && _)%bool; auto.
Qed.
Lemma plus_zero i y : plus (20 + F) (20 + k) (scalar_obj i y) (c_obj 0) = Some (Done (scalar_obj i y)).
Proof. destruct i; reflexivity. Qed.
Lemma divide_two i y : divide_by (20 + F) (20 + k) (scalar_obj i y) (c_obj 2) = Some (Done (scalar_obj false (1 / 2 * y))).
Proof.
  assert (D : forall P Q : res, (if Req_EM_T 2 0 then P else Q) = Q) by (intros; destruct (Req_EM_T 2 0); [lra|reflexivity]).
  destruct i; match goal with |- ?x = _ => let r := eval lazy -[Rmult Rplus IZR Rinv Rdiv Req_EM_T] in x in replace x with r by (lazy -[Rmult Rplus IZR Rinv Rdiv Req_EM_T]; reflexivity) end; rewrite D; reflexivity.
Qed.
Definition scalar_result (o : result) (v : R) : Prop := o = Some Ovf \/ exists i, o = Some (Done (scalar_obj i v)) /\ (i = true -> isint v).
Lemma isint_plus x y : isint x -> isint y -> isint (x + y). Proof. intros [a ->] [b ->]. exists (a + b)%Z. symmetry. apply plus_IZR. Qed.
Lemma isint_mult x y : isint x -> isint y -> isint (x * y). Proof. intros [a ->] [b ->]. exists (a * b)%Z. symmetry. apply mult_IZR. Qed.
Lemma arith_int v : isint v -> arith true v = Val (VN v) \/ arith true v = Overflow.
Proof. intros H. unfold arith. destruct (Zof_int _ H) as (z & -> & _). destruct (_ && _)%bool; [left|right]; reflexivity. Qed.
Lemma plus_result i j y s : (i = true -> isint y) -> (j = true -> isint s) -> scalar_result (plus (20 + F) (20 + k) (scalar_obj i y) (scalar_obj j s)) (y + s).
Proof.
  intros Hi Hj. destruct (i && j)%bool eqn:E; [|right; exists false; split; [apply plus_false, E|discriminate]]. destruct i, j; try discriminate E. pose proof (isint_plus y s (Hi eq_refl) (Hj eq_refl)) as H.
  match goal with |- scalar_result ?x _ => let r := eval lazy -[Rmult Rplus IZR arith] in x in replace x with r by (lazy -[Rmult Rplus IZR arith]; reflexivity) end.
  destruct (arith_int _ H) as [-> | ->]; [right; exists true; split; [reflexivity|intros _; exact H]|left; reflexivity].
Qed.
Lemma plus_one i y : (i = true -> isint y) -> scalar_result (plus (20 + F) (20 + k) (scalar_obj i y) (c_obj 1)) (1 + y).
Proof.
  intros Hi. destruct i; match goal with |- scalar_result ?x _ => let r := eval lazy -[Rmult Rplus IZR arith] in x in replace x with r by (lazy -[Rmult Rplus IZR arith]; reflexivity) end; [|right; exists false; split; [reflexivity|discriminate]].
  pose proof (isint_plus 1 y (ex_intro _ 1%Z eq_refl) (Hi eq_refl)) as H. destruct (arith_int _ H) as [-> | ->]; [right; exists true; split; [reflexivity|intros _; exact H]|left; reflexivity].
Qed.
Lemma minus_one i y : (i = true -> isint y) -> scalar_result (minus (20 + F) (20 + k) (scalar_obj i y) (c_obj 1)) (-1 + y).
Proof.
  intros Hi. destruct i; match goal with |- scalar_result ?x _ => let r := eval lazy -[Rmult Rplus IZR arith] in x in replace x with r by (lazy -[Rmult Rplus IZR arith]; reflexivity) end; [|right; exists false; split; [reflexivity|discriminate]].
  pose proof (isint_plus (-1) y (ex_intro _ (-1)%Z eq_refl) (Hi eq_refl)) as H. destruct (arith_int _ H) as [-> | ->]; [right; exists true; split; [reflexivity|intros _; exact H]|left; reflexivity].
Qed.
Lemma square_result x v : native x v -> scalar_result (square (20 + F) (20 + k) x) (v * v).
Proof.
  destruct x as [i y|a]; cbn [native square]; [intros [-> Hi]|intros []]. destruct i; [|right; exists false; split; [reflexivity|discriminate]].
  pose proof (isint_mult y y (Hi eq_refl) (Hi eq_refl)) as H. destruct (arith_int _ H) as [-> | ->]; [right; exists true; split; [reflexivity|intros _; exact H]|left; reflexivity].
Qed.
Lemma squares_result l xs : Forall2 native l xs -> l <> [] -> scalar_result (sum_of_squares (20 + F) (20 + k) l) (dotp xs xs).
Proof.
  induction 1 as [|x v l xs Hx H IH]; intros Hl; [congruence|]. change (sum_of_squares (20 + F) (20 + k) (x :: l)) with (andthen (square (20 + F) (20 + k) x) (fun q => andthen (sum_of_squares (20 + F) (20 + k) l) (fun s => plus (20 + F) (20 + k) q s))).
  destruct (square_result x v Hx) as [->|(i & -> & Hi)]; [left; reflexivity|]. cbn [andthen]. destruct H as [|y w l xs Hy H].
  - cbn [sum_of_squares andthen dotp]. rewrite plus_zero. right. exists i. rewrite Rplus_0_r. auto.
  - destruct (IH ltac:(discriminate)) as [->|(j & -> & Hj)]; [left; reflexivity|]. cbn [andthen]. change (dotp (v :: w :: xs) (v :: w :: xs)) with (v * v + dotp (w :: xs) (w :: xs)). apply plus_result; assumption.
Qed.
End Scalars.

(** ** Vectors *)
Lemma scalar_coordinate i v : (i = true -> isint v) -> coordinate_value (Scal (scalar_obj i v)) v.
Proof.
  intros H. split.
  - exists [(0%N, SV)]. split; [reflexivity|]. split; [apply canonical_check; vm_compute; reflexivity|]. split; [split; [intros E; constructor; [apply H, E|constructor]|constructor]|].
    constructor; [|constructor]. split; [reflexivity|left; reflexivity].
  - intros g. exists [(v, 0%N)]. split; [|intros j; reflexivity]. exists ([], []). split; [|reflexivity]. exists ([], []). split; [reflexivity|split; [split; reflexivity|intros _; exact Logic.I]].
Qed.
Lemma constant_coordinate z : coordinate_value (Scal (c_obj z)) (IZR z).
Proof.
  split.
  - destruct (Z.eq_dec z 0) as [->|Nz].
    + exists []. split; [reflexivity|]. split; [apply canonical_nil|]. split; [split; constructor|constructor].
    + exists [(0%N, CV z)]. split; [destruct z; [congruence|reflexivity|reflexivity]|]. split; [apply canonical_cons; [apply canonical_nil|constructor| |reflexivity]; cbn; congruence|]. split; [split; constructor|].
      constructor; [|constructor]. split; [reflexivity|right; split; reflexivity].
  - intros g. exists [(IZR z, 0%N)]. split; [|intros j; reflexivity]. exists ([], []). split; [|reflexivity]. destruct z; exists ([], []); (split; [reflexivity|split; [split; reflexivity|intros _; exact Logic.I]]).
Qed.
Lemma native_coordinates l xs : Forall2 native l xs -> Forall2 coordinate_value l xs.
Proof. induction 1 as [|x v l xs H _ IH]; constructor; [|exact IH]. destruct x as [i y|a]; [exact H|destruct H]. Qed.
(** A vector of the [n]-dimensional space. *)
Definition is_vector (n : N) (xs : list R) (a : cliff) : Prop := int_object n a /\ grades_upto 1 (cexpr a) = true /\ value a (coordinates 0 xs).
Lemma vector_result F k n l xs : (n <= 63)%N -> (2 <= k)%nat -> l <> [] -> n = N.of_nat (length l) -> Forall2 coordinate_value l xs -> exists a, make_vector F k n l = Some (Done a) /\ is_vector n xs a.
Proof.
  intros Hn Hk Hl -> H. destruct (vector_ok F k l xs Hn Hl Hk H) as (a & E & O & V). exists a. unfold make_vector. rewrite E. split; [reflexivity|]. split; [exact O|]. split; [|exact V].
  destruct (vector_entries F k _ Hn Hk l xs H Hl 0%N eq_refl) as (M & m & Et & _ & B & _). unfold vector in E. rewrite N.eqb_refl, Et in E. apply GumProofs.Some_inj in E. subst a. cbn [cexpr]. unfold grades_upto. destruct M as [|p M]; [reflexivity|].
  rewrite components_mv. rewrite forallb_forall. intros x Hx. apply in_map_iff in Hx as ((i & c) & <- & Hi). unfold bit_list in B. rewrite Forall_forall in B. destruct (B _ Hi) as ((j & Ej & Hj) & _). cbn [fst] in Ej. cbn [entry component_grade_upto]. apply N.leb_le. rewrite Ej. apply N.eq_le_incl. exact (grade_pow j ltac:(lia)).
Qed.

(** ** Points *)
Lemma Forall2_len {A B} (P : A -> B -> Prop) l l' : Forall2 P l l' -> length l = length l'. Proof. induction 1; cbn; congruence. Qed.
Section Points.
Variables (F k : nat) (D : N).
Lemma conformal_point_ok l xs : (D + 2 <= 63)%N -> l <> [] -> D = N.of_nat (length l) -> Forall2 native l xs ->
  conformal_point (20 + F) (20 + k) D l = Some Ovf \/ exists a, conformal_point (20 + F) (20 + k) D l = Some (Done a) /\ is_vector (D + 2) (xs ++ [1; dotp xs xs / 2]) a.
Proof.
  intros HD Hl HL H. unfold conformal_point. destruct (squares_result F k l xs H Hl) as [->|(i & -> & _)]; [left; reflexivity|right]. cbn [andthen]. rewrite divide_two. cbn [andthen].
  apply vector_result; [exact HD|lia|destruct l; discriminate|rewrite app_length; cbn [length]; lia|]. apply Forall2_app; [exact (native_coordinates l xs H)|].
  constructor; [apply (constant_coordinate 1)|constructor; [|constructor]]. replace (dotp xs xs / 2) with (1 / 2 * dotp xs xs) by field. apply scalar_coordinate. discriminate.
Qed.
Lemma minkowski_point_ok l xs : (D + 2 <= 63)%N -> l <> [] -> D = N.of_nat (length l) -> Forall2 native l xs ->
  minkowski_point (20 + F) (20 + k) D l = Some Ovf \/ exists a, minkowski_point (20 + F) (20 + k) D l = Some (Done a) /\ is_vector (D + 2) (xs ++ [(dotp xs xs - 1) / 2; (dotp xs xs + 1) / 2]) a.
Proof.
  intros HD Hl HL H. unfold minkowski_point. destruct (squares_result F k l xs H Hl) as [->|(i & -> & Hi)]; [left; reflexivity|]. cbn [andthen].
  destruct (minus_one F k i _ Hi) as [->|(j & -> & _)]; [left; reflexivity|]. cbn [andthen]. rewrite divide_two. cbn [andthen].
  destruct (plus_one F k i _ Hi) as [->|(j' & -> & _)]; [left; reflexivity|]. cbn [andthen]. rewrite divide_two. cbn [andthen]. right.
  apply vector_result; [exact HD|lia|destruct l; discriminate|rewrite app_length; cbn [length]; lia|]. apply Forall2_app; [exact (native_coordinates l xs H)|].
  constructor; [|constructor; [|constructor]].
  - replace ((dotp xs xs - 1) / 2) with (1 / 2 * (-1 + dotp xs xs)) by field. apply scalar_coordinate. discriminate.
  - replace ((dotp xs xs + 1) / 2) with (1 / 2 * (1 + dotp xs xs)) by field. apply scalar_coordinate. discriminate.
Qed.
Lemma homogeneous_point_ok l xs : (D + 1 <= 63)%N -> D = N.of_nat (length l) -> Forall2 native l xs ->
  exists a, homogeneous_point (20 + F) (20 + k) D l = Some (Done a) /\ is_vector (D + 1) (xs ++ [1]) a.
Proof.
  intros HD HL H. apply vector_result; [exact HD|lia|destruct l; discriminate|rewrite app_length; cbn [length]; lia|]. apply Forall2_app; [exact (native_coordinates l xs H)|].
  constructor; [apply (constant_coordinate 1)|constructor].
Qed.
Lemma homogeneous_vector_ok l xs : (D + 1 <= 63)%N -> D = N.of_nat (length l) -> Forall2 native l xs ->
  exists a, homogeneous_vector (20 + F) (20 + k) D l = Some (Done a) /\ is_vector (D + 1) (xs ++ [0]) a.
Proof.
  intros HD HL H. apply vector_result; [exact HD|lia|destruct l; discriminate|rewrite app_length; cbn [length]; lia|]. apply Forall2_app; [exact (native_coordinates l xs H)|].
  constructor; [apply (constant_coordinate 0)|constructor].
Qed.
Lemma conformal_vector_ok l xs : (D + 2 <= 63)%N -> D = N.of_nat (length l) -> Forall2 native l xs ->
  exists a, conformal_vector (20 + F) (20 + k) D l = Some (Done a) /\ is_vector (D + 2) (xs ++ [0; 0]) a.
Proof.
  intros HD HL H. apply vector_result; [exact HD|lia|destruct l; discriminate|rewrite app_length; cbn [length]; lia|]. apply Forall2_app; [exact (native_coordinates l xs H)|].
  constructor; [apply (constant_coordinate 0)|constructor; [apply (constant_coordinate 0)|constructor]].
Qed.
Lemma euclidean_vector_ok l xs : (D <= 63)%N -> l <> [] -> D = N.of_nat (length l) -> Forall2 native l xs ->
  exists a, euclidean_vector (20 + F) (20 + k) D l = Some (Done a) /\ is_vector D xs a.
Proof. intros HD Hl HL H. apply vector_result; [exact HD|lia|exact Hl|lia|exact (native_coordinates l xs H)]. Qed.
Lemma elements_ok l : forall pre, elements (pre ++ l) (length pre) (length l) = Some l.
Proof.
  induction l as [|x l IH]; intros pre; [reflexivity|]. cbn [elements length]. rewrite nth_error_app2, Nat.sub_diag by lia. cbn [nth_error].
  specialize (IH (pre ++ [x])). rewrite <- app_assoc, app_length in IH. cbn [app length] in IH. rewrite Nat.add_1_r in IH. rewrite IH. reflexivity.
Qed.
Lemma iterator_ok call l : D = N.of_nat (length l) -> using_iterator D call l = call l.
Proof. intros H. unfold using_iterator. rewrite H, N.eqb_refl, Nat2N.id. pose proof (elements_ok l []) as E. cbn [app length] in E. rewrite E. reflexivity. Qed.
End Points.

(** ** Inner products of points *)
Lemma row_app A i ys zs : forall j, inner_row A i j (ys ++ zs) = inner_row A i j ys + inner_row A i (j + N.of_nat (length ys)) zs.
Proof.
  induction ys as [|y ys IH]; intros j; cbn [app inner_row length]; [replace (j + N.of_nat 0)%N with j by lia; ring|]. rewrite IH. replace (j + 1 + N.of_nat (length ys))%N with (j + N.of_nat (S (length ys)))%N by lia. ring.
Qed.
Lemma from_app A zs xs ys : forall i, inner_from A i (xs ++ ys) zs = inner_from A i xs zs + inner_from A (i + N.of_nat (length xs)) ys zs.
Proof.
  induction xs as [|x xs IH]; intros i; cbn [app inner_from length]; [replace (i + N.of_nat 0)%N with i by lia; ring|]. rewrite IH. replace (i + 1 + N.of_nat (length xs))%N with (i + N.of_nat (S (length xs)))%N by lia. ring.
Qed.
(** Forms whose first [n] basis vectors are orthonormal and orthogonal to the others. *)
Section Euclid.
Variables (A : N -> N -> R) (n : N).
Hypothesis H : forall i j, (i < n \/ j < n)%N -> A i j = if N.eqb i j then 1 else 0.
Lemma row_zero i ys : forall j, ((i < j)%N \/ (j + N.of_nat (length ys) <= i)%N) -> (i < n \/ j + N.of_nat (length ys) <= n)%N -> inner_row A i j ys = 0.
Proof.
  induction ys as [|y ys IH]; intros j K L; cbn [inner_row length] in *; [reflexivity|]. rewrite H by lia. destruct (N.eqb_spec i j) as [->|_]; [lia|]. rewrite IH; [ring|lia|lia].
Qed.
Lemma from_zero xs : forall i ys, (n <= i)%N -> (N.of_nat (length ys) <= n)%N -> inner_from A i xs ys = 0.
Proof. induction xs as [|x xs IH]; intros i ys K L; cbn [inner_from]; [reflexivity|]. rewrite row_zero, IH by lia. ring. Qed.
Lemma from_dot xs : forall i ys zs, (i + N.of_nat (length xs) <= n)%N -> length ys = length xs -> (length zs = N.to_nat i) -> inner_from A i xs (zs ++ ys) = dotp xs ys.
Proof.
  induction xs as [|x xs IH]; intros i ys zs K L Lz; cbn [inner_from]; [reflexivity|]. destruct ys as [|y ys]; [discriminate|]. cbn [length] in *. cbn [dotp].
  replace (zs ++ y :: ys) with ((zs ++ [y]) ++ ys) by (rewrite <- app_assoc; reflexivity). rewrite (IH (i + 1)%N ys (zs ++ [y])) by (rewrite ?app_length; cbn [length]; lia).
  rewrite row_app, (row_app A i zs [y]), (row_zero i zs 0%N) by lia. rewrite (row_zero i ys) by (rewrite ?app_length; cbn [length]; lia). cbn [inner_row]. rewrite H by lia.
  destruct (N.eqb_spec i (0 + N.of_nat (length zs))) as [_|C]; [ring|lia].
Qed.
Lemma inner_two xs ys a b c d : n = N.of_nat (length xs) -> length ys = length xs -> inner A (xs ++ [a; b]) (ys ++ [c; d]) =
  dotp xs ys + a * (c * A n n + d * A n (n + 1)%N) + b * (c * A (n + 1)%N n + d * A (n + 1)%N (n + 1)%N).
Proof.
  intros Hn L. unfold inner. rewrite from_app. rewrite N.add_0_l, <- Hn. assert (E : inner_from A 0 xs (ys ++ [c; d]) = dotp xs ys).
  { assert (G : forall zs i, (forall x, In x zs -> True) -> (i + N.of_nat (length zs) <= n)%N -> inner_from A i zs (ys ++ [c; d]) = inner_from A i zs ys).
    { induction zs as [|z zs IH]; intros i _ K; cbn [inner_from length] in *; [reflexivity|]. rewrite row_app, (row_zero i [c; d]), IH by (auto; cbn [length]; lia). ring. }
    rewrite (G xs 0%N) by (auto; lia). apply (from_dot xs 0%N ys []); [lia|exact L|reflexivity]. }
  rewrite E. cbn [inner_from]. rewrite !row_app. rewrite (row_zero n ys), (row_zero (n + 1) ys) by lia. cbn [inner_row]. replace (0 + N.of_nat (length ys))%N with n by lia. ring.
Qed.
End Euclid.
Lemma dist_dot xs : forall ys, length ys = length xs -> dotp xs ys - dotp xs xs / 2 - dotp ys ys / 2 = - dist2 xs ys / 2.
Proof. induction xs as [|x xs IH]; intros [|y ys] L; try discriminate L; cbn [dotp dist2]; [field|]. injection L as L. pose proof (IH ys L) as E. lra. Qed.
Lemma conformal_euclid D i j : (i < D \/ j < D)%N -> conformal_metric D i j = if N.eqb i j then 1 else 0.
Proof. intros H. unfold conformal_metric. destruct (N.ltb_spec i D), (N.ltb_spec j D); cbn [orb]; try reflexivity. lia. Qed.
Lemma conformal_inner D xs ys : D = N.of_nat (length xs) -> length ys = length xs ->
  inner (conformal_metric D) (xs ++ [1; dotp xs xs / 2]) (ys ++ [1; dotp ys ys / 2]) = - dist2 xs ys / 2.
Proof.
  intros HD L. rewrite (inner_two _ D (conformal_euclid D) xs ys _ _ _ _ HD L), <- (dist_dot xs ys L).
  assert (X : conformal_metric D D D = 0). { unfold conformal_metric. rewrite N.ltb_irrefl, N.eqb_refl. reflexivity. }
  assert (Y : conformal_metric D (D + 1) (D + 1) = 0). { unfold conformal_metric. destruct (N.ltb_spec (D + 1) D); [lia|]. rewrite N.eqb_refl. reflexivity. }
  assert (Z : conformal_metric D D (D + 1) = -1). { unfold conformal_metric. rewrite N.ltb_irrefl. destruct (N.ltb_spec (D + 1) D); [lia|]. cbn [orb]. destruct (N.eqb_spec D (D + 1)); [lia|reflexivity]. }
  assert (W : conformal_metric D (D + 1) D = -1). { unfold conformal_metric. rewrite N.ltb_irrefl. destruct (N.ltb_spec (D + 1) D); [lia|]. cbn [orb]. destruct (N.eqb_spec (D + 1) D); [lia|reflexivity]. }
  rewrite X, Y, Z, W. field.
Qed.
Lemma minkowski_inner D xs ys : D = N.of_nat (length xs) -> length ys = length xs ->
  inner (diagonal_form (signature (D + 1) 1)) (xs ++ [(dotp xs xs - 1) / 2; (dotp xs xs + 1) / 2]) (ys ++ [(dotp ys ys - 1) / 2; (dotp ys ys + 1) / 2]) = - dist2 xs ys / 2.
Proof.
  intros HD L. assert (H : forall i j, (i < D \/ j < D)%N -> diagonal_form (signature (D + 1) 1) i j = if N.eqb i j then 1 else 0).
  { intros i j K. unfold diagonal_form. destruct (N.eqb_spec i j) as [->|_]; [|reflexivity]. unfold signature. destruct (N.ltb_spec j (D + 1)); [reflexivity|lia]. }
  rewrite (inner_two _ D H xs ys _ _ _ _ HD L), <- (dist_dot xs ys L). unfold diagonal_form. rewrite !N.eqb_refl. destruct (N.eqb_spec D (D + 1)) as [C|_]; [lia|]. destruct (N.eqb_spec (D + 1) D) as [C|_]; [lia|]. unfold signature.
  destruct (N.ltb_spec D (D + 1)); [|lia]. destruct (N.ltb_spec (D + 1) (D + 1)); [lia|]. destruct (N.ltb_spec (D + 1) (D + 1 + 1)); [|lia]. field.
Qed.
Lemma dist_self xs : dist2 xs xs = 0. Proof. induction xs as [|x xs IH]; cbn [dist2]; [reflexivity|]. rewrite IH. ring. Qed.

(** ** Scalar products of points *)
Lemma upto_weaken e : grades_upto 1 e = true -> grades_upto 7 e = true.
Proof.
  unfold grades_upto. rewrite !forallb_forall. intros H x Hx. specialize (H x Hx). unfold component_grade_upto in *. destruct x; try exact H. destruct x2; try exact H. apply N.leb_le in H. apply N.leb_le. lia.
Qed.
Lemma conformal_sp F k d D xs ys a b o : (D + 2 <= 63)%N -> (N.of_nat (length xs) <= D + 2)%N -> (N.of_nat (length ys) <= D + 2)%N -> is_vector (D + 2) xs a -> is_vector (D + 2) ys b ->
  sp_g F k d (D + 2) (conformal_entry D) a b = Some o -> o = Ovf \/ exists r, o = Done r /\ int_object (D + 2) r /\ value r [(inner (conformal_metric D) xs ys, 0%N)].
Proof.
  intros HD Lx Ly (Oa & Ga & Va) (Ob & Gb & Vb) E.
  assert (HG : geometric (D + 2) (conformal_metric D) (wick (conformal_metric D))) by (apply wick_geometric; lia).
  destruct (general_call F k d (D + 2) (conformal_entry D) _ _ sp_grades (sp_valid F) _ _ HD (conformal_int D) HG (sp_valid_ok F) (sp_bv F) (sp_declares (D + 2)) sp_keeps a b _ _ o Oa Ob (fits_right _ _ (upto_weaken _ Gb)) Va Vb E) as [->|(r & -> & Or & Vr)]; [left; reflexivity|right].
  exists r. split; [reflexivity|]. split; [exact Or|]. exact (value_meq _ _ _ Vr (vectors_sp (D + 2) _ _ ltac:(lia) HG xs ys Lx Ly)).
Qed.
Lemma sp_call P Q R F k a b ma mb o : (P + Q + R <= 63)%N -> int_object (P + Q + R) a -> int_object (P + Q + R) b -> value a ma -> value b mb -> sp F k P Q R a b = Some o ->
  o = Ovf \/ exists r, o = Done r /\ int_object (P + Q + R) r /\ value r (bilinear (sp_blade (signature P Q)) ma mb).
Proof.
  intros H Oa Ob Va Vb E.
  exact (int_call F k _ _ [a; b] [ma; mb] _ o (sound_mul is_pos F k _ _ _ _ ma mb (sp_map_ok P Q R H F) (N.le_refl _) (signed_const F P Q R _ _ H (sp_bv F))) ltac:(auto) ltac:(auto) E).
Qed.
Lemma diagonal_sp q n xs ys : (n <= 64)%N -> (N.of_nat (length xs) <= n)%N -> (N.of_nat (length ys) <= n)%N -> meq (bilinear (sp_blade q) (coordinates 0 xs) (coordinates 0 ys)) [(inner (diagonal_form q) xs ys, 0%N)].
Proof.
  intros Hn Lx Ly. assert (S : sp_blade q = part_sp (gp_blade q)) by (unfold sp_blade, part_sp; reflexivity). rewrite S.
  exact (vectors_sp n (diagonal_form q) (gp_blade q) Hn (diagonal_geometric q n Hn) xs ys Lx Ly). Qed.
Lemma minkowski_sp F k D xs ys a b o : (D + 2 <= 63)%N -> (N.of_nat (length xs) <= D + 2)%N -> (N.of_nat (length ys) <= D + 2)%N -> is_vector (D + 2) xs a -> is_vector (D + 2) ys b ->
  sp F k (D + 1) 1 0 a b = Some o -> o = Ovf \/ exists r, o = Done r /\ int_object (D + 2) r /\ value r [(inner (diagonal_form (signature (D + 1) 1)) xs ys, 0%N)].
Proof.
  intros HD Lx Ly (Oa & _ & Va) (Ob & _ & Vb) E. assert (EN : (D + 2 = D + 1 + 1 + 0)%N) by lia. rewrite EN in Oa, Ob, HD.
  destruct (sp_call (D + 1) 1 0 F k a b _ _ o HD Oa Ob Va Vb E) as [->|(r & -> & Or & Vr)]; [left; reflexivity|right].
  exists r. split; [reflexivity|]. rewrite <- EN in Or, HD. split; [exact Or|]. refine (value_meq _ _ _ Vr _). apply (diagonal_sp _ (D + 2)); [lia|exact Lx|exact Ly].
Qed.

(** ** Translations of the homogeneous model *)
Lemma translate_ok F k D a b ma mb o : (D + 1 <= 63)%N -> int_object (D + 1) a -> int_object (D + 1) b -> value a ma -> value b mb ->
  translate F k D a b = Some o -> o = Ovf \/ exists r, o = Done r /\ int_object (D + 1) r /\ value r (mtranslate D ma mb).
Proof.
  intros HD Oa Ob Va Vb E. refine (int_fn F k _ (D + 1) [a; b] [ma; mb] _ o _ (Forall_cons _ Oa (Forall_cons _ Ob (Forall_nil _))) (Forall2_cons _ _ Va (Forall2_cons _ _ Vb (Forall2_nil _))) E).
  intros P g args HP HA. inversion HA as [|x ? ? ? Tx HA1]; subst. inversion HA1 as [|y ? ? ? Ty HA2]; subst. inversion HA2; subst.
  refine (yields_context is_pos P F k (D + 1) g HP [x; y] [ma; mb] _ _ (Forall2_cons _ _ Tx (Forall2_cons _ _ Ty (Forall2_nil _))) _). cbn [map body2].
  assert (Te : typed_value P (D + 1) g (Comp (CV 1) (CBlade (bit (D + 1 - 1)))) [(1, (2 ^ D)%N)]).
  { replace (D + 1 - 1)%N with D by lia. assert (Eb : bit D = (2 ^ D)%N) by (apply bit_pow; lia). rewrite Eb. pose proof HP as (Pc & _). split; [|split; [|exists [(1, (2 ^ D)%N)]; split; [|intros j; reflexivity]]].
    - apply (good_comp P (D + 1) (CV 1) (2 ^ D)); [apply Pc| |]; apply N.pow_lt_mono_r; lia.
    - cbn [mv_ok wf]. apply N.ltb_lt. change 18446744073709551616%N with (2 ^ 64)%N. apply N.pow_lt_mono_r; lia.
    - cbn [den]. exists (1, (2 ^ D)%N). split; [|reflexivity]. split; [apply num_cv|]. split; reflexivity. }
  apply (yields_then P (D + 1) g _ _ (bilinear (lcont_blade (signature (D + 1) 0)) [(1, (2 ^ D)%N)] mb)).
  - exact (y_lcont is_pos P F k (D + 1) g (Signed (D + 1) 0 0) HP HD ltac:(cbn; lia) (Comp (CV 1) (CBlade (bit (D + 1 - 1)))) y _ mb ltac:(discriminate) Te Ty).
  - intros c Tc. apply (yields_then P (D + 1) g _ _ (bilinear op_blade ma (bilinear (lcont_blade (signature (D + 1) 0)) [(1, (2 ^ D)%N)] mb))).
    + exact (yields_call is_pos P F k (D + 1) g HP _ [x; c] [ma; _] _ (sound_mul is_pos F k _ _ _ _ ma _ (op_map_ok F (D + 1) HD) (N.le_refl _) (op_const F (D + 1) HD)) (Forall2_cons _ _ Tx (Forall2_cons _ _ Tc (Forall2_nil _)))).
    + intros t Tt. exact (y_plus is_pos P F k (D + 1) g HP y t mb _ Ty Tt).
Qed.

Lemma coords_shift xs zs : forall i, meq (coordinates i (xs ++ zs)) (coordinates i xs ++ coordinates (i + N.of_nat (length xs)) zs).
Proof.
  induction xs as [|x xs IH]; intros i; cbn [app coordinates length]; [replace (i + N.of_nat 0)%N with i by lia; reflexivity|]. apply meq_iff. intros h. cbn [sumf app].
  rewrite (sumf_meq _ _ h (IH (i + 1)%N)). replace (i + 1 + N.of_nat (length xs))%N with (i + N.of_nat (S (length xs)))%N by lia. reflexivity.
Qed.
Lemma coords_zero D h : forall i, sumf (coordinates i (repeat 0 D)) h = 0.
Proof. induction D as [|D IH]; intros i; cbn [repeat coordinates sumf]; [reflexivity|]. rewrite IH. ring. Qed.
Lemma coords_add w xs : forall i ds, length ds = length xs -> forall h, sumf (coordinates i xs) h + w * sumf (coordinates i ds) h = sumf (coordinates i (vsum xs (map (Rmult w) ds))) h.
Proof.
  induction xs as [|x xs IH]; intros i [|d ds] L h; try discriminate L; cbn [coordinates sumf vsum map]; [ring|]. injection L as L. rewrite <- (IH (i + 1)%N ds L h). ring.
Qed.
Lemma dot_last D xs w : length xs = D -> dotp (repeat 0 D ++ [1]) (xs ++ [w]) = w.
Proof. revert xs. induction D as [|D IH]; intros [|x xs] L; try discriminate L; cbn [repeat app dotp]; [ring|]. injection L as L. rewrite (IH xs L). ring. Qed.
Lemma coords_exp n zs (p : R * N) : forall i, (i + N.of_nat (length zs) <= n)%N -> In p (coordinates i zs) -> exists a, (a < n)%N /\ snd p = (2 ^ a)%N.
Proof. induction zs as [|z zs IH]; intros i L; cbn [coordinates]; intros []; cbn [length] in L; [subst p; exists i; split; [lia|reflexivity]|]. apply (IH (i + 1)%N); [lia|assumption]. Qed.
(** Contraction of a vector by the last basis vector. *)
Lemma last_coordinate D xs w : (D + 1 <= 63)%N -> D = N.of_nat (length xs) -> forall h, sumf (bilinear (lcont_blade (signature (D + 1) 0)) [(1, (2 ^ D)%N)] (coordinates 0 (xs ++ [w]))) h = w * h 0%N.
Proof.
  intros HD HL h. set (q := signature (D + 1) 0). set (e := repeat 0 (length xs) ++ [1]). set (v := coordinates 0 (xs ++ [w])).
  assert (Le : (N.of_nat (length e) <= D + 1)%N) by (unfold e; rewrite app_length, repeat_length; cbn [length]; lia).
  assert (Lv : (N.of_nat (length (xs ++ [w])) <= D + 1)%N) by (rewrite app_length; cbn [length]; lia).
  assert (Q : meq (coordinates 0 e) [(1, (2 ^ D)%N)]).
  { apply meq_iff. intros h'. unfold e. rewrite (sumf_meq _ _ h' (coords_shift _ _ 0%N)), sumf_app, coords_zero, repeat_length. cbn [coordinates sumf]. rewrite N.add_0_l, <- HL. ring. }
  assert (L : sumf (bilinear (lcont_blade q) [(1, (2 ^ D)%N)] v) h = sumf (bilinear (sp_blade q) [(1, (2 ^ D)%N)] v) h).
  { rewrite !sumf_bilinear. apply sumf_ext_in. intros p [<-|[]]. cbn [snd]. apply sumf_ext_in. intros r Hr. unfold v in Hr. destruct (coords_exp (D + 1) (xs ++ [w]) r 0%N ltac:(lia) Hr) as (b & Lb & ->).
    unfold lcont_blade, sp_blade. rewrite (grade_pow D), (grade_pow b) by lia. reflexivity. }
  rewrite L. transitivity (sumf (bilinear (sp_blade q) (coordinates 0 e) v) h).
  - rewrite !sumf_bilinear. symmetry. apply sumf_meq. exact Q.
  - unfold v. rewrite (sumf_meq _ _ h (diagonal_sp q (D + 1) e (xs ++ [w]) ltac:(lia) Le Lv)), sumf1. f_equal. unfold inner.
    transitivity (dotp e (xs ++ [w])); [|apply dot_last; reflexivity]. apply (from_dot (diagonal_form q) (D + 1)%N) with (zs := []) (ys := xs ++ [w]).
    + intros i j K. unfold diagonal_form. destruct (N.eqb_spec i j) as [->|_]; [|reflexivity]. unfold q, signature. destruct (N.ltb_spec j (D + 1)); [reflexivity|lia].
    + lia.
    + unfold e. rewrite !app_length, repeat_length. reflexivity.
    + reflexivity.
Qed.
Lemma translate_vector D xs w ds : (D + 1 <= 63)%N -> D = N.of_nat (length xs) -> length ds = length xs ->
  meq (mtranslate D (coordinates 0 (ds ++ [0])) (coordinates 0 (xs ++ [w]))) (coordinates 0 (vsum xs (map (Rmult w) ds) ++ [w])).
Proof.
  intros HD HL L. apply meq_iff. intros h. unfold mtranslate. rewrite sumf_app, sumf_bilinear.
  assert (E : sumf (coordinates 0 (ds ++ [0])) (fun i => sumf (bilinear (lcont_blade (signature (D + 1) 0)) [(1, (2 ^ D)%N)] (coordinates 0 (xs ++ [w]))) (fun j => sumf (op_blade i j) h)) = sumf (coordinates 0 (ds ++ [0])) (fun i => w * h i)).
  { apply sumf_ext. intros i. rewrite last_coordinate by assumption. f_equal. unfold op_blade. rewrite N.land_0_r, N.eqb_refl, sumf1, sign_0_r, N.lor_0_r. ring. }
  rewrite E, sumf_mult. rewrite !(sumf_meq _ _ h (coords_shift _ _ 0%N)), !sumf_app. rewrite <- (coords_add w xs 0%N ds L h).
  assert (Lv : forall ds' xs' : list R, length ds' = length xs' -> length (vsum xs' ds') = length xs').
  { intros ds' xs'. revert ds'. induction xs' as [|x xs' IH]; intros [|d ds'] K; try discriminate K; cbn [vsum length]; [reflexivity|]. f_equal. apply IH. injection K. auto. }
  rewrite Lv by (rewrite map_length; exact L). cbn [coordinates sumf]. ring.
Qed.
