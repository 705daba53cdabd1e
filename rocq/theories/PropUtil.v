(** C30, C31, C35, C40: copies, the component visitor, the zero test and the construction of
    multivectors. *)
From Coq Require Import NArith ZArith List Bool Reals Lra Lia Sorting.Sorted.
From Verif Require Import Bits SpecBits Expr Sem Wf SpecMv SpecOrder EvalC SpecEval Lazy SpecLazy Api SpecApi ForEach Copy Build SpecUtil.
From Verif Require Import BitsBase BitsProofs RPowProofs OrderProofs LazyProofs2 UtilProofs CopyProofs BuildProofs PropApi.
Import ListNotations.
Local Open Scope R_scope.

(** ** C31: the component visitor *)
(** The visitor is called once for each component, in the order of the type, with the blade and the
    coefficient of the component and where they come from, until it says stop.  Every type whose
    coefficients are read exactly, with compile-time or stored blades.  [Ovf] can only come from a
    constant that is not an integer. *)
Theorem C31_visits_partial : forall (S : Type) (f : visitor S) (st : S) a m,
  components (cexpr a) <> [] -> Forall (fun e => exact_comp (cint a) e = true) (components (cexpr a)) -> component_values a m ->
  exists r, for_each_component f st a = Some r /\
  ((r = Ovf /\ existsb const_comp (components (cexpr a)) = true) \/
   r = Done (fold_stop (visit f) st (combine m (map sources (components (cexpr a)))))).
Proof. exact (fun S => @visit_all S). Qed.
Print Assumptions C31_visits_partial.
(** Objects with compile-time blades and stored or integer coefficients: the pairs visited are the
    value of the object, each blade once. *)
Theorem C31_visits_value_partial : forall (S : Type) (f : visitor S) (st : S) n a m, int_object n a -> value a m ->
  exists m', meq m' m /\ NoDup (map snd m') /\ length m' = length (components (cexpr a)) /\
  for_each_component f st a = Some (Done (fold_stop (visit f) st (combine m' (map sources (components (cexpr a)))))).
Proof.
  intros S f st n a m O V. pose proof (int_exact n a O) as X.
  assert (HF : Forall (fun e => exact_comp (cint a) e = true) (components (cexpr a))) by (eapply Forall_impl; [|exact X]; cbn; tauto).
  assert (HN : existsb const_comp (components (cexpr a)) = false). { apply not_true_iff_false. rewrite existsb_exists. intros (e & I & Q). rewrite Forall_forall in X. destruct (X e I) as [_ Y]. congruence. }
  destruct (object_parts n is_integer a m O HF V) as (m' & CV & Q & ND). exists m'. split; [exact Q|]. split; [exact ND|]. split; [exact (scomps_length no_env _ _ _ _ (CV no_env))|].
  assert (NE : components (cexpr a) <> []). { destruct O as (M & -> & _). rewrite entries_comps. destruct M; discriminate. }
  destruct (visit_all f st a m' NE HF CV) as (r & -> & [[_ Y]| ->]); [congruence|reflexivity].
Qed.
Print Assumptions C31_visits_value_partial.
Example C31_visits_value_nonvacuous : forall w, int_object 3 (ob_b w) /\ value (ob_b w) [(w, 1%N); (3, 3%N)] /\
  for_each_component (fun (st : list (N * R)) b v _ _ => (st ++ [(b, v)], true)) [] (ob_b w) = Some (Done ([(1%N, w); (3%N, 3)], true)).
Proof.
  intros w. split; [apply ob_b_ok|]. split; [apply ob_b_ok|]. reflexivity.
Qed.
(** The visitor can stop early. *)
Example C31_stop : forall w, for_each_component (fun (st : list (N * R)) b v _ _ => (st ++ [(b, v)], false)) [] (ob_b w) = Some (Done ([(1%N, w)], false)).
Proof. intros w. reflexivity. Qed.

(** A constant that is not an integer is cast to the coefficient type of the object, which is integral
    for an expression made of constants: the visitor is told that the coefficient of c<1>/c<2> is 0. *)
Definition half : cliff := {| cexpr := Comp (Fn NPow [CV 2; CV (-1)]) (CBlade 0); cint := true; cvals := []; cbits := [] |}.
Lemma half_ok : rat_object 3 half /\ value half [(/ 2, 0%N)].
Proof.
  split.
  - exists [(0%N, Fn NPow [CV 2; CV (-1)])]. split; [reflexivity|]. split; [apply canonical_check; vm_compute; reflexivity|]. split; [split; constructor|]. constructor; [|constructor]. split; [reflexivity|right; split; reflexivity].
  - intros g. exists [(/ 2, 0%N)]. split; [|intros k; reflexivity]. exists ([], []). split; [|reflexivity]. exists ([], []). split; [|split; [split; reflexivity|intros _; exact Logic.I]]. cbn [fst].
    change (sread g (Fn NPow [CV 2; CV (-1)]) (cvals half, cbits half)) with (option_map VN (rpow 2 (-1)), (@nil R, @nil N)). f_equal.
    rewrite (rpow_int 2 (-1)) by lra. cbn [option_map]. do 2 f_equal. change (powerRZ 2 (-1)) with (/ (2 * 1)). f_equal. ring.
Qed.
Lemma half_const : eval_const (Fn NPow [CV 2; CV (-1)]) = Done (1 / 2).
Proof. change (to_value (if Req_EM_T 2 0 then Undef else Val (VN (1 / 2))) = Done (1 / 2)). destruct (Req_EM_T 2 0) as [E|]; [exfalso; lra|reflexivity]. Qed.
Lemma half_cast : cast true (1 / 2) = 0.
Proof. symmetry. apply stored_cast. split; [exists 0%Z; reflexivity|]. rewrite Rabs_R0, Rabs_right by lra. lra. Qed.
Theorem C31_refuted : exists a m, rat_object 3 a /\ value a m /\ meq m [(/ 2, 0%N)] /\
  for_each_component (fun (st : list (N * R)) b v _ _ => (st ++ [(b, v)], true)) [] a = Some (Done ([(0%N, 0)], true)).
Proof.
  exists half, [(/ 2, 0%N)]. destruct half_ok as [O V]. split; [exact O|]. split; [exact V|]. split; [intros k; reflexivity|].
  unfold for_each_component. change (forallb visitable (Comp.comps_of (cexpr half)) && can_be_stored (cexpr half))%bool with true. cbn [half cexpr cint cvals cbits Comp.comps_of for_each_list inner_iteration]. rewrite half_const. cbn [dbind]. rewrite half_cast. reflexivity.
Qed.
Print Assumptions C31_refuted.

(** ** C35: the zero test *)
(** is_zero(A, tol) is true iff no coefficient exceeds the tolerance in absolute value. *)
Theorem C35_is_zero_partial : forall n a m tol, int_object n a -> value a m -> 0 <= tol ->
  exists b, is_zero a tol = Some (Done b) /\ (b = true <-> forall k, Rabs (coef m k) <= tol).
Proof.
  intros n a m tol O V T. pose proof (int_exact n a O) as X.
  assert (HF : Forall (fun e => exact_comp (cint a) e = true) (components (cexpr a))) by (eapply Forall_impl; [|exact X]; cbn; tauto).
  assert (HN : existsb const_comp (components (cexpr a)) = false). { apply not_true_iff_false. rewrite existsb_exists. intros (e & I & Q). rewrite Forall_forall in X. destruct (X e I) as [_ Y]. congruence. }
  destruct (is_zero_ok is_integer n a m tol O HF V T) as (r & E & [[_ Y]|(b & -> & B)]); [congruence|]. exists b. auto.
Qed.
Print Assumptions C35_is_zero_partial.
(** With other constants as coefficients, provided they are read exactly. *)
Theorem C35_is_zero_constants_partial : forall K n a m tol, object K n a ->
  Forall (fun e => exact_comp (cint a) e = true) (components (cexpr a)) -> value a m -> 0 <= tol ->
  exists r, is_zero a tol = Some r /\
  ((r = Ovf /\ existsb const_comp (components (cexpr a)) = true) \/ exists b, r = Done b /\ (b = true <-> forall k, Rabs (coef m k) <= tol)).
Proof. exact is_zero_ok. Qed.
Print Assumptions C35_is_zero_constants_partial.
Example C35_is_zero_nonvacuous : forall u v, int_object 3 (ob_a u v) /\ value (ob_a u v) [(u, 1%N); (v, 2%N)] /\
  is_zero (ob_a 0 0) 0 = Some (Done true) /\ is_zero (ob_a 0 1) 0 = Some (Done false).
Proof.
  intros u v. split; [apply ob_a_ok|]. split; [apply ob_a_ok|]. split.
  - destruct (C35_is_zero_partial 3 (ob_a 0 0) _ 0 (proj1 (ob_a_ok 0 0)) (proj2 (ob_a_ok 0 0)) (Rle_refl 0)) as (b & -> & B). do 2 f_equal. apply B. intros k. cbn [coef]. destruct (1 =? k)%N, (2 =? k)%N; rewrite Rabs_pos_eq; lra.
  - destruct (C35_is_zero_partial 3 (ob_a 0 1) _ 0 (proj1 (ob_a_ok 0 1)) (proj2 (ob_a_ok 0 1)) (Rle_refl 0)) as (b & -> & B). do 2 f_equal. apply not_true_iff_false. intros X. apply B with (k := 2%N) in X. cbn [coef] in X. change (1 =? 2)%N with false in X. change (2 =? 2)%N with true in X. cbn iota in X. rewrite Rabs_pos_eq in X; lra.
Qed.
(** Constants that are not integers are not read exactly if the coefficient type is integral:
    is_zero(c<1>/c<2>) is true. *)
Theorem C35_refuted : exists a m, rat_object 3 a /\ value a m /\ coef m 0 = / 2 /\ is_zero a 0 = Some (Done true).
Proof.
  exists half, [(/ 2, 0%N)]. destruct half_ok as [O V]. split; [exact O|]. split; [exact V|]. split; [cbn [coef]; change (0 =? 0)%N with true; cbn iota; ring|].
  unfold is_zero, for_each_component. change (forallb visitable (Comp.comps_of (cexpr half)) && can_be_stored (cexpr half))%bool with true. cbn [half cexpr cint cvals cbits Comp.comps_of for_each_list inner_iteration]. rewrite half_const. cbn [dbind]. rewrite half_cast.
  assert (E : cast true 0 = 0) by (apply cast_int; exists 0%Z; reflexivity). rewrite E. destruct (Rle_dec (Rabs 0) 0) as [|Nz]; [reflexivity|]. exfalso. apply Nz. rewrite Rabs_R0. lra.
Qed.
Print Assumptions C35_refuted.

(** ** C30: trivial copies *)
(** Both variants, for a source and a destination with compile-time blades and stored or integer
    coefficients.  An unchecked copy that compiles never throws, keeps the destination's type, stores
    for every blade of the destination the source's coefficient (converted to the destination's
    coefficient type) and drops nothing. *)
Theorem C30_copy_partial : forall n n' a r m o, int_object n a -> int_object n' r -> value a m ->
  trivial_copy a r = Some o ->
  exists r' m', o = CopyDone r' /\ cexpr r' = cexpr r /\ cint r' = cint r /\ value r' m' /\
  (forall k, names_blade (cexpr r) k -> stored_as (cint r) (coef m k) (coef m' k)) /\
  (forall k, ~ names_blade (cexpr r) k -> coef m k = 0 /\ coef m' k = 0).
Proof.
  intros n n' a r m o Oa Or V H. pose proof (int_exact n a Oa) as Xa. pose proof (int_exact n' r Or) as Xr.
  assert (HN : existsb const_comp (components (cexpr a)) = false). { apply not_true_iff_false. rewrite existsb_exists. intros (e & I & Q). rewrite Forall_forall in Xa. destruct (Xa e I) as [_ Y]. congruence. }
  destruct (copy_ok is_integer is_integer n n' false 0 a r m o Oa Or) as [[_ Y]|[(_ & Y & _)|(r' & -> & E1 & E2 & m' & V' & S & U)]]; try discriminate Y; try congruence; try assumption; try lra.
  - eapply Forall_impl; [|exact Xa]; cbn; tauto.
  - eapply Forall_impl; [|exact Xr]; cbn; tauto.
  - exists r', m'. do 4 (split; [first [reflexivity|assumption]|]). split; [exact S|]. intros k Nk. destruct (U k Nk) as [A [B|[B _]]]; [auto|discriminate].
Qed.
Print Assumptions C30_copy_partial.
(** A checked copy throws exactly when a coefficient above the tolerance has no place in the destination. *)
Theorem C30_checked_partial : forall n n' a r m tol o, int_object n a -> int_object n' r -> value a m -> 0 <= tol ->
  checked_trivial_copy a r tol = Some o ->
  (o = CopyThrows /\ exists k, ~ names_blade (cexpr r) k /\ tol < Rabs (coef m k)) \/
  (exists r' m', o = CopyDone r' /\ cexpr r' = cexpr r /\ cint r' = cint r /\ value r' m' /\
    (forall k, names_blade (cexpr r) k -> stored_as (cint r) (coef m k) (coef m' k)) /\
    (forall k, ~ names_blade (cexpr r) k -> Rabs (coef m k) <= tol /\ coef m' k = 0)).
Proof.
  intros n n' a r m tol o Oa Or V T H. pose proof (int_exact n a Oa) as Xa. pose proof (int_exact n' r Or) as Xr.
  assert (HN : existsb const_comp (components (cexpr a)) = false). { apply not_true_iff_false. rewrite existsb_exists. intros (e & I & Q). rewrite Forall_forall in Xa. destruct (Xa e I) as [_ Y]. congruence. }
  destruct (copy_ok is_integer is_integer n n' true tol a r m o Oa Or) as [[_ Y]|[(-> & _ & Y)|(r' & -> & E1 & E2 & m' & V' & S & U)]]; try congruence; try assumption.
  - eapply Forall_impl; [|exact Xa]; cbn; tauto.
  - eapply Forall_impl; [|exact Xr]; cbn; tauto.
  - left. auto.
  - right. exists r', m'. do 4 (split; [first [reflexivity|assumption]|]). split; [exact S|]. intros k Nk. destruct (U k Nk) as [A [B|[_ B]]]; (split; [|exact A]); [rewrite B, Rabs_R0; exact T|exact B].
Qed.
Print Assumptions C30_checked_partial.
(** Which copies compile: into a type whose coefficients are all stored, every unchecked copy whose
    blades are all blades of the destination, and every checked copy of stored coefficients. *)
Theorem C30_compiles_partial : forall n n' a r, int_object n a -> int_object n' r -> all_stored (cexpr r) ->
  ((forall k, names_blade (cexpr a) k -> names_blade (cexpr r) k) -> exists o, trivial_copy a r = Some o) /\
  (all_stored (cexpr a) -> forall tol, exists o, checked_trivial_copy a r tol = Some o).
Proof.
  intros n n' a r Oa Or S. assert (K : forall c, is_integer c = true -> is_constant c = true) by (intros []; try discriminate; reflexivity). split.
  - intros Sub. exact (copy_compiles is_integer is_integer n n' false 0 a r Oa Or K S (fun X => ltac:(discriminate X)) (fun _ => Sub)).
  - intros Sa tol. exact (copy_compiles is_integer is_integer n n' true tol a r Oa Or K S (fun _ => Sa) (fun X => ltac:(discriminate X))).
Qed.
Print Assumptions C30_compiles_partial.
(** u e1 + v e2 copied into a destination with blades e1, e2, e1^e2, and checked against one with e1 only. *)
Definition dest3 : cliff := {| cexpr := Fn NAdd [Comp SV (CBlade 1); Comp SV (CBlade 2); Comp SV (CBlade 3)]; cint := false; cvals := [7; 8; 9]; cbits := [] |}.
Definition dest1 : cliff := {| cexpr := Comp SV (CBlade 1); cint := false; cvals := [7]; cbits := [] |}.
Example C30_nonvacuous : int_object 3 dest3 /\ int_object 3 dest1 /\
  (forall u v, trivial_copy (ob_a u v) dest3 = Some (CopyDone {| cexpr := cexpr dest3; cint := false; cvals := [u; v; 0]; cbits := [] |})) /\
  (forall u, checked_trivial_copy (ob_a u 5) dest1 1 = Some CopyThrows) /\
  (forall u, checked_trivial_copy (ob_a u 0) dest1 1 = Some (CopyDone {| cexpr := cexpr dest1; cint := false; cvals := [u]; cbits := [] |})).
Proof.
  split; [|split; [|split; [|split]]].
  - exists [(1%N, SV); (2%N, SV); (3%N, SV)]. split; [reflexivity|]. split; [apply canonical_check; vm_compute; reflexivity|]. split; [split; [intros H; discriminate H|constructor]|]. do 3 (constructor; [split; [reflexivity|left; reflexivity]|]). constructor.
  - exists [(1%N, SV)]. split; [reflexivity|]. split; [apply canonical_check; vm_compute; reflexivity|]. split; [split; [intros H; discriminate H|constructor]|]. constructor; [split; [reflexivity|left; reflexivity]|]. constructor.
  - intros u v. reflexivity.
  - intros u. change (checked_trivial_copy (ob_a u 5) dest1 1) with (Some match put_v u (if Rlt_dec 1 (Rabs 5) then Throws else Copied [] []) with Copied vs bs => CopyDone {| cexpr := cexpr dest1; cint := false; cvals := vs; cbits := bs |} | Throws => CopyThrows | NoCopy => CopyBad end).
    destruct (Rlt_dec 1 (Rabs 5)) as [|Nt]; [reflexivity|]. exfalso. apply Nt. rewrite Rabs_pos_eq; lra.
  - intros u. change (checked_trivial_copy (ob_a u 0) dest1 1) with (Some match put_v u (if Rlt_dec 1 (Rabs 0) then Throws else Copied [] []) with Copied vs bs => CopyDone {| cexpr := cexpr dest1; cint := false; cvals := vs; cbits := bs |} | Throws => CopyThrows | NoCopy => CopyBad end).
    destruct (Rlt_dec 1 (Rabs 0)) as [Yt|]; [|reflexivity]. exfalso. rewrite Rabs_R0 in Yt. lra.
Qed.

(** ** C40: construction *)
(** vector(x1, ..., xn) puts coordinate i on basis vector i. *)
Theorem C40_vector : forall F n l xs, (N.of_nat (length l) <= 63)%N -> l <> [] -> (2 <= n)%nat -> Forall2 coordinate_value l xs ->
  exists a, vector F n (N.of_nat (length l)) l = Some a /\ int_object (N.of_nat (length l)) a /\ value a (coordinates 0 xs).
Proof. exact vector_ok. Qed.
Print Assumptions C40_vector.
Example C40_vector_nonvacuous : forall x y, Forall2 coordinate_value [Num false x; Scal (lazy_obj (Comp (CV 3) (CBlade 0))); Num false y] [x; 3; y] /\
  vector 9 9 3 [Num false x; Scal (lazy_obj (Comp (CV 3) (CBlade 0))); Num false y] =
  Some {| cexpr := Fn NAdd [Comp SV (CBlade 1); Comp (CV 3) (CBlade 2); Comp SV (CBlade 4)]; cint := false; cvals := [x; y]; cbits := [] |}.
Proof.
  intros x y. split; [|reflexivity]. constructor; [split; [reflexivity|discriminate]|]. constructor; [|constructor; [split; [reflexivity|discriminate]|constructor]]. split.
  - exists [(0%N, CV 3)]. split; [reflexivity|]. split; [apply canonical_check; vm_compute; reflexivity|]. split; [split; constructor|]. constructor; [split; [reflexivity|right; split; reflexivity]|constructor].
  - intros g. exists [(3, 0%N)]. split; [|intros k; reflexivity]. exists ([], []). split; [|reflexivity]. exists ([], []). split; [reflexivity|split; [split; reflexivity|intros _; exact Logic.I]].
Qed.
(** The full multivector type (and its instances, the k-vector types) lists every blade of the requested
    grades once, in the canonical order, with a stored coefficient.  [n] and [fuel] bound the template
    recursion depth. *)
Theorem C40_full_multivector : forall F dim first last, (first <= last)%N -> (last <= dim)%N -> (dim <= 63)%N ->
  exists depth l, (StronglySorted blade_lt l /\ forall b, In b l <-> (b < 2 ^ dim)%N /\ (first <= grade_of b <= last)%N) /\
  forall n fuel, (depth <= n)%nat -> (depth <= fuel)%nat -> full_multivector F n fuel dim first last = Some (stored_type l).
Proof. exact full_multivector_ok. Qed.
Print Assumptions C40_full_multivector.
Example C40_full_multivector_nonvacuous : full_multivector 5 9 9 3 1 2 = Some (stored_type [1; 2; 4; 3; 5; 6]%N).
Proof. vm_compute. reflexivity. Qed.
(** The derived type has the blades of the given type, all with stored coefficients. *)
Theorem C40_derived : forall F n M, (2 <= n)%nat -> canonical M -> M <> [] -> derived F n (mv_of M) = Some (stored_type (map fst M)).
Proof. exact derived_ok. Qed.
Print Assumptions C40_derived.
Example C40_derived_nonvacuous : forall w, derived 5 5 (cexpr (ob_b w)) = Some (stored_type [1; 3]%N).
Proof. intros w. reflexivity. Qed.
(** A run-time basis-blade type declares exactly the grades of the requested range. *)
Theorem C40_grade_range : forall first last k, (first <= last)%N -> (last < 64)%N -> N.testbit (grade_range first last) k = true <-> (first <= k <= last)%N.
Proof. exact range_ok. Qed.
Print Assumptions C40_grade_range.
(** A compile-time basis-blade type given by distinct indices has exactly these basis vectors. *)
Theorem C40_basis_blade : forall l, NoDup l -> Forall (fun i => (1 <= i <= 63)%N) l ->
  (blade_bits l < 2 ^ 63)%N /\ forall k, N.testbit (blade_bits l) k = true <-> In (k + 1)%N l.
Proof. exact blade_bits_ok. Qed.
Print Assumptions C40_basis_blade.
(** A repeated index does not give the square of a basis vector but another blade: <1, 1> is e2. *)
Theorem C40_basis_blade_refuted : blade_bits [1; 1]%N = blade_bits [2]%N.
Proof. reflexivity. Qed.
Print Assumptions C40_basis_blade_refuted.
(** pseudoscalar(space) is the unit blade of all the basis vectors. *)
Theorem C40_pseudoscalar : forall dim, (dim <= 63)%N -> int_object dim (pseudoscalar dim) /\ value (pseudoscalar dim) [(1, (2 ^ dim - 1)%N)].
Proof.
  intros dim H. rewrite (pseudoscalar_ok dim H). pose proof (pow2_pos dim) as P. split.
  - exists [((2 ^ dim - 1)%N, CV 1)]. split; [reflexivity|]. split; [|split; [split; constructor|]].
    + apply canonical_cons; [apply canonical_nil|constructor|discriminate|]. cbn [fst]. apply (small_blade dim); [exact H|lia].
    + constructor; [|constructor]. cbn [fst snd]. split; [lia|right; split; reflexivity].
  - intros g. exists [(1, (2 ^ dim - 1)%N)]. split; [|intros k; reflexivity]. exists ([], []). split; [|reflexivity]. exists ([], []). split; [reflexivity|split; [split; reflexivity|intros _; exact Logic.I]].
Qed.
Print Assumptions C40_pseudoscalar.
