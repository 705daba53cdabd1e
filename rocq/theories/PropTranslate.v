(** C34: translations of flats in the homogeneous model, their composition, and the vectors of the models of
    geometry. *)
From Coq Require Import NArith ZArith List Bool Reals Lra Lia Setoid Morphisms.
From Verif Require Import Bits SpecBits Expr Sem Wf SpecMv SpecAlg SpecOrder Simp Comp Mapping EvalC SpecEval Lazy SpecLazy Api SpecApi Extra Build SpecUtil General SpecGeneral Spaces SpecSpaces Models SpecExtra SpecMeet.
From Verif Require Import MvBase GaProofs JoinMath ModelProofs TransProofs.
Import ListNotations.
Local Open Scope R_scope.
Local Opaque sign_of indices.

(** A vector translates the outer product of vectors to the outer product of the translated vectors. *)
Theorem C34_translate_blade : forall F k D a b d vs w o, (D + 1 <= 63)%N -> int_object (D + 1) a -> int_object (D + 1) b ->
  SpecMeet.is_vector (D + 1) d -> Forall (SpecMeet.is_vector (D + 1)) vs -> value a d -> value b (scale w (wedge vs)) ->
  translate F k D a b = Some o -> o = Ovf \/ exists r, o = Done r /\ int_object (D + 1) r /\ value r (scale w (wedge (map (mtranslate D d) vs))).
Proof.
  intros F k D a b d vs w o HD Oa Ob Hd Hv Va Vb E. destruct (translate_ok F k D a b d _ o HD Oa Ob Va Vb E) as [->|(r & -> & Or & Vr)]; [left; reflexivity|right].
  exists r. split; [reflexivity|]. split; [exact Or|]. apply (ExtraProofs.value_meq _ _ _ Vr). etransitivity; [exact (T_scale D d w _)|]. apply meq_scl, (T_wedge D HD).
  - apply (vector_vec (D + 1) HD), Hd.
  - eapply Forall_impl; [|exact Hv]. intros x. apply (vector_vec (D + 1) HD).
Qed.
Print Assumptions C34_translate_blade.

Lemma coords_vec n zs : forall i, (i + N.of_nat (length zs) <= n)%N -> vec n (coordinates i zs).
Proof. induction zs as [|z zs IH]; intros i L; cbn [coordinates]; constructor; cbn [length] in L; [exists i; split; [lia|reflexivity]|apply IH; lia]. Qed.
(** The flat spanned by points and directions, given by homogeneous coordinates (xs, w): w is 1 for a point
    and 0 for a direction.  The translated flat is spanned by the translated points and the same directions. *)
Definition spanned (l : list (list R * R)) : mv := wedge (map (fun p => coordinates 0 (fst p ++ [snd p])) l).
Definition moved (ds : list R) (l : list (list R * R)) : list (list R * R) := map (fun p => (vsum (fst p) (map (Rmult (snd p)) ds), snd p)) l.
Theorem C34_translate_flat : forall F k D a b ds l o, (D + 1 <= 63)%N -> int_object (D + 1) a -> int_object (D + 1) b ->
  N.of_nat (length ds) = D -> Forall (fun p => length (fst p) = length ds) l -> value a (coordinates 0 (ds ++ [0])) -> value b (spanned l) ->
  translate F k D a b = Some o -> o = Ovf \/ exists r, o = Done r /\ int_object (D + 1) r /\ value r (spanned (moved ds l)).
Proof.
  intros F k D a b ds l o HD Oa Ob Hd Hl Va Vb E. destruct (translate_ok F k D a b _ _ o HD Oa Ob Va Vb E) as [->|(r & -> & Or & Vr)]; [left; reflexivity|right].
  exists r. split; [reflexivity|]. split; [exact Or|]. apply (ExtraProofs.value_meq _ _ _ Vr). unfold spanned, moved. etransitivity; [apply (T_wedge D HD)|].
  - apply coords_vec. rewrite app_length. cbn [length]. lia.
  - apply Forall_forall. intros x Hx. apply in_map_iff in Hx as (p & <- & Hp). apply coords_vec. rewrite Forall_forall in Hl. rewrite app_length, (Hl p Hp). cbn [length]. lia.
  - rewrite !map_map. clear Vb Vr. induction Hl as [|p l Lp Hl IH]; [reflexivity|]. cbn [map wedge]. apply mop_meq; [|exact IH]. cbn [fst snd]. apply translate_vector; [exact HD|rewrite Lp; symmetry; exact Hd|symmetry; exact Lp].
Qed.
Print Assumptions C34_translate_flat.
(** Two translations, one after the other, are the translation by the sum of the directions; with the
    opposite direction, the multivector comes back. *)
Lemma last_zero D ds : (D + 1 <= 63)%N -> D = N.of_nat (length ds) -> ip (diagonal_form (signature (D + 1) 0)) [(1, (2 ^ D)%N)] (coordinates 0 (ds ++ [0])) = 0.
Proof.
  intros HD HL. assert (V : vec (D + 1) (coordinates 0 (ds ++ [0]))) by (apply coords_vec; rewrite app_length; cbn [length]; lia).
  pose proof (t_scalar D HD _ V 0%N) as S. pose proof (last_coordinate D ds 0 HD HL (delta 0%N)) as L.
  rewrite coef_sumf in S. change (mlcont (signature (D + 1) 0) [(1, (2 ^ D)%N)] (coordinates 0 (ds ++ [0]))) with (bilinear (lcont_blade (signature (D + 1) 0)) [(1, (2 ^ D)%N)] (coordinates 0 (ds ++ [0]))) in S. rewrite L in S. cbn [coef] in S. rewrite N.eqb_refl, Rmult_0_l in S. lra.
Qed.
Theorem C34_translate_twice : forall F k F' k' D a b c ds ds' m g o, (D + 1 <= 63)%N -> int_object (D + 1) a -> int_object (D + 1) b -> int_object (D + 1) c ->
  N.of_nat (length ds) = D -> length ds' = length ds -> value a (coordinates 0 (ds ++ [0])) -> value b (coordinates 0 (ds' ++ [0])) -> value c m ->
  translate F k D b c = Some (Done g) -> translate F' k' D a g = Some o ->
  o = Ovf \/ exists r, o = Done r /\ int_object (D + 1) r /\ value r (mtranslate D (coordinates 0 (vsum ds ds' ++ [0])) m) /\ (ds' = map Ropp ds -> value r m).
Proof.
  intros F k F' k' D a b c ds ds' m g o HD Oa Ob Oc Hd Ld Va Vb Vc Eb Ea. destruct (translate_ok F k D b c _ _ _ HD Ob Oc Vb Vc Eb) as [E|(g' & E & Og & Vg)]; [discriminate E|]. injection E as <-.
  destruct (translate_ok F' k' D a g _ _ o HD Oa Og Va Vg Ea) as [->|(r & -> & Or & Vr)]; [left; reflexivity|right]. exists r. split; [reflexivity|]. split; [exact Or|].
  destruct (ExtraProofs.object_space _ _ c m Oc Vc) as (m0 & I0 & Q0).
  set (u := coordinates 0 (ds ++ [0])) in *. set (v := coordinates 0 (ds' ++ [0])) in *.
  assert (Vv : vec (D + 1) v) by (apply coords_vec; rewrite app_length; cbn [length]; lia).
  assert (Q : meq (mtranslate D u (mtranslate D v m)) (mtranslate D (u ++ v) m)).
  { etransitivity; [exact (T_meq D u u _ _ (reflexivity u) (T_meq D v v m m0 (reflexivity v) Q0))|].
    etransitivity; [exact (T_twice D HD u v m0 Vv (last_zero D ds' HD ltac:(lia)) I0)|]. apply T_meq; [reflexivity|symmetry; exact Q0]. }
  assert (S : meq (u ++ v) (coordinates 0 (vsum ds ds' ++ [0]))).
  { apply meq_iff. intros h. unfold u, v. rewrite sumf_app, !(sumf_meq _ _ h (coords_shift _ _ 0%N)), !sumf_app. cbn [coordinates sumf].
    pose proof (coords_add 1 ds 0%N ds' Ld h) as C. assert (M1 : map (Rmult 1) ds' = ds') by (rewrite <- (map_id ds') at 2; apply map_ext; intros x; ring). rewrite M1 in C. lra. }
  split.
  - apply (ExtraProofs.value_meq _ _ _ Vr). etransitivity; [exact Q|]. apply T_meq; [exact S|reflexivity].
  - intros ->. apply (ExtraProofs.value_meq _ _ _ Vr). etransitivity; [exact Q|]. rewrite t_unfold.
    assert (Z : meq (u ++ v) []).
    { apply meq_iff. intros h. unfold u, v. rewrite sumf_app, !(sumf_meq _ _ h (coords_shift _ _ 0%N)), !sumf_app. cbn [coordinates sumf].
      pose proof (coords_add (-1) ds 0%N ds eq_refl h) as C. assert (M1 : map (Rmult (-1)) ds = map Ropp ds) by (apply map_ext; intros x; ring).
      assert (Z : forall xs i, sumf (coordinates i (map Ropp xs)) h = - sumf (coordinates i xs) h) by (induction xs as [|x xs IH]; intros i; cbn [map coordinates sumf]; [ring|rewrite IH; ring]). rewrite Z. lra. }
    etransitivity; [exact (meq_add _ _ _ _ (reflexivity m) (op_zero_l _ _ Z))|]. rewrite app_nil_r. reflexivity.
Qed.
Print Assumptions C34_translate_twice.

(** ** Vectors, and coordinates from iterators *)
(** euclidean_vector(...) in the models of geometry: the coordinates, and zero for the other basis vectors. *)
Theorem C34_euclidean_vector : forall F k D l xs, D = N.of_nat (length l) -> l <> [] -> Forall2 native l xs ->
  ((D <= 63)%N -> exists a, euclidean_vector (20 + F) (20 + k) D l = Some (Done a) /\ int_object D a /\ value a (coordinates 0 xs)) /\
  ((D + 1 <= 63)%N -> exists a, homogeneous_vector (20 + F) (20 + k) D l = Some (Done a) /\ int_object (D + 1) a /\ value a (coordinates 0 xs)) /\
  ((D + 2 <= 63)%N -> exists a, conformal_vector (20 + F) (20 + k) D l = Some (Done a) /\ int_object (D + 2) a /\ value a (coordinates 0 xs)).
Proof.
  intros F k D l xs HL Hl H. split; [|split]; intros HD.
  - destruct (euclidean_vector_ok F k D l xs HD Hl HL H) as (a & E & O & _ & V). exists a. auto.
  - destruct (homogeneous_vector_ok F k D l xs HD HL H) as (a & E & O & _ & V). exists a. split; [exact E|]. split; [exact O|]. apply (ExtraProofs.value_meq _ _ _ V).
    apply meq_iff. intros h. rewrite !(sumf_meq _ _ h (coords_shift _ _ 0%N)), !sumf_app. cbn [coordinates sumf]. ring.
  - destruct (conformal_vector_ok F k D l xs HD HL H) as (a & E & O & _ & V). exists a. split; [exact E|]. split; [exact O|]. apply (ExtraProofs.value_meq _ _ _ V).
    apply meq_iff. intros h. rewrite !(sumf_meq _ _ h (coords_shift _ _ 0%N)), !sumf_app. cbn [coordinates sumf]. ring.
Qed.
Print Assumptions C34_euclidean_vector.
(** The overloads with two iterators do the same as the calls with the coordinates of the range. *)
Theorem C34_iterators : forall F k D l, D = N.of_nat (length l) ->
  using_iterator D (conformal_point F k D) l = conformal_point F k D l /\ using_iterator D (conformal_vector F k D) l = conformal_vector F k D l /\
  using_iterator D (minkowski_point F k D) l = minkowski_point F k D l /\ using_iterator D (homogeneous_point F k D) l = homogeneous_point F k D l /\
  using_iterator D (homogeneous_vector F k D) l = homogeneous_vector F k D l /\ using_iterator D (euclidean_vector F k D) l = euclidean_vector F k D l.
Proof. intros F k D l H. rewrite !iterator_ok by exact H. repeat split. Qed.
Print Assumptions C34_iterators.
(** A line of the plane, translated: the calls compile. *)
Definition plane_line (p q r : R) : cliff := {| cexpr := Fn NAdd [Comp SV (CBlade 3); Comp SV (CBlade 5); Comp SV (CBlade 6)]; cint := false; cvals := [p; q; r]; cbits := [] |}.
Definition plane_direction (x y : R) : cliff := {| cexpr := Fn NAdd [Comp SV (CBlade 1); Comp SV (CBlade 2)]; cint := false; cvals := [x; y]; cbits := [] |}.
Example C34_case_line : exists g r, translate 40 40 2 (plane_direction 1 2) (plane_line 3 4 5) = Some (Done g) /\ translate 40 40 2 (plane_direction 6 7) g = Some (Done r) /\ cexpr r = cexpr (plane_line 0 0 0).
Proof. do 2 eexists. split; [lazy -[Rmult Rplus IZR]; reflexivity|]. split; lazy -[Rmult Rplus IZR]; reflexivity. Qed.
