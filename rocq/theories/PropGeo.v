(** C45, C46: the parameters of rounds, tangents and flats in the models of geometry. *)
From Coq Require Import NArith ZArith List Bool Reals Lra Lia.
From Verif Require Import Bits SpecBits Expr Sem Wf SpecMv SpecAlg SpecExtra Simp Comp Mapping EvalC SpecEval Lazy SpecLazy Api SpecApi Extra SpecUtil General SpecGeneral Spaces SpecSpaces Geo SpecGeo.
From Verif Require Import MvBase SimpProofs CanonProofs ProductProofs ExtraProofs Wick Wick2 VecProofs GaProofs GeoProofs GaRound GeoApi GeoApi2 GeoApi3 GaInverse PresProofs PolyProofs ApiProofs LazyProofs2 CompProofs2 OrderProofs PropApi PropExtra.
Import ListNotations.
Local Open Scope R_scope.
Local Opaque sign_of indices.

(** ** C45: rounds, tangents and flats of conformal geometry *)
(** In both models ([m]: conformal_metric_space<D> or minkowski_metric_space<D>) and for every geometric
    product [G] of the model's metric: the point with coordinates [xs] is [model_point m xs]; [a], a
    multivector of grade [k] orthogonal to the point and to infinity with a non-zero square, is the
    attitude of the round, tangent or flat.  Location, squared size and direction of the round of centre
    [xs], squared radius [rho] and attitude [a]. *)
Theorem C45_round_location : forall F j d m G xs k a rho r o, model_ok m -> model_coords m xs -> geometric (model_dim m) (model_metric m) G ->
  attitude (model_dim m) G (model_point m xs) (model_infinity m) k a ->
  rat_object (model_dim m) r -> value r (round (model_point m xs) (model_infinity m) rho a) ->
  exact (body1 (round_location_in F j d m)) [r] -> round_location_in F j d m r = Some o ->
  o = Ovf \/ exists r', o = Done r' /\ rat_object (model_dim m) r' /\ value r' (model_point m xs).
Proof. intros F j d m G xs k a rho r o Hm Hx HG HA. exact (c_round_location F j d m G xs k a Hm Hx HG HA rho r o). Qed.
Print Assumptions C45_round_location.
Theorem C45_round_size_sqr : forall F j d m G xs k a rho r o, model_ok m -> model_coords m xs -> geometric (model_dim m) (model_metric m) G ->
  attitude (model_dim m) G (model_point m xs) (model_infinity m) k a ->
  rat_object (model_dim m) r -> value r (round (model_point m xs) (model_infinity m) rho a) ->
  exact (body1 (round_size_sqr_in F j d m)) [r] -> round_size_sqr_in F j d m r = Some o ->
  o = Ovf \/ exists r', o = Done r' /\ rat_object (model_dim m) r' /\ value r' [(rho, 0%N)].
Proof. intros F j d m G xs k a rho r o Hm Hx HG HA. exact (c_round_size F j d m G xs k a Hm Hx HG HA rho r o). Qed.
Print Assumptions C45_round_size_sqr.
(** A dual round has the opposite sign: the dual sphere of squared radius rho is p - rho / 2 ni. *)
Theorem C45_dual_round_size_sqr : forall F j d m G xs k a rho r o, model_ok m -> model_coords m xs -> geometric (model_dim m) (model_metric m) G ->
  attitude (model_dim m) G (model_point m xs) (model_infinity m) k a ->
  rat_object (model_dim m) r -> value r (round (model_point m xs) (model_infinity m) (- rho) a) ->
  exact (body1 (dual_round_size_sqr_in F j d m)) [r] -> dual_round_size_sqr_in F j d m r = Some o ->
  o = Ovf \/ exists r', o = Done r' /\ rat_object (model_dim m) r' /\ value r' [(rho, 0%N)].
Proof. intros F j d m G xs k a rho r o Hm Hx HG HA. exact (c_dual_round_size F j d m G xs k a Hm Hx HG HA rho r o). Qed.
Print Assumptions C45_dual_round_size_sqr.
Theorem C45_round_direction : forall F j d m G xs k a rho r o, model_ok m -> model_coords m xs -> geometric (model_dim m) (model_metric m) G ->
  attitude (model_dim m) G (model_point m xs) (model_infinity m) k a ->
  rat_object (model_dim m) r -> value r (round (model_point m xs) (model_infinity m) rho a) ->
  exact (body1 (direction_in F j d m)) [r] -> direction_in F j d m r = Some o ->
  o = Ovf \/ exists r', o = Done r' /\ rat_object (model_dim m) r' /\ value r' (mop a (model_infinity m)).
Proof. intros F j d m G xs k a rho r o Hm Hx HG HA. exact (c_round_direction F j d m G xs k a Hm Hx HG HA rho r o). Qed.
Print Assumptions C45_round_direction.
(** Direction and location of a tangent. *)
Theorem C45_tangent_direction : forall F j d m G xs k a r o, model_ok m -> model_coords m xs -> geometric (model_dim m) (model_metric m) G ->
  attitude (model_dim m) G (model_point m xs) (model_infinity m) k a ->
  rat_object (model_dim m) r -> value r (tangent (model_point m xs) a) ->
  exact (body1 (direction_in F j d m)) [r] -> direction_in F j d m r = Some o ->
  o = Ovf \/ exists r', o = Done r' /\ rat_object (model_dim m) r' /\ value r' (mop a (model_infinity m)).
Proof. intros F j d m G xs k a r o Hm Hx HG HA. exact (c_tangent_direction F j d m G xs k a Hm Hx HG HA r o). Qed.
Print Assumptions C45_tangent_direction.
Theorem C45_tangent_location : forall F j d m G xs k a r o, model_ok m -> model_coords m xs -> geometric (model_dim m) (model_metric m) G ->
  attitude (model_dim m) G (model_point m xs) (model_infinity m) k a ->
  rat_object (model_dim m) r -> value r (tangent (model_point m xs) a) ->
  exact (body1 (tangent_location_in F j d m)) [r] -> tangent_location_in F j d m r = Some o ->
  o = Ovf \/ exists r', o = Done r' /\ rat_object (model_dim m) r' /\ value r' (model_point m xs).
Proof. intros F j d m G xs k a r o Hm Hx HG HA. exact (c_tangent_location F j d m G xs k a Hm Hx HG HA r o). Qed.
Print Assumptions C45_tangent_location.
(** Direction and location of a flat.  For the location, the point [xs] of the flat closest to the origin
    is taken: the attitude is orthogonal to the origin too (primal flat), or the origin and the support
    vector differ by a vector in the attitude (dual flat).  The result is no + x + |x|^2 ni: a vector that
    is a point only if x = 0. *)
Theorem C45_flat_direction : forall F j d m G xs k a r o, model_ok m -> model_coords m xs -> geometric (model_dim m) (model_metric m) G ->
  attitude (model_dim m) G (model_point m xs) (model_infinity m) k a ->
  int_object (model_dim m) r -> value r (flat (model_point m xs) (model_infinity m) a) ->
  flat_direction_in F j d m r = Some o ->
  o = Ovf \/ exists r', o = Done r' /\ int_object (model_dim m) r' /\ value r' (mop a (model_infinity m)).
Proof. intros F j d m G xs k a r o Hm Hx HG HA. exact (c_flat_direction F j d m G xs k a Hm Hx HG HA r o). Qed.
Print Assumptions C45_flat_direction.
Theorem C45_flat_location : forall F j d m G xs k a r o, model_ok m -> model_coords m xs -> geometric (model_dim m) (model_metric m) G ->
  attitude (model_dim m) G (model_point m xs) (model_infinity m) k a -> meq (glc G (model_origin m) a) [] ->
  rat_object (model_dim m) r -> value r (flat (model_point m xs) (model_infinity m) a) ->
  exact (body1 (flat_location_in F j d m)) [r] -> flat_location_in F j d m r = Some o ->
  o = Ovf \/ exists r', o = Done r' /\ rat_object (model_dim m) r' /\ value r' (support_vector m xs).
Proof. intros F j d m G xs k a r o Hm Hx HG HA. exact (c_flat_location F j d m G xs k a Hm Hx HG HA r o). Qed.
Print Assumptions C45_flat_location.
Theorem C45_dual_flat_location : forall F j d m G xs k a r o, model_ok m -> model_coords m xs -> geometric (model_dim m) (model_metric m) G ->
  attitude (model_dim m) G (model_point m xs) (model_infinity m) k a -> meq (mop (model_origin m) a) (mop (support_vector m xs) a) ->
  rat_object (model_dim m) r -> value r a ->
  exact (body1 (dual_flat_location_in F j d m)) [r] -> dual_flat_location_in F j d m r = Some o ->
  o = Ovf \/ exists r', o = Done r' /\ rat_object (model_dim m) r' /\ value r' (support_vector m xs).
Proof. intros F j d m G xs k a r o Hm Hx HG HA. exact (c_dual_flat_location F j d m G xs k a Hm Hx HG HA r o). Qed.
Print Assumptions C45_dual_flat_location.

(** ** C46: flats of the homogeneous model *)
(** The flat is (x + e) ^ a: [xs] are the coordinates x of its point closest to the origin, e is the last
    basis vector, [a] is the attitude, orthogonal to x and to e. *)
Theorem C46_flat_direction : forall F j D xs k a r o, (D <= 62)%N -> D = N.of_nat (length xs) ->
  attitude (D + 1) (gp_blade (signature (D + 1) 0)) (coordinates 0 xs) [(1, (2 ^ D)%N)] k a ->
  int_object (D + 1) r -> value r (mop (coordinates 0 xs ++ [(1, (2 ^ D)%N)]) a) ->
  flat_direction_h F j D r = Some o ->
  o = Ovf \/ exists r', o = Done r' /\ int_object (D + 1) r' /\ value r' a.
Proof. intros F j D xs k a r o HD Hx HA. exact (c_direction_h F j D xs k a HD Hx HA r o). Qed.
Print Assumptions C46_flat_direction.
Theorem C46_flat_moment : forall F j D xs k a r o, (D <= 62)%N -> D = N.of_nat (length xs) ->
  attitude (D + 1) (gp_blade (signature (D + 1) 0)) (coordinates 0 xs) [(1, (2 ^ D)%N)] k a ->
  rat_object (D + 1) r -> value r (mop (coordinates 0 xs ++ [(1, (2 ^ D)%N)]) a) ->
  exact (body1 (flat_moment_h F j D)) [r] -> flat_moment_h F j D r = Some o ->
  o = Ovf \/ exists r', o = Done r' /\ rat_object (D + 1) r' /\ value r' (mop (coordinates 0 xs) a).
Proof. intros F j D xs k a r o HD Hx HA. exact (c_moment F j D xs k a HD Hx HA r o). Qed.
Print Assumptions C46_flat_moment.
Theorem C46_flat_support_vector : forall F j D xs k a r o, (D <= 62)%N -> D = N.of_nat (length xs) ->
  attitude (D + 1) (gp_blade (signature (D + 1) 0)) (coordinates 0 xs) [(1, (2 ^ D)%N)] k a ->
  rat_object (D + 1) r -> value r (mop (coordinates 0 xs ++ [(1, (2 ^ D)%N)]) a) ->
  exact (body1 (flat_support_vector_h F j D)) [r] -> flat_support_vector_h F j D r = Some o ->
  o = Ovf \/ exists r', o = Done r' /\ rat_object (D + 1) r' /\ value r' (coordinates 0 xs).
Proof. intros F j D xs k a r o HD Hx HA. exact (c_support_vector F j D xs k a HD Hx HA r o). Qed.
Print Assumptions C46_flat_support_vector.
Theorem C46_flat_unit_support_point : forall F j D xs k a r o, (D <= 62)%N -> D = N.of_nat (length xs) ->
  attitude (D + 1) (gp_blade (signature (D + 1) 0)) (coordinates 0 xs) [(1, (2 ^ D)%N)] k a ->
  rat_object (D + 1) r -> value r (mop (coordinates 0 xs ++ [(1, (2 ^ D)%N)]) a) ->
  exact (body1 (flat_unit_support_point_h F j D)) [r] -> flat_unit_support_point_h F j D r = Some o ->
  o = Ovf \/ exists r', o = Done r' /\ rat_object (D + 1) r' /\ value r' (coordinates 0 xs ++ [(1, (2 ^ D)%N)]).
Proof. intros F j D xs k a r o HD Hx HA. exact (c_support_point F j D xs k a HD Hx HA r o). Qed.
Print Assumptions C46_flat_unit_support_point.


(** ** Cases that meet the hypotheses *)
(** A vector orthogonal to the point and to infinity, of non-zero square, is an attitude. *)
Lemma attitude_vector n A G p ni a : (n <= 64)%N -> geometric n A G -> (forall i j, A i j = A j i) -> vec n p -> vec n ni -> vec n a -> ip A p a = 0 -> ip A ni a = 0 -> ip A a a <> 0 -> attitude n G p ni 1 a.
Proof.
  intros Hn HG SA Vp Vi Va Ep Ei Ea. split; [exact (vec_in n a Va)|]. split; [exact (vec_homog n Hn a Va)|].
  assert (Z : forall c, c = 0 -> meq [(c, 0%N)] []) by (intros c -> i; cbn [coef]; destruct (N.eqb 0 i); lra).
  split; [rewrite (vec_scalar n A G Hn HG p a Vp Va); apply Z, Ep|]. split; [rewrite (vec_scalar n A G Hn HG ni a Vi Va); apply Z, Ei|].
  exists (ip A a a). split; [exact Ea|exact (vec_square n A G Hn HG SA a Va)].
Qed.
(** In the conformal model of the plane: the attitude e1 + x ni at the point (x, y), and the point pair on
    the horizontal line through it, of squared radius rho. *)
Definition att (x : R) : mv := [(1, 1%N); (x, 8%N)].
Lemma vec1 n c i m : (i < n)%N -> vec n m -> vec n ((c, (2 ^ i)%N) :: m).
Proof. intros H V. constructor; [exists i; split; [exact H|reflexivity]|exact V]. Qed.
Example C45_attitude : forall G x y, geometric 4 (conformal_metric 2) G -> attitude 4 G (model_point (ConformalModel 2) [x; y]) (model_infinity (ConformalModel 2)) 1 (att x).
Proof.
  intros G x y HG. apply (attitude_vector 4 (conformal_metric 2) G); [lia|exact HG|exact (model_sym (ConformalModel 2))| | | | | |].
  - exact (coords_vec 4 [x; y; 1; dotp [x; y] [x; y] / 2] 0 ltac:(cbn; lia)).
  - apply (vec1 4 1 3); [lia|constructor].
  - apply (vec1 4 1 0); [lia|]. apply (vec1 4 x 3); [lia|constructor].
  - cbv [ip model_point coordinates app att sumf]. cbn [N.log2 N.add N.mul N.pow Pos.pow Pos.iter Pos.mul Pos.size Pos.add Pos.succ Pos.pred]. cbv [conformal_metric N.ltb N.compare N.eqb Pos.compare Pos.compare_cont Pos.eqb orb andb N.add Pos.add Pos.succ]. ring.
  - cbv [ip model_infinity att sumf]. cbn [N.log2 N.add N.mul N.pow Pos.pow Pos.iter Pos.mul Pos.size Pos.add Pos.succ Pos.pred]. cbv [conformal_metric N.ltb N.compare N.eqb Pos.compare Pos.compare_cont Pos.eqb orb andb N.add Pos.add Pos.succ]. ring.
  - cbv [ip att sumf]. cbn [N.log2 N.add N.mul N.pow Pos.pow Pos.iter Pos.mul Pos.size Pos.add Pos.succ Pos.pred]. cbv [conformal_metric N.ltb N.compare N.eqb Pos.compare Pos.compare_cont Pos.eqb orb andb N.add Pos.add Pos.succ]. lra.
Qed.
Definition pair_obj (v1 v2 v3 v4 v5 : R) : cliff :=
  {| cexpr := Fn NAdd [Comp SV (CBlade 3); Comp SV (CBlade 5); Comp SV (CBlade 9); Comp SV (CBlade 10); Comp SV (CBlade 12)]; cint := false; cvals := [v1; v2; v3; v4; v5]; cbits := [] |}.
Ltac stored vs := let rec go l := match l with
  | _ :: ?l' => exists (l', @nil N); split; [exists (l', @nil N); split; [reflexivity|split; [split; reflexivity|intros _; exact Logic.I]]|]; go l'
  | nil => reflexivity end in go vs.
Lemma pair_ok v1 v2 v3 v4 v5 : rat_object 4 (pair_obj v1 v2 v3 v4 v5) /\ value (pair_obj v1 v2 v3 v4 v5) [(v1, 3%N); (v2, 5%N); (v3, 9%N); (v4, 10%N); (v5, 12%N)].
Proof.
  split.
  - exists [(3%N, SV); (5%N, SV); (9%N, SV); (10%N, SV); (12%N, SV)]. split; [reflexivity|]. split; [apply canonical_check; vm_compute; reflexivity|]. split; [split; [intros H; discriminate H|constructor]|].
    repeat (constructor; [split; [reflexivity|left; reflexivity]|]). constructor.
  - intros g. exists [(v1, 3%N); (v2, 5%N); (v3, 9%N); (v4, 10%N); (v5, 12%N)]. split; [|intros j; reflexivity]. stored [v1; v2; v3; v4; v5].
Qed.
Definition plane_pair (x y rho : R) : cliff := pair_obj (- y) (-1) (x * x - (x * x + y * y) / 2 - rho / 2) (x * y) x.
Local Transparent sign_of indices.
Example C45_round : forall x y rho, rat_object 4 (plane_pair x y rho) /\ value (plane_pair x y rho) (round (model_point (ConformalModel 2) [x; y]) (model_infinity (ConformalModel 2)) rho (att x)).
Proof.
  intros x y rho. destruct (pair_ok (- y) (-1) (x * x - (x * x + y * y) / 2 - rho / 2) (x * y) x) as [O V]. split; [exact O|]. refine (value_meq _ _ _ V _).
  intros i. cbn. destruct i as [|[[[p|p|]|[p|p|]|]|[[p|p|]|[p|p|]|]|]]; cbn; try field; match goal with |- context [Pos.eqb 1 ?p] => destruct (Pos.eqb 1 p) end; field.
Qed.
Local Opaque sign_of indices.
Example C45_calls : forall x y rho, let r := plane_pair x y rho in let m := ConformalModel 2 in
  (exact (body1 (round_location_in 40 40 9 m)) [r] /\ compiles (round_location_in 40 40 9 m r) = true) /\
  (exact (body1 (round_size_sqr_in 40 40 9 m)) [r] /\ compiles (round_size_sqr_in 40 40 9 m r) = true) /\
  (exact (body1 (dual_round_size_sqr_in 40 40 9 m)) [r] /\ compiles (dual_round_size_sqr_in 40 40 9 m r) = true) /\
  (exact (body1 (direction_in 40 40 9 m)) [r] /\ compiles (direction_in 40 40 9 m r) = true) /\
  (exact (body1 (tangent_location_in 40 40 9 m)) [r] /\ compiles (tangent_location_in 40 40 9 m r) = true).
Proof. intros x y rho r m. do 4 (split; [split; [apply exact_check; vm_compute; reflexivity|vm_compute; reflexivity]|]). split; [apply exact_check; vm_compute; reflexivity|vm_compute; reflexivity]. Qed.
(** The tangent is the round of radius zero. *)
Example C45_tangent : forall x y, value (plane_pair x y 0) (tangent (model_point (ConformalModel 2) [x; y]) (att x)).
Proof.
  intros x y. refine (value_meq _ _ _ (proj2 (C45_round x y 0)) _). unfold round, tangent, mop. transitivity (bilinear op_blade (model_point (ConformalModel 2) [x; y]) (att x) ++ bilinear op_blade (scale (0 / 2) (model_infinity (ConformalModel 2))) (att x)); [apply bilinear_app_l|].
  intros i. rewrite Verif.AlgProofs.coef_app. rewrite (Verif.Clifford.bilinear_scale_l _ (0 / 2) (model_infinity (ConformalModel 2)) (att x) i), Verif.AlgProofs.coef_scale. lra.
Qed.
(** The line through (0, c) parallel to the first axis, of attitude e1, and its dual e2 + c ni. *)
Definition two_obj (b1 b2 : N) (v1 v2 : R) : cliff := {| cexpr := Fn NAdd [Comp SV (CBlade b1); Comp SV (CBlade b2)]; cint := false; cvals := [v1; v2]; cbits := [] |}.
Lemma two_value b1 b2 v1 v2 : value (two_obj b1 b2 v1 v2) [(v1, b1); (v2, b2)].
Proof. intros g. exists [(v1, b1); (v2, b2)]. split; [|intros j; reflexivity]. stored [v1; v2]. Qed.
Ltac two_ok b1 b2 := exists [(b1, SV); (b2, SV)]; split; [reflexivity|]; split; [apply canonical_check; vm_compute; reflexivity|]; split; [split; [intros H; discriminate H|constructor]|];
    constructor; [|constructor; [|constructor]]; (split; [reflexivity|left; reflexivity]).
Example C45_flat : forall c, let m := ConformalModel 2 in let r := two_obj 11 13 (- c) (-1) in let u := two_obj 2 8 1 c in
  (int_object 4 r /\ rat_object 4 r /\ value r (flat (model_point m [0; c]) (model_infinity m) (att 0))) /\ (rat_object 4 u /\ value u [(1, 2%N); (c, 8%N)]) /\
  (forall G, geometric 4 (conformal_metric 2) G -> attitude 4 G (model_point m [0; c]) (model_infinity m) 1 (att 0) /\ meq (glc G (model_origin m) (att 0)) [] /\
    attitude 4 G (model_point m [0; c]) (model_infinity m) 1 [(1, 2%N); (c, 8%N)] /\ meq (mop (model_origin m) [(1, 2%N); (c, 8%N)]) (mop (support_vector m [0; c]) [(1, 2%N); (c, 8%N)])).
Proof.
  intros c m r u. split; [|split].
  - assert (O : int_object 4 r) by two_ok 11%N 13%N. split; [exact O|]. split; [apply int_rat, O|]. refine (value_meq _ _ _ (two_value 11 13 (- c) (-1)) _).
    Transparent sign_of indices. intros i. cbn. destruct i as [|[[[[p|p|]|[p|p|]|]|[[p|p|]|[p|p|]|]|]|[[[p|p|]|[p|p|]|]|[[p|p|]|[p|p|]|]|]|]]; cbn; try field; repeat match goal with |- context [Pos.eqb 1 ?p] => destruct (Pos.eqb 1 p) end; field.
  - split; [two_ok 2%N 8%N|apply two_value].
  - intros G HG. split; [exact (C45_attitude G 0 c HG)|]. split; [|split].
    + rewrite (vec_scalar 4 (conformal_metric 2) G ltac:(lia) HG (model_origin m) (att 0)); [|apply (vec1 4 1 2); [lia|constructor]|apply (vec1 4 1 0); [lia|]; apply (vec1 4 0 3); [lia|constructor]].
      intros i. cbv [ip model_origin m att sumf]. cbn [N.log2 N.add N.mul N.pow Pos.pow Pos.iter Pos.mul Pos.size Pos.add Pos.succ Pos.pred]. cbv [conformal_metric N.ltb N.compare N.eqb Pos.compare Pos.compare_cont Pos.eqb orb andb N.add Pos.add Pos.succ coef]. destruct i; lra.
    + apply (attitude_vector 4 (conformal_metric 2) G); [lia|exact HG|exact (model_sym (ConformalModel 2))| | | | | |].
      * exact (coords_vec 4 [0; c; 1; dotp [0; c] [0; c] / 2] 0 ltac:(cbn; lia)).
      * apply (vec1 4 1 3); [lia|constructor].
      * apply (vec1 4 1 1); [lia|]. apply (vec1 4 c 3); [lia|constructor].
      * cbv [ip model_point m coordinates app sumf]. cbn [N.log2 N.add N.mul N.pow Pos.pow Pos.iter Pos.mul Pos.size Pos.add Pos.succ Pos.pred]. cbv [conformal_metric N.ltb N.compare N.eqb Pos.compare Pos.compare_cont Pos.eqb orb andb N.add Pos.add Pos.succ]. ring.
      * cbv [ip model_infinity m sumf]. cbn [N.log2 N.add N.mul N.pow Pos.pow Pos.iter Pos.mul Pos.size Pos.add Pos.succ Pos.pred]. cbv [conformal_metric N.ltb N.compare N.eqb Pos.compare Pos.compare_cont Pos.eqb orb andb N.add Pos.add Pos.succ]. ring.
      * cbv [ip sumf]. cbn [N.log2 N.add N.mul N.pow Pos.pow Pos.iter Pos.mul Pos.size Pos.add Pos.succ Pos.pred]. cbv [conformal_metric N.ltb N.compare N.eqb Pos.compare Pos.compare_cont Pos.eqb orb andb N.add Pos.add Pos.succ]. lra.
    + intros i. cbn. destruct i as [|[[[p|p|]|[p|p|]|]|[[p|p|]|[p|p|]|]|]]; cbn; try field; repeat match goal with |- context [Pos.eqb 1 ?p] => destruct (Pos.eqb 1 p) end; field.
Qed.
Local Opaque sign_of indices.
Example C45_flat_calls : forall c, let m := ConformalModel 2 in let r := two_obj 11 13 (- c) (-1) in let u := two_obj 2 8 1 c in
  compiles (flat_direction_in 40 40 9 m r) = true /\
  (exact (body1 (flat_location_in 40 40 9 m)) [r] /\ compiles (flat_location_in 40 40 9 m r) = true) /\
  (exact (body1 (dual_flat_location_in 40 40 9 m)) [u] /\ compiles (dual_flat_location_in 40 40 9 m u) = true).
Proof. intros c m r u. split; [vm_compute; reflexivity|]. split; (split; [apply exact_check; vm_compute; reflexivity|vm_compute; reflexivity]). Qed.
(** The same line in the homogeneous model. *)
Local Transparent sign_of indices.
Example C46_case : forall c, let r := two_obj 3 5 (- c) (-1) in
  (int_object 3 r /\ rat_object 3 r /\ value r (mop (coordinates 0 [0; c] ++ [(1, (2 ^ 2)%N)]) [(1, 1%N)])) /\
  attitude 3 (gp_blade (signature 3 0)) (coordinates 0 [0; c]) [(1, (2 ^ 2)%N)] 1 [(1, 1%N)].
Proof.
  intros c r. split.
  - assert (O : int_object 3 r) by two_ok 3%N 5%N. split; [exact O|]. split; [apply int_rat, O|]. refine (value_meq _ _ _ (two_value 3 5 (- c) (-1)) _).
    intros i. cbn. destruct i as [|[[[p|p|]|[p|p|]|]|[[p|p|]|[p|p|]|]|]]; cbn; try field; repeat match goal with |- context [Pos.eqb 1 ?p] => destruct (Pos.eqb 1 p) end; field.
  - apply (attitude_vector 3 (diagonal_form (signature 3 0)) (gp_blade (signature 3 0))); [lia|apply diagonal_geometric; lia| | | | | | |].
    + intros i j. unfold diagonal_form. rewrite (N.eqb_sym j i). destruct (N.eqb_spec i j) as [->|]; reflexivity.
    + exact (coords_vec 3 [0; c] 0 ltac:(cbn; lia)).
    + apply (vec1 3 1 2); [lia|constructor].
    + apply (vec1 3 1 0); [lia|constructor].
    + cbv [ip coordinates app sumf]. cbn. ring.
    + cbv [ip sumf]. cbn. ring.
    + cbv [ip sumf]. cbn. lra.
Qed.
Local Opaque sign_of indices.
Example C46_calls : forall c, let r := two_obj 3 5 (- c) (-1) in
  compiles (flat_direction_h 40 40 2 r) = true /\
  (exact (body1 (flat_moment_h 40 40 2)) [r] /\ compiles (flat_moment_h 40 40 2 r) = true) /\
  (exact (body1 (flat_support_vector_h 40 40 2)) [r] /\ compiles (flat_support_vector_h 40 40 2 r) = true) /\
  (exact (body1 (flat_unit_support_point_h 40 40 2)) [r] /\ compiles (flat_unit_support_point_h 40 40 2 r) = true).
Proof. intros c r. split; [vm_compute; reflexivity|]. split; [|split]; (split; [apply exact_check; vm_compute; reflexivity|vm_compute; reflexivity]). Qed.
