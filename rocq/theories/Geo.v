(** Model of the functions that are compositions of the products of any space with a metric: inverse,
    duality and versors in general metric spaces; projection and rejection (model/signed/euclidean);
    parameters of flats in the homogeneous model (model/signed/homogeneous); parameters of flats, rounds
    and tangents in the conformal model and its Minkowski variant (model/conformal,
    model/signed/minkowski). *)
From Coq Require Import NArith ZArith List Bool Reals.
From Verif Require Import Bits Expr Simp Comp Mapping Ops Lazy Api General Spaces Extra.
Import ListNotations.

(** The products selected by the metric space handed to a function: gp, lcont, rcont, sp, op. *)
Record products := { p_gp : cliff -> cliff -> result; p_lcont : cliff -> cliff -> result; p_rcont : cliff -> cliff -> result;
  p_sp : cliff -> cliff -> result; p_op : cliff -> cliff -> result }.
(** signed_metric_space<P, Q, R>: euclidean_metric_space<N> is (N, 0, 0), homogeneous_metric_space<D> is
    (D + 1, 0, 0), minkowski_metric_space<D> is (D + 1, 1, 0), plane_based_metric_space<D> is (D, 0, 1)
    (model/signed/*/metric_space.hpp). *)
Definition signed_products (F k : nat) (P Q R : N) : products :=
  {| p_gp := gp F k P Q R; p_lcont := lcont F k P Q R; p_rcont := rcont F k P Q R; p_sp := sp F k P Q R; p_op := outer F k (P + Q + R) |}.
(** conformal_metric_space<D> and general_metric_space<entries...>. *)
Definition general_products (F k d : nat) (s : gspace) : products :=
  {| p_gp := gp_g F k d (gdim s) (gentry F s); p_lcont := lcont_g F k d (gdim s) (gentry F s); p_rcont := rcont_g F k d (gdim s) (gentry F s);
     p_sp := sp_g F k d (gdim s) (gentry F s); p_op := outer F k (gdim s) |}.

Section Geo.
(** [F], [k]: template recursion depths; [M]: the products of the metric space. *)
Variables (F k : nat) (M : products).

(** rnorm_sqr(a, mtr): reverse_norm.hpp:29-33. *)
Definition norm_sqr_m (a : cliff) : result := in_context F k [a] (body1 (fun x => andthen (reverse F k x) (fun y => p_sp M x y))).
(** inv(a, mtr): versor_inverse.hpp:29-33. *)
Definition inv_m (a : cliff) : result :=
  in_context F k [a] (body1 (fun x =>
    andthen (reverse F k x) (fun r => andthen (norm_sqr_m x) (fun s => andthen (inv_scalar F k s) (fun i => gp_scalar F k r i))))).
(** igp(a, b, mtr): inverse_geometric_product.hpp:29-33. *)
Definition igp_m (a b : cliff) : result := in_context F k [a; b] (body2 (fun x y => andthen (inv_m y) (fun i => p_gp M x i))).
(** dual(a, I, mtr), undual(a, I, mtr): dualization.hpp:29-33, 40-44. *)
Definition dual_m (a I : cliff) : result := in_context F k [a; I] (body2 (fun x y => andthen (inv_m y) (fun i => p_lcont M x i))).
Definition undual_m (a I : cliff) : result := in_context F k [a; I] (body2 (p_lcont M)).
(** apply_even_versor, apply_odd_versor, apply_rotor: apply_versor.hpp:30-34, 52-56, 74-78. *)
Definition even_m (v a : cliff) : result :=
  in_context F k [v; a] (body2 (fun x y => andthen (p_gp M x y) (fun p => andthen (inv_m x) (fun i => p_gp M p i)))).
Definition odd_m (v a : cliff) : result :=
  in_context F k [v; a] (body2 (fun x y => andthen (involute F k y) (fun z => andthen (p_gp M x z) (fun p => andthen (inv_m x) (fun i => p_gp M p i))))).
Definition rotor_m (r a : cliff) : result :=
  in_context F k [r; a] (body2 (fun x y => andthen (p_gp M x y) (fun p => andthen (reverse F k x) (fun z => p_gp M p z)))).

(** project(a, b, mtr): model/signed/euclidean/orthogonal_projection.hpp:31-34. *)
Definition project (a b : cliff) : result :=
  in_context F k [a; b] (body2 (fun x y => andthen (inv_m y) (fun i => andthen (p_lcont M x i) (fun c => p_lcont M c y)))).
(** reject(a, b, mtr): model/signed/euclidean/rejection.hpp:31-34. *)
Definition reject (a b : cliff) : result :=
  in_context F k [a; b] (body2 (fun x y => andthen (project x y) (fun p => minus F k x p))).

(** Parameters of flats of the homogeneous model; [ep] is e(c<D + 1>), the origin:
    model/signed/homogeneous/flat_direction.hpp:31-34, flat_moment.hpp:31-35, flat_support_vector.hpp:31-35,
    flat_unit_support_point.hpp:31-35. *)
Definition flat_direction (ep f : cliff) : result := p_lcont M ep f.
Definition flat_moment (ep f : cliff) : result :=
  in_context F k [f] (body1 (fun x => andthen (p_op M ep x) (fun o => p_lcont M ep o))).
Definition flat_support_vector (ep f : cliff) : result :=
  in_context F k [f] (body1 (fun x => andthen (p_op M ep x) (fun o => andthen (p_lcont M ep o) (fun m =>
    andthen (p_lcont M ep x) (fun d => andthen (inv_m d) (fun i => p_gp M m i)))))).
Definition flat_unit_support_point (ep f : cliff) : result :=
  in_context F k [f] (body1 (fun x => andthen (p_lcont M ep x) (fun d => andthen (inv_m d) (fun i => p_gp M x i)))).

(** Parameters of flats, rounds and tangents of the conformal models; [no] and [ni] are the points at the
    origin and at infinity.  The dual_*_direction functions are left out: they call undual(a, mtr), which
    does not exist.
    primal_flat_direction: model/conformal/flat_direction.hpp:38-41, minkowski/flat_direction.hpp:38-41. *)
Definition primal_flat_direction (ni f : cliff) : result := andthen (neg F k ni) (fun m => p_lcont M m f).
(** primal_round_direction (round_direction.hpp:39-43) and primal_tangent_direction
    (tangent_direction.hpp:39-43), which have the same body. *)
Definition primal_direction (ni r : cliff) : result :=
  in_context F k [r] (body1 (fun x => andthen (neg F k ni) (fun m => andthen (p_lcont M m x) (fun d => p_op M d ni)))).
(** dual_round_location and primal_round_location, which have the same body: round_location.hpp:31-45. *)
Definition round_location (ni r : cliff) : result :=
  in_context F k [r] (body1 (fun x => andthen (p_lcont M ni x) (fun aux =>
    andthen (p_gp M x ni) (fun a => andthen (p_gp M a x) (fun b => andthen (neg F k (c_obj 2)) (fun c => andthen (p_sp M aux aux) (fun s =>
    andthen (p_gp M c s) (fun d => andthen (inv_m d) (fun i => p_gp M b i))))))))).
(** primal_round_size_sqr: round_size_sqr.hpp:40-45. *)
Definition primal_size_sqr_t (ni x : cliff) : result :=
  andthen (p_lcont M ni x) (fun aux => andthen (involute F k x) (fun y => andthen (p_sp M x y) (fun s =>
    andthen (p_sp M aux aux) (fun t => andthen (inv_m t) (fun i => p_sp M s i))))).
Definition primal_round_size_sqr (ni r : cliff) : result := in_context F k [r] (body1 (primal_size_sqr_t ni)).
(** dual_round_size_sqr: round_size_sqr.hpp:31-36. *)
Definition dual_round_size_sqr (ni r : cliff) : result :=
  in_context F k [r] (body1 (fun x => andthen (primal_size_sqr_t ni x) (fun s => neg F k s))).
(** dual_tangent_location and primal_tangent_location, which have the same body: tangent_location.hpp:31-43. *)
Definition tangent_location (ni t : cliff) : result :=
  in_context F k [t] (body1 (fun x => andthen (neg F k ni) (fun m => andthen (p_lcont M m x) (fun d => andthen (inv_m d) (fun i => p_gp M x i))))).
(** dual_flat_location and primal_flat_location of the conformal model:
    model/conformal/flat_location.hpp:31-43. *)
Definition dual_flat_location_c (no f : cliff) : result :=
  in_context F k [f] (body1 (fun x => andthen (p_op M no x) (fun o => andthen (inv_m x) (fun i => p_rcont M o i)))).
Definition primal_flat_location_c (no f : cliff) : result :=
  in_context F k [f] (body1 (fun x => andthen (p_lcont M no x) (fun c => andthen (inv_m x) (fun i => p_lcont M c i)))).
(** The same of the Minkowski variant: model/signed/minkowski/flat_location.hpp:31-43. *)
Definition dual_flat_location_m (no f : cliff) : result :=
  in_context F k [f] (body1 (fun x => andthen (p_op M no x) (fun o => andthen (inv_m x) (fun i => p_gp M o i)))).
Definition primal_flat_location_m (no f : cliff) : result :=
  in_context F k [f] (body1 (fun x => andthen (p_lcont M no x) (fun c => andthen (inv_m x) (fun i => p_gp M c i)))).
End Geo.

(** The two spaces that model conformal geometry: conformal_metric_space<D> and minkowski_metric_space<D>. *)
Inductive cmodel := ConformalModel (D : N) | MinkowskiModel (D : N).
(** Their products ([d]: recursion depth of the determinants). *)
Definition model_products (F k d : nat) (m : cmodel) : products :=
  match m with ConformalModel D => general_products F k d (Conformal D) | MinkowskiModel D => signed_products F k (D + 1) 1 0 end.
(** The constants no and ni the functions declare.  model/conformal/*.hpp: no = e(c<D + 1>),
    ni = e(c<D + 2>).  model/signed/minkowski/*.hpp: no = (e(c<D + 2>) - e(c<D + 1>)) / c<2>,
    ni = e(c<D + 1>) + e(c<D + 2>). *)
Definition origin_obj (F k : nat) (m : cmodel) : result :=
  match m with
  | ConformalModel D => Some (Done (basis_obj (D + 1)))
  | MinkowskiModel D => andthen (minus F k (basis_obj (D + 2)) (basis_obj (D + 1))) (fun x => divide_by F k x (c_obj 2))
  end.
Definition infinity_obj (F k : nat) (m : cmodel) : result :=
  match m with
  | ConformalModel D => Some (Done (basis_obj (D + 2)))
  | MinkowskiModel D => plus F k (basis_obj (D + 1)) (basis_obj (D + 2))
  end.

(** The functions with the constants they declare. *)
Section Constants.
Variables (F k d : nat) (m : cmodel).
Let M := model_products F k d m.
(** primal_flat_direction. *)
Definition flat_direction_in (f : cliff) : result := andthen (infinity_obj F k m) (fun ni => primal_flat_direction F k M ni f).
(** primal_round_direction, primal_tangent_direction. *)
Definition direction_in (r : cliff) : result := andthen (infinity_obj F k m) (fun ni => primal_direction F k M ni r).
(** primal_round_location, dual_round_location. *)
Definition round_location_in (r : cliff) : result := andthen (infinity_obj F k m) (fun ni => round_location F k M ni r).
(** primal_round_size_sqr, dual_round_size_sqr. *)
Definition round_size_sqr_in (r : cliff) : result := andthen (infinity_obj F k m) (fun ni => primal_round_size_sqr F k M ni r).
Definition dual_round_size_sqr_in (r : cliff) : result := andthen (infinity_obj F k m) (fun ni => dual_round_size_sqr F k M ni r).
(** primal_tangent_location, dual_tangent_location. *)
Definition tangent_location_in (t : cliff) : result := andthen (infinity_obj F k m) (fun ni => tangent_location F k M ni t).
(** primal_flat_location, dual_flat_location. *)
Definition flat_location_in (f : cliff) : result :=
  andthen (origin_obj F k m) (fun no => match m with ConformalModel _ => primal_flat_location_c F k M no f | MinkowskiModel _ => primal_flat_location_m F k M no f end).
Definition dual_flat_location_in (f : cliff) : result :=
  andthen (origin_obj F k m) (fun no => match m with ConformalModel _ => dual_flat_location_c F k M no f | MinkowskiModel _ => dual_flat_location_m F k M no f end).
End Constants.

(** Parameters of flats of homogeneous_metric_space<D>, whose constant ep is e(c<D + 1>). *)
Section Flats.
Variables (F k : nat) (D : N).
Let M := signed_products F k (D + 1) 0 0.
Definition flat_direction_h (f : cliff) : result := flat_direction M (basis_obj (D + 1)) f.
Definition flat_moment_h (f : cliff) : result := flat_moment F k M (basis_obj (D + 1)) f.
Definition flat_support_vector_h (f : cliff) : result := flat_support_vector F k M (basis_obj (D + 1)) f.
Definition flat_unit_support_point_h (f : cliff) : result := flat_unit_support_point F k M (basis_obj (D + 1)) f.
End Flats.
