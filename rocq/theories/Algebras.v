(** Model of the constants that the algebra definitions declare: ga/model/conformal and ga/model/signed,
    macro_for_algebra_definition.hpp (used by ga1c.hpp to ga5e.hpp).  The constants no and ni of the Minkowski
    algebras are origin_obj and infinity_obj (Geo.v). *)
From Coq Require Import NArith ZArith List Bool.
From Verif Require Import Bits Expr Comp Mapping Lazy Api Extra Build General Spaces.
Import ListNotations.

Section Algebras.
(** [F], [k], [d]: template recursion depths; [D]: dimensions of the base space. *)
Variables (F k d : nat) (D : N).

(** ep = (ni / c<2>) - no: model/conformal/macro_for_algebra_definition.hpp:36; no = e(c<D + 1>) and
    ni = e(c<D + 2>), 33-34. *)
Definition conformal_ep : result := andthen (divide_by F k (basis_obj (D + 2)) (c_obj 2)) (fun h => minus F k h (basis_obj (D + 1))).
(** em = (ni / c<2>) + no: model/conformal/macro_for_algebra_definition.hpp:37. *)
Definition conformal_em : result := andthen (divide_by F k (basis_obj (D + 2)) (c_obj 2)) (fun h => plus F k h (basis_obj (D + 1))).
(** Ie = rcont(I, op(no, ni, SPACE), SPACE), I = pseudoscalar(SPACE):
    model/conformal/macro_for_algebra_definition.hpp:43-44. *)
Definition conformal_Ie : result :=
  andthen (outer F k (D + 2) (basis_obj (D + 1)) (basis_obj (D + 2))) (fun b => rcont_g F k d (D + 2) (gentry F (Conformal D)) (pseudoscalar (D + 2)) b).
(** Ie = rcont(I, op(ep, em, SPACE), SPACE), ep = e(c<D + 1>), em = e(c<D + 2>):
    model/signed/minkowski/macro_for_algebra_definition.hpp:33-44; minkowski_metric_space<D> is
    signed_metric_space<D + 1, 1, 0>. *)
Definition minkowski_Ie : result :=
  andthen (outer F k (D + 2) (basis_obj (D + 1)) (basis_obj (D + 2))) (fun b => rcont F k (D + 1) 1 0 (pseudoscalar (D + 2)) b).
(** Ie = rcont(I, ep, SPACE), ep = e(c<D + 1>): model/signed/homogeneous/macro_for_algebra_definition.hpp:33-40;
    homogeneous_metric_space<D> is signed_metric_space<D + 1, 0, 0>. *)
Definition homogeneous_Ie : result := rcont F k (D + 1) 0 0 (pseudoscalar (D + 1)) (basis_obj (D + 1)).
(** e0 = e(c<D + 1>): model/signed/plane_based/macro_for_algebra_definition.hpp:33; plane_based_metric_space<D> is
    signed_metric_space<D, 0, 1>. *)
Definition plane_based_e0 : cliff := basis_obj (D + 1).
End Algebras.
