(** C30: copies of objects with run-time blades. *)
From Coq Require Import NArith ZArith List Bool Reals Lra.
From Verif Require Import Bits Expr SpecBits Sem Wf SpecMv EvalC SpecEval Lazy SpecLazy Api SpecApi ForEach SpecUtil Copy SpecCopy SpecOrder UtilProofs CopyProofs GumProofs CopyProofs2 PropNorm.
Import ListNotations.
Local Open Scope R_scope.

(** ** C30: copies with run-time blades *)
(** Objects with stored or integer coefficients and blades that are stored or known at compile time, in any
    order.  An unchecked copy that compiles keeps the destination's type and has all the components of the
    source, converted to the destination's coefficient type; the rest of the destination is zero. *)
Theorem C30_runtime_copy : forall a r m o, plain_object a -> plain_object r -> component_values a m -> trivial_copy a r = Some o ->
  exists r' m', o = CopyDone r' /\ cexpr r' = cexpr r /\ cint r' = cint r /\ value r' m' /\
    Forall2 (fun p q => snd p = snd q /\ stored_as (cint r) (fst p) (fst q)) m m'.
Proof.
  intros a r m o Pa Pr V H. destruct (runtime_copy false 0 a r m o Pa Pr V (Rle_refl 0) H) as [(C & _)|(r' & m1 & -> & E1 & E2 & C & V')]; [discriminate C|]. exists r', m1. do 4 (split; [first [reflexivity|assumption]|]).
  induction C as [|v v' k m m1 S C IH|v k m m1 Q]; [constructor| |discriminate Q]. constructor; [auto|]. clear - C. induction C as [|? ? ? ? ? S C IH|? ? ? ? Q]; [constructor| |discriminate Q]. constructor; auto.
Qed.
Print Assumptions C30_runtime_copy.
(** A checked copy that compiles throws only if a coefficient is above the tolerance; otherwise it does the
    same, and may leave out components whose coefficient is not above the tolerance. *)
Theorem C30_runtime_checked : forall a r m tol o, plain_object a -> plain_object r -> component_values a m -> 0 <= tol -> checked_trivial_copy a r tol = Some o ->
  (o = CopyThrows /\ exists p, In p m /\ tol < Rabs (fst p)) \/
  (exists r' m', o = CopyDone r' /\ cexpr r' = cexpr r /\ cint r' = cint r /\ value r' m' /\ carried true (cint r) tol m m').
Proof.
  intros a r m tol o Pa Pr V T H. destruct (runtime_copy true tol a r m o Pa Pr V T H) as [(_ & E & X)|(r' & m1 & E & E1 & E2 & C & V')]; [left; auto|right]. exists r', m1. auto.
Qed.
Print Assumptions C30_runtime_checked.

(** x + y E, with E a vector of the basis, into a type with a scalar, e1 and a vector of the basis, and back. *)
Definition from (x y : R) (b : N) : cliff := {| cexpr := Fn NAdd [Comp SV (CBlade 0); Comp SV (DBlade 2 SBits)]; cint := false; cvals := [x; y]; cbits := [b] |}.
Definition into (v x y : R) (b : N) : cliff := {| cexpr := Fn NAdd [Comp SV (CBlade 0); Comp SV (CBlade 1); Comp SV (DBlade 2 SBits)]; cint := false; cvals := [v; x; y]; cbits := [b] |}.
Example C30_runtime_case : forall x y, plain_object (from x y 4) /\ plain_object (into 7 8 9 2) /\ component_values (from x y 4) [(x, 0%N); (y, 4%N)] /\
  trivial_copy (from x y 4) (into 7 8 9 2) = Some (CopyDone (into x 0 y 4)).
Proof.
  intros x y. split; [split; [reflexivity|discriminate]|]. split; [split; [reflexivity|discriminate]|]. split.
  - intros g. exists ([y], [4%N]). split; [exists ([y], [4%N]); split; [reflexivity|]; split; [split; reflexivity|intros _; exact I]|].
    exists ([], []). split; [|reflexivity]. exists ([], [4%N]). split; [reflexivity|]. split; [split; reflexivity|]. intros _. reflexivity.
  - run. reflexivity.
Qed.
Example C30_runtime_checked_case : checked_trivial_copy (into 1 0 2 4) (from 7 8 2) 0 = Some (CopyDone (from 1 2 4)) /\ checked_trivial_copy (into 1 3 2 4) (from 7 8 2) 0 = Some CopyThrows.
Proof.
  split; run.
  - destruct (Rlt_dec 0 (Rabs 0)) as [Q|Q]; [rewrite Rabs_R0 in Q; lra|reflexivity].
  - destruct (Rlt_dec 0 (Rabs 3)) as [Q|Q]; [reflexivity|]. pose proof (Rabs_right 3). lra.
Qed.

(** ** C30: constant coefficients *)
(** Compile-time blades and coefficients that are stored, integers, or constants of an object whose coefficient
    type is not integral and that are computed without a quotient of two integers (C11): as C30_copy_partial and
    C30_checked_partial, and there is no result only if such a constant leaves the range of 64 bits. *)
Theorem C30_constants : forall K K' n n' (check : bool) a r m tol o, object K n a -> object K' n' r ->
  Forall (fun e => exact_comp (cint a) e = true) (components (cexpr a)) -> Forall (fun e => exact_comp (cint r) e = true) (components (cexpr r)) -> value a m -> 0 <= tol ->
  (if check then checked_trivial_copy a r tol else trivial_copy a r) = Some o ->
  (o = CopyBad /\ exists c b, In (Comp c b) (components (cexpr a)) /\ c <> SV /\ is_integer c = false) \/
  (o = CopyThrows /\ check = true /\ exists k, ~ names_blade (cexpr r) k /\ tol < Rabs (coef m k)) \/
  (exists r' m', o = CopyDone r' /\ cexpr r' = cexpr r /\ cint r' = cint r /\ value r' m' /\
    (forall k, names_blade (cexpr r) k -> stored_as (cint r) (coef m k) (coef m' k)) /\
    (forall k, ~ names_blade (cexpr r) k -> coef m' k = 0 /\ (coef m k = 0 \/ check = true /\ Rabs (coef m k) <= tol))).
Proof.
  intros K K' n n' check a r m tol o Oa Or Xa Xr V T H.
  assert (G : exists tl, copy_into check tl a r = Some o /\ 0 <= tl /\ (check = true -> tl = tol)) by (destruct check; [exists tol; auto|exists 0; repeat split; [exact H|lra|discriminate]]).
  destruct G as (tl & H' & T' & ET). destruct (copy_ok K K' n n' check tl a r m o Oa Or Xa Xr V T' H') as [[E X]|[(E & C & k & Nk & L)|(r' & E & E1 & E2 & m' & V' & S & U)]].
  - left. split; [exact E|]. apply existsb_exists in X. destruct X as (e & I & Q). destruct e as [| | | | | | | | |c b|]; try discriminate Q. exists c, b. split; [exact I|]. cbn [const_comp] in Q. apply negb_true_iff, orb_false_iff in Q. destruct Q as [Q1 Q2]. split; [intros ->; discriminate Q1|exact Q2].
  - right. left. split; [exact E|]. split; [exact C|]. exists k. split; [exact Nk|]. rewrite <- (ET C). exact L.
  - right. right. exists r', m'. do 4 (split; [assumption|]). split; [exact S|]. intros k Nk. destruct (U k Nk) as [A [B|[C B]]]; (split; [exact A|]); [left; exact B|right; split; [exact C|rewrite <- (ET C); exact B]].
Qed.
Print Assumptions C30_constants.
(** exp(1) e1 + x e2 into a type with a scalar, e1 and e2. *)
Definition exp_e1 (x : R) : cliff := {| cexpr := Fn NAdd [Comp (Fn NExp [CV 1]) (CBlade 1); Comp SV (CBlade 2)]; cint := false; cvals := [x]; cbits := [] |}.
Definition target : cliff := {| cexpr := stored_type [0; 1; 2]%N; cint := false; cvals := [7; 8; 9]; cbits := [] |}.
Example C30_constants_case : forall x, object (fun c => negb (is_sv c)) 2 (exp_e1 x) /\ Forall (fun e => exact_comp (cint (exp_e1 x)) e = true) (components (cexpr (exp_e1 x))) /\ value (exp_e1 x) [(exp 1, 1%N); (x, 2%N)] /\
  trivial_copy (exp_e1 x) target = Some (CopyDone {| cexpr := stored_type [0; 1; 2]%N; cint := false; cvals := [0; exp 1; x]; cbits := [] |}).
Proof.
  intros x. split; [|split; [|split]].
  - exists [(1%N, Fn NExp [CV 1]); (2%N, SV)]. split; [reflexivity|]. split; [apply LazyProofs2.canonical_check; vm_compute; reflexivity|]. split; [split; [discriminate|constructor]|].
    constructor; [split; [reflexivity|right; split; reflexivity]|]. constructor; [split; [reflexivity|left; reflexivity]|constructor].
  - repeat constructor.
  - intros g. exists [(exp 1, 1%N); (x, 2%N)]. split; [|intros k; reflexivity]. exists ([x], []). split; [exists ([x], []); split; [reflexivity|]; split; [split; reflexivity|intros _; exact I]|].
    exists ([], []). split; [|reflexivity]. exists ([], []). split; [reflexivity|]. split; [split; reflexivity|intros _; exact I].
  - lazy -[exp IZR]. reflexivity.
Qed.
