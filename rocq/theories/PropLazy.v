(** C21, C22, C23, C39: lazy evaluation and run-time storage. *)
From Coq Require Import NArith ZArith List Bool Reals Lra Lia Sorting.Sorted.
From Verif Require Import Bits SpecBits Expr Sem RPowProofs Wf SpecMv SpecEval SpecOrder Simp Comp Mapping Ops EvalC Lazy SpecLazy TagProofs LazyProofs2 Api.
Import ListNotations.
Local Open Scope R_scope.

(** C21: lazy.eval on an expression [E] with compile-time blades, whose coefficients are built from the
    context's getters and constants.  [m] is the value of [E] at the inputs.  Either a signed integer
    overflow happens, or the result object has the value [m], everything it stores is read in the
    order of its components, and its type is canonical. *)
Theorem C21_lazy_eval : forall F n inputs A o m,
  let base := base_id inputs in let st := stored_inputs inputs in
  let g := ctx_env base st in let i := ctx_int base st in
  st <> [] -> Forall well_stored inputs -> canonical A ->
  Forall (fun p => coefficient_ok (base + 1) (base + N.of_nat (length st)) (snd p) /\ exact_coef i (snd p) = true) A ->
  den g (mv_of A) m -> lazy_eval F n inputs (mv_of A) = Some o ->
  o = Ovf \/ exists r M, o = Done r /\ cexpr r = mv_of M /\ evaluated M /\ forall g', value_in g' r m.
Proof. intros F n inputs A o m base st g i Ne W. exact (lazy_eval_value F n inputs A o m Ne (typed_ctx base st (stored_Forall _ _ W))). Qed.
Print Assumptions C21_lazy_eval.
(** Inputs x e1 + y e2 and z; E = 3 + (x z) e1 + (y + z) e2. *)
Definition ex_v (x y : R) : cliff := {| cexpr := Fn NAdd [Comp SV (CBlade 1); Comp SV (CBlade 2)]; cint := false; cvals := [x; y]; cbits := [] |}.
Definition ex_E : entries := [(0%N, CV 3); (1%N, Fn NMul [GV 1 0; GV 2 0]); (2%N, Fn NAdd [GV 1 1; GV 2 0])].
Lemma float_stored e l : well_stored {| cexpr := e; cint := false; cvals := l; cbits := [] |}.
Proof. split; [discriminate|constructor]. Qed.
Lemma ex_E_canonical : canonical ex_E.
Proof. apply canonical_check. vm_compute. reflexivity. Qed.
Example C21_case : forall x y z,
  let inputs := [ex_v x y; scalar_obj false z] in
  let g := ctx_env (base_id inputs) (stored_inputs inputs) in let i := ctx_int (base_id inputs) (stored_inputs inputs) in
  stored_inputs inputs <> [] /\ Forall well_stored inputs /\ canonical ex_E /\
  Forall (fun p => coefficient_ok 1 2 (snd p) /\ exact_coef i (snd p) = true) ex_E /\
  den g (mv_of ex_E) [(3, 0%N); (x * z, 1%N); (y + z, 2%N)] /\
  lazy_eval 40 40 inputs (mv_of ex_E) =
    Some (Done {| cexpr := Fn NAdd [Comp (CV 3) (CBlade 0); Comp SV (CBlade 1); Comp SV (CBlade 2)]; cint := false; cvals := [x * z; y + z]; cbits := [] |}).
Proof.
  intros x y z inputs g i. split; [discriminate|]. split; [repeat (apply Forall_cons; [apply float_stored|]); constructor|].
  split; [exact ex_E_canonical|]. split.
  { repeat (apply Forall_cons; [split; [split; [reflexivity|]|reflexivity]|]); [right; reflexivity|left; split; reflexivity|left; split; reflexivity|constructor]. }
  split.
  { apply Forall2_cons; [split; [reflexivity|split; [reflexivity|intros _; exact Logic.I]]|].
    apply Forall2_cons; [split; [apply (SimpProofs.num_eq _ _ (x * (z * 1))); [reflexivity|cbn [fst]; ring]|split; [reflexivity|intros _; exact Logic.I]]|].
    apply Forall2_cons; [split; [apply (SimpProofs.num_eq _ _ (y + (z + 0))); [reflexivity|cbn [fst]; ring]|split; [reflexivity|intros _; exact Logic.I]]|].
    constructor. }
  reflexivity.
Qed.

(** C22: every argument of a context has the value of its own input, in an environment that also
    keeps the values [g] of the getters of the enclosing contexts. *)
Theorem C22_arguments : forall l args g k a m, arguments (base_id l) l = Some args -> nth_error l k = Some a ->
  object_ok (cexpr a) = true -> value_in g a m ->
  exists e, nth_error args k = Some e /\ object_ok e = true /\
  exists m', den (nested (base_id l) (stored_inputs l) g) e m' /\ meq m' m.
Proof. exact arguments_value. Qed.
Print Assumptions C22_arguments.
(** Nested: an argument of an outer context (getter of tag 1), a stored vector and a run-time blade. *)
Example C22_case : forall x y,
  let l := [lazy_obj (Comp (GV 1 0) (CBlade 4)); ex_v x y; dyn_basis_obj 5] in
  arguments (base_id l) l = Some [Comp (GV 1 0) (CBlade 4); Fn NAdd [Comp (GV 2 0) (CBlade 1); Comp (GV 2 1) (CBlade 2)]; Comp (CV 1) (DBlade 2 (GBits 3 0))] /\
  (forall a, In a l -> object_ok (cexpr a) = true) /\ (forall g, value_in g (ex_v x y) [(x, 1%N); (y, 2%N)]) /\ (forall g, value_in g (dyn_basis_obj 5) [(1, 16%N)]).
Proof.
  intros x y l. split; [reflexivity|]. split; [intros a [<-|[<-|[<-|[]]]]; reflexivity|]. split.
  - intros g. exists [(x, 1%N); (y, 2%N)]. split; [|intros k; reflexivity].
    exists ([y], []). split; [exists ([y], []); split; [reflexivity|split; [split; reflexivity|intros _; exact Logic.I]]|].
    exists ([], []). split; [exists ([], []); split; [reflexivity|split; [split; reflexivity|intros _; exact Logic.I]]|]. reflexivity.
  - intros g. exists [(1, 16%N)]. split; [|intros k; reflexivity].
    exists ([], []). split; [|reflexivity]. exists ([], [16%N]). split; [reflexivity|]. split; [split; reflexivity|]. intros _. reflexivity.
Qed.

(** C23 is false of the code.  lazy.eval uses only the type of the expression it is given: with
    x = 5 e2 bound to the context, lazy.eval(x + 2 e1), where 2 is a plain run-time value, stores
    5 as the coefficient of e1 and 0 as that of e2; binding 2 e1 in the context as well gives
    2 e1 + 5 e2. *)
Definition ex_x : cliff := {| cexpr := Comp SV (CBlade 2); cint := false; cvals := [5]; cbits := [] |}.
Definition ex_y : cliff := {| cexpr := Comp SV (CBlade 1); cint := false; cvals := [2]; cbits := [] |}.
Definition outside (F n : nat) (x y : cliff) : result := in_context F n [x] (fun l => match l with [a] => plus F n a y | _ => None end).
Definition inside (F n : nat) (x y : cliff) : result := in_context F n [x; y] (fun l => match l with [a; b] => plus F n a b | _ => None end).
Lemma two_values g a b : value_in g {| cexpr := Fn NAdd [Comp SV (CBlade 1); Comp SV (CBlade 2)]; cint := false; cvals := [a; b]; cbits := [] |} [(a, 1%N); (b, 2%N)].
Proof.
  exists [(a, 1%N); (b, 2%N)]. split; [|intros k; reflexivity].
  exists ([b], []). split; [exists ([b], []); split; [reflexivity|split; [split; reflexivity|intros _; exact Logic.I]]|].
  exists ([], []). split; [exists ([], []); split; [reflexivity|split; [split; reflexivity|intros _; exact Logic.I]]|]. reflexivity.
Qed.
Theorem C23_refuted : exists F n x y r s m m', well_stored x /\ well_stored y /\
  outside F n x y = Some (Done r) /\ inside F n x y = Some (Done s) /\
  (forall g, value_in g r m) /\ (forall g, value_in g s m') /\ ~ meq m m'.
Proof.
  exists 20%nat, 20%nat, ex_x, ex_y.
  exists {| cexpr := Fn NAdd [Comp SV (CBlade 1); Comp SV (CBlade 2)]; cint := false; cvals := [5; 0]; cbits := [] |}.
  exists {| cexpr := Fn NAdd [Comp SV (CBlade 1); Comp SV (CBlade 2)]; cint := false; cvals := [2; 5]; cbits := [] |}.
  exists [(5, 1%N); (0, 2%N)], [(2, 1%N); (5, 2%N)].
  split; [apply float_stored|]. split; [apply float_stored|]. split; [reflexivity|]. split; [reflexivity|].
  split; [intros g; apply two_values|]. split; [intros g; apply two_values|].
  intros H. specialize (H 2%N). cbn in H. lra.
Qed.
Print Assumptions C23_refuted.
(** Mixing plain values into lazy arguments can also write past the storage: with [a] an argument of
    an outer context, 2.0 * a + 3.0 * a stores two values in a type with room for one. *)
Theorem C23_storage_refuted : exists F n a u v, stored_inputs [a] = [] /\
  gp_scalar F n (scalar_obj false 2) a = Some (Done u) /\ gp_scalar F n (scalar_obj false 3) a = Some (Done v) /\
  plus F n u v = Some Bad.
Proof.
  exists 20%nat, 20%nat, (lazy_obj (Comp (GV 1 0) (CBlade 0))).
  exists {| cexpr := Comp (Fn NMul [GV 1 0; SV]) (CBlade 0); cint := false; cvals := [2]; cbits := [] |}.
  exists {| cexpr := Comp (Fn NMul [GV 1 0; SV]) (CBlade 0); cint := false; cvals := [3]; cbits := [] |}.
  repeat split; reflexivity.
Qed.
Print Assumptions C23_storage_refuted.
(** And exchange stored values: with [a] = 1, [b] = 2 arguments of an outer context,
    pow(2.0, b) + pow(3.0, a) is 2^1 + 3^2 = 11 instead of 2^2 + 3^1 = 7. *)
Definition outer_env : env := {| ev := fun t k => if N.eqb t 1 then Some 1 else if N.eqb t 2 then Some 2 else None; eb := fun _ _ => None |}.
Theorem C23_order_refuted : exists F n a b u v r, stored_inputs [a; b] = [] /\
  pow F n (scalar_obj false 2) b = Some (Done u) /\ pow F n (scalar_obj false 3) a = Some (Done v) /\
  value_in outer_env u [(4, 0%N)] /\ value_in outer_env v [(3, 0%N)] /\
  plus F n u v = Some (Done r) /\ value_in outer_env r [(11, 0%N)].
Proof.
  exists 20%nat, 20%nat, (lazy_obj (Comp (GV 1 0) (CBlade 0))), (lazy_obj (Comp (GV 2 0) (CBlade 0))).
  exists {| cexpr := Comp (Fn NPow [SV; GV 2 0]) (CBlade 0); cint := false; cvals := [2]; cbits := [] |}.
  exists {| cexpr := Comp (Fn NPow [SV; GV 1 0]) (CBlade 0); cint := false; cvals := [3]; cbits := [] |}.
  exists {| cexpr := Comp (Fn NAdd [Fn NPow [SV; GV 1 0]; Fn NPow [SV; GV 2 0]]) (CBlade 0); cint := false; cvals := [2; 3]; cbits := [] |}.
  split; [reflexivity|]. split; [reflexivity|]. split; [reflexivity|].
  assert (P1 : forall b, rpow b 1 = Some b) by apply rpow_1.
  assert (P2 : forall b, b <> 0 -> rpow b 2 = Some (b * (b * 1))) by (intros b Hb; exact (rpow_int b 2 Hb)).
  split.
  { exists [(4, 0%N)]. split; [|intros k; reflexivity]. exists ([], []). split; [|reflexivity]. exists ([], []). split; [|split; [split; reflexivity|intros _; exact Logic.I]].
    transitivity (option_map VN (rpow 2 2), ([] : list R, [] : list N)); [reflexivity|]. rewrite P2 by lra. cbn [option_map fst]. do 3 f_equal. lra. }
  split.
  { exists [(3, 0%N)]. split; [|intros k; reflexivity]. exists ([], []). split; [|reflexivity]. exists ([], []). split; [|split; [split; reflexivity|intros _; exact Logic.I]].
    transitivity (option_map VN (rpow 3 1), ([] : list R, [] : list N)); [reflexivity|]. rewrite P1. reflexivity. }
  split; [reflexivity|].
  exists [(11, 0%N)]. split; [|intros k; reflexivity]. exists ([], []). split; [|reflexivity]. exists ([], []). split; [|split; [split; reflexivity|intros _; exact Logic.I]].
  transitivity (vsum [option_map VN (rpow 2 1); option_map VN (rpow 3 2)], ([] : list R, [] : list N)); [reflexivity|]. rewrite P1, P2 by lra. cbn [option_map vsum fold_right vadd fst]. do 3 f_equal. lra.
Qed.
Print Assumptions C23_order_refuted.

(** C39 is false of the code: the run-time basis vectors e(1) and e(2) have the same blade type, so
    their sum collects them; both bitsets are written to a storage with room for one. *)
Theorem C39_refuted : exists F n, (forall g, value_in g (dyn_basis_obj 1) [(1, 1%N)]) /\ (forall g, value_in g (dyn_basis_obj 2) [(1, 2%N)]) /\
  plus F n (dyn_basis_obj 1) (dyn_basis_obj 2) = Some Bad.
Proof.
  exists 20%nat, 20%nat.
  assert (V : forall k, grade_declared (DBlade 2 SBits) k -> (k < 2 ^ 64)%N -> forall g, value_in g {| cexpr := Comp (CV 1) (DBlade 2 SBits); cint := true; cvals := []; cbits := [k] |} [(1, k)]).
  { intros k G L g. exists [(1, k)]. split; [|intros j; reflexivity]. exists ([], []). split; [|reflexivity]. exists ([], [k]). split; [reflexivity|]. split; [split; [reflexivity|exact L]|intros _; exact G]. }
  split; [apply V; reflexivity|]. split; [apply V; reflexivity|]. reflexivity.
Qed.
Print Assumptions C39_refuted.
