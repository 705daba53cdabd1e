(** Proofs about the component visitor and the zero test. *)
From Coq Require Import NArith ZArith List Bool Reals Lra Lia Sorting.Sorted.
From Verif Require Import Bits Expr ExprBase Sem Wf SpecBits SpecMv MvBase Simp SimpProofs PresProofs SpecOrder OrderProofs
  EvalC SpecEval EvalCProofs Comp Lazy SpecLazy LazyProofs LazyProofs2 Api SpecApi ApiProofs ForEach SpecUtil.
Import ListNotations.
Local Open Scope R_scope.

(** *** Truncation *)
Lemma floor_bounds x : IZR (Int_part x) <= x < IZR (Int_part x) + 1.
Proof. destruct (base_Int_part x). lra. Qed.
Lemma floor_unique z x : IZR z <= x < IZR z + 1 -> z = Int_part x.
Proof.
  intros H. pose proof (floor_bounds x). assert (A : (z < Int_part x + 1)%Z) by (apply lt_IZR; rewrite plus_IZR; lra).
  assert (B : (Int_part x < z + 1)%Z) by (apply lt_IZR; rewrite plus_IZR; lra). lia.
Qed.
Lemma floor_int z : Int_part (IZR z) = z.
Proof. symmetry. apply floor_unique. lra. Qed.
Lemma truncate_int x : isint x -> truncate x = x.
Proof.
  intros [z ->]. unfold truncate. destruct (Rle_dec 0 (IZR z)); [rewrite floor_int; reflexivity|]. replace (- IZR z) with (IZR (- z)) by apply opp_IZR. rewrite floor_int, opp_IZR. ring.
Qed.
Lemma truncate_isint x : isint (truncate x).
Proof. unfold truncate. destruct (Rle_dec 0 x); [eexists; reflexivity|]. exists (- Int_part (- x))%Z. rewrite opp_IZR. reflexivity. Qed.
Lemma floor_nonneg x : 0 <= x -> 0 <= IZR (Int_part x).
Proof. intros H. apply IZR_le. destruct (floor_bounds x). assert (-1 < Int_part x)%Z; [|lia]. apply lt_IZR. lra. Qed.
Lemma truncate_stored x : stored_as true x (truncate x).
Proof.
  split; [apply truncate_isint|]. unfold truncate. destruct (Rle_dec 0 x) as [H|H].
  - pose proof (floor_bounds x). pose proof (floor_nonneg x H). rewrite !Rabs_pos_eq by lra. split; [lra|]. apply Rmult_le_pos; lra.
  - pose proof (floor_bounds (- x)). pose proof (floor_nonneg (- x) ltac:(lra)). rewrite !Rabs_left1 by lra. split; [lra|].
    replace (x * - IZR (Int_part (- x))) with ((- x) * IZR (Int_part (- x))) by ring. apply Rmult_le_pos; lra.
Qed.
Lemma cast_stored i x : stored_as i x (cast i x).
Proof. destruct i; [apply truncate_stored|reflexivity]. Qed.
Lemma stored_cast i x y : stored_as i x y -> y = cast i x.
Proof.
  destruct i; [|exact (fun H => H)]. cbn [stored_as cast]. intros [J [[A B] C]]. destruct J as [z ->]. unfold truncate. destruct (Rle_dec 0 x) as [H|H].
  - rewrite (Rabs_pos_eq x H) in *. destruct (Rle_dec 0 (IZR z)) as [Hz|Hz].
    + rewrite Rabs_pos_eq in * by lra. f_equal. apply floor_unique. lra.
    + rewrite Rabs_left1 in * by lra. assert (Z : (z <= -1)%Z) by (assert (z < 0)%Z by (apply lt_IZR; lra); lia). apply IZR_le in Z.
      assert (x = 0) by (destruct (Req_dec x 0); [auto|]; exfalso; assert (0 < x) by lra; assert (x * IZR z < 0) by (replace 0 with (x * 0) by ring; apply Rmult_lt_compat_l; lra); lra). lra.
  - rewrite (Rabs_left1 x) in * by lra. destruct (Rle_dec (IZR z) 0) as [Hz|Hz].
    + rewrite Rabs_left1 in * by lra. rewrite <- opp_IZR. f_equal. assert (Int_part (- x) = - z)%Z; [|lia]. symmetry. apply floor_unique. rewrite opp_IZR. lra.
    + rewrite Rabs_pos_eq in * by lra. exfalso. assert (x * IZR z < 0) by (replace 0 with (0 * IZR z) by ring; apply Rmult_lt_compat_r; lra). lra.
Qed.
Lemma cast_int i x : isint x -> cast i x = x.
Proof. destruct i; [apply truncate_int|reflexivity]. Qed.
(** A tolerance converted to an integral type accepts the same integers. *)
Lemma le_truncate v t : isint v -> 0 <= t -> (Rabs v <= truncate t <-> Rabs v <= t).
Proof.
  intros [z ->] T. unfold truncate. destruct (Rle_dec 0 t) as [_|]; [|lra]. rewrite <- abs_IZR. pose proof (floor_bounds t). split; intros H0; [lra|].
  apply IZR_le. assert (Z.abs z < Int_part t + 1)%Z; [|lia]. apply lt_IZR. rewrite plus_IZR. lra.
Qed.

(** *** Constants *)
Lemma sv_dec c : c = SV \/ c <> SV. Proof. destruct c; (left; reflexivity) || (right; discriminate). Qed.
Lemma typed_no_env : typed (fun _ _ => true) no_env.
Proof. split; intros; discriminate. Qed.
Lemma exact_shape int c : exact_const int c = true -> c <> SV -> numeric 1 0 c = true /\ wf c = true.
Proof. destruct c; cbn [exact_const]; intros H N; try (congruence); try (split; reflexivity); try (apply andb_prop in H as [H _]; apply andb_prop in H as [H ?]; apply andb_prop in H as [_ ?]; auto). Qed.
Lemma exact_read g int c s v s1 : exact_const int c = true -> c <> SV -> sread g c s = (Some (VN v), s1) ->
  s1 = s /\ num no_env c v.
Proof.
  intros E N H. destruct (exact_shape _ _ E N) as [C W]. rewrite sread_const in H; [|apply const_shape; exact C|apply const_no_blade; exact C].
  injection H as H <-. split; [reflexivity|]. unfold num. rewrite <- H. symmetry. apply const_sem, C.
Qed.
Lemma exact_eval int c v : exact_const int c = true -> c <> SV -> num no_env c v ->
  (eval_const c = Ovf /\ is_integer c = false) \/ (eval_const c = Done v /\ cast int v = v).
Proof.
  intros E N H. unfold eval_const. destruct c; try congruence; cbn [exact_const] in E.
  1: { right. injection H as <-. split; [reflexivity|]. apply cast_int. eexists; reflexivity. }
  all: apply andb_prop in E as [E ND]; apply andb_prop in E as [E _]; apply andb_prop in E as [E W]; destruct int; [discriminate|];
    destruct (run_correct _ no_env _ _ typed_no_env W ND H) as [->| ->]; [right; split; reflexivity|left; split; reflexivity].
Qed.

(** *** The visitor *)
Lemma exact_stored int e : exact_comp int e = true -> can_be_stored e = true /\ visitable e = true.
Proof.
  intros H. destruct e as [| | | | | | | | |c b|]; try discriminate.
  assert (K : exact_const int c = true -> can_be_stored c = true).
  { intros X. destruct (sv_dec c) as [->|N]; [reflexivity|]. apply const_shape. exact (proj1 (exact_shape _ _ X N)). }
  destruct b as [| | | | | | |b|pg x| |]; try discriminate; cbn [exact_comp] in H.
  - cbn [can_be_stored visitable]. rewrite K; auto.
  - destruct x; try discriminate. cbn [can_be_stored visitable]. rewrite K; auto.
Qed.
Lemma is_sv_inner {S} int (f : visitor S) st c b s : c <> SV ->
  inner_iteration int f st (Comp c (CBlade b)) s = dbind (eval_const c) (fun v => Done (f st b (cast int v) CompileTime CompileTime, s)).
Proof. intros N. destruct c; try reflexivity. congruence. Qed.
Lemma is_sv_inner' {S} int (f : visitor S) st c pg s : c <> SV ->
  inner_iteration int f st (Comp c (DBlade pg SBits)) s = dbind (eval_const c) (fun v => dbind (next_bits s) (fun q =>
    Done (f st (fst q) (cast int v) StoredRuntime CompileTime, snd q))).
Proof. intros N. destruct c; try reflexivity. congruence. Qed.
Lemma src_const c : c <> SV -> match c with SV => StoredRuntime | _ => CompileTime end = CompileTime.
Proof. destruct c; congruence. Qed.
Lemma inner_ok {S} g int (f : visitor S) st e s p s1 : exact_comp int e = true -> scomp g e s p s1 ->
  (inner_iteration int f st e s = Ovf /\ const_comp e = true) \/ inner_iteration int f st e s = Done (visit f st (p, sources e), s1).
Proof.
  intros H D. destruct e as [| | | | | | | | |c b|]; try discriminate. destruct D as (s0 & Rc & Rb & _). destruct p as [v n]. cbn [fst snd] in *.
  destruct b as [| | | | | | |b|pg x| |]; try discriminate; cbn [exact_comp] in H.
  - destruct Rb as [-> ->]. destruct (sv_dec c) as [->|N].
    + right. cbn [sread] in Rc. cbn [inner_iteration]. unfold next_value. destruct (fst s) as [|w vs]; [discriminate|]. injection Rc as -> <-. reflexivity.
    + destruct (exact_read g int c s v s0 H N Rc) as [-> Nu]. rewrite (is_sv_inner _ _ _ _ _ _ N).
      destruct (exact_eval int c v H N Nu) as [[-> K]|[-> Cv]]; [left; split; [reflexivity|]|right].
      * cbn [const_comp]. rewrite K. destruct c; try reflexivity; try congruence.
      * cbn [dbind]. rewrite Cv. unfold visit, sources. cbn [fst snd]. rewrite (src_const c N). reflexivity.
  - destruct x; try discriminate. destruct Rb as [Rb _]. cbn [sread] in Rb. destruct (sv_dec c) as [->|N].
    + right. cbn [sread] in Rc. cbn [inner_iteration]. unfold next_value, next_bits. destruct s as [vs bs]. cbn [fst snd] in *. destruct vs as [|w vs]; [discriminate|]. injection Rc as -> <-. cbn [fst snd] in *.
      destruct bs as [|b bs]; [discriminate|]. injection Rb as -> <-. reflexivity.
    + destruct (exact_read g int c s v s0 H N Rc) as [-> Nu]. rewrite (is_sv_inner' _ _ _ _ _ _ N).
      destruct (exact_eval int c v H N Nu) as [[-> K]|[-> Cv]]; [left; split; [reflexivity|]|right].
      * cbn [const_comp]. rewrite K. destruct c; try reflexivity; try congruence.
      * cbn [dbind]. unfold next_bits. destruct (snd s) as [|b bs]; [discriminate|]. injection Rb as -> <-. cbn [dbind fst snd]. rewrite Cv. unfold visit, sources. cbn [fst snd]. rewrite (src_const c N). reflexivity.
Qed.
Lemma list_ok {S} g int (f : visitor S) : forall l m st s s1, l <> [] -> Forall (fun e => exact_comp int e = true) l -> scomps g l s m s1 ->
  (for_each_list int f st l s = Ovf /\ existsb const_comp l = true) \/ for_each_list int f st l s = Done (fold_stop (visit f) st (combine m (map sources l))).
Proof.
  induction l as [|e l IH]; intros m st s s1 NE HF D; [congruence|]. destruct m as [|p m]; [destruct D|]. destruct D as (s' & De & Dl). inversion HF as [|? ? He HF']; subst.
  pose proof (inner_ok g int f st e s p s' He De) as K. destruct l as [|e' l].
  - destruct m; [|destruct Dl]. cbn [for_each_list existsb orb]. destruct K as [[-> K]| ->]; [left; rewrite K; auto|right]. cbn [dbind map combine fold_stop fst]. destruct (visit f st (p, sources e)) as [st' []]; reflexivity.
  - cbn [for_each_list]. fold (@for_each_list S). destruct K as [[-> K]| ->]; [left; split; [reflexivity|cbn [existsb]; rewrite K; reflexivity]|].
    cbn [map combine fold_stop]. destruct (visit f st (p, sources e)) as [st' []]; [|right; reflexivity].
    destruct (IH m st' s' s1 ltac:(discriminate) HF' Dl) as [[A B]|A]; [left; split; [exact A|cbn [existsb] in *; rewrite B; apply orb_true_r]|right; exact A].
Qed.
Theorem visit_all {S} (f : visitor S) st a m : components (cexpr a) <> [] -> Forall (fun e => exact_comp (cint a) e = true) (components (cexpr a)) -> component_values a m ->
  exists r, for_each_component f st a = Some r /\
  ((r = Ovf /\ existsb const_comp (components (cexpr a)) = true) \/ r = Done (fold_stop (visit f) st (combine m (map sources (components (cexpr a)))))).
Proof.
  intros NE HF V. unfold for_each_component. change (comps_of (cexpr a)) with (components (cexpr a)).
  assert (A : forallb visitable (components (cexpr a)) = true). { apply forallb_forall. intros e He. rewrite Forall_forall in HF. apply (exact_stored (cint a)), HF, He. }
  assert (B : can_be_stored (cexpr a) = true).
  { assert (B : forallb can_be_stored (components (cexpr a)) = true) by (apply forallb_forall; intros e He; rewrite Forall_forall in HF; apply (exact_stored (cint a)), HF, He).
    clear - B. unfold components in B. destruct (cexpr a) as [| | | | | | | | | |[] l]; try (cbn [forallb] in B; rewrite andb_true_r in B; exact B). exact B. }
  rewrite A, B. cbn [andb]. eexists. split; [reflexivity|]. exact (list_ok no_env (cint a) f _ m st _ _ NE HF (V no_env)).
Qed.

(** *** Objects with compile-time blades *)
Lemma exact_any g g' int c s : exact_const int c = true -> sread g c s = sread g' c s.
Proof.
  intros E. destruct (sv_dec c) as [->|N]; [reflexivity|]. destruct (exact_shape _ _ E N) as [C W].
  rewrite !sread_const; try (apply const_shape; exact C); try (apply const_no_blade; exact C). f_equal. apply const_sem, C.
Qed.
Lemma scomp_any g g' int e s p s1 : exact_comp int e = true -> scomp g e s p s1 -> scomp g' e s p s1.
Proof.
  intros H D. destruct e as [| | | | | | | | |c b|]; try discriminate. destruct D as (s0 & Rc & Rb & G). exists s0.
  destruct b as [| | | | | | |b|pg x| |]; try discriminate; cbn [exact_comp] in H.
  - split; [rewrite (exact_any g' g int c s H); exact Rc|]. split; [exact Rb|exact G].
  - destruct x; try discriminate. split; [rewrite (exact_any g' g int c s H); exact Rc|]. split; [exact Rb|exact G].
Qed.
Lemma scomps_any g g' int : forall l s m s1, Forall (fun e => exact_comp int e = true) l -> scomps g l s m s1 -> scomps g' l s m s1.
Proof.
  induction l as [|e l IH]; intros s [|p m] s1 HF D; try exact D. destruct D as (s0 & De & Dl). inversion HF; subst. exists s0. split; [eapply scomp_any; eauto|eauto].
Qed.
Lemma object_parts n K a m : object K n a -> Forall (fun e => exact_comp (cint a) e = true) (components (cexpr a)) -> value a m ->
  exists m', component_values a m' /\ meq m' m /\ NoDup (map snd m').
Proof.
  intros (M & E & C & WS & HM) HF V. destruct (V no_env) as (m' & D & Q). exists m'. split; [intros g; exact (scomps_any no_env g (cint a) _ _ _ _ HF D)|]. split; [exact Q|].
  rewrite E in D. destruct M as [|p0 M0].
  - destruct m' as [|p [|]]; try (destruct D as (? & ? & []); fail); try destruct D. constructor; [intros []|constructor].
  - rewrite components_mv in D. assert (S : map snd m' = map fst (p0 :: M0)).
    { clear - D. revert D. generalize (cvals a, cbits a), (@nil R, @nil N). generalize (p0 :: M0). intros l. revert m'. induction l as [|[k c] l IH]; intros [|p m] s s1 D; try destruct D; [reflexivity|].
      destruct H as [(s0 & _ & Rb & _) Dl]. cbn [entry fst snd sblade] in Rb. destruct Rb as [Rb _]. cbn [map fst]. rewrite Rb. f_equal. eapply IH. exact Dl. }
    rewrite S. destruct C as [C _]. clear - C. induction C as [|k l S IH H]; constructor; [|exact IH]. intros I. rewrite Forall_forall in H. exact (blade_lt_irrefl _ (H _ I)).
Qed.
Lemma value_ints g int : forall l s m s1, int = true -> Forall (fun e => exact_comp int e = true) l -> Forall isint (fst s) -> scomps g l s m s1 -> Forall (fun p => isint (fst p)) m.
Proof.
  induction l as [|e l IH]; intros s [|p m] s1 -> HF HI D; try (destruct D; fail); [constructor|]. destruct D as (s0 & De & Dl). inversion HF as [|? ? He HF']; subst.
  assert (K : isint (fst p) /\ Forall isint (fst s0)); [|destruct K; constructor; [auto|eapply IH; eauto]].
  destruct e as [| | | | | | | | |c b|]; try discriminate. destruct De as (s2 & Rc & Rb & _).
  assert (X : exact_const true c = true) by (destruct b as [| | | | | | |b|pg x| |]; try discriminate He; [exact He|destruct x; try discriminate He; exact He]).
  assert (Y : isint (fst p) /\ Forall isint (fst s2)).
  { destruct c; cbn [exact_const negb andb] in X; try discriminate; cbn [sread] in Rc.
    - injection Rc as <- <-. split; [eexists; reflexivity|exact HI].
    - destruct (fst s) as [|v vs]; [discriminate|]. injection Rc as <- <-. inversion HI; subst. auto. }
  destruct Y as [Y1 Y2]. split; [exact Y1|]. destruct b as [| | | | | | |b|pg x| |]; try discriminate He.
  - destruct Rb as [_ ->]. exact Y2.
  - destruct x; try discriminate He. destruct Rb as [Rb _]. cbn [sread] in Rb. destruct (snd s2); [discriminate|]. injection Rb as _ <-. exact Y2.
Qed.
Lemma coef_in m p : NoDup (map snd m) -> In p m -> coef m (snd p) = fst p.
Proof.
  induction m as [|[v k] m IH]; intros N H; [destruct H|]. inversion N as [|? ? NI N']; subst. cbn [coef fst snd map] in *. destruct H as [<-|H].
  - cbn [fst snd]. rewrite N.eqb_refl. assert (Z : coef m k = 0); [|rewrite Z; ring]. clear - NI. induction m as [|[w j] m IH]; [reflexivity|]. cbn [coef map snd] in *.
    destruct (N.eqb_spec j k) as [->|]; [exfalso; apply NI; left; reflexivity|]. rewrite IH; [ring|]. intros X. apply NI. right. exact X.
  - rewrite IH; auto. destruct (N.eqb_spec k (snd p)) as [->|]; [|ring]. exfalso. apply NI. apply in_map. exact H.
Qed.
Lemma coef_out m k : ~ In k (map snd m) -> coef m k = 0.
Proof. induction m as [|[v j] m IH]; intros H; [reflexivity|]. cbn [coef map snd] in *. destruct (N.eqb_spec j k) as [->|]; [exfalso; apply H; left; reflexivity|]. rewrite IH; [ring|]. intros X. apply H. right. exact X. Qed.
Lemma coefs_bound m t : NoDup (map snd m) -> 0 <= t -> (Forall (fun p => Rabs (fst p) <= t) m <-> forall k, Rabs (coef m k) <= t).
Proof.
  intros N T. split; intros H.
  - intros k. destruct (in_dec N.eq_dec k (map snd m)) as [I|I]; [|rewrite coef_out, Rabs_R0; auto]. apply in_map_iff in I as (p & <- & I). rewrite coef_in; auto. rewrite Forall_forall in H. exact (H _ I).
  - rewrite Forall_forall. intros p I. rewrite <- (coef_in m p N I). apply H.
Qed.
Lemma fold_test (l : list (R * N * (source * source))) t :
  snd (fold_stop (visit (fun (st : unit) _ v _ _ => (st, if Rle_dec (Rabs v) t then true else false))) tt l) = true <-> Forall (fun p => Rabs (fst (fst p)) <= t) l.
Proof.
  induction l as [|[[v k] s] l IH]; [split; [constructor|reflexivity]|]. cbn [fold_stop]. unfold visit at 1. cbn [fst snd]. destruct (Rle_dec (Rabs v) t) as [L|L].
  - rewrite IH. split; [intros H; constructor; auto|intros H; inversion H; auto].
  - split; [discriminate|intros H; inversion H; subst; cbn [fst] in *; contradiction].
Qed.
Lemma Forall_combine {A B} (P : A -> Prop) (l : list A) (r : list B) : length l = length r -> (Forall (fun p => P (fst p)) (combine l r) <-> Forall P l).
Proof.
  revert r. induction l as [|x l IH]; intros [|y r] L; try discriminate; [split; constructor|]. cbn [combine]. injection L as L. split; intros H; inversion H; subst; constructor; auto; apply (IH _ L); auto.
Qed.
Lemma scomps_length g : forall l s m s1, scomps g l s m s1 -> length m = length l.
Proof. induction l as [|e l IH]; intros s [|p m] s1 D; try (destruct D; fail); [reflexivity|]. destruct D as (s0 & _ & D). cbn [length]. f_equal. eapply IH, D. Qed.
Theorem is_zero_ok K n a m tol : object K n a -> Forall (fun e => exact_comp (cint a) e = true) (components (cexpr a)) -> value a m -> 0 <= tol ->
  exists r, is_zero a tol = Some r /\ ((r = Ovf /\ existsb const_comp (components (cexpr a)) = true) \/ exists b, r = Done b /\ (b = true <-> forall k, Rabs (coef m k) <= tol)).
Proof.
  intros O HF V T. destruct (object_parts n K a m O HF V) as (m' & CV & Q & ND).
  assert (NE : components (cexpr a) <> []). { destruct O as (M & -> & _). destruct M as [|p M]; [discriminate|]. rewrite components_mv. discriminate. }
  unfold is_zero. destruct (visit_all (fun (st : unit) _ v _ _ => (st, if Rle_dec (Rabs v) (cast (cint a) tol) then true else false)) tt a m' NE HF CV) as (r & -> & D).
  destruct D as [[-> D]| ->]; eexists; (split; [reflexivity|]); [left; auto|right]. cbn [dbind]. eexists. split; [reflexivity|]. rewrite fold_test.
  rewrite (Forall_combine (fun q : R * N => Rabs (fst q) <= cast (cint a) tol)) by (rewrite map_length; eapply scomps_length; exact (CV no_env)).
  assert (B : Forall (fun p => Rabs (fst p) <= cast (cint a) tol) m' <-> Forall (fun p : R * N => Rabs (fst p) <= tol) m').
  { destruct (cint a) eqn:I; [|reflexivity]. assert (J : Forall (fun p => isint (fst p)) m').
    { destruct O as (M & _ & _ & [WS _] & _). eapply (value_ints no_env true _ (cvals a, cbits a)); [reflexivity|exact HF|exact (WS I)|exact (CV no_env)]. }
    clear - J T. induction J as [|p l Hp J IH]; [split; constructor|]. cbn [cast] in *. split; intros H; inversion H; subst; constructor; try (apply IH; assumption); apply (le_truncate _ _ Hp T); assumption. }
  rewrite B. rewrite (coefs_bound m' tol ND T). split; intros H k; specialize (H k); rewrite (Q k) in *; exact H.
Qed.
Lemma int_exact n a : int_object n a -> Forall (fun e => exact_comp (cint a) e = true /\ const_comp e = false) (components (cexpr a)).
Proof.
  intros (M & -> & _ & _ & HM). destruct M as [|p M]; [constructor; [split; reflexivity|constructor]|]. rewrite components_mv. apply Forall_map. eapply Forall_impl; [|exact HM]. intros [k c] [_ H]. cbn [entry fst snd] in *.
  destruct H as [->|[H _]]; [split; reflexivity|]. destruct c; try discriminate H. split; reflexivity.
Qed.
