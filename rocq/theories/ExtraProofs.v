(** Calls of the extra functions on rational objects. *)
From Coq Require Import NArith ZArith List Bool Lia Reals Lra Setoid Morphisms.
From Verif Require Import Bits SpecBits Expr Sem Wf SpecMv SpecAlg SpecOrder MvBase Simp Comp Mapping Ops EvalC SpecEval Lazy SpecLazy Api Extra SpecApi SpecExtra OrderProofs ProductProofs OuterProofs GumProofs PresProofs CanonProofs PolyProofs Clifford4 Clifford5 ApiProofs ApiProofs2 ApiProofs3.
Import ListNotations.
Local Open Scope R_scope.

Lemma object_space K n a m : object K n a -> value a m -> exists m', in_space n m' /\ meq m m'.
Proof.
  intros (M & E & C & _ & H) V. set (g := {| ev := fun _ _ => None; eb := fun _ _ => None |}). destruct (V g) as (m' & S & Q). rewrite E in S.
  exists m'. split; [|symmetry; exact Q]. destruct M as [|p M].
  - cbn in S. destruct m' as [|[v i] [|]]; [destruct S| |destruct S as (? & _ & [])]. destruct S as (s1 & (s2 & _ & (B & _) & _) & _). cbn in B. subst i. constructor; [|constructor]. cbn. apply N.neq_0_lt_0, N.pow_nonzero. discriminate.
  - rewrite components_mv in S. clear E C Q V. revert m' S H. generalize (cvals a, cbits a) as s. generalize (p :: M). clear p M. intros M. induction M as [|p M IH]; intros s m' S H; destruct m' as [|x m']; try (destruct S; fail); [constructor|].
    cbn [map scomps] in S. destruct S as (s1 & (s2 & _ & (B & _) & _) & S). inversion H as [|? ? [L _] H']; subst. constructor; [rewrite B; exact L|]. exact (IH s1 m' S H').
Qed.

Lemma args1 b a args : arguments b [a] = Some args -> exists x, args = [x].
Proof. cbn [arguments]. destruct (has_stored (cexpr a)); [destruct (tag_vars _ _ _ _); [|discriminate]|]; cbn; intros E; injection E as <-; eauto. Qed.
Lemma args2 b a c args : arguments b [a; c] = Some args -> exists x y, args = [x; y].
Proof.
  cbn [arguments]. destruct (has_stored (cexpr a)); [destruct (tag_vars _ (cexpr a) _ _); [|discriminate]|]; (destruct (has_stored (cexpr c)); [destruct (tag_vars _ (cexpr c) _ _); [|discriminate]|]); cbn; intros E; injection E as <-; eauto.
Qed.
Lemma exact_1 f g a : (forall x, g [x] = f x) -> exact (body1 f) [a] -> exact g [a].
Proof. intros H X args r A E. destruct (args1 _ _ _ A) as (x & ->). apply (X [x] r A). cbn [map body1] in *. rewrite <- H. exact E. Qed.
Lemma exact_2 f g a b : (forall x y, g [x; y] = f x y) -> exact (body2 f) [a; b] -> exact g [a; b].
Proof. intros H X args r A E. destruct (args2 _ _ _ _ A) as (x & y & ->). apply (X [x; y] r A). cbn [map body2] in *. rewrite <- H. exact E. Qed.

Lemma rat1 F k f n a ma res o body : (forall x, f x = in_context F k [x] body) ->
  (forall P g x, closed_class is_int F P -> typed_value P n g x ma -> yields P n g (f (lazy_obj x)) res) ->
  rat_object n a -> value a ma -> exact (body1 f) [a] -> f a = Some o ->
  o = Ovf \/ exists r, o = Done r /\ rat_object n r /\ value r res.
Proof.
  intros B Y Oa Va X E. rewrite B in E. refine (rat_fn F k body n [a] [ma] res o _ ltac:(auto) ltac:(auto) _ E).
  - intros P g args HP HA. inversion HA as [|x ? ? ? Tx HA1]; subst. inversion HA1; subst. cbn [map]. rewrite <- B. exact (Y P g x HP Tx).
  - apply (exact_1 f); [intros x; symmetry; apply B|exact X].
Qed.
Lemma rat2 F k f n a b ma mb res o body : (forall x y, f x y = in_context F k [x; y] body) ->
  (forall P g x y, closed_class is_int F P -> typed_value P n g x ma -> typed_value P n g y mb -> yields P n g (f (lazy_obj x) (lazy_obj y)) res) ->
  rat_object n a -> rat_object n b -> value a ma -> value b mb -> exact (body2 f) [a; b] -> f a b = Some o ->
  o = Ovf \/ exists r, o = Done r /\ rat_object n r /\ value r res.
Proof.
  intros B Y Oa Ob Va Vb X E. rewrite B in E. refine (rat_fn F k body n [a; b] [ma; mb] res o _ ltac:(auto) ltac:(auto) _ E).
  - intros P g args HP HA. inversion HA as [|x ? ? ? Tx HA1]; subst. inversion HA1 as [|y ? ? ? Ty HA2]; subst. inversion HA2; subst. cbn [map]. rewrite <- B. exact (Y P g x y HP Tx Ty).
  - apply (exact_2 f); [intros x y; symmetry; apply B|exact X].
Qed.
Lemma ratc2 F k op n a b ma mb res o : sound_op is_int F (op2 op) n [ma; mb] res ->
  rat_object n a -> rat_object n b -> value a ma -> value b mb -> exact (body2 (fun x y => call F k (op2 op) [x; y])) [a; b] -> call F k (op2 op) [a; b] = Some o ->
  o = Ovf \/ exists r, o = Done r /\ rat_object n r /\ value r res.
Proof. intros HS Oa Ob Va Vb X E. refine (rat_call F k (op2 op) n [a; b] [ma; mb] res o HS ltac:(auto) ltac:(auto) _ E). apply (exact_2 (fun x y => call F k (op2 op) [x; y])); [reflexivity|exact X]. Qed.
Lemma ratc1 F k op n a ma res o : sound_op is_int F (op1 op) n [ma] res ->
  rat_object n a -> value a ma -> exact (body1 (fun x => call F k (op1 op) [x])) [a] -> call F k (op1 op) [a] = Some o ->
  o = Ovf \/ exists r, o = Done r /\ rat_object n r /\ value r res.
Proof. intros HS Oa Va X E. refine (rat_call F k (op1 op) n [a] [ma] res o HS ltac:(auto) ltac:(auto) _ E). apply (exact_1 (fun x => call F k (op1 op) [x])); [reflexivity|exact X]. Qed.
Lemma value_meq a m m' : value a m -> meq m m' -> value a m'.
Proof. intros V Q g. destruct (V g) as (m0 & S & Q0). exists m0. split; [exact S|]. rewrite Q0. exact Q. Qed.

(** Every multivector lies in some space, so that the dimension can be left out of the inverse law. *)
Lemma some_space (m : mv) : exists n, in_space n m.
Proof.
  induction m as [|[c b] m (n & IH)]; [exists 0%N; constructor|]. exists (N.max n (N.size b)). constructor.
  - cbn. apply (N.lt_le_trans _ (2 ^ N.size b)); [apply N.size_gt|]. apply N.pow_le_mono_r; [discriminate|lia].
  - eapply Forall_impl; [|exact IH]. intros p H. apply (N.lt_le_trans _ _ _ H). apply N.pow_le_mono_r; [discriminate|lia].
Qed.
Lemma inv_left q v s : s <> 0 -> meq (mgp q v (mrev v)) [(s, 0%N)] -> meq (mgp q (minv q v) v) one.
Proof. intros Hs H. destruct (some_space v) as (n & Hn). exact (inv_l q n v s Hs Hn H). Qed.
Global Instance norm2_meq q : Proper (meq ==> eq) (norm2 q).
Proof. intros a b E. rewrite !norm2_sumf. rewrite (sumf_meq a b _ E). apply sumf_ext. intros i. rewrite (E i). reflexivity. Qed.
Global Instance mlcont_meq q : Proper (meq ==> meq ==> meq) (mlcont q). Proof. intros a a' E b b' E'. apply bilinear_meq; assumption. Qed.
Global Instance mrev_meq : Proper (meq ==> meq) mrev. Proof. intros a b E. apply linear_meq; [reflexivity|exact E]. Qed.
Global Instance minv_meq q : Proper (meq ==> meq) (minv q). Proof. intros a b E. unfold minv. rewrite E at 1. rewrite (mrev_meq a b E). reflexivity. Qed.
(** Statements up to equality of multivectors, for values of objects. *)
Global Instance msp_meq q : Proper (meq ==> meq ==> meq) (msp q). Proof. intros a a' E b b' E'. apply bilinear_meq; assumption. Qed.
Lemma total_ext (f g : N -> R) l : (forall x, f x = g x) -> total (map f l) = total (map g l).
Proof. intros H. rewrite (map_ext f g H). reflexivity. Qed.
Lemma norm_scalar q n m m' : (n <= 63)%N -> in_space n m' -> meq m m' ->
  meq (msp q m (mrev m)) [(total (map (fun b => squares q b * (coef m b * coef m b)) (blades_of n)), 0%N)].
Proof.
  intros Hn I E. rewrite (mrev_meq m m' E), E at 1. assert (Hn' : (n <= 64)%N) by lia. rewrite (sp_scalar q n m' (mrev m') Hn' I (in_rev n m' I)).
  rewrite <- re_sp. change (re (msp q m' (mrev m'))) with (norm2 q m'). rewrite (norm2_sum q n m' I). rewrite (total_ext _ (fun b => squares q b * (coef m b * coef m b))); [reflexivity|]. intros b. rewrite (E b). reflexivity.
Qed.
Lemma euclid_all n m m' : (n <= 63)%N -> in_space n m' -> meq m m' ->
  let s := total (map (fun b => coef m b * coef m b) (blades_of n)) in s = s /\ 0 <= s /\ (s = 0 <-> meq m []).
Proof.
  intros Hn I E s. assert (Hn' : (n <= 64)%N) by lia. assert (Q : s = norm2 (signature n 0) m').
  { rewrite (euclid_norm n 0 m' Hn' I). apply total_ext. intros b. rewrite (E b). reflexivity. }
  split; [reflexivity|]. rewrite Q. split; [apply (euclid_pos n 0 m' Hn' I)|]. rewrite (euclid_zero n 0 m' Hn' I). split; intros Z; [rewrite E|rewrite <- E]; exact Z.
Qed.
Lemma euclid_scalar n m m' : (n <= 63)%N -> in_space n m' -> meq m m' ->
  meq (msp (signature n 0) m (mrev m)) [(total (map (fun b => coef m b * coef m b) (blades_of n)), 0%N)].
Proof.
  intros Hn I E. rewrite (norm_scalar _ n m m' Hn I E). assert (Hn' : (n <= 64)%N) by lia.
  assert (T : total (map (fun b => squares (signature n 0) b * (coef m b * coef m b)) (blades_of n)) = total (map (fun b => coef m b * coef m b) (blades_of n))).
  { transitivity (norm2 (signature n 0) m'); [rewrite (norm2_sum _ n m' I)|rewrite (euclid_norm n 0 m' Hn' I)]; apply total_ext; intros b; rewrite (E b); reflexivity. }
  rewrite T. reflexivity.
Qed.
Lemma nondeg P Q : squares (signature P Q) (2 ^ (P + Q) - 1) <> 0.
Proof.
  apply (squares_nonzero _ (P + Q)); [|apply Clifford3.mask_lt]. intros i Hi. unfold signature. destruct (N.ltb_spec i P); [lra|]. destruct (N.ltb_spec i (P + Q)); [lra|lia].
Qed.
Lemma ps_norm_nz q n c : c <> 0 -> squares q (2 ^ n - 1) <> 0 -> norm2 q [(c, (2 ^ n - 1)%N)] <> 0.
Proof. intros Hc Hq. rewrite (norm2_of q _ _ (ps_norm q n c)). apply Rmult_integral_contrapositive_currified; [apply Rmult_integral_contrapositive_currified|]; assumption. Qed.
Lemma undual_dual' q n c m m' : (n <= 63)%N -> c <> 0 -> squares q (2 ^ n - 1) <> 0 -> in_space n m' -> meq m m' ->
  meq (mlcont q (mlcont q m (minv q [(c, (2 ^ n - 1)%N)])) [(c, (2 ^ n - 1)%N)]) m.
Proof. intros Hn Hc Hq I E. rewrite E. apply undual_dual; auto. lia. Qed.
Lemma dual_undual' q n c m m' : (n <= 63)%N -> c <> 0 -> squares q (2 ^ n - 1) <> 0 -> in_space n m' -> meq m m' ->
  meq (mlcont q (mlcont q m [(c, (2 ^ n - 1)%N)]) (minv q [(c, (2 ^ n - 1)%N)])) m.
Proof. intros Hn Hc Hq I E. rewrite E. apply dual_undual; auto. lia. Qed.
Global Instance minvol_meq : Proper (meq ==> meq) minvol. Proof. intros a b E. apply linear_meq; [reflexivity|exact E]. Qed.
Lemma odd_laws q v w : meq (mgp q v w) one -> meq (mgp q w v) one ->
  let T a := mgp q (mgp q v (minvol a)) w in
  (forall c d a b, meq (T (scale c a ++ scale d b)) (scale c (T a) ++ scale d (T b))) /\
  meq (T one) one /\
  (forall a b, meq (T (mgp q a b)) (mgp q (T a) (T b))) /\
  (forall a b, re (msp q (T a) (T b)) = re (msp q a b)).
Proof.
  intros L1 L2 T. split; [|split; [|split]].
  - intros c d a b. unfold T. assert (X : meq (minvol (scale c a ++ scale d b)) (scale c (minvol a) ++ scale d (minvol b))) by (unfold minvol; rewrite linear_app, !Clifford.linear_scale; reflexivity). rewrite X. exact (sandwich_lin q v w c d (minvol a) (minvol b)).
  - unfold T. rewrite invol_one. exact (sandwich_one q v w L1).
  - intros a b. unfold T. rewrite invol_gp. exact (sandwich_gp q v w (minvol a) (minvol b) L2).
  - intros a b. pose proof (sandwich_sp q v w (minvol a) (minvol b) L2) as S. unfold sandwich in S. unfold T. rewrite S, !re_sp. rewrite <- (re_meq _ _ (invol_gp q a b)). apply invol_re.
Qed.
Definition exactb (f : list cliff -> result) (inputs : list cliff) : bool :=
  match arguments 0 inputs with
  | Some args => match f (map lazy_obj args) with Some (Done r) => forallb (exact_coef (ctx_int 0 (stored_inputs inputs))) (coefficients (cexpr r)) | _ => true end
  | None => true
  end.
Lemma exact_check f inputs : exactb f inputs = true -> exact f inputs.
Proof. unfold exactb. intros H args r A E. rewrite A, E in H. apply Forall_forall. intros c Hc. rewrite forallb_forall in H. exact (H c Hc). Qed.
