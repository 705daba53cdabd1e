(** The constants of the algebra definitions: types and values of the objects. *)
From Coq Require Import NArith ZArith List Bool Lia Reals Lra Setoid Morphisms.
From Verif Require Import Bits SpecBits Expr Sem Wf BitsBase SpecMv SpecAlg SpecExtra MvBase Simp SimpProofs Comp Mapping Ops EvalC SpecEval Lazy SpecLazy LazyProofs LazyProofs2 ExprBase Api Extra SpecApi SpecOrder SpecUtil Build BuildProofs GradeProofs OuterProofs MappingProofs GumProofs PresProofs CanonProofs PolyProofs ProductProofs Clifford Clifford2 Clifford4 AlgProofs ApiProofs ApiProofs2 ApiProofs3 ExtraProofs General SpecGeneral Wick Wick2 Spaces SpecSpaces VecProofs GenMul GenApi ModelProofs Geo SpecGeo GaProofs GeoProofs GaRound GeoApi GeoApi2 Algebras AlgebraProofs.
Import ListNotations.
Local Open Scope R_scope.
Local Opaque sign_of indices.

(** The coefficients: sums, products and integer powers of integers, without arguments of contexts. *)
Definition P0 := ipoly is_int 1 0.
Lemma H0 F : closed_class is_int F P0. Proof. exact (ipoly_class is_int F exps_int 1 0). Qed.

Lemma ipoly_no_blade X lo hi : (forall p, X p = true -> no_blade p = true) -> forall e, ipoly X lo hi e = true -> no_blade e = true.
Proof.
  intros HX. induction e as [z|t i| |z|t i| |z|z|pg x IH|c x IHc IHx|f l IH] using expr_ind'; intros H; try discriminate H; try reflexivity.
  rewrite Forall_forall in IH. destruct f; try discriminate H; cbn [no_blade ipoly] in *.
  all: try (apply forallb_forall; intros x I; apply IH; [exact I|]; exact (proj1 (forallb_forall _ _) H x I)).
  destruct l as [|b [|p [|? ?]]]; try discriminate H. apply andb_prop in H as [Hb Hp]. cbn [forallb]. rewrite (IH b (or_introl eq_refl) Hb), (HX p Hp). reflexivity.
Qed.
Lemma int_no_blade p : is_int p = true -> no_blade p = true. Proof. destruct p; intros H; try discriminate H; reflexivity. Qed.
Lemma entry_value g p q s : P0 (snd p) = true -> dcomp g (entry p) q -> scomp g (entry p) s q s.
Proof.
  intros Hp (N1 & B1 & D1). cbn [entry scomp]. exists s. split; [|split; [split; [exact B1|reflexivity]|exact D1]].
  destruct (H0 0) as (_ & _ & _ & _ & HS). destruct (HS _ Hp) as (St & _). rewrite (sread_const g (snd p) St s (ipoly_no_blade _ _ _ int_no_blade _ Hp)). rewrite N1. reflexivity.
Qed.
Lemma T_value n e m : (forall g, typed_value P0 n g e m) -> value (lazy_obj e) m.
Proof.
  intros H g. destruct (H g) as ((M & -> & _ & HM) & _ & (m' & Dm & Em)). exists m'. split; [|exact Em]. cbn [lazy_obj cexpr cvals cbits].
  assert (L : forall M m' s, Forall (fun p => P0 (snd p) = true /\ (fst p < 2 ^ n)%N) M -> Forall2 (dcomp g) (map entry M) m' -> scomps g (map entry M) s m' s).
  { clear. induction M as [|p M IH]; intros m' s HM H; inversion H as [|? q ? m1 Hq H1]; subst; cbn [map scomps]; [reflexivity|]. inversion HM as [|? ? [Hp _] HM']; subst.
    exists s. split; [exact (entry_value g p q s Hp Hq)|exact (IH _ _ HM' H1)]. }
  destruct M as [|p [|p2 M]]; cbn [mv_of] in *.
  - destruct Dm as (q & Hq & ->). exists ([], []). split; [exact (entry_value g (0%N, CV 0) q _ eq_refl Hq)|reflexivity].
  - destruct Dm as (q & Hq & ->). exact (L [p] [q] _ HM (Forall2_cons _ _ Hq (Forall2_nil _))).
  - exact (L (p :: p2 :: M) m' _ HM Dm).
Qed.
Lemma yields_value n r m : (forall g, yields P0 n g r m) -> forall o, r = Some o -> exists a, o = Done a /\ value a m.
Proof.
  intros H o E. destruct (H {| ev := fun _ _ => None; eb := fun _ _ => None |} o E) as (e & -> & _). exists (lazy_obj e). split; [reflexivity|]. apply (T_value n). intros g.
  destruct (H g _ E) as (e' & Ee & T). injection Ee as <-. exact T.
Qed.
Lemma T_blade X F P n g b : (n <= 63)%N -> (b < 2 ^ n)%N -> closed_class X F P -> typed_value P n g (Comp (CV 1) (CBlade b)) [(1, b)].
Proof.
  intros Hn Hb HP. assert (H64 : (b < 2 ^ 64)%N) by (apply (N.lt_le_trans _ _ _ Hb), N.pow_le_mono_r; [discriminate|lia]). pose proof HP as (Pc & _). split; [|split; [|exists [(1, b)]; split; [|intros j; reflexivity]]].
  - apply (good_comp P n (CV 1) b); [apply Pc|apply (N.lt_le_trans _ _ _ Hb), N.pow_le_mono_r; [discriminate|exact Hn]|exact Hb].
  - cbn [mv_ok wf]. apply N.ltb_lt. exact H64.
  - cbn [den]. exists (1, b). split; [|reflexivity]. split; [apply num_cv|]. split; reflexivity.
Qed.

(** Products in a general metric space, on objects without storage. *)
Section General.
Variables (F k d : nat) (n : N) (ent : expr -> expr -> option expr) (A : N -> N -> R) (G : N -> N -> mv).
Lemma general_yields grades valid V part X P g a b ma mb : (n <= 63)%N -> int_entries n ent A -> geometric n A G -> valid_ok valid V -> bool_valid valid -> declares n grades V -> keeps V part ->
  closed_class X F P -> typed_value P n g a ma -> typed_value P n g b mb -> fits a b = true ->
  yields P n g (call F k (op2 (cmul F k (general_multiply F k d n ent grades valid))) [lazy_obj a; lazy_obj b]) (bilinear (part G) ma mb).
Proof.
  intros Hn HE HG HV HB HD HK HC Ta Tb GU o E. set (L := Forall2_cons _ _ Ta (Forall2_cons _ _ Tb (Forall2_nil _))).
  apply (yields_call X P F k _ g HC (guard (op2 (cmul F k (general_multiply F k d n ent grades valid)))) [a; b] [ma; mb] _ (sound_general F k d n ent A G grades valid V part Hn HE HG HV HB HD HK X ma mb) L o). rewrite <- E. unfold call.
  destruct (nested_args X P F n g HC [a; b] [ma; mb] L) as [E1 _]. cbn [map]. rewrite (E1 _ : arguments _ [lazy_obj a; lazy_obj b] = _). unfold guard. rewrite GU. reflexivity.
Qed.
End General.

(** All the dimensions. *)
Lemma every_dimension (Q : N -> Prop) : Forall Q (map N.of_nat (seq 0 62)) -> forall D, (D + 2 <= 63)%N -> Q D.
Proof. intros H D HD. rewrite Forall_forall in H. apply H. apply in_map_iff. exists (N.to_nat D). split; [lia|]. apply in_seq. lia. Qed.
Definition half : expr := Fn NPow [CV 2; CV (-1)].
Definition axis_type (x y : expr) (D : N) : expr := Fn NAdd [Comp x (CBlade (2 ^ D)); Comp y (CBlade (2 ^ (D + 1)))].
Ltac each_dimension := repeat (apply Forall_cons; [cbv beta; match goal with |- _ = ?r => vm_cast_no_check (@eq_refl _ r) end|]); apply Forall_nil.
Section Types.
Variables F k : nat.
Lemma ep_type D : (D + 2 <= 63)%N -> conformal_ep (20 + F) (20 + k) D = Some (Done (lazy_obj (axis_type (CV (-1)) half D))).
Proof. revert D. apply every_dimension. cbn [map seq N.of_nat]. each_dimension. Qed.
Lemma em_type D : (D + 2 <= 63)%N -> conformal_em (20 + F) (20 + k) D = Some (Done (lazy_obj (axis_type (CV 1) half D))).
Proof. revert D. apply every_dimension. cbn [map seq N.of_nat]. each_dimension. Qed.
Lemma no_type D : (D + 2 <= 63)%N -> origin_obj (20 + F) (20 + k) (MinkowskiModel D) = Some (Done (lazy_obj (axis_type (Fn NMul [CV (-1); half]) half D))).
Proof. revert D. apply every_dimension. cbn [map seq N.of_nat]. each_dimension. Qed.
Lemma ni_type D : (D + 2 <= 63)%N -> infinity_obj (20 + F) (20 + k) (MinkowskiModel D) = Some (Done (lazy_obj (axis_type (CV 1) (CV 1) D))).
Proof. revert D. apply every_dimension. cbn [map seq N.of_nat]. each_dimension. Qed.
End Types.
