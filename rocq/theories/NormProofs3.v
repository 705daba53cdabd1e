(** Functions of scalars, reverse norm, unit multivectors. *)
From Coq Require Import NArith ZArith List Bool Lia Reals Lra.
From Verif Require Import Bits SpecBits BitsBase BitsOnes BitsProofs Expr ExprBase Sem Wf SpecMv SpecAlg MvBase RPowProofs Simp SimpProofs SimpProofs2 SmartProofs PresProofs Comp Mapping Ops CompProofs CompProofs2 SpecOrder OrderProofs GradeProofs MappingProofs GumProofs AlgProofs AlgProofs2 EvalC EvalCProofs SpecEval Lazy SpecLazy TagProofs LazyProofs LazyProofs2 CanonProofs PolyProofs Api Extra SpecApi SpecExtra ApiProofs ApiProofs2 ApiProofs3 ExtraProofs KeepProofs2 KeepProofs3 KeepProofs4 SpecAbs AbsProofs Norm SpecNorm NormProofs NormProofs2.
Import ListNotations.
Local Open Scope R_scope.

Lemma root_half F h : root_exponent F 2 = Some h -> h = half.
Proof. unfold root_exponent. destruct F as [|F]; [discriminate|]. intros H. assert (E : eng (S F) OPow (CV 2) (CV (-1)) = Some half) by reflexivity. rewrite E in H. apply Some_inj in H. auto. Qed.

Section Scalars.
Variables (F n : nat) (dim : N) (hi : N) (g : env).
Notation TQ := (typed_value (qclass hi) dim g).
Notation TP := (typed_value (ipoly is_pos 1 hi) dim g).
Lemma T_scalar c w : qclass hi c = true -> num g c w -> TQ (Comp c (CBlade 0)) [(w, 0%N)].
Proof.
  intros Q V. split; [|split].
  - destruct (expr_eqb c (CV 0)) eqn:Z; [apply expr_eqb_eq in Z as ->; exists []; split; [reflexivity|split; [apply canonical_nil|constructor]]|]. exists [(0%N, c)]. split; [reflexivity|].
    split; [apply canonical_one; [intros ->; discriminate Z|reflexivity]|]. constructor; [|constructor]. split; [exact Q|]. apply N.neq_0_lt_0, N.pow_nonzero. discriminate.
  - apply andb_prop in Q as [_ W]. cbn. rewrite W. reflexivity.
  - exists [(w, 0%N)]. split; [|intros j; reflexivity]. exists (w, 0%N). split; [|reflexivity]. split; [exact V|]. split; [reflexivity|intros _; exact I].
Qed.
Lemma T_comp_inv (P : expr -> bool) c b m : (forall z, P (CV z) = true) -> typed_value P dim g (Comp c b) m -> P c = true /\ wf c = true /\ exists v k, num g c v /\ meq [(v, k)] m /\ (b = CBlade 0 -> k = 0%N) /\ (k < 2 ^ dim)%N.
Proof.
  intros Pc ((M & EM & _ & HM) & W & (m0 & D & Q)). split; [|split].
  - destruct M as [|[i d] [|? ?]]; [injection EM as -> _; apply Pc|injection EM as -> _; inversion HM as [|? ? [H _]]; exact H|discriminate EM].
  - cbn in W. destruct b; try discriminate W; rewrite ?andb_true_iff in W; apply W.
  - cbn [den] in D. destruct D as ([v k] & D & ->). exists v, k. destruct D as (D & B & _). split; [exact D|]. split; [exact Q|]. split; [intros ->; cbn in B; exact B|]. destruct M as [|[i d] [|? ?]]; [injection EM as _ ->; cbn in B; subst k; apply N.neq_0_lt_0, N.pow_nonzero; discriminate|injection EM as _ ->; inversion HM as [|? ? [_ H]]; cbn in B; subst k; exact H|discriminate EM].
Qed.
Lemma T_scalar_inv (P : expr -> bool) c m : (forall z, P (CV z) = true) -> typed_value P dim g (Comp c (CBlade 0)) m -> P c = true /\ wf c = true /\ num g c (coef m 0).
Proof. intros Pc T. destruct (T_comp_inv P c _ m Pc T) as (H1 & H2 & v & k & V & Q & K & _). split; [exact H1|]. split; [exact H2|]. rewrite (K eq_refl) in Q. rewrite <- (Q 0%N). cbn. replace (v + 0) with v by ring. exact V. Qed.
Lemma poly_cv lo z : ipoly is_pos lo hi (CV z) = true. Proof. reflexivity. Qed.
Lemma q_cv z : qclass hi (CV z) = true. Proof. reflexivity. Qed.

(** The square root of a scalar type. *)
Lemma plain_lazy e m : TQ e m -> plain e = lazy_obj e.
Proof. intros T. destruct (T_stored is_int _ F dim g (q_class F hi) e m T) as (_ & Z1 & Z2). unfold plain, lazy_obj. rewrite Z1, Z2. reflexivity. Qed.
Lemma root_type s m o : TQ s m -> root F n 2 (lazy_obj s) = Some o -> exists c r, s = Comp c (CBlade 0) /\ eng F OPow c half = Some r /\ o = Done (plain (Comp r (CBlade 0))) /\ qclass hi r = true.
Proof.
  intros T E. unfold root in E. destruct (root_exponent F 2) as [h|] eqn:Eh; [|discriminate E]. apply root_half in Eh as ->. unfold pow in E. rewrite plain_call in E; [|constructor; [apply (T_stored is_int _ F dim g (q_class F hi) s m T)|constructor; [reflexivity|constructor]]].
  cbn [map lazy_obj cexpr op2] in E. destruct (pow_t F s (Comp half (CBlade 0))) as [t|] eqn:Et; [|discriminate E]. apply Some_inj in E as <-. unfold pow_t in Et. destruct s as [| | | | | | | | |c b|]; try discriminate Et. destruct b as [| | | | | | |[|?]| | |]; try discriminate Et.
  destruct (eng F OPow c half) as [r|] eqn:Er; [|discriminate Et]. apply Some_inj in Et as <-. exists c, r. split; [reflexivity|]. split; [exact Er|]. split; [f_equal; f_equal; destruct r as [[]| | | | | | | | | |]; reflexivity|].
  destruct (T_scalar_inv _ c m q_cv T) as (Q & W & _). unfold qclass in *. apply andb_prop in Q as [Q _]. rewrite (query_eng _ _ _ _ _ _ _ Er Q eq_refl). apply (s_pow _ (eng_ok F) c half r W eq_refl Er).
Qed.
(** Absolute value, and its square root. *)
Lemma abs_type s m o : TP s m -> (forall c, s = Comp c (CBlade 0) -> settled c) -> scalar_fn F n NAbs (lazy_obj s) = Some o ->
  exists c a, s = Comp c (CBlade 0) /\ mk_abs F c = Some a /\ o = Done (lazy_obj (Comp a (CBlade 0))) /\ TQ (Comp a (CBlade 0)) [(Rabs (coef m 0), 0%N)] /\ (atomic a = true \/ sure_nonneg a = true) /\ num g a (Rabs (coef m 0)).
Proof.
  intros T Sc E. unfold scalar_fn in E. rewrite plain_call in E; [|constructor; [apply (T_stored is_pos _ F dim g (ipoly_class is_pos F exps_pos 1 hi) s m T)|constructor]].
  cbn [map lazy_obj cexpr op1] in E. destruct (scalar_fn_t F NAbs s) as [t|] eqn:Et; [|discriminate E]. apply Some_inj in E as <-. unfold scalar_fn_t in Et. destruct s as [| | | | | | | | |c b|]; try discriminate Et. destruct b as [| | | | | | |[|?]| | |]; try discriminate Et.
  cbn [fn1_t] in Et. destruct (mk_abs F c) as [a|] eqn:Ea; [|discriminate Et]. apply Some_inj in Et as <-. exists c, a. split; [reflexivity|]. split; [exact Ea|]. destruct (T_scalar_inv _ c m (poly_cv 1) T) as (P & W & V).
  specialize (Sc c eq_refl). assert (Sc' : is_constant c = false \/ is_integer c = true) by (destruct Sc as [Sc|Sc]; [left; apply getter_open, Sc|right; exact Sc]). clear Sc. rename Sc' into Sc. assert (PC : pcoef hi c). { split; [exact P|]. split; [exact W|]. destruct Sc as [Sc|Sc]; [auto|right]. destruct c; try discriminate Sc. eauto. }
  destruct (abs_num hi (fun _ _ => true) g F c a _ PC Ea V) as [(A1 & A2 & _) Va].
  assert (TA : TQ (Comp a (CBlade 0)) [(Rabs (coef m 0), 0%N)]) by (apply T_scalar; [unfold qclass; rewrite A1, A2; reflexivity|exact Va]).
  split; [f_equal; exact (plain_lazy _ _ TA)|]. split; [exact TA|]. split; [|exact Va]. unfold mk_abs in Ea. destruct (eng F OMul (CV (-1)) c) as [c'|] eqn:Ec; [|discriminate Ea]. apply Some_inj in Ea as <-.
  destruct (is_non_negative c) eqn:Nn; [right; exact (pos_nonneg hi c P Nn)|]. destruct Sc as [Sc|Sc]; [rewrite Sc; left; reflexivity|]. destruct c; try discriminate Sc. rewrite (eng_mul_cv _ _ _ _ Ec). left. destruct (_ && _)%bool; reflexivity.
Qed.
Lemma root_value c r v : qclass hi c = true -> atomic c = true \/ sure_nonneg c = true -> eng F OPow c half = Some r -> num g c v -> 0 <= v ->
  exists u, num g r u /\ u * u = v /\ (atomic c = true -> u = sqrt v).
Proof.
  intros Q D E V L. apply andb_prop in Q as [_ W]. destruct (atomic c) eqn:A.
  - destruct (atomic_root F c r W A E) as [_ R]. exists (sqrt v). split; [apply R; auto|]. split; [apply sqrt_sqrt, L|auto].
  - destruct D as [D|D]; [discriminate D|]. destruct (even_root F c r W D E) as [_ R]. destruct (R g v V) as (u & U1 & U2). exists u. split; [exact U1|]. split; [exact U2|discriminate].
Qed.
Lemma root_ok s m o : TQ s m -> (forall c, s = Comp c (CBlade 0) -> atomic c = true \/ sure_nonneg c = true) -> 0 <= coef m 0 -> root F n 2 (lazy_obj s) = Some o ->
  exists e u, o = Done (lazy_obj e) /\ TQ e [(u, 0%N)] /\ u * u = coef m 0 /\ (forall c, s = Comp c (CBlade 0) -> atomic c = true -> u = sqrt (coef m 0)).
Proof.
  intros T D L E. destruct (root_type s m o T E) as (c & r & -> & Er & -> & Qr). destruct (T_scalar_inv _ c m q_cv T) as (Qc & _ & V). destruct (root_value c r _ Qc (D c eq_refl) Er V L) as (u & U1 & U2 & U3).
  pose proof (T_scalar r u Qr U1) as TR. exists (Comp r (CBlade 0)), u. split; [f_equal; exact (plain_lazy _ _ TR)|]. split; [exact TR|]. split; [exact U2|]. intros c' [= <-] A. auto.
Qed.
End Scalars.
