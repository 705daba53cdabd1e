(** Correctness of the meet and join of two blades from their delta product. *)
From Coq Require Import NArith ZArith List Bool Lia Reals Lra Morphisms Setoid RelationClasses Classical_Prop.
From Verif Require Import Bits SpecBits BitsBase BitsOnes BitsProofs Visit VisitProofs Expr ExprBase Sem Wf SpecMv SpecAlg MvBase RPowProofs Simp SimpProofs SmartProofs Comp Mapping Ops CompProofs SpecOrder OrderProofs GradeProofs MappingProofs ProductProofs OuterProofs GumProofs AlgProofs AlgProofs2 Clifford Clifford2 Clifford3 Wick2 Clifford5 EvalC SpecEval Lazy SpecLazy LazyProofs LazyProofs2 CanonProofs PolyProofs Api Extra SpecApi SpecExtra ApiProofs ApiProofs2 ApiProofs3 ExtraProofs Grade SpecGrade General GenMul KeepProofs KeepProofs2 KeepProofs3 KeepProofs4 Norm SpecNorm NormProofs4 ForEach SpecUtil UtilProofs Copy CopyProofs Build BuildProofs UnitProofs SimpProofs2 PresProofs CompProofs2 NormProofs2 NormProofs5 SpecGeneral SpecSpaces GenApi SpecGeo GeoApi NormProofs7 PropApi PropGrade PropUtil SpecMeet Meet GaProofs JoinMath MeetMath MeetMath2 MeetMath3 MeetMath4 MeetProofs MeetProofs2 MeetProofs3.
Import ListNotations.
Local Open Scope R_scope.
Local Opaque sign_of indices.

(** ** Calls that return *)
Definition returns {A} (P : A -> Prop) (x : option (out A)) : Prop := forall a, x = Some (Ret a) -> P a.
Lemma returns_bind {A B} (P : A -> Prop) (Q : B -> Prop) x (f : A -> option (out B)) : returns P x -> (forall a, x = Some (Ret a) -> P a -> returns Q (f a)) -> returns Q (obind x f).
Proof. intros HP HQ b E. destruct x as [[a| | |]|]; cbn [obind] in E; try discriminate E. exact (HQ a eq_refl (HP a eq_refl) b E). Qed.
Lemma returns_ret {A} (P : A -> Prop) a : P a -> returns P (Some (Ret a)).
Proof. intros H b E. apply Some_inj, ret_inj in E. subst. exact H. Qed.
Lemma holds_returns {A} (P : A -> Prop) x : holds P x -> returns P x.
Proof. intros H a E. destruct (H _ E) as [Q|(b & Q & Pb)]; [discriminate Q|]. apply ret_inj in Q. subst. exact Pb. Qed.
Lemma returns_any {A} (x : option (out A)) : returns (fun _ => True) x. Proof. intros a _. exact Logic.I. Qed.
Lemma returns_ran {A} (P : A -> Prop) (r : option (done A)) : (forall o, r = Some o -> o = Ovf \/ exists a, o = Done a /\ P a) -> returns P (ran r).
Proof. intros H. apply holds_returns, holds_ran, H. Qed.
(** A loop that may stop early. *)
Lemma loop_stop {A} (f : A -> N -> option (out (A * bool))) (P : list N -> A -> Prop) (Q : A -> Prop) x st : (x < 2 ^ 64)%N -> P [] st ->
  (forall done i rest s, indices x = done ++ i :: rest -> P done s -> returns (fun r : A * bool => if snd r then P (done ++ [i]) (fst r) else Q (fst r)) (f s (N.succ i))) ->
  (forall s, P (indices x) s -> Q s) -> returns Q (loop f st x).
Proof.
  intros Hx H0 HS HQ. unfold loop. rewrite for_each_basis_vector_correct by exact Hx.
  assert (G : forall rest done s, indices x = done ++ rest -> P done s -> returns Q (fst (fold_stop (fun (s : option (out A)) i =>
          match obind s (fun a => f a i) with
          | Some (Ret (a, keep)) => (Some (Ret a), keep)
          | Some Thrown => (Some Thrown, false)
          | Some Overflow => (Some Overflow, false)
          | Some NoValue => (Some NoValue, false)
          | None => (None, false)
          end) (Some (Ret s)) (map N.succ rest)))).
  { induction rest as [|i rest IH]; intros done s E Ps.
    - cbn [map fold_stop fst]. apply returns_ret, HQ. rewrite E, app_nil_r. exact Ps.
    - cbn [map fold_stop obind]. pose proof (HS done i rest s E Ps) as HF. destruct (f s (N.succ i)) as [[[s' keep]| | |]|]; try (intros o Eo; discriminate Eo). specialize (HF _ eq_refl). cbn [fst snd] in HF.
      destruct keep; [apply (IH (done ++ [i]) s'); [rewrite <- app_assoc; exact E|exact HF]|]. cbn [fst]. apply returns_ret, HF. }
  specialize (G (indices x) [] st eq_refl H0). destruct (fold_stop _ _ _) as [s k]. exact G.
Qed.

(** ** Products *)
Lemma rcont_real_const F : const_mult 63 (rcont_real_map F).
Proof. apply orth_const; [discriminate|apply rcont_bv|intros c; exists 1%Z; reflexivity|left; discriminate]. Qed.
Lemma rcont_em_ok F n a b ma mb o : int_object 63 a -> int_object 63 b -> value a ma -> value b mb -> rcont_em F n a b = Some o ->
  o = Ovf \/ exists r, o = Done r /\ int_object 63 r /\ value r (bilinear (rcont_blade e1) ma mb).
Proof.
  intros Oa Ob Va Vb E.
  exact (int_call F n _ 63 [a; b] [ma; mb] _ o (sound_mul is_pos F n 63 _ _ 63 ma mb (rcont_real_map_ok F) (N.le_refl 63) (rcont_real_const F)) ltac:(auto) ltac:(auto) E).
Qed.
Theorem dual_real_ok F n a b ma mb o : int_object 63 a -> int_object 63 b -> value a ma -> value b mb -> norm2 e1 mb <> 0 ->
  computed (body2 (dual F n Real)) [a; b] -> dual F n Real a b = Some o ->
  o = Ovf \/ exists r, o = Done r /\ int_object 63 r /\ value r (mlcont e1 ma (minv e1 mb)).
Proof.
  intros Oa Ob Va Vb Nz HC E. unfold dual in E.
  set (body := body2 (fun x y => andthen (inv F n Real y) (fun i => lcont_in F n Real x i))) in *.
  apply (computed_2 _ (fun l => in_context F n l body) a b ltac:(reflexivity)) in HC.
  refine (computed_context F n 63 body [a; b] [ma; mb] _ o ltac:(auto) ltac:(auto) _ HC E). intros args Ea HA. inversion HA as [|x ? ? ? Tx HA1]; subst. inversion HA1 as [|y ? ? ? Ty HA2]; subst. inversion HA2; subst. clear HA HA1 HA2. cbn [map]. unfold body. cbn [body2].
  set (hi := N.of_nat _) in *. set (g := ctx_env _ _) in *. apply q_weaken in Tx, Ty. pose proof (q_class F hi) as HP.
  apply (yields_then (qclass hi) 63 g _ _ _ _ (y_inv is_int _ F n 63 g Real HP (N.le_refl 63) Logic.I eq_refl y mb Nz Ty)). intros i Ti.
  refine (yields_call is_int _ F n 63 g HP _ [x; i] [ma; minv e1 mb] _ (sound_mul is_int F n 63 _ _ 63 ma _ (lcont_real_map_ok F) (N.le_refl 63) (lcont_real_const F)) (Forall2_cons _ _ Tx (Forall2_cons _ _ Ti (Forall2_nil _)))).
Qed.
Lemma copy_all l vs w m : slots l -> int_object 63 w -> value w m ->
  returns (fun j => exists vs', j = store l vs' /\ length vs' = length l /\ value j m) (copied_to (trivial_copy w (store l vs))).
Proof.
  intros S Ow Vw j E. destruct (trivial_copy w (store l vs)) as [c|] eqn:Ec; [|discriminate E].
  destruct (C30_copy_partial 63 63 w (store l vs) m c Ow (store_object l vs S) Vw Ec) as (r & m' & -> & E1 & E2 & Vr & H1 & H2).
  cbn [copied_to] in E. apply Some_inj, ret_inj in E. subst r. destruct (stored_form l j m' (proj1 S) E1 E2 Vr) as (vs' & -> & L). exists vs'. split; [reflexivity|]. split; [exact L|].
  refine (value_meq _ _ _ Vr _). intros k. cbn [store cexpr cint] in H1, H2. destruct (in_dec N.eq_dec k l) as [I|I].
  - apply (H1 k). apply stored_names; [apply S|exact I].
  - destruct (H2 k) as [-> ->]; [rewrite stored_names by apply S; exact I|reflexivity].
Qed.
Lemma choose {T} (P : N -> T -> Prop) (d : T) : forall l, (forall i, In i l -> exists q, P i q) -> exists f, forall i, In i l -> P i (f i).
Proof.
  induction l as [|i l IH]; intros H; [exists (fun _ => d); intros i []|]. destruct (IH (fun j I => H j (or_intror I))) as [f Hf]. destruct (H i (or_introl eq_refl)) as [q Hq].
  exists (fun j => if N.eq_dec j i then q else f j). intros j Ij. destruct (N.eq_dec j i) as [->|Ne]; [exact Hq|]. destruct Ij as [->|Ij]; [congruence|]. exact (Hf j Ij).
Qed.

(** ** The loop *)
Section MeetJoin.
Variables (F n fuel : nat) (dim : N) (a b il dd idd : cliff) (av bv ms es fs ds : list mv) (A B : mv) (wd : R) (tol : R) (lm lj : list N).
Hypothesis Hdim : (dim <= 63)%N.
Hypothesis Oa : int_object dim a.
Hypothesis Ob : int_object dim b.
Hypothesis Va : value a A.
Hypothesis Vb : value b B.
Hypothesis Ba : blade_of dim av A.
Hypothesis Bb : blade_of dim bv B.
Hypothesis Sa : (length av <= 7)%nat.
Hypothesis Sb : (length bv <= 7)%nat.
Hypothesis Htol : 0 <= tol.
Hypothesis Bm : BuildProofs.blades_of dim 0 (N.min (largest_grade_of (cexpr a)) (largest_grade_of (cexpr b))) lm.
Hypothesis Bj : BuildProofs.blades_of dim (N.max (smallest_grade (cexpr a)) (smallest_grade (cexpr b))) dim lj.
Hypothesis Dec : decomposed dim av bv ms es fs.

(** What the loop returns. *)
Definition is_meet_join (m j : cliff) : Prop :=
  exists M J cs gs, int_object dim m /\ int_object dim j /\ value m M /\ value j J /\ blade_of dim cs M /\ blade_of dim gs J /\
    Forall (in_span av) cs /\ Forall (in_span bv) cs /\ Forall (in_span gs) (av ++ bv) /\
    (tol = 0 -> (forall x, in_span av x -> in_span bv x -> in_span cs x) /\ Forall (in_span (av ++ bv)) gs).
Definition is_degenerate (m j : cliff) : Prop := (int_object dim m /\ value m []) \/ (int_object dim j /\ value j []).
Definition outcome (m j : cliff) : Prop := is_degenerate m j \/ is_meet_join m j.

Lemma av_grade k : coef A k <> 0 -> (k < 2 ^ dim)%N /\ grade_of k = N.of_nat (length av).
Proof. intros C. destruct (blade_homog dim Hdim av A k Ba C) as [L G]. split; [exact L|]. rewrite G. reflexivity. Qed.
Lemma bv_grade k : coef B k <> 0 -> (k < 2 ^ dim)%N /\ grade_of k = N.of_nat (length bv).
Proof. intros C. destruct (blade_homog dim Hdim bv B k Bb C) as [L G]. split; [exact L|]. rewrite G. reflexivity. Qed.
Lemma bounds : (N.of_nat (length ms) <= N.min (largest_grade_of (cexpr a)) (largest_grade_of (cexpr b)))%N /\ (N.max (smallest_grade (cexpr a)) (smallest_grade (cexpr b)) <= N.of_nat (Nat.max (length av) (length bv)))%N /\
  (N.of_nat (Nat.max (length av) (length bv)) <= dim)%N.
Proof.
  destruct (blade_coef dim Hdim av A Ba) as (k & Ck). destruct (blade_coef dim Hdim bv B Bb) as (k' & Ck'). destruct (av_grade k Ck) as [L G]. destruct (bv_grade k' Ck') as [L' G'].
  pose proof (grade_le k dim ltac:(lia) L). pose proof (grade_le k' dim ltac:(lia) L').
  destruct (object_grades dim a A k Oa Va Ck) as [S1 S2]. destruct (object_grades dim b B k' Ob Vb Ck') as [S3 S4]. pose proof (d_la _ _ _ _ _ _ Dec). pose proof (d_lb _ _ _ _ _ _ Dec). lia.
Qed.
Lemma m_slots : slots lm.
Proof. apply (slots_of dim _ _ lm Hdim Bm). destruct Bm as [_ H]. intros Z. assert (I : In 0%N lm) by (apply H; split; [apply N.neq_0_lt_0, N.pow_nonzero; discriminate|]; change (grade_of 0) with 0%N; split; apply N.le_0_l). rewrite Z in I. exact I. Qed.
Lemma in_lj k : (k < 2 ^ dim)%N -> (N.max (smallest_grade (cexpr a)) (smallest_grade (cexpr b)) <= grade_of k)%N -> In k lj.
Proof. intros L G. destruct Bj as [_ H]. apply H. split; [exact L|]. pose proof (grade_le k dim ltac:(lia) L). lia. Qed.
Lemma whole_blade : (2 ^ dim - 1 < 2 ^ dim)%N /\ grade_of (2 ^ dim - 1) = dim.
Proof. split; [pose proof (N.pow_nonzero 2 dim ltac:(discriminate)); lia|]. pose proof (every_length dim Hdim) as H. unfold everything in H. rewrite map_length in H. exact H. Qed.
Lemma j_slots : slots lj.
Proof. apply (slots_of dim _ _ lj Hdim Bj). destruct whole_blade as [L G]. intros Z. assert (I : In (2 ^ dim - 1)%N lj) by (apply in_lj; [exact L|]; rewrite G; destruct bounds as (_ & ? & ?); lia). rewrite Z in I. exact I. Qed.
Lemma store_dim l lo hi vs : BuildProofs.blades_of dim lo hi l -> slots l -> int_object dim (store l vs).
Proof. intros [_ H] (Ne & C & _). apply stored_object; [exact C| |discriminate]. apply Forall_forall. intros k I. apply H in I. apply I. Qed.

Lemma part_vec m x : GaProofs.vec dim x -> meq m x -> meq (grade_part 1 m) x.
Proof.
  intros Vx Q k. rewrite Clifford5.coef_grade_part, (Q k). destruct (N.eqb_spec (grade_of k) 1) as [G|G]; [reflexivity|]. destruct (Req_EM_T (coef x k) 0) as [->|C]; [reflexivity|].
  exfalso. apply G. exact (coef_homog 1 x k (vec_homog dim (n64 dim Hdim) x Vx) C).
Qed.
(** The coefficients of what is left of the whole space have a place in the join. *)
Lemma rest_slots rs k : Forall (GaProofs.vec dim) rs -> Forall (MeetMath.perp av) rs -> Forall (MeetMath.perp bv) rs -> coef (lcs rs (whole dim)) k <> 0 -> In k lj.
Proof.
  intros Vr Pa Pb C. destruct (blade_inv dim Hdim av A Ba) as (VA & wa & Wa & QA & NA). destruct (blade_inv dim Hdim bv B Bb) as (VB & wb & Wb & QB & NB).
  assert (NJ : ~ meq (lcs rs (whole dim)) []) by (intros Z; apply C; exact (Z k)). destruct (join_covers dim Hdim av bv rs _ VA VB Vr Pa Pb NJ (reflexivity _)) as (cs & BJ & SJ).
  destruct (blade_homog dim Hdim cs _ k BJ C) as [L G]. apply Forall_app in SJ. destruct SJ as [SA SB]. pose proof (proj1 (blade_inv dim Hdim cs _ BJ)) as VC. pose proof (dimension dim Hdim av cs VA NA VC SA). pose proof (dimension dim Hdim bv cs VB NB VC SB).
  apply in_lj; [exact L|]. rewrite G. destruct bounds as (_ & ? & _). lia.
Qed.
(** Those of the outer product of common vectors have one in the meet. *)
Lemma meet_slots ps k : Forall (GaProofs.vec dim) ps -> Forall (in_span ms) ps -> coef (wedge ps) k <> 0 -> In k lm.
Proof.
  intros Vp Sp C. assert (NP : ~ meq (wedge ps) []) by (intros Z; apply C; exact (Z k)). assert (BP : blade_of dim ps (wedge ps)) by (apply (mk_blade dim Hdim ps 1); [exact Vp|lra|intros j; rewrite cs_; ring|exact NP]).
  destruct (blade_homog dim Hdim ps _ k BP C) as [L G]. pose proof (dimension dim Hdim ps ms Vp NP (d_ms _ _ _ _ _ _ Dec) Sp). destruct Bm as [_ H0]. apply H0. split; [exact L|]. rewrite G. destruct bounds as (? & _ & _). lia.
Qed.
Lemma zero_dec (m : mv) : meq m [] \/ ~ meq m []. Proof. apply Classical_Prop.classic. Qed.

Hypothesis Vds : Forall (GaProofs.vec dim) ds.
Hypothesis Nds : ~ meq (wedge ds) [].
Hypothesis Wd : wd <> 0.
Hypothesis Sds : forall x, GaProofs.vec dim x -> (in_span ds x <-> MeetMath.perp (es ++ fs) x).
Hypothesis Odd : int_object 63 dd.
Hypothesis Vdd : value dd (scale wd (wedge ds)).
Hypothesis Oidd : int_object 63 idd.
Hypothesis Vidd : value idd (minv e1 (scale wd (wedge ds))).
Hypothesis Oil : int_object 63 il.
Hypothesis Vil : value il (minv e1 A).
Hypothesis Hinv : forall l vs, l = lm \/ l = lj -> length vs = length l -> computed (body1 (inv F n Real)) [store l vs].

Definition good (ps rs : list mv) (st : cliff * Z * cliff * Z) : Prop :=
  let '(meet, gm, join, gj) := st in exists vs ws, meet = store lm vs /\ length vs = length lm /\ join = store lj ws /\ length ws = length lj /\
  value meet (wedge ps) /\ value join (lcs rs (whole dim)) /\ gm = Z.of_nat (length ps) /\ gj = (Z.of_N dim - Z.of_nat (length rs))%Z /\
  Forall (GaProofs.vec dim) ps /\ Forall (in_span ms) ps /\ (length ps < length ms)%nat /\
  Forall (GaProofs.vec dim) rs /\ Forall (MeetMath.perp av) rs /\ Forall (MeetMath.perp bv) rs.
Definition seen (ps : list mv) (i : N) : Prop := exists q p, projected dim ds (basis i) q /\ projected dim av q p /\ (tol = 0 -> in_span ps p).
Definition running (done : list N) (st : cliff * Z * cliff * Z) : Prop := exists ps rs, good ps rs st /\ Forall (seen ps) done.
Definition gmeet := Z.of_nat (length ms).
Definition gjoin := Z.of_nat (length (ms ++ es ++ fs)).
Definition args := {| m_lhs := a; m_inv_lhs := il; m_rhs := b; m_dual := dd; m_inv_dual := idd |}.
Definition ended (st : cliff * Z * cliff * Z) : Prop := let '(m, _, j, _) := st in outcome m j.

Lemma seen_more ps p l : Forall (seen ps) l -> Forall (seen (ps ++ [p])) l.
Proof. apply Forall_impl. intros i (q & p' & H1 & H2 & H3). exists q, p'. split; [exact H1|]. split; [exact H2|]. intros T. apply span_app_l, H3, T. Qed.

(** The meet is complete: the join from it. *)
Lemma end_meet ps vs ws : Forall (GaProofs.vec dim) ps -> Forall (in_span ms) ps -> length ps = length ms -> value (store lm vs) (wedge ps) -> length vs = length lm -> length ws = length lj -> forall gm : Z,
  returns (fun s => let '(meet, g, join, keep) := s in keep = false /\ outcome meet join)
    (i <~ ran (inv F n Real (store lm vs)) ;; c <~ ran (rcont_em F n a i) ;; o <~ ran (op_em F n c b) ;;
     j <~ copied_to (trivial_copy o (store lj ws)) ;; Some (Ret (store lm vs, gm, j, false))).
Proof.
  intros Vp Sp L VM Lv Lw gm. pose proof (store_dim lm _ _ vs Bm m_slots) as OM. destruct (zero_dec (wedge ps)) as [Z|NZ].
  - apply (returns_bind _ _ _ _ (returns_any _)). intros i _ _. apply (returns_bind _ _ _ _ (returns_any _)). intros c _ _. apply (returns_bind _ _ _ _ (returns_any _)). intros o _ _. apply (returns_bind _ _ _ _ (returns_any _)). intros j _ _.
    apply returns_ret. split; [reflexivity|]. left. left. split; [exact OM|]. exact (value_meq _ _ _ VM Z).
  - destruct (join_from_meet dim Hdim av bv ms es fs ps A B (wedge ps) Ba Bb Dec Vp Sp NZ L (reflexivity _)) as (N0 & js & BJ & SJ).
    apply (returns_bind (fun i => int_object 63 i /\ value i (minv e1 (wedge ps)))).
    { apply returns_ran. intros o Eo. apply (inv_ok F n (store lm vs) (wedge ps) o); [exact (store_object lm vs m_slots)|exact VM|exact N0|apply Hinv; [left; reflexivity|exact Lv]|exact Eo]. }
    intros i _ [Oi Vi]. apply (returns_bind (fun c => int_object 63 c /\ value c (bilinear (rcont_blade e1) A (minv e1 (wedge ps))))).
    { apply returns_ran. intros o Eo. exact (rcont_em_ok F n a i _ _ o (object_mono _ dim 63 a Hdim Oa) Oi Va Vi Eo). }
    intros c _ [Oc Vc]. apply (returns_bind (fun o => int_object 63 o /\ value o (mop (bilinear (rcont_blade e1) A (minv e1 (wedge ps))) B))).
    { apply returns_ran. intros o Eo. exact (C24_outer 63 F n c b _ _ o ltac:(discriminate) Oc (object_mono _ dim 63 b Hdim Ob) Vc Vb Eo). }
    intros o _ [Oo Vo]. apply (returns_bind _ _ _ _ (copy_all lj ws o _ j_slots Oo Vo)). intros j _ (ws' & -> & Lw' & Vj).
    apply returns_ret. split; [reflexivity|]. right. exists (wedge ps), (mop (bilinear (rcont_blade e1) A (minv e1 (wedge ps))) B), ps, js.
    split; [exact OM|]. split; [exact (store_dim lj _ _ ws' Bj j_slots)|]. split; [exact VM|]. split; [exact Vj|].
    split; [apply (mk_blade dim Hdim ps 1); [exact Vp|lra|intros k; rewrite cs_; ring|exact NZ]|]. split; [exact BJ|].
    split; [eapply Forall_impl; [|exact Sp]; intros x Hx; apply (d_sm _ _ _ _ _ _ Dec), Hx|]. split; [eapply Forall_impl; [|exact Sp]; intros x Hx; apply (d_sm _ _ _ _ _ _ Dec), Hx|].
    split; [apply Forall_forall; intros x Hx; apply SJ, span_in, Hx|]. intros _. split; [|apply Forall_forall; intros x Hx; apply SJ, span_in, Hx].
    intros x X1 X2. apply (ps_space dim Hdim av bv ms es fs Dec ps Vp Sp NZ L), (d_sm _ _ _ _ _ _ Dec). auto.
Qed.
(** The join is complete: the meet from it. *)
Lemma end_join rs vs ws gm gj : Forall (GaProofs.vec dim) rs -> Forall (MeetMath.perp av) rs -> Forall (MeetMath.perp bv) rs -> N.of_nat (length rs + length (ms ++ es ++ fs)) = dim -> value (store lj ws) (lcs rs (whole dim)) -> length vs = length lm -> length ws = length lj ->
  returns (fun s : cliff * Z * cliff * Z * bool => snd s = false /\ ended (fst s))
    (i <~ ran (inv F n Real (store lj ws)) ;; c <~ ran (lcont_in F n Real b i) ;; o <~ ran (lcont_in F n Real c a) ;;
     m <~ copied_to (trivial_copy o (store lm vs)) ;; Some (Ret (m, gm, store lj ws, gj, false))).
Proof.
  intros Vr Pa Pb L VJ Lv Lw. pose proof (store_dim lj _ _ ws Bj j_slots) as OJ. destruct (zero_dec (lcs rs (whole dim))) as [Z|NZ].
  - apply (returns_bind _ _ _ _ (returns_any _)). intros i _ _. apply (returns_bind _ _ _ _ (returns_any _)). intros c _ _. apply (returns_bind _ _ _ _ (returns_any _)). intros o _ _. apply (returns_bind _ _ _ _ (returns_any _)). intros j _ _.
    apply returns_ret. split; [reflexivity|]. left. right. split; [exact OJ|]. exact (value_meq _ _ _ VJ Z).
  - destruct (meet_from_join dim Hdim av bv ms es fs rs A B _ Ba Bb Dec Vr Pa Pb NZ L (reflexivity _)) as (N0 & (gs & BJ & SJ) & cs & BM & SM).
    apply (returns_bind (fun i => int_object 63 i /\ value i (minv e1 (lcs rs (whole dim))))).
    { apply returns_ran. intros o Eo. apply (inv_ok F n (store lj ws) _ o); [exact (store_object lj ws j_slots)|exact VJ|exact N0|apply Hinv; [right; reflexivity|exact Lw]|exact Eo]. }
    intros i _ [Oi Vi]. apply (returns_bind (fun c => int_object 63 c /\ value c (mlcont e1 B (minv e1 (lcs rs (whole dim)))))).
    { apply returns_ran. intros o Eo. exact (lcont_real_ok F n b i _ _ o (object_mono _ dim 63 b Hdim Ob) Oi Vb Vi Eo). }
    intros c _ [Oc Vc]. apply (returns_bind (fun o => int_object 63 o /\ value o (mlcont e1 (mlcont e1 B (minv e1 (lcs rs (whole dim)))) A))).
    { apply returns_ran. intros o Eo. exact (lcont_real_ok F n c a _ _ o Oc (object_mono _ dim 63 a Hdim Oa) Vc Va Eo). }
    intros o _ [Oo Vo]. apply (returns_bind _ _ _ _ (copy_all lm vs o _ m_slots Oo Vo)). intros m _ (vs' & -> & Lv' & Vm).
    apply returns_ret. split; [reflexivity|]. right. exists (mlcont e1 (mlcont e1 B (minv e1 (lcs rs (whole dim)))) A), (lcs rs (whole dim)), cs, gs.
    split; [exact (store_dim lm _ _ vs' Bm m_slots)|]. split; [exact OJ|]. split; [exact Vm|]. split; [exact VJ|]. split; [exact BM|]. split; [exact BJ|].
    split; [apply Forall_forall; intros x Hx; apply SM, span_in, Hx|]. split; [apply Forall_forall; intros x Hx; apply SM, span_in, Hx|].
    split; [apply Forall_forall; intros x Hx; apply SJ, span_in, Hx|]. intros _. split; [intros x X1 X2; apply SM; auto|apply Forall_forall; intros x Hx; apply SJ, span_in, Hx].
Qed.

Lemma meet_step_ok E done i rest st : (E < 2 ^ dim)%N -> indices E = done ++ i :: rest -> running done st ->
  returns (fun r : cliff * Z * cliff * Z * bool => if snd r then running (done ++ [i]) (fst r) else ended (fst r)) (meet_step F n fuel dim args gmeet gjoin tol st (N.succ i)).
Proof.
  intros HE Ei (ps & rs & G & SN). destruct st as [[[meet gm] join] gj]. destruct G as (vs & ws & -> & Lv & -> & Lw & VM & VJ & -> & -> & Vp & Sp & Lp & Vr & Pa & Pb).
  assert (Li : (i < dim)%N) by (apply (indices_lt dim E i HE); rewrite Ei; apply in_or_app; right; left; reflexivity).
  destruct (blade_inv dim Hdim av A Ba) as (VA & wa & Wa & QA & NA).
  unfold meet_step. apply (returns_bind (fun f => int_object 63 f /\ value f (basis i))).
  { intros f Ef. apply (basis_ok F n fuel dim i f); [lia|exact Hdim|exact Li|exact Ef]. }
  intros f _ [Of Vf]. destruct (projected_value dim Hdim ds wd (basis i) Vds Nds Wd (basis_vec dim i Li)) as (q & Pq & Qq). pose proof Pq as (Vq & Sq & _).
  apply (returns_bind (fun d => int_object 63 d /\ value d q)).
  { apply returns_ran. intros o Eo. destruct (project_ok F n f dd idd _ _ _ o Of Odd Oidd Vf Vdd Vidd Eo) as [->|(d & -> & Od & Vd)]; [left; reflexivity|right]. exists d. split; [reflexivity|]. split; [exact Od|]. exact (value_meq _ _ _ Vd (part_vec _ _ Vq Qq)). }
  intros d _ [Od Vd]. destruct (projected_value dim Hdim av wa q VA NA Wa Vq) as (p & Pp & Qp). pose proof Pp as (Vpp & Spp & _).
  apply (returns_bind (fun y => int_object 63 y /\ value y p)).
  { apply returns_ran. intros o Eo. destruct (project_ok F n d a il _ _ _ o Od (object_mono _ dim 63 a Hdim Oa) Oil Vd Va Vil Eo) as [->|(y & -> & Oy & Vy)]; [left; reflexivity|right]. exists y. split; [reflexivity|]. split; [exact Oy|].
    refine (value_meq _ _ _ Vy (part_vec _ _ Vpp _)). refine (transitivity (lc_c _ _ _ _ (lc_c _ _ _ _ (reflexivity q) (minv_meq e1 _ _ QA)) QA) Qp). }
  intros y _ [Oy Vy]. assert (Pe : MeetMath.perp (es ++ fs) q) by (apply Sds; assumption).
  assert (Pe1 : MeetMath.perp es q /\ MeetMath.perp fs q) by (unfold MeetMath.perp in *; rewrite Forall_app in Pe; exact Pe). destruct Pe1 as [Pe1 Pf1].
  destruct (outside dim Hdim av bv ms es fs Dec q p Vq Pe1 Pf1 Pp) as (Sm & Ra & Rb).
  destruct (C35_is_zero_partial 63 y _ tol Oy Vy Htol) as (z & -> & Hz). cbn [ran obind].
  apply (returns_bind (fun s : cliff * Z * cliff * bool => let '(m, g, j, keep) := s in if keep then exists ps', good ps' rs (m, g, j, (Z.of_N dim - Z.of_nat (length rs))%Z) /\ Forall (seen ps') (done ++ [i]) else outcome m j)).
  { destruct z.
    - apply returns_ret. exists ps. split; [exists vs, ws; auto 20|]. apply Forall_app. split; [exact SN|]. constructor; [|constructor]. exists q, p. split; [exact Pq|]. split; [exact Pp|]. intros T0. apply span_zero. intros k. cbn [coef].
      pose proof (proj1 Hz eq_refl k) as Hk. rewrite T0 in Hk. pose proof (Rabs_pos (coef p k)). destruct (Req_EM_T (coef p k) 0) as [Q|Q]; [exact Q|]. pose proof (Rabs_pos_lt _ Q). lra.
    - assert (Vp' : Forall (GaProofs.vec dim) (ps ++ [p])) by (apply Forall_app; split; [exact Vp|constructor; [exact Vpp|constructor]]). assert (Sp' : Forall (in_span ms) (ps ++ [p])) by (apply Forall_app; split; [exact Sp|constructor; [exact Sm|constructor]]).
      assert (Lp' : length (ps ++ [p]) = S (length ps)) by (rewrite app_length; cbn [length]; lia).
      apply (returns_bind (fun w => int_object 63 w /\ value w (wedge (ps ++ [p])))).
      { apply returns_ran. intros o Eo. destruct (C24_outer 63 F n (store lm vs) y _ _ o ltac:(discriminate) (store_object lm vs m_slots) Oy VM Vy Eo) as [->|(w & -> & Ow & Vw)]; [left; reflexivity|right]. exists w. split; [reflexivity|]. split; [exact Ow|]. refine (value_meq _ _ _ Vw _). symmetry. apply wedge_snoc. }
      intros w _ [Ow Vw]. apply (returns_bind _ _ _ _ (holds_returns _ _ (copy_join lm vs w _ tol m_slots Ow Vw Htol (fun k => meet_slots _ k Vp' Sp')))). intros m _ (vs' & -> & Lv' & Vm).
      destruct (Z.eqb_spec (Z.of_nat (length ps) + 1) gmeet) as [Eg|Ng]; unfold gmeet in *.
      + intros r Er. pose proof (end_meet (ps ++ [p]) vs' ws Vp' Sp' ltac:(lia) Vm Lv' Lw _ r Er) as X. destruct r as [[[m g] j] keep]. destruct X as [-> X]. exact X.
      + apply returns_ret. exists (ps ++ [p]). split.
        * exists vs', ws. repeat (split; [first [reflexivity|assumption|lia]|]). exact Pb.
        * apply Forall_app. split; [apply seen_more, SN|]. constructor; [|constructor]. exists q, p. split; [exact Pq|]. split; [exact Pp|]. intros _. apply span_in, in_or_app. right. left. reflexivity. }
  intros [[[m g] j] keep] _ HK. destruct keep; cbn [negb]; [|apply returns_ret; exact HK].
  destruct HK as (ps' & G' & SN'). pose proof G' as (vs' & ws' & -> & Lv' & -> & Lw' & VM' & VJ' & -> & _ & Vp' & Sp' & Lp' & _).
  apply (returns_bind (fun r => int_object 63 r /\ value r (MeetMath.minus q p))).
  { apply returns_ran. intros o Eo. exact (C24_minus 63 F n d y _ _ o ltac:(discriminate) Od Oy Vd Vy Eo). }
  intros r _ [Or Vr0]. set (u := MeetMath.minus q p) in *. assert (Vu : GaProofs.vec dim u) by (unfold u, MeetMath.minus; apply Forall_app; split; [exact Vq|apply vec_scale, Vpp]).
  destruct (C35_is_zero_partial 63 r _ tol Or Vr0 Htol) as (z' & -> & Hz'). cbn [ran obind]. destruct z'; [apply returns_ret; exists ps', rs; split; [exact G'|exact SN']|].
  assert (Vr' : Forall (GaProofs.vec dim) (u :: rs)) by (constructor; assumption). assert (Pa' : Forall (MeetMath.perp av) (u :: rs)) by (constructor; assumption). assert (Pb' : Forall (MeetMath.perp bv) (u :: rs)) by (constructor; assumption).
  apply (returns_bind (fun w => int_object 63 w /\ value w (lcs (u :: rs) (whole dim)))).
  { apply returns_ran. intros o Eo. exact (lcont_real_ok F n r (store lj ws') _ _ o Or (store_object lj ws' j_slots) Vr0 VJ' Eo). }
  intros w _ [Ow Vw]. apply (returns_bind _ _ _ _ (holds_returns _ _ (copy_join lj ws' w _ tol j_slots Ow Vw Htol (fun k => rest_slots _ k Vr' Pa' Pb')))). intros j _ (ws2 & -> & Lw2 & Vj).
  destruct (Z.eqb_spec (Z.of_N dim - Z.of_nat (length rs) - 1) gjoin) as [Eg|Ng]; unfold gjoin in *.
  - intros x Ex. assert (Ld : N.of_nat (length (u :: rs) + length (ms ++ es ++ fs)) = dim) by (cbn [length]; lia). destruct (end_join (u :: rs) vs' ws2 _ _ Vr' Pa' Pb' Ld Vj Lv' Lw2 x Ex) as [X1 X2]. rewrite X1. exact X2.
  - apply returns_ret. exists ps', (u :: rs). split; [|exact SN']. cbn [fst]. exists vs', ws2. repeat (split; [first [reflexivity|assumption|cbn [length]; lia]|]). exact Pb'.
Qed.
(** The loop ended without completing either. *)
Lemma loop_end E st : (E < 2 ^ dim)%N -> coef (wedge ds) E <> 0 -> running (indices E) st -> ended st.
Proof.
  intros HE CE (ps & rs & G & SN). destruct st as [[[meet gm] join] gj]. destruct G as (vs & ws & -> & Lv & -> & Lw & VM & VJ & -> & -> & Vp & Sp & Lp & Vr & Pa & Pb). cbn [ended].
  destruct (blade_inv dim Hdim av A Ba) as (VA & wa & Wa & QA & NA). destruct (blade_inv dim Hdim bv B Bb) as (VB & wb & Wb & QB & NB).
  pose proof (store_dim lm _ _ vs Bm m_slots) as OM. pose proof (store_dim lj _ _ ws Bj j_slots) as OJ.
  destruct (zero_dec (wedge ps)) as [Z|NM]; [left; left; split; [exact OM|exact (value_meq _ _ _ VM Z)]|]. destruct (zero_dec (lcs rs (whole dim))) as [Z|NJ]; [left; right; split; [exact OJ|exact (value_meq _ _ _ VJ Z)]|].
  right. destruct (join_covers dim Hdim av bv rs _ VA VB Vr Pa Pb NJ (reflexivity _)) as (cs & BJ & SJ). exists (wedge ps), (lcs rs (whole dim)), ps, cs. split; [exact OM|]. split; [exact OJ|]. split; [exact VM|]. split; [exact VJ|].
  split; [apply (mk_blade dim Hdim ps 1); [exact Vp|lra|intros k; rewrite cs_; ring|exact NM]|]. split; [exact BJ|].
  split; [eapply Forall_impl; [|exact Sp]; intros x Hx; apply (d_sm _ _ _ _ _ _ Dec), Hx|]. split; [eapply Forall_impl; [|exact Sp]; intros x Hx; apply (d_sm _ _ _ _ _ _ Dec), Hx|]. split; [exact SJ|].
  intros T0. exfalso. assert (X : exists f, forall i, In i (indices E) -> projected dim ds (basis i) (fst (f i)) /\ projected dim av (fst (f i)) (snd (f i)) /\ in_span ps (snd (f i))).
  { apply (choose (fun i (f : mv * mv) => projected dim ds (basis i) (fst f) /\ projected dim av (fst f) (snd f) /\ in_span ps (snd f)) ([], [])). intros i Hi. rewrite Forall_forall in SN. destruct (SN i Hi) as (q & p & H1 & H2 & H3). exists (q, p). auto. }
  destruct X as (f & Hf). pose proof (projections_span dim Hdim ds E (fun i => fst (f i)) Vds Nds HE CE (fun i Hi => proj1 (Hf i Hi))) as Sq.
  assert (C : Forall (in_span (map (fun i => snd (f i)) (indices E))) ms).
  { apply (meet_covered dim Hdim av bv ms es fs Dec ds (map (fun i => fst (f i)) (indices E))).
    - intros x Vx P1 P2. apply Sds; [exact Vx|]. apply perp_app; assumption.
    - apply Forall_map, Forall_forall. intros i Hi. apply (Hf i Hi).
    - exact Sq.
    - revert Hf. generalize (indices E) as l. clear. induction l as [|i l IH]; intros H; cbn [map]; constructor; [apply (H i (or_introl eq_refl))|]. apply IH. intros j Hj. apply H. right. exact Hj. }
  assert (C' : Forall (in_span ps) ms). { eapply Forall_impl; [|exact C]. intros x Hx. refine (span_trans ps _ x _ Hx). apply Forall_map, Forall_forall. intros i Hi. apply (Hf i Hi). }
  pose proof (dimension dim Hdim ms ps (d_ms _ _ _ _ _ _ Dec) (d_nm _ _ _ _ _ _ Dec) Vp C'). lia.
Qed.
End MeetJoin.
