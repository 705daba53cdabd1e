(** C56: products of run-time vectors with run-time basis blades of all grades. *)
From Coq Require Import NArith ZArith List Bool Reals Lra Lia.
From Verif Require Import Bits SpecBits BitsOnes Expr ExprBase Sem Wf SpecMv SpecAlg SpecOrder SpecProd Simp Comp Mapping Ops EvalC SpecEval Lazy SpecLazy Api Extra Grade SpecApi SpecExtra MvBase EvalCProofs RPowProofs GradeProofs PropSimp PropProducts PropDyn PropDyn2 PropDyn3.
Import ListNotations.
Local Open Scope R_scope.

(** The product has the coefficient [c] and the run-time blade [b] or a blade known at compile time, and its coefficient
    and its blade are stored in this order; or it is zero. *)
Definition shape (F k : nat) (m : expr -> expr -> option expr) (g1 g2 : N) (c b : expr) : bool :=
  match cmul F k m (arg 1 g1) (arg 2 g2) with
  | Some (Comp (CV 0) (CBlade 0) as e) => match eval_t F k 1 2 e with Some (Comp (CV 0) (CBlade 0), []) => true | _ => false end
  | Some (Comp c' (DBlade g b') as e) => expr_eqb c c' && expr_eqb b b' &&
    match eval_t F k 1 2 e with Some (Comp SV (DBlade g' SBits), [StV c''; StB b'']) => N.eqb g g' && expr_eqb c c'' && expr_eqb b b'' | _ => false end
  | Some (Comp c' (CBlade d) as e) => expr_eqb c c' &&
    match eval_t F k 1 2 e with Some (Comp SV (CBlade d'), [StV c'']) => N.eqb d d' && expr_eqb c c'' | _ => false end
  | _ => false
  end.
Inductive shaped (F k : nat) (m : expr -> expr -> option expr) (g1 g2 : N) (c b : expr) : Prop :=
| sh_zero : cmul F k m (arg 1 g1) (arg 2 g2) = Some (Comp (CV 0) (CBlade 0)) -> eval_t F k 1 2 (Comp (CV 0) (CBlade 0)) = Some (Comp (CV 0) (CBlade 0), []) -> shaped F k m g1 g2 c b
| sh_dyn g : cmul F k m (arg 1 g1) (arg 2 g2) = Some (Comp c (DBlade g b)) -> eval_t F k 1 2 (Comp c (DBlade g b)) = Some (Comp SV (DBlade g SBits), [StV c; StB b]) -> shaped F k m g1 g2 c b
| sh_const d : cmul F k m (arg 1 g1) (arg 2 g2) = Some (Comp c (CBlade d)) -> eval_t F k 1 2 (Comp c (CBlade d)) = Some (Comp SV (CBlade d), [StV c]) -> shaped F k m g1 g2 c b.
Lemma const_ok F k m g1 g2 c b d e : cmul F k m (arg 1 g1) (arg 2 g2) = Some (Comp e (CBlade d)) ->
  (expr_eqb c e && match eval_t F k 1 2 (Comp e (CBlade d)) with Some (Comp SV (CBlade d'), [StV c'']) => N.eqb d d' && expr_eqb c c'' | _ => false end = true)%bool -> shaped F k m g1 g2 c b.
Proof.
  intros E H. apply andb_prop in H as [H1 H2]. apply expr_eqb_eq in H1 as <-. apply (sh_const _ _ _ _ _ _ _ d); [exact E|].
  destruct (eval_t F k 1 2 (Comp c (CBlade d))) as [[[| | | | | | | | |[| | | | | | | | | |] [| | | | | | |d'| | |]|] [|[c''|?] [|? ?]]]|]; try discriminate.
  apply andb_prop in H2 as [H2 H3]. apply N.eqb_eq in H2 as <-. apply expr_eqb_eq in H3 as <-. reflexivity.
Qed.
Lemma shape_ok F k m g1 g2 c b : shape F k m g1 g2 c b = true -> shaped F k m g1 g2 c b.
Proof.
  unfold shape. destruct (cmul F k m (arg 1 g1) (arg 2 g2)) as [e|] eqn:E; [|discriminate].
  destruct e as [| | | | | | | | |e bl|]; try discriminate. destruct bl as [| | | | | | |d|g b'| |]; try (destruct e as [[]| | | | | | | | | |]; discriminate).
  - intros H. assert (D : (e = CV 0 /\ d = 0%N /\ match eval_t F k 1 2 (Comp (CV 0) (CBlade 0)) with Some (Comp (CV 0) (CBlade 0), []) => true | _ => false end = true) \/
       (expr_eqb c e && match eval_t F k 1 2 (Comp e (CBlade d)) with Some (Comp SV (CBlade d'), [StV c'']) => N.eqb d d' && expr_eqb c c'' | _ => false end = true)%bool).
    { destruct e as [[]| | | | | | | | | |]; try (right; exact H). destruct d; [left; auto|right; exact H]. }
    destruct D as [(-> & -> & D)|D]; [|exact (const_ok _ _ _ _ _ _ _ _ _ E D)]. apply sh_zero; [exact E|].
    destruct (eval_t F k 1 2 (Comp (CV 0) (CBlade 0))) as [[t l]|]; [|discriminate].
    destruct t as [| | | | | | | | |t1 t2|]; try discriminate. destruct t1 as [[]| | | | | | | | | |]; try discriminate. destruct t2 as [| | | | | | |[]| | |]; try discriminate. destruct l; [reflexivity|discriminate].
  - intros H. assert (D : (expr_eqb c e && expr_eqb b b' && match eval_t F k 1 2 (Comp e (DBlade g b')) with Some (Comp SV (DBlade g' SBits), [StV c''; StB b'']) => N.eqb g g' && expr_eqb c c'' && expr_eqb b b'' | _ => false end = true)%bool).
    { destruct e as [[]| | | | | | | | | |]; exact H. }
    apply andb_prop in D as [D1 D2]. apply andb_prop in D1 as [D1 D3]. apply expr_eqb_eq in D1 as <-. apply expr_eqb_eq in D3 as <-.
    apply (sh_dyn _ _ _ _ _ _ _ g); [exact E|]. destruct (eval_t F k 1 2 (Comp c (DBlade g b))) as [[t l]|]; [|discriminate].
    destruct t as [| | | | | | | | |t1 t2|]; try discriminate. destruct t1; try discriminate. destruct t2 as [| | | | | | | |g' t3| |]; try discriminate. destruct t3; try discriminate.
    destruct l as [|[c''|?] [|[?|b''] [|? ?]]]; try discriminate. apply andb_prop in D2 as [D2 D4]. apply andb_prop in D2 as [D2 D5].
    apply N.eqb_eq in D2 as <-. apply expr_eqb_eq in D5 as <-. apply expr_eqb_eq in D4 as <-. reflexivity.
Qed.

Lemma zero_product F k n m f g1 g2 x y a b :
  cmul F k m (arg 1 g1) (arg 2 g2) = Some (Comp (CV 0) (CBlade 0)) ->
  is_product f n (arg 1 g1) (arg 2 g2) (Comp (CV 0) (CBlade 0)) ->
  eval_t F k 1 2 (Comp (CV 0) (CBlade 0)) = Some (Comp (CV 0) (CBlade 0), []) ->
  let v := dyn_blade g1 x a in let w := dyn_blade g2 y b in
  arguments 0 [v; w] = Some [arg 1 g1; arg 2 g2] ->
  (a < 2 ^ n)%N -> (b < 2 ^ n)%N -> N.testbit g1 (grade_of a) = true -> N.testbit g2 (grade_of b) = true ->
  gives (call F k (op2 (cmul F k m)) [v; w]) (bilinear f [(x, a)] [(y, b)]).
Proof.
  intros E [Wr Pr] V v w Ar L1 L2 G1 G2. set (g := ctx_env 0 [v; w]).
  assert (A1 : den g (arg 1 g1) [(x, a)]) by (exists (x, a); split; [split; [reflexivity|split; [reflexivity|intros _; exact G1]]|reflexivity]).
  assert (A2 : den g (arg 2 g2) [(y, b)]) by (exists (y, b); split; [split; [reflexivity|split; [reflexivity|intros _; exact G2]]|reflexivity]).
  destruct (Pr g [(x, a)] [(y, b)] A1 A2) as (mr & Dr & Cr & Sr); [repeat constructor; exact L1|repeat constructor; exact L2|].
  destruct Dr as ([z q] & (Dz & Dq & Dg) & ->). cbn [fst snd dblade] in *. subst q. injection Dz as <-.
  eexists. split.
  - unfold call. change (base_id [v; w]) with 0%N. rewrite Ar. cbn [op2]. rewrite E.
    unfold lazy_eval. change (stored_inputs [v; w]) with [v; w]. cbv beta iota zeta. change (base_id [v; w]) with 0%N.
    change (0 + 1)%N with 1%N. change (0 + N.of_nat (length [v; w]))%N with 2%N. rewrite V. cbn. reflexivity.
  - intros g'. exists [(IZR 0, 0%N)]. split; [|exact Cr]. cbn. exists ([], []). split; [|reflexivity]. exists ([], []). split; [reflexivity|]. split; [split; reflexivity|intros _; exact Logic.I].
Qed.
Lemma tag_types : Forall (fun r => tag_vars 1 (Comp SV (DBlade (2 ^ r) SBits)) 0 0 = Some (arg 1 (2 ^ r)) /\ tag_vars 2 (Comp SV (DBlade (2 ^ r) SBits)) 0 0 = Some (arg 2 (2 ^ r)) /\
  mv_ok (arg 1 (2 ^ r)) = true /\ mv_ok (arg 2 (2 ^ r)) = true) (from 1).
Proof. unfold from; cbn [map seq N.of_nat Nat.sub]. repeat (apply Forall_cons; [repeat split; reflexivity|]); apply Forall_nil. Qed.
Lemma two_args r s x y a b : In r (from 1) -> In s (from 1) -> arguments 0 [dyn_blade (2 ^ r) x a; dyn_blade (2 ^ s) y b] = Some [arg 1 (2 ^ r); arg 2 (2 ^ s)].
Proof.
  intros Hr Hs. destruct (proj1 (Forall_forall _ _) tag_types r Hr) as (T1 & _). destruct (proj1 (Forall_forall _ _) tag_types s Hs) as (_ & T2 & _).
  unfold arguments. cbn [dyn_blade cexpr has_stored orb]. change (0 + 1)%N with 1%N. change (1 + 1)%N with 2%N. rewrite T1, T2. reflexivity.
Qed.
Lemma shape_gives F k n m f c e r s x y a b : shape F k m (2 ^ r) (2 ^ s) c e = true -> In r (from 1) -> In s (from 1) ->
  (forall t, cmul F k m (arg 1 (2 ^ r)) (arg 2 (2 ^ s)) = Some t -> is_product f n (arg 1 (2 ^ r)) (arg 2 (2 ^ s)) t) ->
  let v := dyn_blade (2 ^ r) x a in let w := dyn_blade (2 ^ s) y b in
  no_int_div (ctx_int 0 [v; w]) c = true -> e = Fn NXor [bits1; bits2] \/ e = Fn NOr [bits1; bits2] ->
  run (ctx_int 0 [v; w]) (ctx_env 0 [v; w]) c <> Overflow ->
  (n <= 63)%N -> (a < 2 ^ n)%N -> (b < 2 ^ n)%N -> grade_of a = r -> grade_of b = s ->
  gives (call F k (op2 (cmul F k m)) [v; w]) (bilinear f [(x, a)] [(y, b)]).
Proof.
  intros S Hr Hs Pr v w N He V Hn La Lb Ga Gb.
  assert (Ta : N.testbit (2 ^ r) (grade_of a) = true) by (rewrite Ga; apply N.pow2_bits_true).
  assert (Tb : N.testbit (2 ^ s) (grade_of b) = true) by (rewrite Gb; apply N.pow2_bits_true).
  pose proof (two_args r s x y a b Hr Hs) as A. destruct (shape_ok _ _ _ _ _ _ _ S) as [E U|g E U|d E U].
  - exact (zero_product F k n m f _ _ x y a b E (Pr _ E) U A La Lb Ta Tb).
  - refine (dyn_product F k n m f g c e _ _ x y a b E (Pr _ E) U A N _ V _ Hn La Lb Ta Tb).
    + destruct He as [-> | ->]; reflexivity.
    + destruct He as [-> | ->]; apply r_bits; auto.
  - exact (dyn_product_c F k n m f c d _ _ x y a b E (Pr _ E) U A N V Hn La Lb Ta Tb).
Qed.

(** Every dimension from 1 to 63, a vector and a blade of every grade, in both orders. *)
Definition upto (n : N) : list N := map N.of_nat (seq 1 (N.to_nat n)).
Lemma in_upto r n : (1 <= r)%N -> (r <= n)%N -> In r (upto n).
Proof. intros A B. apply in_map_iff. exists (N.to_nat r). split; [lia|]. apply in_seq. lia. Qed.
Definition all_shapes (F k : nat) (m : N -> expr -> expr -> option expr) (c e : expr) : bool :=
  forallb (fun n => forallb (fun r => shape F k (m n) 2 (2 ^ r) c e && shape F k (m n) (2 ^ r) 2 c e) (upto n)) (upto 63).
Lemma shape_at F k m c e n r s : all_shapes F k m c e = true -> (n <= 63)%N -> (1 <= r <= n)%N -> (1 <= s <= n)%N -> r = 1%N \/ s = 1%N -> shape F k (m n) (2 ^ r) (2 ^ s) c e = true.
Proof.
  intros H Hn Hr Hs O. unfold all_shapes in H. rewrite forallb_forall in H. specialize (H n (in_upto n 63 ltac:(lia) Hn)). rewrite forallb_forall in H.
  destruct O as [-> | ->]; [specialize (H s (in_upto _ _ (proj1 Hs) (proj2 Hs)))|specialize (H r (in_upto _ _ (proj1 Hr) (proj2 Hr)))]; apply andb_prop in H as [H1 H2]; assumption.
Qed.
Lemma op_shapes F k : all_shapes (40 + F) (40 + k) (op_map (40 + F)) outer_coef (Fn NOr [bits1; bits2]) = true.
Proof. vm_cast_no_check (eq_refl true). Qed.
Lemma gp_shapes F k : all_shapes (40 + F) (40 + k) (fun n => gp_map (40 + F) n 0 0) gp_coef (Fn NXor [bits1; bits2]) = true.
Proof. vm_cast_no_check (eq_refl true). Qed.
Lemma lcont_shapes F k : all_shapes (40 + F) (40 + k) (fun n => lcont_map (40 + F) n 0 0) (cont_coef bits2 bits1) (Fn NXor [bits1; bits2]) = true.
Proof. vm_cast_no_check (eq_refl true). Qed.
Lemma rcont_shapes F k : all_shapes (40 + F) (40 + k) (fun n => rcont_map (40 + F) n 0 0) (cont_coef bits1 bits2) (Fn NXor [bits1; bits2]) = true.
Proof. vm_cast_no_check (eq_refl true). Qed.

Section Runs.
Variables (x y : R) (a b g1 g2 : N).
Let i := ctx_int 0 [dyn_blade g1 x a; dyn_blade g2 y b].
Let g := ctx_env 0 [dyn_blade g1 x a; dyn_blade g2 y b].
Hypotheses (La : (a < 2 ^ 64)%N) (Lb : (b < 2 ^ 64)%N) (Ga : (grade_of a <= 63)%N) (Gb : (grade_of b <= 63)%N) (One : grade_of a = 1%N \/ grade_of b = 1%N).
Ltac reduce := lazy -[run_sign arith ones Rmult Rplus Rminus IZR N.lor N.lxor N.land Z.land Z.of_N N.eqb Req_EM_T Zof not N.lt N.le grade_of].
Lemma w_outer : run i g outer_coef <> Overflow.
Proof. reduce. rewrite !(ones_correct a), !(ones_correct b) by assumption. rewrite <- plus_IZR, arith_z by lia. destruct (Req_EM_T _ _); discriminate. Qed.
Lemma w_lcont : run i g (cont_coef bits2 bits1) <> Overflow.
Proof. reduce. rewrite !(ones_correct a), !(ones_correct b) by assumption. rewrite <- minus_IZR, arith_z by lia. destruct (Req_EM_T _ _); discriminate. Qed.
Lemma w_rcont : run i g (cont_coef bits1 bits2) <> Overflow.
Proof. reduce. rewrite !(ones_correct a), !(ones_correct b) by assumption. rewrite <- minus_IZR, arith_z by lia. destruct (Req_EM_T _ _); discriminate. Qed.
End Runs.

(** A run-time vector and a run-time blade of any grade, in both orders, in a Euclidean space of any dimension: the
    geometric product, the outer product and the contractions. *)
Theorem C56_grades_partial : forall F k n r s x y a b, (n <= 63)%N -> (a < 2 ^ n)%N -> (b < 2 ^ n)%N ->
  grade_of a = r -> grade_of b = s -> (1 <= r)%N -> (1 <= s)%N -> r = 1%N \/ s = 1%N ->
  let u := dyn_blade (2 ^ r) x a in let v := dyn_blade (2 ^ s) y b in let q := signature n 0 in
  gives (gp (40 + F) (40 + k) n 0 0 u v) (bilinear (gp_blade q) [(x, a)] [(y, b)]) /\
  gives (outer (40 + F) (40 + k) n u v) (bilinear op_blade [(x, a)] [(y, b)]) /\
  gives (lcont (40 + F) (40 + k) n 0 0 u v) (bilinear (lcont_blade q) [(x, a)] [(y, b)]) /\
  gives (rcont (40 + F) (40 + k) n 0 0 u v) (bilinear (rcont_blade q) [(x, a)] [(y, b)]).
Proof.
  intros F k n r s x y a b Hn La Lb Ga Gb R1 S1 One u v q.
  assert (Rn : (r <= n)%N) by (rewrite <- Ga; apply grade_le; [lia|exact La]). assert (Sn : (s <= n)%N) by (rewrite <- Gb; apply grade_le; [lia|exact Lb]).
  assert (Ir : In r (from 1)) by (apply in_from; lia). assert (Is : In s (from 1)) by (apply in_from; lia).
  destruct (proj1 (Forall_forall _ _) tag_types r Ir) as (_ & _ & W1 & _). destruct (proj1 (Forall_forall _ _) tag_types s Is) as (_ & _ & _ & W2).
  assert (Hn0 : (n + 0 + 0 <= 63)%N) by lia. assert (Z : (n + 0 + 0 = n)%N) by lia.
  assert (Ba := below n a Hn La). assert (Bb := below n b Hn Lb).
  assert (At : forall m c e, all_shapes (40 + F) (40 + k) m c e = true -> shape (40 + F) (40 + k) (m n) (2 ^ r) (2 ^ s) c e = true) by (intros m c e H; apply shape_at; auto).
  split; [|split; [|split]].
  - refine (shape_gives _ _ n _ _ _ _ r s x y a b (At _ _ _ (gp_shapes F k)) Ir Is _ eq_refl (or_introl eq_refl) (r_plain x y a b _ _) Hn La Lb Ga Gb).
    intros t E. pose proof (C14_gp n 0 0 _ _ _ _ _ Hn0 W1 W2 E) as Hp. rewrite Z in Hp. exact Hp.
  - refine (shape_gives _ _ n _ _ _ _ r s x y a b (At _ _ _ (op_shapes F k)) Ir Is _ eq_refl (or_intror eq_refl) _ Hn La Lb Ga Gb); [|apply w_outer; first [assumption|lia]].
    intros t E. exact (C16_op n _ _ _ _ _ Hn W1 W2 E).
  - refine (shape_gives _ _ n _ _ _ _ r s x y a b (At _ _ _ (lcont_shapes F k)) Ir Is _ eq_refl (or_introl eq_refl) _ Hn La Lb Ga Gb); [|apply w_lcont; first [assumption|lia]].
    intros t E. pose proof (C17_lcont n 0 0 _ _ _ _ _ Hn0 W1 W2 E) as Hp. rewrite Z in Hp. exact Hp.
  - refine (shape_gives _ _ n _ _ _ _ r s x y a b (At _ _ _ (rcont_shapes F k)) Ir Is _ eq_refl (or_introl eq_refl) _ Hn La Lb Ga Gb); [|apply w_rcont; first [assumption|lia]].
    intros t E. pose proof (C17_rcont n 0 0 _ _ _ _ _ Hn0 W1 W2 E) as Hp. rewrite Z in Hp. exact Hp.
Qed.
Print Assumptions C56_grades_partial.
(** e2 and e1^e3^e4 in five dimensions. *)
Example C56_grades_case : grade_of 2 = 1%N /\ grade_of 13 = 3%N /\
  gives (outer 40 40 5 (dyn_blade 2 3 2) (dyn_blade 8 7 13)) (bilinear op_blade [(3, 2%N)] [(7, 13%N)]) /\
  bilinear op_blade [(3, 2%N)] [(7, 13%N)] = [(3 * (7 * -1), 15%N)].
Proof.
  split; [reflexivity|]. split; [reflexivity|]. split; [|reflexivity].
  destruct (C56_grades_partial 0 0 5 1 3 3 7 2 13 ltac:(lia) ltac:(lia) ltac:(lia) eq_refl eq_refl ltac:(lia) ltac:(lia) (or_introl eq_refl)) as (_ & H & _). exact H.
Qed.
