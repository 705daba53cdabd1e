(** C56: contractions and scalar products of run-time basis blades, and products in spaces of one and two dimensions. *)
From Coq Require Import NArith ZArith List Bool Reals Lra Lia.
From Verif Require Import Bits SpecBits BitsOnes Expr Sem Wf SpecMv SpecAlg SpecOrder SpecProd Simp Comp Mapping Ops EvalC SpecEval Lazy SpecLazy Api Extra Grade SpecApi SpecExtra MvBase EvalCProofs RPowProofs PropSimp PropProducts PropDyn PropDyn2.
Import ListNotations.
Local Open Scope R_scope.

(** A product whose blade is known at compile time. *)
Lemma dyn_product_c F k n m f c d g1 g2 x y a b :
  cmul F k m (arg 1 g1) (arg 2 g2) = Some (Comp c (CBlade d)) ->
  is_product f n (arg 1 g1) (arg 2 g2) (Comp c (CBlade d)) ->
  eval_t F k 1 2 (Comp c (CBlade d)) = Some (Comp SV (CBlade d), [StV c]) ->
  let v := dyn_blade g1 x a in let w := dyn_blade g2 y b in
  let i := ctx_int 0 [v; w] in
  arguments 0 [v; w] = Some [arg 1 g1; arg 2 g2] ->
  no_int_div i c = true -> run i (ctx_env 0 [v; w]) c <> Overflow ->
  (n <= 63)%N -> (a < 2 ^ n)%N -> (b < 2 ^ n)%N -> N.testbit g1 (grade_of a) = true -> N.testbit g2 (grade_of b) = true ->
  gives (call F k (op2 (cmul F k m)) [v; w]) (bilinear f [(x, a)] [(y, b)]).
Proof.
  intros E [Wr Pr] V v w i Ar Nc Fc Hn L1 L2 G1 G2.
  assert (P : (2 ^ n <= 2 ^ 63)%N) by (apply N.pow_le_mono_r; lia).
  change (2 ^ 63)%N with 9223372036854775808%N in P.
  set (g := ctx_env 0 [v; w]).
  assert (Ty : SpecEval.typed i g).
  { split.
    - intros t j r. unfold i, ctx_int. destruct (N.ltb 0 t) eqn:Lt; [|intros _; cbn; rewrite Lt; discriminate].
      cbn [ctx_env g ev]. rewrite Lt. destruct (N.to_nat (t - 0 - 1)) as [|[|[|]]]; cbn; discriminate.
    - intros t j z. cbn [ctx_env g eb]. destruct (N.ltb 0 t); [|discriminate].
      destruct (N.to_nat (t - 0 - 1)) as [|[|[|]]]; cbn; try discriminate; destruct (N.to_nat j) as [|[|]]; cbn; try discriminate; intros [= <-]; lia. }
  assert (A1 : den g (arg 1 g1) [(x, a)]) by (exists (x, a); split; [split; [reflexivity|split; [reflexivity|intros _; exact G1]]|reflexivity]).
  assert (A2 : den g (arg 2 g2) [(y, b)]) by (exists (y, b); split; [split; [reflexivity|split; [reflexivity|intros _; exact G2]]|reflexivity]).
  destruct (Pr g [(x, a)] [(y, b)] A1 A2) as (mr & Dr & Cr & Sr); [repeat constructor; exact L1|repeat constructor; exact L2|].
  destruct Dr as ([z q] & (Dz & Dq & Dg) & ->). cbn [fst snd dblade] in *. subst q.
  cbn [mv_ok comp_ok] in Wr. apply andb_prop in Wr as [Wc _].
  destruct (C11_eval_partial i g c _ Ty Wc Nc Dz) as [Rc|Rc]; [|destruct (Fc Rc)].
  eexists. split.
  - unfold call. change (base_id [v; w]) with 0%N. rewrite Ar. cbn [op2]. rewrite E.
    unfold lazy_eval. change (stored_inputs [v; w]) with [v; w]. cbv beta iota zeta. change (base_id [v; w]) with 0%N.
    change (0 + 1)%N with 1%N. change (0 + N.of_nat (length [v; w]))%N with 2%N. rewrite V. cbn [run_stores].
    fold i. fold g. rewrite Rc. cbn. reflexivity.
  - intros g'. exists [(z, d)]. split; [|exact Cr]. cbn. exists ([], []). split; [|reflexivity]. exists ([], []). split; [reflexivity|]. split; [split; reflexivity|intros _; exact Logic.I].
Qed.
Definition typed_const (F k : nat) (m : expr -> expr -> option expr) (g1 g2 : N) (c : expr) (d : N) : Prop :=
  match cmul F k m (arg 1 g1) (arg 2 g2) with
  | Some e => Some (e, eval_t F k 1 2 e)
  | None => None
  end = Some (Comp c (CBlade d), Some (Comp SV (CBlade d), [StV c])).
Lemma const_split F k m g1 g2 c d : typed_const F k m g1 g2 c d ->
  cmul F k m (arg 1 g1) (arg 2 g2) = Some (Comp c (CBlade d)) /\ eval_t F k 1 2 (Comp c (CBlade d)) = Some (Comp SV (CBlade d), [StV c]).
Proof. unfold typed_const. destruct (cmul F k m (arg 1 g1) (arg 2 g2)) as [e|]; [|discriminate]. intros E. injection E as -> E. split; [reflexivity|exact E]. Qed.

(** The coefficients of the contractions and of the scalar product. *)
Definition cont_coef (l s : expr) : expr := Fn NMul [GV 1 0; GV 2 0; Fn NIf [Fn NEqual [Fn NAdd [Fn NCount [l]; Fn NMul [CV (-1); Fn NCount [s]]]; Fn NCount [Fn NXor [bits1; bits2]]]; Fn NSign [bits1; bits2]; CV 0]].
Definition sp_coef : expr := Fn NMul [GV 1 0; GV 2 0; Fn NIf [Fn NEqual [Fn NCount [Fn NXor [bits1; bits2]]; CV 0]; Fn NSign [bits1; bits2]; CV 0]].
Definition outer_coef : expr := Fn NMul [GV 1 0; GV 2 0; Fn NIf [Fn NEqual [Fn NAdd [Fn NCount [bits1]; Fn NCount [bits2]]; Fn NCount [Fn NOr [bits1; bits2]]]; Fn NSign [bits1; bits2]; CV 0]].
Definition gp_coef : expr := Fn NMul [GV 1 0; GV 2 0; Fn NSign [bits1; bits2]].
Ltac eachc := unfold from; cbn [map seq N.of_nat Nat.sub]; repeat (apply Forall_cons; [unfold typed_const; vm_compute; reflexivity|]); apply Forall_nil.
Lemma lcont22 F k : Forall (fun n => typed_const (40 + F) (40 + k) (lcont_map (40 + F) n 0 0) 2 2 (cont_coef bits2 bits1) 0) (from 1).
Proof. eachc. Qed.
Lemma rcont22 F k : Forall (fun n => typed_const (40 + F) (40 + k) (rcont_map (40 + F) n 0 0) 2 2 (cont_coef bits1 bits2) 0) (from 1).
Proof. eachc. Qed.
Lemma sp22 F k : Forall (fun n => typed_const (40 + F) (40 + k) (sp_map (40 + F) n 0 0) 2 2 sp_coef 0) (from 1).
Proof. eachc. Qed.
Lemma sp44 F k : Forall (fun n => typed_const (40 + F) (40 + k) (sp_map (40 + F) n 0 0) 4 4 sp_coef 0) (from 2).
Proof. eachc. Qed.
Lemma lcont24 F k : Forall (fun n => typed_as (40 + F) (40 + k) (lcont_map (40 + F) n 0 0) 2 4 (Comp (cont_coef bits2 bits1) (DBlade 2 (Fn NXor [bits1; bits2])))) (from 2).
Proof. each. Qed.
Lemma rcont42 F k : Forall (fun n => typed_as (40 + F) (40 + k) (rcont_map (40 + F) n 0 0) 4 2 (Comp (cont_coef bits1 bits2) (DBlade 2 (Fn NXor [bits1; bits2])))) (from 2).
Proof. each. Qed.
Lemma gp22_1 F k : typed_const (40 + F) (40 + k) (gp_map (40 + F) 1 0 0) 2 2 gp_coef 0.
Proof. unfold typed_const; vm_compute; reflexivity. Qed.
Lemma op22_2 F k : typed_const (40 + F) (40 + k) (op_map (40 + F) 2) 2 2 outer_coef 3.
Proof. unfold typed_const; vm_compute; reflexivity. Qed.
Lemma op24_3 F k : typed_const (40 + F) (40 + k) (op_map (40 + F) 3) 2 4 outer_coef 7.
Proof. unfold typed_const; vm_compute; reflexivity. Qed.
Lemma op42_3 F k : typed_const (40 + F) (40 + k) (op_map (40 + F) 3) 4 2 outer_coef 7.
Proof. unfold typed_const; vm_compute; reflexivity. Qed.

Section Runs.
Variables (x y : R) (a b g1 g2 : N).
Let i := ctx_int 0 [dyn_blade g1 x a; dyn_blade g2 y b].
Let g := ctx_env 0 [dyn_blade g1 x a; dyn_blade g2 y b].
Hypotheses (La : (a < 2 ^ 64)%N) (Lb : (b < 2 ^ 64)%N) (Ga : (grade_of a <= 2)%N) (Gb : (grade_of b <= 2)%N).
Ltac reduce := lazy -[run_sign arith ones Rmult Rplus Rminus IZR N.lor N.lxor N.land Z.land Z.of_N N.eqb Req_EM_T Zof not N.lt N.le grade_of].
Lemma r_lcont : run i g (cont_coef bits2 bits1) <> Overflow.
Proof.
  reduce. rewrite !(ones_correct a), !(ones_correct b) by assumption. rewrite <- minus_IZR, arith_z by lia.
  destruct (Req_EM_T _ _); discriminate.
Qed.
Lemma r_rcont : run i g (cont_coef bits1 bits2) <> Overflow.
Proof.
  reduce. rewrite !(ones_correct a), !(ones_correct b) by assumption. rewrite <- minus_IZR, arith_z by lia.
  destruct (Req_EM_T _ _); discriminate.
Qed.
Lemma r_sp : run i g sp_coef <> Overflow.
Proof. reduce. destruct (Req_EM_T _ _); discriminate. Qed.
End Runs.
Lemma const_gives F k n m f c d g1 g2 x y a b : typed_const F k m g1 g2 c d ->
  (forall r, cmul F k m (arg 1 g1) (arg 2 g2) = Some r -> is_product f n (arg 1 g1) (arg 2 g2) r) ->
  arguments 0 [dyn_blade g1 x a; dyn_blade g2 y b] = Some [arg 1 g1; arg 2 g2] ->
  no_int_div (ctx_int 0 [dyn_blade g1 x a; dyn_blade g2 y b]) c = true ->
  run (ctx_int 0 [dyn_blade g1 x a; dyn_blade g2 y b]) (ctx_env 0 [dyn_blade g1 x a; dyn_blade g2 y b]) c <> Overflow ->
  (n <= 63)%N -> (a < 2 ^ n)%N -> (b < 2 ^ n)%N -> N.testbit g1 (grade_of a) = true -> N.testbit g2 (grade_of b) = true ->
  gives (call F k (op2 (cmul F k m)) [dyn_blade g1 x a; dyn_blade g2 y b]) (bilinear f [(x, a)] [(y, b)]).
Proof. intros T Pr A N V H La Lb Ta Tb. destruct (const_split _ _ _ _ _ _ _ T) as [E U]. exact (dyn_product_c F k n m f c d g1 g2 x y a b E (Pr _ E) U A N V H La Lb Ta Tb). Qed.
Lemma as_gives F k n m f c g e g1 g2 x y a b : typed_as F k m g1 g2 (Comp c (DBlade g e)) ->
  (forall r, cmul F k m (arg 1 g1) (arg 2 g2) = Some r -> is_product f n (arg 1 g1) (arg 2 g2) r) ->
  arguments 0 [dyn_blade g1 x a; dyn_blade g2 y b] = Some [arg 1 g1; arg 2 g2] ->
  no_int_div (ctx_int 0 [dyn_blade g1 x a; dyn_blade g2 y b]) c = true -> e = Fn NXor [bits1; bits2] ->
  run (ctx_int 0 [dyn_blade g1 x a; dyn_blade g2 y b]) (ctx_env 0 [dyn_blade g1 x a; dyn_blade g2 y b]) c <> Overflow ->
  (n <= 63)%N -> (a < 2 ^ n)%N -> (b < 2 ^ n)%N -> N.testbit g1 (grade_of a) = true -> N.testbit g2 (grade_of b) = true ->
  gives (call F k (op2 (cmul F k m)) [dyn_blade g1 x a; dyn_blade g2 y b]) (bilinear f [(x, a)] [(y, b)]).
Proof.
  intros T Pr A N -> V H La Lb Ta Tb. destruct (typed_split _ _ _ _ _ _ _ _ T) as [E U].
  exact (dyn_product F k n m f g c _ g1 g2 x y a b E (Pr _ E) U A N eq_refl V (r_bits NXor _ _ _ _ _ _ (or_introl eq_refl)) H La Lb Ta Tb).
Qed.
Lemma below n a : (n <= 63)%N -> (a < 2 ^ n)%N -> (a < 2 ^ 64)%N.
Proof. intros H L. eapply N.lt_le_trans; [exact L|]. apply N.pow_le_mono_r; lia. Qed.

(** The contractions and the scalar product of run-time vectors and bivectors in a Euclidean space. *)
Theorem C56_inner_partial : forall F k n x y a b c d, (2 <= n <= 63)%N ->
  (a < 2 ^ n)%N -> (b < 2 ^ n)%N -> (c < 2 ^ n)%N -> (d < 2 ^ n)%N ->
  grade_of a = 1%N -> grade_of b = 1%N -> grade_of c = 2%N -> grade_of d = 2%N ->
  let q := signature n 0 in
  gives (lcont (40 + F) (40 + k) n 0 0 (dyn_blade 2 x a) (dyn_blade 2 y b)) (bilinear (lcont_blade q) [(x, a)] [(y, b)]) /\
  gives (rcont (40 + F) (40 + k) n 0 0 (dyn_blade 2 x a) (dyn_blade 2 y b)) (bilinear (rcont_blade q) [(x, a)] [(y, b)]) /\
  gives (sp (40 + F) (40 + k) n 0 0 (dyn_blade 2 x a) (dyn_blade 2 y b)) (bilinear (sp_blade q) [(x, a)] [(y, b)]) /\
  gives (lcont (40 + F) (40 + k) n 0 0 (dyn_blade 2 x a) (dyn_blade 4 y c)) (bilinear (lcont_blade q) [(x, a)] [(y, c)]) /\
  gives (rcont (40 + F) (40 + k) n 0 0 (dyn_blade 4 x c) (dyn_blade 2 y a)) (bilinear (rcont_blade q) [(x, c)] [(y, a)]) /\
  gives (sp (40 + F) (40 + k) n 0 0 (dyn_blade 4 x c) (dyn_blade 4 y d)) (bilinear (sp_blade q) [(x, c)] [(y, d)]).
Proof.
  intros F k n x y a b c d Hn La Lb Lc Ld Ga Gb Gc Gd q.
  assert (Ta : N.testbit 2 (grade_of a) = true) by (rewrite Ga; reflexivity). assert (Tb : N.testbit 2 (grade_of b) = true) by (rewrite Gb; reflexivity).
  assert (Tc : N.testbit 4 (grade_of c) = true) by (rewrite Gc; reflexivity). assert (Td : N.testbit 4 (grade_of d) = true) by (rewrite Gd; reflexivity).
  assert (I1 : In n (from 1)) by (apply in_from; lia). assert (I2 : In n (from 2)) by (apply in_from; lia).
  assert (Hn0 : (n + 0 + 0 <= 63)%N) by lia. assert (Z : (n + 0 + 0 = n)%N) by lia.
  assert (PL : forall g1 g2 r, mv_ok (arg 1 g1) = true -> mv_ok (arg 2 g2) = true -> cmul (40 + F) (40 + k) (lcont_map (40 + F) n 0 0) (arg 1 g1) (arg 2 g2) = Some r -> is_product (lcont_blade q) n (arg 1 g1) (arg 2 g2) r).
  { intros g1 g2 r W1 W2 E. pose proof (C17_lcont n 0 0 _ _ _ _ _ Hn0 W1 W2 E) as Hp. rewrite Z in Hp. exact Hp. }
  assert (PR : forall g1 g2 r, mv_ok (arg 1 g1) = true -> mv_ok (arg 2 g2) = true -> cmul (40 + F) (40 + k) (rcont_map (40 + F) n 0 0) (arg 1 g1) (arg 2 g2) = Some r -> is_product (rcont_blade q) n (arg 1 g1) (arg 2 g2) r).
  { intros g1 g2 r W1 W2 E. pose proof (C17_rcont n 0 0 _ _ _ _ _ Hn0 W1 W2 E) as Hp. rewrite Z in Hp. exact Hp. }
  assert (PS : forall g1 g2 r, mv_ok (arg 1 g1) = true -> mv_ok (arg 2 g2) = true -> cmul (40 + F) (40 + k) (sp_map (40 + F) n 0 0) (arg 1 g1) (arg 2 g2) = Some r -> is_product (sp_blade q) n (arg 1 g1) (arg 2 g2) r).
  { intros g1 g2 r W1 W2 E. pose proof (C17_sp n 0 0 _ _ _ _ _ Hn0 W1 W2 E) as Hp. rewrite Z in Hp. exact Hp. }
  assert (B : forall t, (t < 2 ^ n)%N -> (t < 2 ^ 64)%N) by (intros t; apply below; lia).
  destruct Hn as [_ Hn]. repeat split.
  - refine (const_gives _ _ n _ _ _ _ 2 2 x y a b (proj1 (Forall_forall _ _) (lcont22 F k) n I1) (fun r => PL 2%N 2%N r eq_refl eq_refl) eq_refl eq_refl _ Hn La Lb Ta Tb). apply r_lcont; auto; lia.
  - refine (const_gives _ _ n _ _ _ _ 2 2 x y a b (proj1 (Forall_forall _ _) (rcont22 F k) n I1) (fun r => PR 2%N 2%N r eq_refl eq_refl) eq_refl eq_refl _ Hn La Lb Ta Tb). apply r_rcont; auto; lia.
  - refine (const_gives _ _ n _ _ _ _ 2 2 x y a b (proj1 (Forall_forall _ _) (sp22 F k) n I1) (fun r => PS 2%N 2%N r eq_refl eq_refl) eq_refl eq_refl _ Hn La Lb Ta Tb). apply r_sp; auto; lia.
  - refine (as_gives _ _ n _ _ _ _ _ 2 4 x y a c (proj1 (Forall_forall _ _) (lcont24 F k) n I2) (fun r => PL 2%N 4%N r eq_refl eq_refl) eq_refl eq_refl eq_refl _ Hn La Lc Ta Tc). apply r_lcont; auto; lia.
  - refine (as_gives _ _ n _ _ _ _ _ 4 2 x y c a (proj1 (Forall_forall _ _) (rcont42 F k) n I2) (fun r => PR 4%N 2%N r eq_refl eq_refl) eq_refl eq_refl eq_refl _ Hn Lc La Tc Ta). apply r_rcont; auto; lia.
  - refine (const_gives _ _ n _ _ _ _ 4 4 x y c d (proj1 (Forall_forall _ _) (sp44 F k) n I2) (fun r => PS 4%N 4%N r eq_refl eq_refl) eq_refl eq_refl _ Hn Lc Ld Tc Td). apply r_sp; auto; lia.
Qed.
Print Assumptions C56_inner_partial.
(** The spaces of one, two and three dimensions, whose product types are different: the blade of the result is known at
    compile time. *)
Theorem C56_small_partial : forall F k x y a b c,
  grade_of a = 1%N -> grade_of b = 1%N -> grade_of c = 2%N ->
  ((a < 2)%N -> (b < 2)%N -> gives (gp (40 + F) (40 + k) 1 0 0 (dyn_blade 2 x a) (dyn_blade 2 y b)) (bilinear (gp_blade (signature 1 0)) [(x, a)] [(y, b)])) /\
  ((a < 4)%N -> (b < 4)%N -> gives (gp (40 + F) (40 + k) 2 0 0 (dyn_blade 2 x a) (dyn_blade 2 y b)) (bilinear (gp_blade (signature 2 0)) [(x, a)] [(y, b)])) /\
  ((a < 4)%N -> (b < 4)%N -> gives (outer (40 + F) (40 + k) 2 (dyn_blade 2 x a) (dyn_blade 2 y b)) (bilinear op_blade [(x, a)] [(y, b)])) /\
  ((a < 8)%N -> (c < 8)%N ->
   gives (gp (40 + F) (40 + k) 3 0 0 (dyn_blade 2 x a) (dyn_blade 4 y c)) (bilinear (gp_blade (signature 3 0)) [(x, a)] [(y, c)]) /\
   gives (gp (40 + F) (40 + k) 3 0 0 (dyn_blade 4 y c) (dyn_blade 2 x a)) (bilinear (gp_blade (signature 3 0)) [(y, c)] [(x, a)]) /\
   gives (outer (40 + F) (40 + k) 3 (dyn_blade 2 x a) (dyn_blade 4 y c)) (bilinear op_blade [(x, a)] [(y, c)]) /\
   gives (outer (40 + F) (40 + k) 3 (dyn_blade 4 y c) (dyn_blade 2 x a)) (bilinear op_blade [(y, c)] [(x, a)])).
Proof.
  intros F k x y a b c Ga Gb Gc.
  assert (Ta : N.testbit 2 (grade_of a) = true) by (rewrite Ga; reflexivity). assert (Tb : N.testbit 2 (grade_of b) = true) by (rewrite Gb; reflexivity).
  assert (Tc : N.testbit 4 (grade_of c) = true) by (rewrite Gc; reflexivity).
  split; [|split; [|split]]; intros L1 L2; [| | |split; [|split; [|split]]].
  - refine (const_gives _ _ 1 _ _ _ _ 2 2 x y a b (gp22_1 F k) (fun r => C14_gp 1 0 0 _ _ (arg 1 2) (arg 2 2) r ltac:(lia) eq_refl eq_refl) eq_refl eq_refl _ ltac:(lia) L1 L2 Ta Tb). apply r_plain.
  - refine (gp_gives _ _ 2 0 0 [] 5 _ _ _ _ _ _ ltac:(lia) (proj1 (Forall_forall _ _) (gp22 F k) 2%N (in_from 2 2 ltac:(lia) ltac:(lia))) eq_refl eq_refl eq_refl (or_introl eq_refl) _ _ _ _); assumption.
  - refine (const_gives _ _ 2 _ _ _ _ 2 2 x y a b (op22_2 F k) (fun r => C16_op 2 _ _ (arg 1 2) (arg 2 2) r ltac:(lia) eq_refl eq_refl) eq_refl eq_refl _ ltac:(lia) L1 L2 Ta Tb). apply r_outer; lia.
  - refine (gp_gives _ _ 3 0 0 [] 10 _ _ _ _ _ _ ltac:(lia) (proj1 (Forall_forall _ _) (gp24 F k) 3%N (in_from 3 3 ltac:(lia) ltac:(lia))) eq_refl eq_refl eq_refl (or_introl eq_refl) _ _ _ _); assumption.
  - refine (gp_gives _ _ 3 0 0 [] 10 _ _ _ _ _ _ ltac:(lia) (proj1 (Forall_forall _ _) (gp42 F k) 3%N (in_from 3 3 ltac:(lia) ltac:(lia))) eq_refl eq_refl eq_refl (or_introl eq_refl) _ _ _ _); assumption.
  - refine (const_gives _ _ 3 _ _ _ _ 2 4 x y a c (op24_3 F k) (fun r => C16_op 3 _ _ (arg 1 2) (arg 2 4) r ltac:(lia) eq_refl eq_refl) eq_refl eq_refl _ ltac:(lia) L1 L2 Ta Tc). apply r_outer; lia.
  - refine (const_gives _ _ 3 _ _ _ _ 4 2 y x c a (op42_3 F k) (fun r => C16_op 3 _ _ (arg 1 4) (arg 2 2) r ltac:(lia) eq_refl eq_refl) eq_refl eq_refl _ ltac:(lia) L2 L1 Tc Ta). apply r_outer; lia.
Qed.
Print Assumptions C56_small_partial.
(** e2 on e1^e2 is - e1; e1 on e2 is 0; e1^e2 and itself have the scalar product -1. *)
Example C56_inner_case :
  bilinear (lcont_blade (signature 4 0)) [(2, 2%N)] [(5, 3%N)] = [(2 * (5 * (-1 * (1 * 1))), 1%N)] /\
  bilinear (lcont_blade (signature 4 0)) [(2, 1%N)] [(5, 2%N)] = [] /\
  bilinear (sp_blade (signature 4 0)) [(2, 3%N)] [(5, 3%N)] = [(2 * (5 * (-1 * (1 * (1 * 1)))), 0%N)] /\
  gives (lcont 40 40 4 0 0 (dyn_blade 2 2 2) (dyn_blade 4 5 3)) (bilinear (lcont_blade (signature 4 0)) [(2, 2%N)] [(5, 3%N)]).
Proof.
  split; [reflexivity|]. split; [reflexivity|]. split; [reflexivity|].
  destruct (C56_inner_partial 0 0 4 2 5 2 1 3 3 ltac:(lia) ltac:(lia) ltac:(lia) ltac:(lia) ltac:(lia) eq_refl eq_refl eq_refl eq_refl) as (_ & _ & _ & H & _). exact H.
Qed.
