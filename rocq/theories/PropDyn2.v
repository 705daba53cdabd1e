(** C56: products of run-time basis blades. *)
From Coq Require Import NArith ZArith List Bool Reals Lra Lia.
From Verif Require Import Bits SpecBits BitsOnes Expr Sem Wf SpecMv SpecAlg SpecOrder SpecProd Simp Comp Mapping Ops EvalC SpecEval Lazy SpecLazy Api Extra Grade SpecApi SpecExtra MvBase EvalCProofs RPowProofs PropSimp PropProducts PropDyn.
Import ListNotations.
Local Open Scope R_scope.

(** The lazy argument of tag [t] made from a run-time blade. *)
Definition arg (t grades : N) : expr := Comp (GV t 0) (DBlade grades (GBits t 0)).
Lemma dyn_product F k n m f grades c b g1 g2 x y b1 b2 :
  cmul F k m (arg 1 g1) (arg 2 g2) = Some (Comp c (DBlade grades b)) ->
  is_product f n (arg 1 g1) (arg 2 g2) (Comp c (DBlade grades b)) ->
  eval_t F k 1 2 (Comp c (DBlade grades b)) = Some (Comp SV (DBlade grades SBits), [StV c; StB b]) ->
  let v := dyn_blade g1 x b1 in let w := dyn_blade g2 y b2 in
  let i := ctx_int 0 [v; w] in
  arguments 0 [v; w] = Some [arg 1 g1; arg 2 g2] ->
  no_int_div i c = true -> no_int_div i b = true -> run i (ctx_env 0 [v; w]) c <> Overflow -> run i (ctx_env 0 [v; w]) b <> Overflow ->
  (n <= 63)%N -> (b1 < 2 ^ n)%N -> (b2 < 2 ^ n)%N -> N.testbit g1 (grade_of b1) = true -> N.testbit g2 (grade_of b2) = true ->
  exists r, call F k (op2 (cmul F k m)) [v; w] = Some (Done r) /\ value r (bilinear f [(x, b1)] [(y, b2)]).
Proof.
  intros E [Wr Pr] V v w i Ar Nc Nb Fc Fb Hn L1 L2 G1 G2.
  assert (P : (2 ^ n <= 2 ^ 63)%N) by (apply N.pow_le_mono_r; lia).
  change (2 ^ 63)%N with 9223372036854775808%N in P.
  set (g := ctx_env 0 [v; w]).
  assert (Ty : SpecEval.typed i g).
  { split.
    - intros t j r. unfold i, ctx_int. destruct (N.ltb 0 t) eqn:Lt; [|intros _; cbn; rewrite Lt; discriminate].
      cbn [ctx_env g ev]. rewrite Lt. destruct (N.to_nat (t - 0 - 1)) as [|[|[|]]]; cbn; discriminate.
    - intros t j z. cbn [ctx_env g eb]. destruct (N.ltb 0 t); [|discriminate].
      destruct (N.to_nat (t - 0 - 1)) as [|[|[|]]]; cbn; try discriminate; destruct (N.to_nat j) as [|[|]]; cbn; try discriminate; intros [= <-]; lia. }
  assert (A1 : den g (arg 1 g1) [(x, b1)]) by (exists (x, b1); split; [split; [reflexivity|split; [reflexivity|intros _; exact G1]]|reflexivity]).
  assert (A2 : den g (arg 2 g2) [(y, b2)]) by (exists (y, b2); split; [split; [reflexivity|split; [reflexivity|intros _; exact G2]]|reflexivity]).
  destruct (Pr g [(x, b1)] [(y, b2)] A1 A2) as (mr & Dr & Cr & Sr); [repeat constructor; exact L1|repeat constructor; exact L2|].
  destruct Dr as ([z q] & (Dz & Dq & Dg) & ->). cbn [fst snd] in *.
  cbn [mv_ok comp_ok] in Wr. apply andb_prop in Wr as [Wr _]. apply andb_prop in Wr as [Wr _]. apply andb_prop in Wr as [Wc Wb].
  destruct (C11_eval_partial i g c _ Ty Wc Nc Dz) as [Rc|Rc]; [|destruct (Fc Rc)]. destruct (C11_eval_partial i g b _ Ty Wb Nb Dq) as [Rb|Rb]; [|destruct (Fb Rb)].
  assert (Lq : (q < 2 ^ 64)%N). { inversion Sr as [|? ? S0 _]; cbn in S0. change (2 ^ 64)%N with (2 * 9223372036854775808)%N. lia. }
  eexists. split.
  - unfold call. change (base_id [v; w]) with 0%N. rewrite Ar. cbn [op2]. rewrite E.
    unfold lazy_eval. change (stored_inputs [v; w]) with [v; w]. cbv beta iota zeta. change (base_id [v; w]) with 0%N.
    change (0 + 1)%N with 1%N. change (0 + N.of_nat (length [v; w]))%N with 2%N. rewrite V. cbn [run_stores].
    fold i. fold g. rewrite Rc, Rb. cbn. reflexivity.
  - intros g'. exists [(z, q)]. split; [|exact Cr]. cbn. exists ([], []). split; [|reflexivity]. exists ([], [q]). split; [reflexivity|]. split; [split; [reflexivity|exact Lq]|exact Dg].
Qed.

(** The types of the products and of their evaluation. *)
Definition typed_as (F k : nat) (m : expr -> expr -> option expr) (g1 g2 : N) (r : expr) : Prop :=
  match cmul F k m (arg 1 g1) (arg 2 g2) with
  | Some e => Some (e, eval_t F k 1 2 e)
  | None => None
  end = match r with Comp c (DBlade g b) => Some (r, Some (Comp SV (DBlade g SBits), [StV c; StB b])) | _ => None end.
Definition from (lo : nat) : list N := map N.of_nat (seq lo (64 - lo)).
Lemma in_from lo n : (lo <= N.to_nat n)%nat -> (n <= 63)%N -> In n (from lo).
Proof. intros A B. apply in_map_iff. exists (N.to_nat n). split; [lia|]. apply in_seq. lia. Qed.
(** The values of the products, as functions of the arguments. *)
Definition bits1 : expr := GBits 1 0.
Definition bits2 : expr := GBits 2 0.
Definition with_factor (f : list expr) (grades : N) : expr := Comp (Fn NMul ([GV 1 0; GV 2 0; Fn NSign [bits1; bits2]] ++ f)) (DBlade grades (Fn NXor [bits1; bits2])).
Definition odd_factor (n : N) : list expr := [Fn NIf [Fn NEqual [Fn NAnd [Fn NCount [Fn NAnd [Fn NAnd [bits1; bits2]; CBits (2 ^ (n - 1))]]; CV 1]; CV 0]; CV 1; CV (-1)]].
Definition null_factor (n : N) : list expr := [Fn NIf [Fn NEqual [Fn NAnd [Fn NAnd [bits1; bits2]; CBits (2 ^ (n - 1))]; CBits 0]; CV 1; CV 0]].
Definition outer_type (grades : N) : expr :=
  Comp (Fn NMul [GV 1 0; GV 2 0; Fn NIf [Fn NEqual [Fn NAdd [Fn NCount [bits1]; Fn NCount [bits2]]; Fn NCount [Fn NOr [bits1; bits2]]]; Fn NSign [bits1; bits2]; CV 0]]) (DBlade grades (Fn NOr [bits1; bits2])).
Ltac each := unfold from; cbn [map seq N.of_nat Nat.sub]; repeat (apply Forall_cons; [unfold typed_as; vm_compute; reflexivity|]); apply Forall_nil.
Lemma gp22 F k : Forall (fun n => typed_as (40 + F) (40 + k) (gp_map (40 + F) n 0 0) 2 2 (with_factor [] 5)) (from 2).
Proof. each. Qed.
Lemma gp22_odd F k : Forall (fun n => typed_as (40 + F) (40 + k) (gp_map (40 + F) (n - 1) 1 0) 2 2 (with_factor (odd_factor n) 5)) (from 2).
Proof. each. Qed.
Lemma gp22_null F k : Forall (fun n => typed_as (40 + F) (40 + k) (gp_map (40 + F) (n - 1) 0 1) 2 2 (with_factor (null_factor n) 5)) (from 2).
Proof. each. Qed.
Lemma gp24 F k : Forall (fun n => typed_as (40 + F) (40 + k) (gp_map (40 + F) n 0 0) 2 4 (with_factor [] 10)) (from 3).
Proof. each. Qed.
Lemma gp42 F k : Forall (fun n => typed_as (40 + F) (40 + k) (gp_map (40 + F) n 0 0) 4 2 (with_factor [] 10)) (from 3).
Proof. each. Qed.
Lemma op22 F k : Forall (fun n => typed_as (40 + F) (40 + k) (op_map (40 + F) n) 2 2 (outer_type 4)) (from 3).
Proof. each. Qed.
Lemma op24 F k : Forall (fun n => typed_as (40 + F) (40 + k) (op_map (40 + F) n) 2 4 (outer_type 8)) (from 4).
Proof. each. Qed.
Lemma op42 F k : Forall (fun n => typed_as (40 + F) (40 + k) (op_map (40 + F) n) 4 2 (outer_type 8)) (from 4).
Proof. each. Qed.

Lemma typed_split F k m g1 g2 c g b : typed_as F k m g1 g2 (Comp c (DBlade g b)) ->
  cmul F k m (arg 1 g1) (arg 2 g2) = Some (Comp c (DBlade g b)) /\ eval_t F k 1 2 (Comp c (DBlade g b)) = Some (Comp SV (DBlade g SBits), [StV c; StB b]).
Proof. unfold typed_as. destruct (cmul F k m (arg 1 g1) (arg 2 g2)) as [e|]; [|discriminate]. intros E. injection E as -> E. split; [reflexivity|exact E]. Qed.
Lemma one_sign a b : run_sign a b = 1 \/ run_sign a b = -1.
Proof. unfold run_sign. destruct (N.odd _); auto. Qed.
Lemma arith_z z : (- 100 <= z <= 100)%Z -> arith true (IZR z) = Val (VN (IZR z)).
Proof. intros H. unfold arith. rewrite Zof_IZR. replace (Z.leb (- 2 ^ 63) z && Z.ltb z (2 ^ 63))%bool with true; [reflexivity|]. symmetry. apply andb_true_intro. split; [apply Z.leb_le|apply Z.ltb_lt]; lia. Qed.
Section Runs.
Variables (x y : R) (a b g1 g2 : N).
Let i := ctx_int 0 [dyn_blade g1 x a; dyn_blade g2 y b].
Let g := ctx_env 0 [dyn_blade g1 x a; dyn_blade g2 y b].
Lemma r_plain : run i g (Fn NMul [GV 1 0; GV 2 0; Fn NSign [bits1; bits2]]) <> Overflow.
Proof. cbn -[run_sign]. discriminate. Qed.
Ltac reduce := lazy -[run_sign arith ones Rmult Rplus IZR N.lor N.land Z.land Z.of_N N.eqb Req_EM_T Zof not N.lt N.le grade_of].
Lemma r_factor t u v : run i g t <> Overflow -> (-1 <= u <= 1)%Z -> (-1 <= v <= 1)%Z ->
  run i g (Fn NMul [GV 1 0; GV 2 0; Fn NSign [bits1; bits2]; Fn NIf [t; CV u; CV v]]) <> Overflow.
Proof.
  intros Ht Hu Hv.
  assert (A : forall z, (-1 <= z <= 1)%Z -> arith true (run_sign a b * IZR z) <> Overflow).
  { intros z Hz. destruct (one_sign a b) as [-> | ->]; [change 1 with (IZR 1)|]; rewrite <- mult_IZR, arith_z by lia; discriminate. }
  assert (E : run i g (Fn NMul [GV 1 0; GV 2 0; Fn NSign [bits1; bits2]; Fn NIf [t; CV u; CV v]]) =
    lift2 (fun a b => Val (VN (a * b))) (Val (VN x)) (lift2 (fun a b => Val (VN (a * b))) (Val (VN y))
     (lift2 (fun a b => arith true (a * b)) (Val (VN (run_sign a b))) (match run i g t with Overflow => Overflow | Val (VT true) => Val (VN (IZR u)) | Val (VT false) => Val (VN (IZR v)) | _ => Undef end)))) by reflexivity.
  rewrite E. pose proof (A u Hu) as Au. pose proof (A v Hv) as Av. destruct (run i g t) as [[| |[]]| |]; cbn [lift2]; try discriminate; try congruence.
  - destruct (arith true (run_sign a b * IZR u)) as [[]| |]; cbn [lift2]; try discriminate; congruence.
  - destruct (arith true (run_sign a b * IZR v)) as [[]| |]; cbn [lift2]; try discriminate; congruence.
Qed.
Lemma r_odd m : run i g (Fn NEqual [Fn NAnd [Fn NCount [Fn NAnd [Fn NAnd [bits1; bits2]; CBits m]]; CV 1]; CV 0]) <> Overflow.
Proof. reduce. rewrite !Zof_IZR. cbv beta iota. discriminate. Qed.
Lemma r_null m : run i g (Fn NEqual [Fn NAnd [Fn NAnd [bits1; bits2]; CBits m]; CBits 0]) <> Overflow.
Proof. reduce. discriminate. Qed.
Lemma r_outer : (a < 2 ^ 64)%N -> (b < 2 ^ 64)%N -> (grade_of a <= 2)%N -> (grade_of b <= 2)%N ->
 run i g (Fn NMul [GV 1 0; GV 2 0; Fn NIf [Fn NEqual [Fn NAdd [Fn NCount [bits1]; Fn NCount [bits2]]; Fn NCount [Fn NOr [bits1; bits2]]]; Fn NSign [bits1; bits2]; CV 0]]) <> Overflow.
Proof.
  intros La Lb Ga Gb. reduce. rewrite !(ones_correct a), !(ones_correct b) by assumption. rewrite <- plus_IZR, arith_z by lia.
  destruct (Req_EM_T _ _); discriminate.
Qed.
End Runs.
Lemma r_bits f x y a b g1 g2 : f = NXor \/ f = NOr -> run (ctx_int 0 [dyn_blade g1 x a; dyn_blade g2 y b]) (ctx_env 0 [dyn_blade g1 x a; dyn_blade g2 y b]) (Fn f [bits1; bits2]) <> Overflow.
Proof. intros [-> | ->]; discriminate. Qed.

(** ** C56: products of run-time blades *)
Definition gives (r : result) (m : mv) : Prop := exists o, r = Some (Done o) /\ value o m.
Lemma gp_gives F k P Q R f grades g1 g2 x y a b : (P + Q + R <= 63)%N -> typed_as F k (gp_map F P Q R) g1 g2 (with_factor f grades) ->
  mv_ok (arg 1 g1) = true -> mv_ok (arg 2 g2) = true ->
  arguments 0 [dyn_blade g1 x a; dyn_blade g2 y b] = Some [arg 1 g1; arg 2 g2] ->
  (f = [] \/ exists t u v, f = [Fn NIf [t; CV u; CV v]] /\ no_int_div (ctx_int 0 [dyn_blade g1 x a; dyn_blade g2 y b]) t = true /\ (-1 <= u <= 1)%Z /\ (-1 <= v <= 1)%Z /\ run (ctx_int 0 [dyn_blade g1 x a; dyn_blade g2 y b]) (ctx_env 0 [dyn_blade g1 x a; dyn_blade g2 y b]) t <> Overflow) ->
  (a < 2 ^ (P + Q + R))%N -> (b < 2 ^ (P + Q + R))%N -> N.testbit g1 (grade_of a) = true -> N.testbit g2 (grade_of b) = true ->
  gives (gp F k P Q R (dyn_blade g1 x a) (dyn_blade g2 y b)) (bilinear (gp_blade (signature P Q)) [(x, a)] [(y, b)]).
Proof.
  intros H T M1 M2 A Hf La Lb Ta Tb. destruct (typed_split _ _ _ _ _ _ _ _ T) as [E V].
  refine (dyn_product F k (P + Q + R)%N _ _ _ _ _ g1 g2 x y a b E (C14_gp P Q R F k _ _ _ H M1 M2 E) V A _ _ _ (r_bits NXor _ _ _ _ _ _ (or_introl eq_refl)) H La Lb Ta Tb).
  - destruct Hf as [->|(t & u & v & -> & Nt & _)]; [reflexivity|]. cbn in Nt |- *. rewrite Nt. reflexivity.
  - reflexivity.
  - destruct Hf as [->|(t & u & v & -> & _ & Hu & Hv & Ht)]; [apply r_plain|]. apply r_factor; assumption.
Qed.
Lemma op_gives F k n grades g1 g2 x y a b : (n <= 63)%N -> typed_as F k (op_map F n) g1 g2 (outer_type grades) ->
  mv_ok (arg 1 g1) = true -> mv_ok (arg 2 g2) = true ->
  arguments 0 [dyn_blade g1 x a; dyn_blade g2 y b] = Some [arg 1 g1; arg 2 g2] ->
  (a < 2 ^ n)%N -> (b < 2 ^ n)%N -> N.testbit g1 (grade_of a) = true -> N.testbit g2 (grade_of b) = true ->
  (grade_of a <= 2)%N -> (grade_of b <= 2)%N ->
  gives (outer F k n (dyn_blade g1 x a) (dyn_blade g2 y b)) (bilinear op_blade [(x, a)] [(y, b)]).
Proof.
  intros H T M1 M2 A La Lb Ta Tb Ga Gb. destruct (typed_split _ _ _ _ _ _ _ _ T) as [E V].
  assert (W : (2 ^ n <= 2 ^ 64)%N) by (apply N.pow_le_mono_r; lia).
  refine (dyn_product F k n _ _ _ _ _ g1 g2 x y a b E (C16_op n F k _ _ _ H M1 M2 E) V A eq_refl eq_refl _ (r_bits NOr _ _ _ _ _ _ (or_intror eq_refl)) H La Lb Ta Tb).
  apply r_outer; try assumption; eapply N.lt_le_trans; eassumption.
Qed.

(** The objects x a and y b (run-time vectors) of an n-dimensional space: their geometric product in the Euclidean
    metric and in the metrics where the last basis vector squares to -1 or to 0, and their outer product, compile and
    have the value of the product, whatever the blades are (equal or not, in order or not). *)
Theorem C56_vectors_partial : forall F k n x y a b, (3 <= n <= 63)%N -> (a < 2 ^ n)%N -> (b < 2 ^ n)%N ->
  grade_of a = 1%N -> grade_of b = 1%N ->
  let u := dyn_blade 2 x a in let v := dyn_blade 2 y b in
  gives (gp (40 + F) (40 + k) n 0 0 u v) (bilinear (gp_blade (signature n 0)) [(x, a)] [(y, b)]) /\
  gives (gp (40 + F) (40 + k) (n - 1) 1 0 u v) (bilinear (gp_blade (signature (n - 1) 1)) [(x, a)] [(y, b)]) /\
  gives (gp (40 + F) (40 + k) (n - 1) 0 1 u v) (bilinear (gp_blade (signature (n - 1) 0)) [(x, a)] [(y, b)]) /\
  gives (outer (40 + F) (40 + k) n u v) (bilinear op_blade [(x, a)] [(y, b)]).
Proof.
  intros F k n x y a b Hn La Lb Ga Gb u v.
  assert (Ta : N.testbit 2 (grade_of a) = true) by (rewrite Ga; reflexivity). assert (Tb : N.testbit 2 (grade_of b) = true) by (rewrite Gb; reflexivity).
  assert (I2 : In n (from 2)) by (apply in_from; lia). assert (I3 : In n (from 3)) by (apply in_from; lia).
  split; [|split; [|split]].
  - apply (gp_gives _ _ n 0 0 [] 5); try rewrite !N.add_0_r; try assumption; try reflexivity; [lia| |left; reflexivity]. exact (proj1 (Forall_forall _ _) (gp22 F k) n I2).
  - assert (D : (n - 1 + 1 + 0 = n)%N) by lia. apply (gp_gives _ _ (n - 1) 1 0 (odd_factor n) 5); try rewrite D; try assumption; try reflexivity; [lia|exact (proj1 (Forall_forall _ _) (gp22_odd F k) n I2)|].
    right. do 3 eexists. split; [reflexivity|]. split; [reflexivity|]. split; [lia|]. split; [lia|apply r_odd].
  - assert (D : (n - 1 + 0 + 1 = n)%N) by lia. apply (gp_gives _ _ (n - 1) 0 1 (null_factor n) 5); try rewrite D; try assumption; try reflexivity; [lia|exact (proj1 (Forall_forall _ _) (gp22_null F k) n I2)|].
    right. do 3 eexists. split; [reflexivity|]. split; [reflexivity|]. split; [lia|]. split; [lia|apply r_null].
  - apply (op_gives _ _ n 4); try assumption; try reflexivity; [lia|exact (proj1 (Forall_forall _ _) (op22 F k) n I3)|lia|lia].
Qed.
Print Assumptions C56_vectors_partial.
(** A run-time vector and a run-time bivector, in both orders. *)
Theorem C56_bivectors_partial : forall F k n x y a b, (4 <= n <= 63)%N -> (a < 2 ^ n)%N -> (b < 2 ^ n)%N ->
  grade_of a = 1%N -> grade_of b = 2%N ->
  let u := dyn_blade 2 x a in let v := dyn_blade 4 y b in
  gives (gp (40 + F) (40 + k) n 0 0 u v) (bilinear (gp_blade (signature n 0)) [(x, a)] [(y, b)]) /\
  gives (gp (40 + F) (40 + k) n 0 0 v u) (bilinear (gp_blade (signature n 0)) [(y, b)] [(x, a)]) /\
  gives (outer (40 + F) (40 + k) n u v) (bilinear op_blade [(x, a)] [(y, b)]) /\
  gives (outer (40 + F) (40 + k) n v u) (bilinear op_blade [(y, b)] [(x, a)]).
Proof.
  intros F k n x y a b Hn La Lb Ga Gb u v.
  assert (Ta : N.testbit 2 (grade_of a) = true) by (rewrite Ga; reflexivity). assert (Tb : N.testbit 4 (grade_of b) = true) by (rewrite Gb; reflexivity).
  assert (I3 : In n (from 3)) by (apply in_from; lia). assert (I4 : In n (from 4)) by (apply in_from; lia).
  split; [|split; [|split]].
  - apply (gp_gives _ _ n 0 0 [] 10); try rewrite !N.add_0_r; try assumption; try reflexivity; [lia| |left; reflexivity]. exact (proj1 (Forall_forall _ _) (gp24 F k) n I3).
  - apply (gp_gives _ _ n 0 0 [] 10); try rewrite !N.add_0_r; try assumption; try reflexivity; [lia| |left; reflexivity]. exact (proj1 (Forall_forall _ _) (gp42 F k) n I3).
  - apply (op_gives _ _ n 8); try assumption; try reflexivity; [lia|exact (proj1 (Forall_forall _ _) (op24 F k) n I4)|lia|lia].
  - apply (op_gives _ _ n 8); try assumption; try reflexivity; [lia|exact (proj1 (Forall_forall _ _) (op42 F k) n I4)|lia|lia].
Qed.
Print Assumptions C56_bivectors_partial.
(** 2 e3 and 5 e1 in four dimensions: e3 e1 = - e1^e3; e4 e4 = -1 in the metric (3, 1); e3 ^ e3 = 0. *)
Example C56_case :
  gives (outer 40 40 4 (dyn_blade 2 2 4) (dyn_blade 2 5 1)) (bilinear op_blade [(2, 4%N)] [(5, 1%N)]) /\
  bilinear op_blade [(2, 4%N)] [(5, 1%N)] = [(2 * (5 * -1), 5%N)] /\ bilinear op_blade [(2, 4%N)] [(5, 4%N)] = [] /\
  gives (gp 40 40 3 1 0 (dyn_blade 2 2 8) (dyn_blade 2 5 8)) (bilinear (gp_blade (signature 3 1)) [(2, 8%N)] [(5, 8%N)]) /\
  bilinear (gp_blade (signature 3 1)) [(2, 8%N)] [(5, 8%N)] = [(2 * (5 * (1 * (-1 * 1))), 0%N)].
Proof.
  split; [exact (proj2 (proj2 (proj2 (C56_vectors_partial 0 0 4 2 5 4 1 ltac:(lia) ltac:(lia) ltac:(lia) eq_refl eq_refl))))|].
  split; [reflexivity|]. split; [reflexivity|].
  split; [exact (proj1 (proj2 (C56_vectors_partial 0 0 4 2 5 8 8 ltac:(lia) ltac:(lia) ltac:(lia) eq_refl eq_refl)))|]. reflexivity.
Qed.
