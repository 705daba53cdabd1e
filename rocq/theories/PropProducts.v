(** C14-C20: products and sign changes of multivectors. *)
From Coq Require Import NArith ZArith List Bool Reals Lra Lia.
From Verif Require Import Bits SpecBits Expr Sem Wf SpecMv SpecAlg SpecProd Simp Comp Mapping Ops.
From Verif Require Import MvBase CompProofs CompProofs2 ProductProofs OuterProofs GumProofs Clifford Clifford2 Clifford3 AlgProofs AlgProofs2 PropComp.
Import ListNotations.
Local Open Scope R_scope.

(** A run-time blade: vector z e_i whose index is only known at run time (bitset number 0 of input 2). *)
Definition ex_d : expr := Comp (GV 2 0) (DBlade 2 (GBits 2 0)).
Definition ex_h (x y z : R) (b : N) : env :=
  {| ev := fun t i => if N.eqb t 1 then (if N.eqb i 0 then Some x else Some y) else Some z; eb := fun _ _ => Some b |}.

(** C14 *)
Theorem C14_gp : forall P Q R F k a b r, (P + Q + R <= 63)%N -> mv_ok a = true -> mv_ok b = true ->
  cmul F k (gp_map F P Q R) a b = Some r -> is_product (gp_blade (signature P Q)) (P + Q + R) a b r.
Proof. intros P Q R F k a b r H Wa Wb E. exact (cmul_ok F _ _ _ (gp_map_ok P Q R H F) k a b r Wa Wb E). Qed.
Print Assumptions C14_gp.
(** ... spelled out as a sum over pairs of components. *)
Theorem C14_coefficients : forall q ma mb K,
  coef (bilinear (gp_blade q) ma mb) K =
  fold_right Rplus 0 (map (fun p => fold_right Rplus 0 (map (fun s =>
     if N.eqb (N.lxor (snd p) (snd s)) K
     then fst p * fst s * (sign_of (snd p) (snd s) * squares q (N.land (snd p) (snd s))) else 0) mb)) ma).
Proof.
  intros q ma mb K. induction ma as [|[c i] ma IH]; [reflexivity|]. cbn [map fold_right fst snd].
  change ((c, i) :: ma) with ([(c, i)] ++ ma). rewrite (bilinear_app_l (gp_blade q) [(c, i)] ma mb K), coef_app, IH. f_equal. clear IH ma.
  induction mb as [|[d j] mb IH].
  - unfold bilinear, linear. cbn [flat_map app scale map fold_right coef]. reflexivity.
  - change ((d, j) :: mb) with ([(d, j)] ++ mb) at 1. rewrite (bilinear_app_r (gp_blade q) [(c, i)] [(d, j)] mb K), coef_app, IH. cbn [map fold_right fst snd]. f_equal.
    unfold bilinear, linear, gp_blade. cbn [flat_map scale map app coef fst snd]. generalize (sign_of i j) (squares q (N.land i j)) (N.eqb (N.lxor i j) K). intros u v w. destruct w; ring.
Qed.
Print Assumptions C14_coefficients.
(** When an argument is a scalar the library uses the metric whose squares are all 1, in 63
    dimensions; on a scalar argument this is the product for every metric [q]. *)
Theorem C14_gp_scalar : forall q F k c b r, mv_ok (Comp c (CBlade 0)) = true -> mv_ok b = true ->
  (cmul F k (gp_real_map F) (Comp c (CBlade 0)) b = Some r -> is_product (gp_blade q) 63 (Comp c (CBlade 0)) b r) /\
  (cmul F k (gp_real_map F) b (Comp c (CBlade 0)) = Some r -> is_product (gp_blade q) 63 b (Comp c (CBlade 0)) r).
Proof. intros q F k c b r Wc Wb. split; [apply scalar_product_ok; auto|apply scalar_product_ok_r; auto]. Qed.
Print Assumptions C14_gp_scalar.
Example C14_case : (* (x e1 + y e12)(3 e1 + e2) in R^{1,1}: 3x - y e1 - 3y e2 + x e12 *)
  mv_ok ex_a = true /\ mv_ok ex_b = true /\
  cmul 40 40 (gp_map 40 1 1 0) ex_a ex_b = Some (Fn NAdd [
    Comp (Fn NMul [CV 3; GV 1 0]) (CBlade 0);
    Comp (Fn NMul [CV (-1); GV 1 1]) (CBlade 1);
    Comp (Fn NMul [CV (-3); GV 1 1]) (CBlade 2);
    Comp (GV 1 0) (CBlade 3)]) /\
  (forall x y, den (ex_g x y) ex_a [(x, 1%N); (y, 3%N)] /\ in_space 2 [(x, 1%N); (y, 3%N)]).
Proof.
  split; [reflexivity|]. split; [reflexivity|]. split; [vm_compute; reflexivity|]. intros x y. split; [apply ex_a_value|]. repeat constructor.
Qed.

(** C15 *)
Theorem C15_associative : forall P Q R F k a b c ab bc r s g, (P + Q + R <= 63)%N ->
  mv_ok a = true -> mv_ok b = true -> mv_ok c = true ->
  cmul F k (gp_map F P Q R) a b = Some ab -> cmul F k (gp_map F P Q R) ab c = Some r ->
  cmul F k (gp_map F P Q R) b c = Some bc -> cmul F k (gp_map F P Q R) a bc = Some s ->
  in_dim (P + Q + R) g a -> in_dim (P + Q + R) g b -> in_dim (P + Q + R) g c -> same g r s.
Proof. exact gp_expr_assoc. Qed.
Print Assumptions C15_associative.
Theorem C15_distributive : forall P Q R F k a b c ab ac bc r s g, (P + Q + R <= 63)%N ->
  mv_ok a = true -> mv_ok b = true -> mv_ok c = true ->
  cadd F k a b = Some ab -> cmul F k (gp_map F P Q R) a c = Some ac -> cmul F k (gp_map F P Q R) b c = Some bc ->
  cmul F k (gp_map F P Q R) ab c = Some r -> cadd F k ac bc = Some s ->
  in_dim (P + Q + R) g a -> in_dim (P + Q + R) g b -> in_dim (P + Q + R) g c -> same g r s.
Proof. exact gp_expr_distr_r. Qed.
Print Assumptions C15_distributive.
Theorem C15_distributive_left : forall P Q R F k a b c ab ca cb r s g, (P + Q + R <= 63)%N ->
  mv_ok a = true -> mv_ok b = true -> mv_ok c = true ->
  cadd F k a b = Some ab -> cmul F k (gp_map F P Q R) c a = Some ca -> cmul F k (gp_map F P Q R) c b = Some cb ->
  cmul F k (gp_map F P Q R) c ab = Some r -> cadd F k ca cb = Some s ->
  in_dim (P + Q + R) g a -> in_dim (P + Q + R) g b -> in_dim (P + Q + R) g c -> same g r s.
Proof. exact gp_expr_distr_l. Qed.
Print Assumptions C15_distributive_left.
Theorem C15_unit : forall P Q R F k a r s g, (P + Q + R <= 63)%N -> mv_ok a = true ->
  cmul F k (gp_map F P Q R) (c_expr 1) a = Some r -> cmul F k (gp_map F P Q R) a (c_expr 1) = Some s ->
  in_dim (P + Q + R) g a -> same g r a /\ same g s a.
Proof. exact gp_expr_unit. Qed.
Print Assumptions C15_unit.
(** Basis vectors: [Comp (CV 1) (CBlade (2 ^ i))] is the vector e_(i+1). *)
Theorem C15_squares : forall P Q R F k i r g, (P + Q + R <= 63)%N -> (i < P + Q + R)%N ->
  cmul F k (gp_map F P Q R) (Comp (CV 1) (CBlade (2 ^ i))) (Comp (CV 1) (CBlade (2 ^ i))) = Some r ->
  has_value g r [(signature P Q i, 0%N)].
Proof. exact gp_expr_square. Qed.
Print Assumptions C15_squares.
Theorem C15_anticommute : forall P Q R F k i j r s g, (P + Q + R <= 63)%N -> (i < P + Q + R)%N -> (j < P + Q + R)%N -> i <> j ->
  cmul F k (gp_map F P Q R) (Comp (CV 1) (CBlade (2 ^ i))) (Comp (CV 1) (CBlade (2 ^ j))) = Some r ->
  cmul F k (gp_map F P Q R) (Comp (CV 1) (CBlade (2 ^ j))) (Comp (CV 1) (CBlade (2 ^ i))) = Some s ->
  exists m, has_value g s m /\ has_value g r (scale (-1) m).
Proof. exact gp_expr_anticomm. Qed.
Print Assumptions C15_anticommute.
Example C15_case : exists ab bc r,
  cmul 40 40 (gp_map 40 2 1 0) ex_a ex_b = Some ab /\ cmul 40 40 (gp_map 40 2 1 0) ab ex_a = Some r /\
  cmul 40 40 (gp_map 40 2 1 0) ex_b ex_a = Some bc /\ cmul 40 40 (gp_map 40 2 1 0) ex_a bc <> None /\
  cmul 40 40 (gp_map 40 2 1 0) (Comp (CV 1) (CBlade 4)) (Comp (CV 1) (CBlade 4)) = Some (c_expr (-1)).
Proof. do 3 eexists. repeat (split; [vm_compute; reflexivity|]). split; [vm_compute; discriminate|]. vm_compute; reflexivity. Qed.

(** C16 *)
Theorem C16_op : forall n F k a b r, (n <= 63)%N -> mv_ok a = true -> mv_ok b = true ->
  cmul F k (op_map F n) a b = Some r -> is_product op_blade n a b r.
Proof. intros n F k a b r H Wa Wb E. exact (cmul_ok F _ _ _ (op_map_ok F n H) k a b r Wa Wb E). Qed.
Print Assumptions C16_op.
Theorem C16_associative : forall n F k a b c ab bc r s g, (n <= 63)%N ->
  mv_ok a = true -> mv_ok b = true -> mv_ok c = true ->
  cmul F k (op_map F n) a b = Some ab -> cmul F k (op_map F n) ab c = Some r ->
  cmul F k (op_map F n) b c = Some bc -> cmul F k (op_map F n) a bc = Some s ->
  in_dim n g a -> in_dim n g b -> in_dim n g c -> same g r s.
Proof. exact op_expr_assoc. Qed.
Print Assumptions C16_associative.
Theorem C16_vector_square : forall n F k v r g m, (n <= 63)%N -> mv_ok v = true -> cmul F k (op_map F n) v v = Some r ->
  den g v m -> in_space n m -> homog 1 m -> has_value g r [].
Proof. exact op_expr_vector. Qed.
Print Assumptions C16_vector_square.
(** Graded commutativity. *)
Theorem C16_commute : forall n F k a b r s g ma mb p q, (n <= 63)%N -> mv_ok a = true -> mv_ok b = true ->
  cmul F k (op_map F n) a b = Some r -> cmul F k (op_map F n) b a = Some s ->
  den g a ma -> den g b mb -> in_space n ma -> in_space n mb -> homog p ma -> homog q mb ->
  exists m, has_value g r m /\ has_value g s (scale (if N.odd (p * q) then -1 else 1) m).
Proof. exact op_expr_comm. Qed.
Print Assumptions C16_commute.
(** Grades add: the product of values of grades p and q is of grade p + q. *)
Theorem C16_grades : forall p q ma mb, homog p ma -> homog q mb -> homog (p + q) (bilinear op_blade ma mb).
Proof. exact op_grades_add. Qed.
Print Assumptions C16_grades.
(** The product does not depend on the space: two spaces that contain the operands give the same value. *)
Theorem C16_metric_free : forall n n' F k a b r s g, (n <= 63)%N -> (n' <= 63)%N -> mv_ok a = true -> mv_ok b = true ->
  cmul F k (op_map F n) a b = Some r -> cmul F k (op_map F n') a b = Some s ->
  in_dim n g a -> in_dim n g b -> in_dim n' g a -> in_dim n' g b -> same g r s.
Proof. exact op_expr_free. Qed.
Print Assumptions C16_metric_free.
Example C16_case : (* (x e1 + y e12) ^ (3 e1 + e2) = x e12 *)
  cmul 40 40 (op_map 40 3) ex_a ex_b = Some (Comp (GV 1 0) (CBlade 3)).
Proof. vm_compute; reflexivity. Qed.

(** C17 *)
Theorem C17_lcont : forall P Q R F k a b r, (P + Q + R <= 63)%N -> mv_ok a = true -> mv_ok b = true ->
  cmul F k (lcont_map F P Q R) a b = Some r -> is_product (lcont_blade (signature P Q)) (P + Q + R) a b r.
Proof. intros P Q R F k a b r H Wa Wb E. exact (cmul_ok F _ _ _ (lcont_map_ok P Q R H F) k a b r Wa Wb E). Qed.
Print Assumptions C17_lcont.
Theorem C17_rcont : forall P Q R F k a b r, (P + Q + R <= 63)%N -> mv_ok a = true -> mv_ok b = true ->
  cmul F k (rcont_map F P Q R) a b = Some r -> is_product (rcont_blade (signature P Q)) (P + Q + R) a b r.
Proof. intros P Q R F k a b r H Wa Wb E. exact (cmul_ok F _ _ _ (rcont_map_ok P Q R H F) k a b r Wa Wb E). Qed.
Print Assumptions C17_rcont.
Theorem C17_sp : forall P Q R F k a b r, (P + Q + R <= 63)%N -> mv_ok a = true -> mv_ok b = true ->
  cmul F k (sp_map F P Q R) a b = Some r -> is_product (sp_blade (signature P Q)) (P + Q + R) a b r.
Proof. intros P Q R F k a b r H Wa Wb E. exact (cmul_ok F _ _ _ (sp_map_ok P Q R H F) k a b r Wa Wb E). Qed.
Print Assumptions C17_sp.
Theorem C17_dot : forall P Q R F k a b r, (P + Q + R <= 63)%N -> mv_ok a = true -> mv_ok b = true ->
  cmul F k (dot_map F P Q R) a b = Some r -> is_product (dot_blade (signature P Q)) (P + Q + R) a b r.
Proof. intros P Q R F k a b r H Wa Wb E. exact (cmul_ok F _ _ _ (dot_map_ok P Q R H F) k a b r Wa Wb E). Qed.
Print Assumptions C17_dot.
Theorem C17_hip : forall P Q R F k a b r, (P + Q + R <= 63)%N -> mv_ok a = true -> mv_ok b = true ->
  cmul F k (hip_map F P Q R) a b = Some r -> is_product (hip_blade (signature P Q)) (P + Q + R) a b r.
Proof. intros P Q R F k a b r H Wa Wb E. exact (cmul_ok F _ _ _ (hip_map_ok P Q R H F) k a b r Wa Wb E). Qed.
Print Assumptions C17_hip.
(** The products above are grade parts of the geometric product. *)
Theorem C17_grade_parts : forall q r s a b, homog r a -> homog s b ->
  let g := bilinear (gp_blade q) a b in
  meq (bilinear (lcont_blade q) a b) (if N.leb r s then grade_part (s - r) g else []) /\
  meq (bilinear (rcont_blade q) a b) (if N.leb s r then grade_part (r - s) g else []) /\
  meq (bilinear (sp_blade q) a b) (grade_part 0 g) /\
  meq (bilinear (dot_blade q) a b) (grade_part (absdiff r s) g) /\
  meq (bilinear (hip_blade q) a b) (if (N.eqb r 0 || N.eqb s 0)%bool then [] else grade_part (absdiff r s) g).
Proof. exact inner_parts. Qed.
Print Assumptions C17_grade_parts.
(** At the level of the library's results: the product of homogeneous arguments and the
    geometric product of the same arguments have the values related above. *)
Theorem C17_lcont_of_gp : forall P Q R F k a b gpr r g ma mb p s, (P + Q + R <= 63)%N -> mv_ok a = true -> mv_ok b = true ->
  cmul F k (gp_map F P Q R) a b = Some gpr -> cmul F k (lcont_map F P Q R) a b = Some r ->
  den g a ma -> den g b mb -> in_space (P + Q + R) ma -> in_space (P + Q + R) mb -> homog p ma -> homog s mb -> (p <= s)%N ->
  exists m, has_value g gpr m /\ has_value g r (grade_part (s - p) m).
Proof. exact lcont_of_gp. Qed.
Print Assumptions C17_lcont_of_gp.
Example C17_case : (* (e1) . (x e1 + y e12) = x + y e2, and dot with the scalar part *)
  cmul 40 40 (lcont_map 40 3 0 0) (Comp (CV 1) (CBlade 1)) ex_a = Some (Fn NAdd [Comp (GV 1 0) (CBlade 0); Comp (GV 1 1) (CBlade 2)]) /\
  cmul 40 40 (rcont_map 40 3 0 0) ex_a (Comp (CV 1) (CBlade 1)) = Some (Fn NAdd [Comp (GV 1 0) (CBlade 0); Comp (Fn NMul [CV (-1); GV 1 1]) (CBlade 2)]) /\
  cmul 40 40 (sp_map 40 3 0 0) ex_a ex_b = Some (Comp (Fn NMul [CV 3; GV 1 0]) (CBlade 0)) /\
  cmul 40 40 (hip_map 40 3 0 0) (c_expr 2) ex_a = Some (c_expr 0) /\
  cmul 40 40 (dot_map 40 3 0 0) (c_expr 2) ex_a = Some (Fn NAdd [Comp (Fn NMul [CV 2; GV 1 0]) (CBlade 1); Comp (Fn NMul [CV 2; GV 1 1]) (CBlade 3)]).
Proof. repeat split; vm_compute; reflexivity. Qed.

(** C18 *)
Theorem C18_rp : forall n F k a b r, (n <= 63)%N -> mv_ok a = true -> mv_ok b = true ->
  cmul F k (rp_map F n) a b = Some r -> is_product (rp_blade n) n a b r.
Proof. intros n F k a b r H Wa Wb E. exact (cmul_ok F _ _ _ (rp_map_ok F n H) k a b r Wa Wb E). Qed.
Print Assumptions C18_rp.
(** The pseudoscalar is a two-sided unit. *)
Theorem C18_unit : forall n F k a r s g, (n <= 63)%N -> mv_ok a = true ->
  cmul F k (rp_map F n) (Comp (CV 1) (CBlade (2 ^ n - 1))) a = Some r -> cmul F k (rp_map F n) a (Comp (CV 1) (CBlade (2 ^ n - 1))) = Some s ->
  in_dim n g a -> same g r a /\ same g s a.
Proof. exact rp_expr_unit. Qed.
Print Assumptions C18_unit.
Theorem C18_associative : forall n F k a b c ab bc r s g, (n <= 63)%N ->
  mv_ok a = true -> mv_ok b = true -> mv_ok c = true ->
  cmul F k (rp_map F n) a b = Some ab -> cmul F k (rp_map F n) ab c = Some r ->
  cmul F k (rp_map F n) b c = Some bc -> cmul F k (rp_map F n) a bc = Some s ->
  in_dim n g a -> in_dim n g b -> in_dim n g c -> same g r s.
Proof. exact rp_expr_assoc. Qed.
Print Assumptions C18_associative.
(** Duality: complementing blades turns the regressive product into the exterior product. *)
Theorem C18_dual : forall n a b, in_space n a -> in_space n b ->
  meq (bilinear (rp_blade n) a b) (complements n (bilinear op_blade (complements n b) (complements n a))).
Proof. exact rp_dual. Qed.
Print Assumptions C18_dual.
Example C18_case : (* in 3 dimensions (x e1 + y e12) v e23 = x + y e2 ... *)
  cmul 40 40 (rp_map 40 3) ex_a (Comp (CV 1) (CBlade 6)) = Some (Fn NAdd [Comp (GV 1 0) (CBlade 0); Comp (GV 1 1) (CBlade 2)]).
Proof. vm_compute; reflexivity. Qed.

(** C19 *)
Theorem C19_reversion : forall F k a r, mv_ok a = true -> gum F k reverse_pattern a = Some r -> is_image rev_blade a r.
Proof. exact (fun F k => reverse_ok F k). Qed.
Print Assumptions C19_reversion.
Theorem C19_involution : forall F k a r, mv_ok a = true -> gum F k involute_pattern a = Some r -> is_image inv_blade a r.
Proof. exact (fun F k => involute_ok F k). Qed.
Print Assumptions C19_involution.
Theorem C19_conjugation : forall F k a r, mv_ok a = true -> gum F k conjugate_pattern a = Some r -> is_image conj_blade a r.
Proof. exact (fun F k => conjugate_ok F k). Qed.
Print Assumptions C19_conjugation.
Theorem C19_reverse_twice : forall F k a r s g n, (n <= 63)%N -> mv_ok a = true -> gum F k reverse_pattern a = Some r -> gum F k reverse_pattern r = Some s ->
  in_dim n g a -> same g s a.
Proof. exact rev_expr_twice. Qed.
Print Assumptions C19_reverse_twice.
Theorem C19_involute_twice : forall F k a r s g n, (n <= 63)%N -> mv_ok a = true -> gum F k involute_pattern a = Some r -> gum F k involute_pattern r = Some s ->
  in_dim n g a -> same g s a.
Proof. exact inv_expr_twice. Qed.
Print Assumptions C19_involute_twice.
Theorem C19_conjugate_twice : forall F k a r s g n, (n <= 63)%N -> mv_ok a = true -> gum F k conjugate_pattern a = Some r -> gum F k conjugate_pattern r = Some s ->
  in_dim n g a -> same g s a.
Proof. exact conj_expr_twice. Qed.
Print Assumptions C19_conjugate_twice.
Theorem C19_reverse_product : forall P Q R F k a b ab r ra rb s g, (P + Q + R <= 63)%N -> mv_ok a = true -> mv_ok b = true ->
  cmul F k (gp_map F P Q R) a b = Some ab -> gum F k reverse_pattern ab = Some r ->
  gum F k reverse_pattern a = Some ra -> gum F k reverse_pattern b = Some rb -> cmul F k (gp_map F P Q R) rb ra = Some s ->
  in_dim (P + Q + R) g a -> in_dim (P + Q + R) g b -> same g r s.
Proof. exact rev_expr_gp. Qed.
Print Assumptions C19_reverse_product.
Theorem C19_involute_product : forall P Q R F k a b ab r ra rb s g, (P + Q + R <= 63)%N -> mv_ok a = true -> mv_ok b = true ->
  cmul F k (gp_map F P Q R) a b = Some ab -> gum F k involute_pattern ab = Some r ->
  gum F k involute_pattern a = Some ra -> gum F k involute_pattern b = Some rb -> cmul F k (gp_map F P Q R) ra rb = Some s ->
  in_dim (P + Q + R) g a -> in_dim (P + Q + R) g b -> same g r s.
Proof. exact inv_expr_gp. Qed.
Print Assumptions C19_involute_product.
Theorem C19_conjugate_composes : forall F k a r s t g n, (n <= 63)%N -> mv_ok a = true ->
  gum F k conjugate_pattern a = Some r -> gum F k involute_pattern a = Some s -> gum F k reverse_pattern s = Some t ->
  in_dim n g a -> same g r t.
Proof. exact conj_expr_composes. Qed.
Print Assumptions C19_conjugate_composes.
Example C19_case : gum 40 40 reverse_pattern ex_a = Some (Fn NAdd [Comp (GV 1 0) (CBlade 1); Comp (Fn NMul [CV (-1); GV 1 1]) (CBlade 3)]) /\
  gum 40 40 involute_pattern ex_a = Some (Fn NAdd [Comp (Fn NMul [CV (-1); GV 1 0]) (CBlade 1); Comp (GV 1 1) (CBlade 3)]) /\
  gum 40 40 conjugate_pattern ex_a = Some (Fn NAdd [Comp (Fn NMul [CV (-1); GV 1 0]) (CBlade 1); Comp (Fn NMul [CV (-1); GV 1 1]) (CBlade 3)]).
Proof. repeat split; vm_compute; reflexivity. Qed.

(** C20: whether blades are known at compile time or only at run time, operands with the same
    values have products with the same value. *)
Theorem C20_gp : forall P Q R F k a b a' b' r r' g, (P + Q + R <= 63)%N -> mv_ok a = true -> mv_ok b = true -> mv_ok a' = true -> mv_ok b' = true ->
  cmul F k (gp_map F P Q R) a b = Some r -> cmul F k (gp_map F P Q R) a' b' = Some r' ->
  in_dim (P + Q + R) g a -> in_dim (P + Q + R) g b -> in_dim (P + Q + R) g a' -> in_dim (P + Q + R) g b' -> same g a a' -> same g b b' -> same g r r'.
Proof. intros P Q R F k a b a' b' r r' g H. exact (same_products _ _ _ (gp_map_ok P Q R H F) F k a b a' b' r r' g). Qed.
Print Assumptions C20_gp.
Theorem C20_lcont : forall P Q R F k a b a' b' r r' g, (P + Q + R <= 63)%N -> mv_ok a = true -> mv_ok b = true -> mv_ok a' = true -> mv_ok b' = true ->
  cmul F k (lcont_map F P Q R) a b = Some r -> cmul F k (lcont_map F P Q R) a' b' = Some r' ->
  in_dim (P + Q + R) g a -> in_dim (P + Q + R) g b -> in_dim (P + Q + R) g a' -> in_dim (P + Q + R) g b' -> same g a a' -> same g b b' -> same g r r'.
Proof. intros P Q R F k a b a' b' r r' g H. exact (same_products _ _ _ (lcont_map_ok P Q R H F) F k a b a' b' r r' g). Qed.
Print Assumptions C20_lcont.
Theorem C20_rcont : forall P Q R F k a b a' b' r r' g, (P + Q + R <= 63)%N -> mv_ok a = true -> mv_ok b = true -> mv_ok a' = true -> mv_ok b' = true ->
  cmul F k (rcont_map F P Q R) a b = Some r -> cmul F k (rcont_map F P Q R) a' b' = Some r' ->
  in_dim (P + Q + R) g a -> in_dim (P + Q + R) g b -> in_dim (P + Q + R) g a' -> in_dim (P + Q + R) g b' -> same g a a' -> same g b b' -> same g r r'.
Proof. intros P Q R F k a b a' b' r r' g H. exact (same_products _ _ _ (rcont_map_ok P Q R H F) F k a b a' b' r r' g). Qed.
Print Assumptions C20_rcont.
Theorem C20_sp : forall P Q R F k a b a' b' r r' g, (P + Q + R <= 63)%N -> mv_ok a = true -> mv_ok b = true -> mv_ok a' = true -> mv_ok b' = true ->
  cmul F k (sp_map F P Q R) a b = Some r -> cmul F k (sp_map F P Q R) a' b' = Some r' ->
  in_dim (P + Q + R) g a -> in_dim (P + Q + R) g b -> in_dim (P + Q + R) g a' -> in_dim (P + Q + R) g b' -> same g a a' -> same g b b' -> same g r r'.
Proof. intros P Q R F k a b a' b' r r' g H. exact (same_products _ _ _ (sp_map_ok P Q R H F) F k a b a' b' r r' g). Qed.
Print Assumptions C20_sp.
Theorem C20_dot : forall P Q R F k a b a' b' r r' g, (P + Q + R <= 63)%N -> mv_ok a = true -> mv_ok b = true -> mv_ok a' = true -> mv_ok b' = true ->
  cmul F k (dot_map F P Q R) a b = Some r -> cmul F k (dot_map F P Q R) a' b' = Some r' ->
  in_dim (P + Q + R) g a -> in_dim (P + Q + R) g b -> in_dim (P + Q + R) g a' -> in_dim (P + Q + R) g b' -> same g a a' -> same g b b' -> same g r r'.
Proof. intros P Q R F k a b a' b' r r' g H. exact (same_products _ _ _ (dot_map_ok P Q R H F) F k a b a' b' r r' g). Qed.
Print Assumptions C20_dot.
Theorem C20_hip : forall P Q R F k a b a' b' r r' g, (P + Q + R <= 63)%N -> mv_ok a = true -> mv_ok b = true -> mv_ok a' = true -> mv_ok b' = true ->
  cmul F k (hip_map F P Q R) a b = Some r -> cmul F k (hip_map F P Q R) a' b' = Some r' ->
  in_dim (P + Q + R) g a -> in_dim (P + Q + R) g b -> in_dim (P + Q + R) g a' -> in_dim (P + Q + R) g b' -> same g a a' -> same g b b' -> same g r r'.
Proof. intros P Q R F k a b a' b' r r' g H. exact (same_products _ _ _ (hip_map_ok P Q R H F) F k a b a' b' r r' g). Qed.
Print Assumptions C20_hip.
Theorem C20_op : forall n F k a b a' b' r r' g, (n <= 63)%N -> mv_ok a = true -> mv_ok b = true -> mv_ok a' = true -> mv_ok b' = true ->
  cmul F k (op_map F n) a b = Some r -> cmul F k (op_map F n) a' b' = Some r' ->
  in_dim n g a -> in_dim n g b -> in_dim n g a' -> in_dim n g b' -> same g a a' -> same g b b' -> same g r r'.
Proof. intros n F k a b a' b' r r' g H. exact (same_products _ _ _ (op_map_ok F n H) F k a b a' b' r r' g). Qed.
Print Assumptions C20_op.
Theorem C20_rp : forall n F k a b a' b' r r' g, (n <= 63)%N -> mv_ok a = true -> mv_ok b = true -> mv_ok a' = true -> mv_ok b' = true ->
  cmul F k (rp_map F n) a b = Some r -> cmul F k (rp_map F n) a' b' = Some r' ->
  in_dim n g a -> in_dim n g b -> in_dim n g a' -> in_dim n g b' -> same g a a' -> same g b b' -> same g r r'.
Proof. intros n F k a b a' b' r r' g H. exact (same_products _ _ _ (rp_map_ok F n H) F k a b a' b' r r' g). Qed.
Print Assumptions C20_rp.
Example C20_case : (* z e_i, i known at run time, times e2: e.g. e_i = e1 *)
  mv_ok ex_d = true /\ (forall x y z, den (ex_h x y z 1) ex_d [(z, 1%N)]) /\
  same (ex_h 0 0 7 1) ex_d (Comp (CV 7) (CBlade 1)) /\
  cmul 40 40 (gp_map 40 3 0 0) ex_d (Comp (CV 1) (CBlade 2)) <> None /\
  cmul 40 40 (gp_map 40 3 0 0) (Comp (CV 7) (CBlade 1)) (Comp (CV 1) (CBlade 2)) = Some (Comp (CV 7) (CBlade 3)).
Proof.
  assert (D : forall x y z, den (ex_h x y z 1) ex_d [(z, 1%N)]).
  { intros x y z. exists (z, 1%N). split; [|reflexivity]. split; [reflexivity|]. split; [reflexivity|]. intros _. reflexivity. }
  split; [reflexivity|]. split; [exact D|]. split.
  - exists [(7, 1%N)]. split; [apply den_value, D|]. apply den_value. exists (7, 1%N). split; [|reflexivity]. split; [reflexivity|]. split; [reflexivity|]. intros _. exact Logic.I.
  - split; vm_compute; [discriminate|reflexivity].
Qed.
