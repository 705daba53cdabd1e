(** The algebraic laws, for the expressions the library builds. *)
From Coq Require Import NArith ZArith List Bool Reals Lra Lia Setoid Morphisms.
From Verif Require Import Bits SpecBits Expr Sem Wf SpecMv SpecAlg SpecProd MvBase Simp SimpProofs Comp CompProofs CompProofs2 Mapping ProductProofs OuterProofs GumProofs.
From Verif Require Import Clifford Clifford2 Clifford3 Ops AlgProofs.
Import ListNotations.
Local Open Scope R_scope.

(** A product whose blade product is associative. *)
Lemma expr_assoc mult f n : mult_ok mult f n ->
  (forall a b c, in_space n a -> in_space n b -> in_space n c -> meq (bilinear f (bilinear f a b) c) (bilinear f a (bilinear f b c))) ->
  forall F k a b c ab bc r s g, mv_ok a = true -> mv_ok b = true -> mv_ok c = true ->
  cmul F k mult a b = Some ab -> cmul F k mult ab c = Some r -> cmul F k mult b c = Some bc -> cmul F k mult a bc = Some s ->
  in_dim n g a -> in_dim n g b -> in_dim n g c -> same g r s.
Proof.
  intros M H F k a b c ab bc r s g Wa Wb Wc E1 E2 E3 E4 Da Db Dc.
  destruct (mul_value _ _ _ F k _ _ _ M Wa Wb E1) as [Wab V1]. destruct (mul_value _ _ _ F k _ _ _ M Wab Wc E2) as [_ V2].
  destruct (mul_value _ _ _ F k _ _ _ M Wb Wc E3) as [Wbc V3]. destruct (mul_value _ _ _ F k _ _ _ M Wa Wbc E4) as [_ V4].
  destruct (in_dim_value _ _ _ Da) as (ma & Ha & Ia). destruct (in_dim_value _ _ _ Db) as (mb & Hb & Ib). destruct (in_dim_value _ _ _ Dc) as (mc & Hc & Ic).
  destruct (V1 g Da Db) as [Dab V1']. destruct (V2 g Dab Dc) as [_ V2']. destruct (V3 g Db Dc) as [Dbc V3']. destruct (V4 g Da Dbc) as [_ V4'].
  eapply same_intro; [apply V2'; [apply V1'; eassumption|eassumption]|apply V4'; [eassumption|apply V3'; eassumption]|]. apply H; auto.
Qed.
Lemma same_products mult f n : mult_ok mult f n -> forall F k a b a' b' r r' g, mv_ok a = true -> mv_ok b = true -> mv_ok a' = true -> mv_ok b' = true ->
  cmul F k mult a b = Some r -> cmul F k mult a' b' = Some r' ->
  in_dim n g a -> in_dim n g b -> in_dim n g a' -> in_dim n g b' -> same g a a' -> same g b b' -> same g r r'.
Proof.
  intros M F k a b a' b' r r' g Wa Wb Wa' Wb' E E' Da Db Da' Db' (ma & A1 & A2) (mb & B1 & B2).
  destruct (mul_value _ _ _ F k _ _ _ M Wa Wb E) as [_ V]. destruct (mul_value _ _ _ F k _ _ _ M Wa' Wb' E') as [_ V'].
  exists (bilinear f ma mb). split; [apply (V g Da Db)|apply (V' g Da' Db')]; auto.
Qed.
Lemma gp_expr_assoc P Q R F k a b c ab bc r s g : (P + Q + R <= 63)%N ->
  mv_ok a = true -> mv_ok b = true -> mv_ok c = true ->
  cmul F k (gp_map F P Q R) a b = Some ab -> cmul F k (gp_map F P Q R) ab c = Some r ->
  cmul F k (gp_map F P Q R) b c = Some bc -> cmul F k (gp_map F P Q R) a bc = Some s ->
  in_dim (P + Q + R) g a -> in_dim (P + Q + R) g b -> in_dim (P + Q + R) g c -> same g r s.
Proof. intros H. apply (expr_assoc _ _ _ (gp_map_ok P Q R H F)). intros. apply gp_assoc. Qed.
Lemma op_expr_assoc n F k a b c ab bc r s g : (n <= 63)%N ->
  mv_ok a = true -> mv_ok b = true -> mv_ok c = true ->
  cmul F k (op_map F n) a b = Some ab -> cmul F k (op_map F n) ab c = Some r ->
  cmul F k (op_map F n) b c = Some bc -> cmul F k (op_map F n) a bc = Some s ->
  in_dim n g a -> in_dim n g b -> in_dim n g c -> same g r s.
Proof. intros H. apply (expr_assoc _ _ _ (op_map_ok F n H)). intros. apply op_assoc. Qed.
Lemma rp_expr_assoc n F k a b c ab bc r s g : (n <= 63)%N ->
  mv_ok a = true -> mv_ok b = true -> mv_ok c = true ->
  cmul F k (rp_map F n) a b = Some ab -> cmul F k (rp_map F n) ab c = Some r ->
  cmul F k (rp_map F n) b c = Some bc -> cmul F k (rp_map F n) a bc = Some s ->
  in_dim n g a -> in_dim n g b -> in_dim n g c -> same g r s.
Proof. intros H. apply (expr_assoc _ _ _ (rp_map_ok F n H)). intros. apply rp_assoc; auto. Qed.

Lemma gp_expr_distr_r P Q R F k a b c ab ac bc r s g : (P + Q + R <= 63)%N ->
  mv_ok a = true -> mv_ok b = true -> mv_ok c = true ->
  cadd F k a b = Some ab -> cmul F k (gp_map F P Q R) a c = Some ac -> cmul F k (gp_map F P Q R) b c = Some bc ->
  cmul F k (gp_map F P Q R) ab c = Some r -> cadd F k ac bc = Some s ->
  in_dim (P + Q + R) g a -> in_dim (P + Q + R) g b -> in_dim (P + Q + R) g c -> same g r s.
Proof.
  intros H Wa Wb Wc E1 E2 E3 E4 E5 Da Db Dc. pose proof (gp_map_ok P Q R H F) as M.
  destruct (add_value _ _ _ _ _ Wa Wb E1) as (Wab & V1 & D1). destruct (mul_value _ _ _ F k _ _ _ M Wa Wc E2) as [Wac V2].
  destruct (mul_value _ _ _ F k _ _ _ M Wb Wc E3) as [Wbc V3]. destruct (mul_value _ _ _ F k _ _ _ M Wab Wc E4) as [_ V4]. destruct (add_value _ _ _ _ _ Wac Wbc E5) as (_ & V5 & _).
  destruct (in_dim_value _ _ _ Da) as (ma & Ha & _). destruct (in_dim_value _ _ _ Db) as (mb & Hb & _). destruct (in_dim_value _ _ _ Dc) as (mc & Hc & _).
  destruct (V2 g Da Dc) as [_ V2']. destruct (V3 g Db Dc) as [_ V3']. destruct (V4 g (D1 g _ Da Db) Dc) as [_ V4'].
  eapply same_intro; [apply V4'; [apply V1; eassumption|eassumption]|apply V5; [apply V2'|apply V3']; eassumption|]. apply bilinear_app_l.
Qed.
Lemma gp_expr_distr_l P Q R F k a b c ab ca cb r s g : (P + Q + R <= 63)%N ->
  mv_ok a = true -> mv_ok b = true -> mv_ok c = true ->
  cadd F k a b = Some ab -> cmul F k (gp_map F P Q R) c a = Some ca -> cmul F k (gp_map F P Q R) c b = Some cb ->
  cmul F k (gp_map F P Q R) c ab = Some r -> cadd F k ca cb = Some s ->
  in_dim (P + Q + R) g a -> in_dim (P + Q + R) g b -> in_dim (P + Q + R) g c -> same g r s.
Proof.
  intros H Wa Wb Wc E1 E2 E3 E4 E5 Da Db Dc. pose proof (gp_map_ok P Q R H F) as M.
  destruct (add_value _ _ _ _ _ Wa Wb E1) as (Wab & V1 & D1). destruct (mul_value _ _ _ F k _ _ _ M Wc Wa E2) as [Wac V2].
  destruct (mul_value _ _ _ F k _ _ _ M Wc Wb E3) as [Wbc V3]. destruct (mul_value _ _ _ F k _ _ _ M Wc Wab E4) as [_ V4]. destruct (add_value _ _ _ _ _ Wac Wbc E5) as (_ & V5 & _).
  destruct (in_dim_value _ _ _ Da) as (ma & Ha & _). destruct (in_dim_value _ _ _ Db) as (mb & Hb & _). destruct (in_dim_value _ _ _ Dc) as (mc & Hc & _).
  destruct (V2 g Dc Da) as [_ V2']. destruct (V3 g Dc Db) as [_ V3']. destruct (V4 g Dc (D1 g _ Da Db)) as [_ V4'].
  eapply same_intro; [apply V4'; [eassumption|apply V1; eassumption]|apply V5; [apply V2'|apply V3']; eassumption|]. apply bilinear_app_r.
Qed.
Lemma gp_expr_unit P Q R F k a r s g : (P + Q + R <= 63)%N -> mv_ok a = true ->
  cmul F k (gp_map F P Q R) (c_expr 1) a = Some r -> cmul F k (gp_map F P Q R) a (c_expr 1) = Some s ->
  in_dim (P + Q + R) g a -> same g r a /\ same g s a.
Proof.
  intros H Wa E1 E2 Da. pose proof (gp_map_ok P Q R H F) as M. destruct (in_dim_value _ _ _ Da) as (ma & Ha & _).
  destruct (mul_value _ _ _ F k _ _ _ M (c_ok 1) Wa E1) as [_ V1]. destruct (mul_value _ _ _ F k _ _ _ M Wa (c_ok 1) E2) as [_ V2].
  destruct (V1 g (c_dim _ _ _) Da) as [_ V1']. destruct (V2 g Da (c_dim _ _ _)) as [_ V2']. split.
  - eapply same_intro; [apply V1'; [apply c_value|eassumption]|eassumption|]. apply gp_one_l.
  - eapply same_intro; [apply V2'; [eassumption|apply c_value]|eassumption|]. apply gp_one_r.
Qed.
Lemma const_blade_value n g z b : (b < 2 ^ n)%N -> has_value g (Comp (CV z) (CBlade b)) [(IZR z, b)] /\ in_dim n g (Comp (CV z) (CBlade b)).
Proof.
  intros H. assert (D : den g (Comp (CV z) (CBlade b)) [(IZR z, b)]).
  { exists (IZR z, b). split; [|reflexivity]. split; [apply num_cv|]. split; [reflexivity|]. intros _. exact I. }
  split; [apply den_value; exact D|]. exists [(IZR z, b)]. split; [exact D|]. constructor; [exact H|constructor].
Qed.
Lemma const_blade_ok n z b : (n <= 63)%N -> (b < 2 ^ n)%N -> mv_ok (Comp (CV z) (CBlade b)) = true.
Proof. intros Hn H. cbn [mv_ok comp_ok wf andb]. apply N.ltb_lt. apply (N.lt_le_trans _ _ _ H). apply N.pow_le_mono_r; [discriminate|lia]. Qed.
Lemma pow_lt i n : (i < n)%N -> (2 ^ i < 2 ^ n)%N. Proof. intros H. apply N.pow_lt_mono_r; lia. Qed.
Lemma gp_expr_square P Q R F k i r g : (P + Q + R <= 63)%N -> (i < P + Q + R)%N ->
  cmul F k (gp_map F P Q R) (Comp (CV 1) (CBlade (2 ^ i))) (Comp (CV 1) (CBlade (2 ^ i))) = Some r ->
  has_value g r [(signature P Q i, 0%N)].
Proof.
  intros H Hi E. pose proof (gp_map_ok P Q R H F) as M. destruct (const_blade_value (P + Q + R) g 1 (2 ^ i) (pow_lt _ _ Hi)) as [V D].
  pose proof (const_blade_ok _ 1 _ H (pow_lt _ _ Hi)) as W. destruct (mul_value _ _ _ F k _ _ _ M W W E) as [_ K]. destruct (K g D D) as [_ K'].
  eapply value_meq; [apply (K' _ _ V V)|]. apply (gp_square (signature P Q) i). lia.
Qed.
Lemma gp_expr_anticomm P Q R F k i j r s g : (P + Q + R <= 63)%N -> (i < P + Q + R)%N -> (j < P + Q + R)%N -> i <> j ->
  cmul F k (gp_map F P Q R) (Comp (CV 1) (CBlade (2 ^ i))) (Comp (CV 1) (CBlade (2 ^ j))) = Some r ->
  cmul F k (gp_map F P Q R) (Comp (CV 1) (CBlade (2 ^ j))) (Comp (CV 1) (CBlade (2 ^ i))) = Some s ->
  exists m, has_value g s m /\ has_value g r (scale (-1) m).
Proof.
  intros H Hi Hj Nij E1 E2. pose proof (gp_map_ok P Q R H F) as M.
  destruct (const_blade_value (P + Q + R) g 1 (2 ^ i) (pow_lt _ _ Hi)) as [Vi Di]. destruct (const_blade_value (P + Q + R) g 1 (2 ^ j) (pow_lt _ _ Hj)) as [Vj Dj].
  pose proof (const_blade_ok _ 1 _ H (pow_lt _ _ Hi)) as Wi. pose proof (const_blade_ok _ 1 _ H (pow_lt _ _ Hj)) as Wj.
  destruct (mul_value _ _ _ F k _ _ _ M Wi Wj E1) as [_ K1]. destruct (mul_value _ _ _ F k _ _ _ M Wj Wi E2) as [_ K2].
  destruct (K1 g Di Dj) as [_ K1']. destruct (K2 g Dj Di) as [_ K2']. exists (bilinear (gp_blade (signature P Q)) (basis j) (basis i)). split; [apply (K2' _ _ Vj Vi)|].
  eapply value_meq; [apply (K1' _ _ Vi Vj)|]. apply (gp_anticomm (signature P Q) i j); lia.
Qed.
Lemma op_expr_vector n F k v r g m : (n <= 63)%N -> mv_ok v = true -> cmul F k (op_map F n) v v = Some r ->
  den g v m -> in_space n m -> homog 1 m -> has_value g r [].
Proof.
  intros H W E D I G. assert (Dm : in_dim n g v) by (exists m; auto). destruct (mul_value _ _ _ F k _ _ _ (op_map_ok F n H) W W E) as [_ K]. destruct (K g Dm Dm) as [_ K'].
  eapply value_meq; [apply (K' _ _ (den_value _ _ _ D) (den_value _ _ _ D))|]. apply op_vector. exact G.
Qed.
Lemma op_expr_comm n F k a b r s g ma mb p q : (n <= 63)%N -> mv_ok a = true -> mv_ok b = true ->
  cmul F k (op_map F n) a b = Some r -> cmul F k (op_map F n) b a = Some s ->
  den g a ma -> den g b mb -> in_space n ma -> in_space n mb -> homog p ma -> homog q mb ->
  exists m, has_value g r m /\ has_value g s (scale (if N.odd (p * q) then -1 else 1) m).
Proof.
  intros H Wa Wb E1 E2 Ha Hb Ia Ib Ga Gb. assert (Da : in_dim n g a) by (exists ma; auto). assert (Db : in_dim n g b) by (exists mb; auto).
  destruct (mul_value _ _ _ F k _ _ _ (op_map_ok F n H) Wa Wb E1) as [_ K1]. destruct (mul_value _ _ _ F k _ _ _ (op_map_ok F n H) Wb Wa E2) as [_ K2].
  destruct (K1 g Da Db) as [_ K1']. destruct (K2 g Db Da) as [_ K2']. exists (bilinear op_blade ma mb). split; [apply K1'; apply den_value; auto|].
  eapply value_meq; [apply (K2' mb ma); apply den_value; auto|]. apply op_comm; auto.
Qed.
Lemma op_expr_free n n' F k a b r s g : (n <= 63)%N -> (n' <= 63)%N -> mv_ok a = true -> mv_ok b = true ->
  cmul F k (op_map F n) a b = Some r -> cmul F k (op_map F n') a b = Some s ->
  in_dim n g a -> in_dim n g b -> in_dim n' g a -> in_dim n' g b -> same g r s.
Proof.
  intros H H' Wa Wb E1 E2 Da Db Da' Db'. destruct (in_dim_value _ _ _ Da) as (ma & Ha & _). destruct (in_dim_value _ _ _ Db) as (mb & Hb & _).
  destruct (mul_value _ _ _ F k _ _ _ (op_map_ok F n H) Wa Wb E1) as [_ K1]. destruct (mul_value _ _ _ F k _ _ _ (op_map_ok F n' H') Wa Wb E2) as [_ K2].
  exists (bilinear op_blade ma mb). split; [apply (K1 g Da Db)|apply (K2 g Da' Db')]; auto.
Qed.
Lemma inner_parts q r s a b : homog r a -> homog s b ->
  let g := bilinear (gp_blade q) a b in
  meq (bilinear (lcont_blade q) a b) (if N.leb r s then grade_part (s - r) g else []) /\
  meq (bilinear (rcont_blade q) a b) (if N.leb s r then grade_part (r - s) g else []) /\
  meq (bilinear (sp_blade q) a b) (grade_part 0 g) /\
  meq (bilinear (dot_blade q) a b) (grade_part (absdiff r s) g) /\
  meq (bilinear (hip_blade q) a b) (if (N.eqb r 0 || N.eqb s 0)%bool then [] else grade_part (absdiff r s) g).
Proof.
  intros Ha Hb g. split; [|split; [|split; [|split]]].
  - destruct (N.leb_spec r s); [apply lcont_part; auto|apply (lcont_none q r s); auto].
  - destruct (N.leb_spec s r); [apply rcont_part; auto|apply (rcont_none q r s); auto].
  - apply sp_part.
  - apply dot_part; auto.
  - destruct (N.eqb_spec r 0) as [->|Z]; [apply (hip_none q 0 s); auto|]. destruct (N.eqb_spec s 0) as [->|Z']; [apply (hip_none q r 0); auto|]. apply hip_part; auto.
Qed.
Lemma lcont_of_gp P Q R F k a b gpr r g ma mb p s : (P + Q + R <= 63)%N -> mv_ok a = true -> mv_ok b = true ->
  cmul F k (gp_map F P Q R) a b = Some gpr -> cmul F k (lcont_map F P Q R) a b = Some r ->
  den g a ma -> den g b mb -> in_space (P + Q + R) ma -> in_space (P + Q + R) mb -> homog p ma -> homog s mb -> (p <= s)%N ->
  exists m, has_value g gpr m /\ has_value g r (grade_part (s - p) m).
Proof.
  intros H Wa Wb E1 E2 Ha Hb Ia Ib Ga Gb L. assert (Da : in_dim (P + Q + R) g a) by (exists ma; auto). assert (Db : in_dim (P + Q + R) g b) by (exists mb; auto).
  destruct (mul_value _ _ _ F k _ _ _ (gp_map_ok P Q R H F) Wa Wb E1) as [_ K1]. destruct (mul_value _ _ _ F k _ _ _ (lcont_map_ok P Q R H F) Wa Wb E2) as [_ K2].
  destruct (K1 g Da Db) as [_ K1']. destruct (K2 g Da Db) as [_ K2']. exists (bilinear (gp_blade (signature P Q)) ma mb). split; [apply K1'; apply den_value; auto|].
  eapply value_meq; [apply (K2' ma mb); apply den_value; auto|]. apply lcont_part; auto.
Qed.
Lemma rp_expr_unit n F k a r s g : (n <= 63)%N -> mv_ok a = true ->
  cmul F k (rp_map F n) (Comp (CV 1) (CBlade (2 ^ n - 1))) a = Some r -> cmul F k (rp_map F n) a (Comp (CV 1) (CBlade (2 ^ n - 1))) = Some s ->
  in_dim n g a -> same g r a /\ same g s a.
Proof.
  intros H Wa E1 E2 Da. pose proof (rp_map_ok F n H) as M. destruct (in_dim_value _ _ _ Da) as (ma & Ha & Ia).
  destruct (const_blade_value n g 1 (2 ^ n - 1) (mask_lt n)) as [V D]. pose proof (const_blade_ok _ 1 _ H (mask_lt n)) as W.
  destruct (mul_value _ _ _ F k _ _ _ M W Wa E1) as [_ V1]. destruct (mul_value _ _ _ F k _ _ _ M Wa W E2) as [_ V2].
  destruct (V1 g D Da) as [_ V1']. destruct (V2 g Da D) as [_ V2']. split.
  - eapply same_intro; [apply V1'; [exact V|eassumption]|eassumption|]. apply (rp_ps_l n ma Ia).
  - eapply same_intro; [apply V2'; [eassumption|exact V]|eassumption|]. apply (rp_ps_r n ma Ia).
Qed.

Lemma expr_twice f l : unary_ok f l -> (forall m, meq (linear l (linear l m)) m) -> forall a r s g n, (n <= 63)%N -> mv_ok a = true ->
  f a = Some r -> f r = Some s -> in_dim n g a -> same g s a.
Proof.
  intros U H a r s g n Hn Wa E1 E2 Da. destruct (in_dim_value _ _ _ Da) as (ma & Ha & _).
  destruct (unary_value _ _ _ _ U Wa E1) as [Wr V1]. destruct (unary_value _ _ _ _ U Wr E2) as [_ V2]. destruct (V1 g n Hn Da) as [Dr V1']. destruct (V2 g n Hn Dr) as [_ V2'].
  eapply same_intro; [apply V2', V1'; eassumption|eassumption|]. apply H.
Qed.
Lemma rev_expr_twice F k a r s g n : (n <= 63)%N -> mv_ok a = true -> gum F k reverse_pattern a = Some r -> gum F k reverse_pattern r = Some s ->
  in_dim n g a -> same g s a.
Proof. exact (expr_twice _ _ (reverse_ok F k) rev_rev a r s g n). Qed.
Lemma inv_expr_twice F k a r s g n : (n <= 63)%N -> mv_ok a = true -> gum F k involute_pattern a = Some r -> gum F k involute_pattern r = Some s ->
  in_dim n g a -> same g s a.
Proof. exact (expr_twice _ _ (involute_ok F k) inv_inv a r s g n). Qed.
Lemma conj_expr_twice F k a r s g n : (n <= 63)%N -> mv_ok a = true -> gum F k conjugate_pattern a = Some r -> gum F k conjugate_pattern r = Some s ->
  in_dim n g a -> same g s a.
Proof. exact (expr_twice _ _ (conjugate_ok F k) conj_conj a r s g n). Qed.
Lemma rev_expr_gp P Q R F k a b ab r ra rb s g : (P + Q + R <= 63)%N -> mv_ok a = true -> mv_ok b = true ->
  cmul F k (gp_map F P Q R) a b = Some ab -> gum F k reverse_pattern ab = Some r ->
  gum F k reverse_pattern a = Some ra -> gum F k reverse_pattern b = Some rb -> cmul F k (gp_map F P Q R) rb ra = Some s ->
  in_dim (P + Q + R) g a -> in_dim (P + Q + R) g b -> same g r s.
Proof.
  intros H Wa Wb E1 E2 E3 E4 E5 Da Db. pose proof (gp_map_ok P Q R H F) as M. pose proof (reverse_ok F k) as U.
  destruct (in_dim_value _ _ _ Da) as (ma & Ha & _). destruct (in_dim_value _ _ _ Db) as (mb & Hb & _).
  destruct (mul_value _ _ _ F k _ _ _ M Wa Wb E1) as [Wab V1]. destruct (unary_value _ _ _ _ U Wab E2) as [_ V2].
  destruct (unary_value _ _ _ _ U Wa E3) as [Wra V3]. destruct (unary_value _ _ _ _ U Wb E4) as [Wrb V4]. destruct (mul_value _ _ _ F k _ _ _ M Wrb Wra E5) as [_ V5].
  destruct (V1 g Da Db) as [Dab V1']. destruct (V2 g _ H Dab) as [_ V2']. destruct (V3 g _ H Da) as [Dra V3']. destruct (V4 g _ H Db) as [Drb V4']. destruct (V5 g Drb Dra) as [_ V5'].
  eapply same_intro; [apply V2', V1'; eassumption|apply V5'; [apply V4'|apply V3']; eassumption|]. apply rev_gp.
Qed.
Lemma inv_expr_gp P Q R F k a b ab r ra rb s g : (P + Q + R <= 63)%N -> mv_ok a = true -> mv_ok b = true ->
  cmul F k (gp_map F P Q R) a b = Some ab -> gum F k involute_pattern ab = Some r ->
  gum F k involute_pattern a = Some ra -> gum F k involute_pattern b = Some rb -> cmul F k (gp_map F P Q R) ra rb = Some s ->
  in_dim (P + Q + R) g a -> in_dim (P + Q + R) g b -> same g r s.
Proof.
  intros H Wa Wb E1 E2 E3 E4 E5 Da Db. pose proof (gp_map_ok P Q R H F) as M. pose proof (involute_ok F k) as U.
  destruct (in_dim_value _ _ _ Da) as (ma & Ha & _). destruct (in_dim_value _ _ _ Db) as (mb & Hb & _).
  destruct (mul_value _ _ _ F k _ _ _ M Wa Wb E1) as [Wab V1]. destruct (unary_value _ _ _ _ U Wab E2) as [_ V2].
  destruct (unary_value _ _ _ _ U Wa E3) as [Wra V3]. destruct (unary_value _ _ _ _ U Wb E4) as [Wrb V4]. destruct (mul_value _ _ _ F k _ _ _ M Wra Wrb E5) as [_ V5].
  destruct (V1 g Da Db) as [Dab V1']. destruct (V2 g _ H Dab) as [_ V2']. destruct (V3 g _ H Da) as [Dra V3']. destruct (V4 g _ H Db) as [Drb V4']. destruct (V5 g Dra Drb) as [_ V5'].
  eapply same_intro; [apply V2', V1'; eassumption|apply V5'; [apply V3'|apply V4']; eassumption|]. apply inv_gp.
Qed.
Lemma conj_expr_composes F k a r s t g n : (n <= 63)%N -> mv_ok a = true ->
  gum F k conjugate_pattern a = Some r -> gum F k involute_pattern a = Some s -> gum F k reverse_pattern s = Some t ->
  in_dim n g a -> same g r t.
Proof.
  intros Hn Wa E1 E2 E3 Da. destruct (in_dim_value _ _ _ Da) as (ma & Ha & _).
  destruct (unary_value _ _ _ _ (conjugate_ok F k) Wa E1) as [_ V1]. destruct (unary_value _ _ _ _ (involute_ok F k) Wa E2) as [Ws V2]. destruct (unary_value _ _ _ _ (reverse_ok F k) Ws E3) as [_ V3].
  destruct (V1 g n Hn Da) as [_ V1']. destruct (V2 g n Hn Da) as [Ds V2']. destruct (V3 g n Hn Ds) as [_ V3'].
  eapply same_intro; [apply V1'; eassumption|apply V3', V2'; eassumption|]. apply conj_rev_inv.
Qed.

(** A scalar factor does not see the metric. *)
Lemma gp_scalar_free q q' c a : meq (bilinear (gp_blade q) [(c, 0%N)] a) (bilinear (gp_blade q') [(c, 0%N)] a).
Proof. rewrite !scalar_gp. reflexivity. Qed.
Lemma gp_scalar_r q c a : meq (bilinear (gp_blade q) a [(c, 0%N)]) (scale c a).
Proof.
  assert (E : meq [(c, 0%N)] (scale c one)) by (intros k; cbn; destruct k; cbn; lra). rewrite E, bilinear_scale_r. apply meq_sumf. intros h. rewrite sumf_scale.
  pose proof (gp_one_r q a) as G. rewrite meq_iff in G. rewrite G, sumf_scale. reflexivity.
Qed.
Lemma den_scalar g c m : den g (Comp c (CBlade 0)) m -> exists v, m = [(v, 0%N)].
Proof. intros ([v i] & (_ & D & _) & ->). cbn in D. subst i. eauto. Qed.
Lemma scalar_product_ok q F k c b r : mv_ok (Comp c (CBlade 0)) = true -> mv_ok b = true ->
  cmul F k (gp_real_map F) (Comp c (CBlade 0)) b = Some r -> is_product (gp_blade q) 63 (Comp c (CBlade 0)) b r.
Proof.
  intros Wa Wb E. destruct (cmul_ok F _ _ _ (gp_real_map_ok F) k _ _ _ Wa Wb E) as [W V]. split; [exact W|]. intros g ma mb A B Ia Ib.
  destruct (V g ma mb A B Ia Ib) as (m & M1 & M2 & M3). exists m. split; [exact M1|]. split; [|exact M3]. intros K. rewrite M2.
  destruct (den_scalar _ _ _ A) as (v & ->). apply gp_scalar_free.
Qed.
Lemma scalar_product_ok_r q F k c b r : mv_ok (Comp c (CBlade 0)) = true -> mv_ok b = true ->
  cmul F k (gp_real_map F) b (Comp c (CBlade 0)) = Some r -> is_product (gp_blade q) 63 b (Comp c (CBlade 0)) r.
Proof.
  intros Wa Wb E. destruct (cmul_ok F _ _ _ (gp_real_map_ok F) k _ _ _ Wb Wa E) as [W V]. split; [exact W|]. intros g mb ma B A Ib Ia.
  destruct (V g mb ma B A Ib Ia) as (m & M1 & M2 & M3). exists m. split; [exact M1|]. split; [|exact M3]. intros K. rewrite M2.
  destruct (den_scalar _ _ _ A) as (v & ->). rewrite (gp_scalar_r _ v mb K). symmetry. apply (gp_scalar_r _ v mb K).
Qed.
