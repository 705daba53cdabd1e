(** The functions of the conformal models: values of the calls. *)
From Coq Require Import NArith ZArith List Bool Lia Reals Lra Setoid Morphisms.
From Verif Require Import Bits SpecBits Expr Sem Wf BitsBase SpecMv SpecAlg SpecExtra MvBase Simp Comp Mapping Ops EvalC SpecEval Lazy SpecLazy Api Extra SpecApi SpecUtil GradeProofs OuterProofs GumProofs PresProofs CanonProofs PolyProofs ProductProofs Clifford Clifford2 Clifford4 AlgProofs ApiProofs ApiProofs2 ApiProofs3 ExtraProofs General SpecGeneral Wick Wick2 Spaces SpecSpaces VecProofs GenApi ModelProofs Geo SpecGeo GaProofs GeoProofs GaRound.
Import ListNotations.
Local Open Scope R_scope.

(** ** The products of the models *)
Definition gof (m : cmodel) : N -> N -> mv :=
  match m with ConformalModel D => wick (conformal_metric D) | MinkowskiModel D => gp_blade (signature (D + 1) 1) end.
Lemma conformal_sym D i j : conformal_metric D i j = conformal_metric D j i.
Proof. unfold conformal_metric. rewrite (orb_comm (N.ltb j D)), (N.eqb_sym j i). reflexivity. Qed.
Lemma model_sym m i j : model_metric m i j = model_metric m j i.
Proof.
  destruct m as [D|D]; [apply conformal_sym|]. cbn [model_metric]. unfold diagonal_form. rewrite (N.eqb_sym j i). destruct (N.eqb_spec i j) as [->|]; reflexivity.
Qed.
Lemma model_low m : model_ok m -> (model_dim m <= 63)%N. Proof. destruct m; cbn; lia. Qed.
Lemma gof_geometric m : model_ok m -> geometric (model_dim m) (model_metric m) (gof m).
Proof.
  intros H. pose proof (model_low m H) as L. destruct m as [D|D]; cbn [model_dim model_metric gof] in *; [|apply diagonal_geometric; lia].
  apply wick_geometric. lia.
Qed.
Lemma model_sound X F k d m : model_ok m -> sound_products X F (model_dim m) (model_products F k d m) (gof m).
Proof.
  intros H. destruct m as [D|D]; cbn [model_ok] in H.
  - apply (general_sound X F k d (Conformal D)); [cbn; lia|exact I|]. apply (gof_geometric (ConformalModel D) H).
  - cbn [model_products model_dim gof]. replace (D + 2)%N with (D + 1 + 1 + 0)%N by lia. apply signed_sound. lia.
Qed.

(** ** Attitudes do not depend on the representation of the product *)
Lemma bilinear_agree n f f' a b : (forall x y, (x < 2 ^ n)%N -> (y < 2 ^ n)%N -> meq (f x y) (f' x y)) -> in_space n a -> in_space n b -> meq (bilinear f a b) (bilinear f' a b).
Proof.
  intros H Ha Hb. unfold in_space in *. rewrite Forall_forall in Ha, Hb. apply meq_sumf. intros h. rewrite !sumf_bilinear.
  apply sumf_ext_in. intros p Ip. apply sumf_ext_in. intros r Ir. apply sumf_meq, H; auto.
Qed.
Lemma part_meq k a b : meq a b -> meq (grade_part k a) (grade_part k b).
Proof. intros E. rewrite E. reflexivity. Qed.
Section Agree.
Variables (n : N) (A : N -> N -> R) (G G' : N -> N -> mv).
Hypothesis Hn : (n <= 64)%N.
Hypothesis SA : forall i j, A i j = A j i.
Hypotheses (HG : geometric n A G) (HG' : geometric n A G').
Lemma same_product x y : (x < 2 ^ n)%N -> (y < 2 ^ n)%N -> meq (G x y) (G' x y).
Proof. intros Hx Hy. rewrite (geometric_unique A n G Hn HG x y Hx Hy). symmetry. exact (geometric_unique A n G' Hn HG' x y Hx Hy). Qed.
Lemma same_gp a b : in_space n a -> in_space n b -> meq (ggp G a b) (ggp G' a b).
Proof. apply bilinear_agree. exact same_product. Qed.
Lemma same_lc a b : in_space n a -> in_space n b -> meq (glc G a b) (glc G' a b).
Proof. apply bilinear_agree. intros x y Hx Hy. unfold part_lcont. destruct (N.leb _ _); [|reflexivity]. apply part_meq, same_product; assumption. Qed.
Lemma same_attitude p ni k a : in_space n p -> in_space n ni -> attitude n G p ni k a -> attitude n G' p ni k a.
Proof.
  intros Ip Ii (Ia & Ha & Pa & Na & c & Hc & Sa). split; [exact Ia|]. split; [exact Ha|]. split; [rewrite <- (same_lc p a Ip Ia); exact Pa|]. split; [rewrite <- (same_lc ni a Ii Ia); exact Na|].
  exists c. split; [exact Hc|]. rewrite <- (same_gp a a Ia Ia). exact Sa.
Qed.
End Agree.

(** ** The vectors of the models *)
Lemma ip_meq A u u' v v' : meq u u' -> meq v v' -> ip A u v = ip A u' v'.
Proof. intros E E'. unfold ip. rewrite (sumf_meq _ _ _ E). apply sumf_ext. intros j. apply sumf_meq, E'. Qed.
Lemma coords_vec n xs : forall i, (i + N.of_nat (length xs) <= n)%N -> vec n (coordinates i xs).
Proof. induction xs as [|x xs IH]; intros i H; cbn [coordinates length] in *; [constructor|]. constructor; [exists i; split; [lia|reflexivity]|]. apply IH. lia. Qed.
Definition last_two (m : cmodel) (xs : list R) : list R :=
  match m with ConformalModel _ => [1; dotp xs xs / 2] | MinkowskiModel _ => [(dotp xs xs - 1) / 2; (dotp xs xs + 1) / 2] end.
Definition at_infinity (m : cmodel) : list R := match m with ConformalModel _ => [0; 1] | MinkowskiModel _ => [1; 1] end.
Lemma point_form m xs : model_point m xs = coordinates 0 (xs ++ last_two m xs). Proof. destruct m; reflexivity. Qed.
Lemma dotp_zero n : dotp (repeat 0 n) (repeat 0 n) = 0. Proof. induction n as [|n IH]; cbn [repeat dotp]; [reflexivity|]. rewrite IH. ring. Qed.
Lemma dotp_comm xs : forall ys, dotp xs ys = dotp ys xs. Proof. induction xs as [|x xs IH]; intros [|y ys]; cbn [dotp]; try reflexivity. rewrite IH. ring. Qed.
Lemma dotp_zero_l n xs : length xs = n -> dotp (repeat 0 n) xs = 0. Proof. revert xs. induction n as [|n IH]; intros [|x xs] L; try discriminate L; cbn [repeat dotp]; [reflexivity|]. rewrite IH by (injection L; auto). ring. Qed.
Lemma dist_zero_l xs : dist2 (repeat 0 (length xs)) xs = dotp xs xs. Proof. induction xs as [|x xs IH]; cbn [repeat length dist2 dotp]; [reflexivity|]. rewrite IH. ring. Qed.
Lemma coords_last (n : nat) x y h : sumf (coordinates 0 (repeat 0 n ++ [x; y])) h = x * h (2 ^ N.of_nat n)%N + y * h (2 ^ (N.of_nat n + 1))%N.
Proof.
  rewrite (sumf_meq _ _ h (coords_shift (repeat 0 n) [x; y] 0)), sumf_app, coords_zero, repeat_length. cbn [coordinates sumf fst snd]. rewrite N.add_0_l. ring.
Qed.
Definition coords_of (m : cmodel) : nat := match m with ConformalModel D | MinkowskiModel D => N.to_nat D end.
Lemma coords_len m xs : model_coords m xs -> length xs = coords_of m. Proof. destruct m; cbn; intros ->; lia. Qed.
Lemma dim_coords m : model_dim m = (N.of_nat (coords_of m) + 2)%N. Proof. destruct m; cbn [model_dim coords_of]; lia. Qed.
Lemma origin_point m : meq (model_origin m) (model_point m (repeat 0 (coords_of m))).
Proof.
  apply meq_sumf. intros h. rewrite point_form. destruct m as [D|D]; cbn [last_two coords_of model_origin]; rewrite dotp_zero, coords_last, N2Nat.id; cbn [sumf fst snd]; field.
Qed.
Lemma infinity_coords m : meq (model_infinity m) (coordinates 0 (repeat 0 (coords_of m) ++ at_infinity m)).
Proof. apply meq_sumf. intros h. destruct m as [D|D]; cbn [at_infinity coords_of model_infinity]; rewrite coords_last, N2Nat.id; cbn [sumf fst snd]; ring. Qed.

Section Vectors.
Variables (m : cmodel).
Hypothesis Hm : model_ok m.
Notation n := (model_dim m).
Notation A := (model_metric m).
Notation ip := (ip A).
Lemma m64 : (n <= 64)%N. Proof. pose proof (model_low m Hm). lia. Qed.
Lemma zero_coords : model_coords m (repeat 0 (coords_of m)). Proof. destruct m; cbn; rewrite repeat_length; lia. Qed.
Lemma point_vec xs : model_coords m xs -> vec n (model_point m xs).
Proof. intros H. rewrite point_form. apply coords_vec. rewrite app_length, (coords_len m xs H), dim_coords. destruct m; cbn [last_two length]; lia. Qed.
Lemma infinity_vec : vec n (model_infinity m).
Proof. destruct m as [D|D]; cbn [model_infinity model_dim]; repeat constructor; cbn [snd]; eexists; (split; [|reflexivity]); lia. Qed.
Lemma origin_vec : vec n (model_origin m).
Proof. destruct m as [D|D]; cbn [model_origin model_dim]; repeat constructor; cbn [snd]; eexists; (split; [|reflexivity]); lia. Qed.
Lemma ip_coords xs ys : (N.of_nat (length xs) <= n)%N -> (N.of_nat (length ys) <= n)%N -> ip (coordinates 0 xs) (coordinates 0 ys) = inner A xs ys.
Proof. intros Lx Ly. symmetry. exact (inner_log n A m64 xs ys Lx Ly). Qed.
Lemma ip_points xs ys : model_coords m xs -> model_coords m ys -> ip (model_point m xs) (model_point m ys) = - dist2 xs ys / 2.
Proof.
  intros Hx Hy. pose proof (coords_len m xs Hx) as Lx. pose proof (coords_len m ys Hy) as Ly. rewrite !point_form, ip_coords by (rewrite app_length, dim_coords, ?Lx, ?Ly; destruct m; cbn [last_two length]; lia).
  destruct m as [D|D]; cbn [last_two model_metric model_coords] in *; [apply conformal_inner|apply minkowski_inner]; congruence.
Qed.
Lemma minkowski_euclid D i j : (i < D \/ j < D)%N -> diagonal_form (signature (D + 1) 1) i j = if N.eqb i j then 1 else 0.
Proof. intros K. unfold diagonal_form. destruct (N.eqb_spec i j) as [->|_]; [|reflexivity]. unfold signature. destruct (N.ltb_spec j (D + 1)); [reflexivity|lia]. Qed.
Lemma entries D : conformal_metric D D D = 0 /\ conformal_metric D (D + 1) (D + 1) = 0 /\ conformal_metric D D (D + 1) = -1 /\ conformal_metric D (D + 1) D = -1.
Proof.
  unfold conformal_metric. rewrite !N.eqb_refl, N.ltb_irrefl. destruct (N.ltb_spec (D + 1) D); [lia|]. destruct (N.eqb_spec D (D + 1)); [lia|]. destruct (N.eqb_spec (D + 1) D); [lia|]. repeat split.
Qed.
Lemma entries_m D : diagonal_form (signature (D + 1) 1) D D = 1 /\ diagonal_form (signature (D + 1) 1) (D + 1) (D + 1) = -1 /\ diagonal_form (signature (D + 1) 1) D (D + 1) = 0 /\ diagonal_form (signature (D + 1) 1) (D + 1) D = 0.
Proof.
  unfold diagonal_form, signature. rewrite !N.eqb_refl. destruct (N.eqb_spec D (D + 1)); [lia|]. destruct (N.eqb_spec (D + 1) D); [lia|]. destruct (N.ltb_spec D (D + 1)); [|lia]. destruct (N.ltb_spec (D + 1) (D + 1)); [lia|]. destruct (N.ltb_spec (D + 1) (D + 1 + 1)); [|lia]. repeat split.
Qed.
Lemma ip_infinity xs : model_coords m xs -> ip (model_point m xs) (model_infinity m) = -1.
Proof.
  intros Hx. pose proof (coords_len m xs Hx) as Lx. rewrite (ip_meq A _ _ _ _ (fun j => eq_refl) (infinity_coords m)), point_form, ip_coords by (rewrite app_length, dim_coords, ?repeat_length, ?Lx; destruct m; cbn [last_two at_infinity length]; lia).
  destruct m as [D|D]; cbn [last_two at_infinity model_metric model_coords coords_of] in *.
  - rewrite (inner_two _ D (conformal_euclid D) xs _ _ _ _ _ Hx) by (rewrite repeat_length; congruence). destruct (entries D) as (-> & -> & -> & ->). rewrite dotp_comm, dotp_zero_l by exact Lx. ring.
  - rewrite (inner_two _ D (minkowski_euclid D) xs _ _ _ _ _ Hx) by (rewrite repeat_length; congruence). destruct (entries_m D) as (-> & -> & -> & ->). rewrite dotp_comm, dotp_zero_l by exact Lx. field.
Qed.
Lemma ip_infinity_2 : ip (model_infinity m) (model_infinity m) = 0.
Proof.
  rewrite (ip_meq A _ _ _ _ (infinity_coords m) (infinity_coords m)), ip_coords by (rewrite app_length, dim_coords, repeat_length; destruct m; cbn [at_infinity length]; lia).
  destruct m as [D|D]; cbn [at_infinity model_metric coords_of].
  - rewrite (inner_two _ D (conformal_euclid D)) by (rewrite repeat_length; lia). destruct (entries D) as (-> & -> & -> & ->). rewrite dotp_zero. ring.
  - rewrite (inner_two _ D (minkowski_euclid D)) by (rewrite repeat_length; lia). destruct (entries_m D) as (-> & -> & -> & ->). rewrite dotp_zero. ring.
Qed.
Lemma ip_self xs : model_coords m xs -> ip (model_point m xs) (model_point m xs) = 0.
Proof. intros H. rewrite (ip_points xs xs H H), dist_self. field. Qed.
Lemma ip_origin xs : model_coords m xs -> ip (model_origin m) (model_point m xs) = - dotp xs xs / 2.
Proof. intros H. rewrite (ip_meq A _ _ _ _ (origin_point m) (fun j => eq_refl)), (ip_points _ xs zero_coords H). rewrite <- (coords_len m xs H), dist_zero_l. reflexivity. Qed.
Lemma ip_origin_infinity : ip (model_origin m) (model_infinity m) = -1.
Proof. rewrite (ip_meq A _ _ _ _ (origin_point m) (fun j => eq_refl)). exact (ip_infinity _ zero_coords). Qed.
End Vectors.
