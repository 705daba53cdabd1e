(** Expansion of the Clifford product of a bilinear form in exterior products and minors (specification
    side only: no mention of the code).  Multivectors are handled through linear functionals on blades:
    an operator [O] on multivectors is represented by its transpose, which acts on functions of blades. *)
From Coq Require Import NArith ZArith List Bool Reals Lra Lia FunctionalExtensionality FinFun.
From Verif Require Import Bits SpecBits BitsBase BitsProofs Sem SpecMv SpecAlg MvBase GradeProofs SmartProofs Clifford.
Import ListNotations.
Local Open Scope R_scope.

Definition fn := N -> R.
Fixpoint lsum {A} (f : A -> R) (l : list A) : R := match l with [] => 0 | x :: l' => f x + lsum f l' end.
Lemma lsum_ext {A} (f g : A -> R) l : (forall x, In x l -> f x = g x) -> lsum f l = lsum g l.
Proof. induction l; intros H; cbn [lsum]; [reflexivity|]. rewrite H, IHl; [reflexivity| |left; reflexivity]. intros; apply H; right; assumption. Qed.
Lemma lsum_app {A} (f : A -> R) l m : lsum f (l ++ m) = lsum f l + lsum f m.
Proof. induction l; cbn [lsum app]; [lra|]. rewrite IHl. lra. Qed.
Lemma lsum_plus {A} (f g : A -> R) l : lsum (fun x => f x + g x) l = lsum f l + lsum g l.
Proof. induction l; cbn [lsum]; [lra|]. rewrite IHl. lra. Qed.
Lemma lsum_mult {A} c (f : A -> R) l : lsum (fun x => c * f x) l = c * lsum f l.
Proof. induction l; cbn [lsum]; [lra|]. rewrite IHl. lra. Qed.
Lemma lsum_0 {A} (l : list A) : lsum (fun _ => 0) l = 0.
Proof. induction l; cbn [lsum]; [lra|]. rewrite IHl. lra. Qed.
Lemma lsum_map {A B} (g : A -> B) (f : B -> R) l : lsum f (map g l) = lsum (fun x => f (g x)) l.
Proof. induction l; cbn [lsum map]; [reflexivity|]. rewrite IHl. reflexivity. Qed.
Lemma lsum_exch {A B} (f : A -> B -> R) l m : lsum (fun x => lsum (f x) m) l = lsum (fun y => lsum (fun x => f x y) l) m.
Proof. induction l; cbn [lsum]; [symmetry; apply lsum_0|]. rewrite IHl, <- lsum_plus. apply lsum_ext. reflexivity. Qed.

(** Creation, annihilation. *)
Definition E (j : N) (h : fn) : fn := fun b => if N.testbit b j then 0 else sign_of (2 ^ j) b * h (N.lxor b (2 ^ j)).
Definition P (j : N) (h : fn) : fn := fun b => if N.testbit b j then sign_of (2 ^ j) b * h (N.lxor b (2 ^ j)) else 0.

Lemma bit_flip b j k : N.testbit (N.lxor b (2 ^ j)) k = xorb (N.testbit b k) (N.eqb j k).
Proof. rewrite N.lxor_spec, N.pow2_bits_eqb. reflexivity. Qed.
Lemma flip2 b j : N.lxor (N.lxor b (2 ^ j)) (2 ^ j) = b.
Proof. rewrite N.lxor_assoc, N.lxor_nilpotent. apply N.lxor_0_r. Qed.
Lemma flip_comm b j k : N.lxor (N.lxor b (2 ^ j)) (2 ^ k) = N.lxor (N.lxor b (2 ^ k)) (2 ^ j).
Proof. rewrite !N.lxor_assoc. f_equal. apply N.lxor_comm. Qed.
Lemma sign_self j : (j < 64)%N -> sign_of (2 ^ j) (2 ^ j) = 1.
Proof. intros H. rewrite sign_pow2 by assumption. rewrite N.ltb_irrefl. reflexivity. Qed.
Lemma sign_other j k : (j < 64)%N -> (k < 64)%N -> j <> k -> sign_of (2 ^ j) (2 ^ k) = - sign_of (2 ^ k) (2 ^ j).
Proof.
  intros Hj Hk Ne. rewrite !sign_pow2 by assumption. destruct (N.ltb_spec k j), (N.ltb_spec j k); try lra; lia.
Qed.

Section Sg.
Variables (j k : N) (b : N).
Hypotheses (Hj : (j < 64)%N) (Hk : (k < 64)%N).

Lemma PP h : P j (P k h) b = - P k (P j h) b.
Proof.
  unfold P. rewrite !bit_flip, !sign_lxor_r. destruct (N.eq_dec j k) as [->|Ne].
  - rewrite N.eqb_refl. destruct (N.testbit b k); cbn [xorb]; lra.
  - rewrite (proj2 (N.eqb_neq j k) Ne), (proj2 (N.eqb_neq k j) (not_eq_sym Ne)), !xorb_false_r, (sign_other j k Hj Hk Ne), (flip_comm b j k).
    generalize (sign_of (2 ^ j) b) (sign_of (2 ^ k) b) (sign_of (2 ^ k) (2 ^ j)) (h (N.lxor (N.lxor b (2 ^ k)) (2 ^ j))). intros.
    destruct (N.testbit b j), (N.testbit b k); ring.
Qed.
Lemma EP h : E k (P j h) b + P j (E k h) b = if N.eqb j k then h b else 0.
Proof.
  unfold P, E. rewrite !bit_flip, !sign_lxor_r. destruct (N.eq_dec j k) as [->|Ne].
  - rewrite N.eqb_refl, flip2, (sign_self k Hk). pose proof (sign_sq (2 ^ k) b) as Q. destruct (N.testbit b k); cbn [xorb]; generalize dependent (sign_of (2 ^ k) b); generalize (h b); intros y z Q.
    + transitivity (z * z * y); [ring|rewrite Q; ring].
    + transitivity (z * z * y); [ring|rewrite Q; ring].
  - rewrite (proj2 (N.eqb_neq j k) Ne), (proj2 (N.eqb_neq k j) (not_eq_sym Ne)), !xorb_false_r, (sign_other j k Hj Hk Ne), (flip_comm b j k).
    generalize (sign_of (2 ^ j) b) (sign_of (2 ^ k) b) (sign_of (2 ^ k) (2 ^ j)) (h (N.lxor (N.lxor b (2 ^ k)) (2 ^ j))). intros.
    destruct (N.testbit b j), (N.testbit b k); ring.
Qed.
End Sg.

Lemma E_plus j f g b : E j (fun x => f x + g x) b = E j f b + E j g b.
Proof. unfold E. generalize (sign_of (2 ^ j) b). intros. destruct (N.testbit b j); ring. Qed.
Lemma E_mult j c f b : E j (fun x => c * f x) b = c * E j f b.
Proof. unfold E. generalize (sign_of (2 ^ j) b). intros. destruct (N.testbit b j); ring. Qed.
Lemma P_plus j f g b : P j (fun x => f x + g x) b = P j f b + P j g b.
Proof. unfold P. generalize (sign_of (2 ^ j) b). intros. destruct (N.testbit b j); ring. Qed.
Lemma P_mult j c f b : P j (fun x => c * f x) b = c * P j f b.
Proof. unfold P. generalize (sign_of (2 ^ j) b). intros. destruct (N.testbit b j); ring. Qed.
Lemma P_lsum {A} j (F : A -> fn) l b : P j (fun x => lsum (fun i => F i x) l) b = lsum (fun i => P j (F i) b) l.
Proof.
  induction l; cbn [lsum]; [unfold P; generalize (sign_of (2 ^ j) b); intros; destruct (N.testbit b j); ring|]. rewrite <- IHl, <- P_plus. reflexivity.
Qed.
Lemma E_lsum {A} j (F : A -> fn) l b : E j (fun x => lsum (fun i => F i x) l) b = lsum (fun i => E j (F i) b) l.
Proof.
  induction l; cbn [lsum]; [unfold E; generalize (sign_of (2 ^ j) b); intros; destruct (N.testbit b j); ring|]. rewrite <- IHl, <- E_plus. reflexivity.
Qed.

Definition idx : list N := map N.of_nat (seq 0 64).
Lemma idx_in j : In j idx <-> (j < 64)%N.
Proof. unfold idx. rewrite in_map_iff. split; [intros (i & <- & H); apply in_seq in H; lia|]. intros H. exists (N.to_nat j). split; [lia|]. apply in_seq. lia. Qed.

Local Opaque sign_of.
(** [-1] to the length of a list. *)
Fixpoint alt (l : list N) : R := match l with [] => 1 | _ :: l' => - alt l' end.
Lemma alt_sq l : alt l * alt l = 1. Proof. induction l; cbn [alt]; nra. Qed.

(** All the ways to split a list in two. *)
Fixpoint splits (l : list N) : list (list N * list N) :=
  match l with
  | [] => [([], [])]
  | x :: l' => map (fun p => (fst p, x :: snd p)) (splits l') ++ map (fun p => (x :: fst p, snd p)) (splits l')
  end.
(** The blade with the given factors. *)
Definition bits (l : list N) : N := fold_right (fun i x => N.lxor (2 ^ i) x) 0%N l.
(** Increasing lists of indices. *)
Fixpoint incr (l : list N) : Prop := match l with [] => True | x :: l' => (x < 64)%N /\ (forall y, In y l' -> (x < y)%N) /\ incr l' end.
Lemma bits_bit l : incr l -> forall k, N.testbit (bits l) k = true <-> In k l.
Proof.
  induction l as [|x l IH]; intros H k; cbn [bits fold_right In]; [rewrite N.bits_0; split; [discriminate|tauto]|].
  destruct H as (Hx & H1 & H2). rewrite N.lxor_spec, N.pow2_bits_eqb. fold (bits l). pose proof (IH H2 k) as Q. destruct (N.eqb_spec x k) as [->|Ne].
  - destruct (N.testbit (bits l) k); cbn [xorb]; [|tauto]. destruct Q as [Q _]. specialize (H1 k (Q eq_refl)). lia.
  - destruct (N.testbit (bits l) k); cbn [xorb]; tauto.
Qed.
Lemma bits_high l x : incr (x :: l) -> N.testbit (bits l) x = false.
Proof.
  intros (_ & H & I). destruct (N.testbit (bits l) x) eqn:T; [|reflexivity]. apply (proj1 (bits_bit l I x)) in T. specialize (H x T). lia.
Qed.
Lemma incr_lt l : incr l -> forall y, In y l -> (y < 64)%N.
Proof. induction l as [|x l IH]; intros H y HI; [destruct HI|]. destruct HI as [->|Hy]; [exact (proj1 H)|]. apply IH; [apply H|exact Hy]. Qed.
Lemma sign_above x l : (x < 64)%N -> incr l -> (forall y, In y l -> (x < y)%N) -> sign_of (2 ^ x) (bits l) = 1.
Proof.
  intros Hx. induction l as [|y l IH]; intros I H; [apply sign_0_r|]. cbn [bits fold_right]. fold (bits l). rewrite sign_lxor_r, (sign_pow2 x y Hx (proj1 I)).
  rewrite IH; [|apply I|intros; apply H; right; assumption]. specialize (H y (or_introl eq_refl)). destruct (N.ltb_spec y x); [lia|ring].
Qed.
Lemma sign_below x l : (x < 64)%N -> incr l -> (forall y, In y l -> (x < y)%N) -> sign_of (bits l) (2 ^ x) = alt l.
Proof.
  intros Hx. induction l as [|y l IH]; intros I H; [reflexivity|]. cbn [bits fold_right alt]. fold (bits l). rewrite sign_lxor_l, (sign_pow2 y x (proj1 I) Hx).
  rewrite IH; [|apply I|intros; apply H; right; assumption]. specialize (H y (or_introl eq_refl)). destruct (N.ltb_spec x y); [ring|lia].
Qed.
Lemma bits_cons x l : bits (x :: l) = N.lxor (bits l) (2 ^ x).
Proof. apply N.lxor_comm. Qed.
Lemma E_low x l h : incr (x :: l) -> E x h (bits l) = h (bits (x :: l)).
Proof.
  intros I. unfold E. rewrite (bits_high l x I), <- bits_cons, (sign_above x l (proj1 I) (proj2 (proj2 I)) (proj1 (proj2 I))). ring.
Qed.
Lemma splits_in l p : In p (splits l) -> (forall y, In y l <-> In y (fst p) \/ In y (snd p)) /\ (incr l -> incr (fst p) /\ incr (snd p)).
Proof.
  revert p. induction l as [|x l IH]; intros p; cbn [splits].
  - intros [<-|[]]. cbn. split; [tauto|auto].
  - rewrite in_app_iff, !in_map_iff. intros [(q & <- & H)|(q & <- & H)]; destruct (IH q H) as [H1 H2]; cbn [fst snd In]; (split; [intros y; rewrite H1; tauto|]);
    intros (Hx & Hy & I); destruct (H2 I) as [I1 I2]; cbn [incr]; repeat split; auto; intros y Y; apply Hy, H1; tauto.
Qed.
Lemma alt_len s c : length s = length c -> alt s = alt c.
Proof. revert c. induction s; intros [|y c] H; try discriminate; cbn [alt]; [reflexivity|]. rewrite (IHs c) by (injection H; auto). reflexivity. Qed.
Definition sgn (s t : list N) : R := sign_of (bits s) (bits t).
Lemma sgn_nil : sgn [] [] = 1. Proof. apply sign_0_l. Qed.
Lemma sgn_first s u t : (s < 64)%N -> incr t -> (forall y, In y t -> (s < y)%N) -> sgn (s :: u) t = sgn u t.
Proof. intros. unfold sgn. rewrite (bits_cons s u), sign_lxor_l, (sign_above s t) by assumption. apply Rmult_1_r. Qed.
Lemma sgn_second s u t : (s < 64)%N -> incr u -> (forall y, In y u -> (s < y)%N) -> sgn u (s :: t) = sgn u t * alt u.
Proof. intros. unfold sgn. rewrite (bits_cons s t), sign_lxor_r, (sign_below s u) by assumption. reflexivity. Qed.
(** Sign of moving the factors [c] to the right of the other factors of [a]. *)
Fixpoint wsg (a c : list N) : R := match c with [] => 1 | x :: c' => alt (filter (N.ltb x) a) * wsg a c' end.
Fixpoint crea (m : list N) (h : fn) : fn := match m with [] => h | l :: m' => crea m' (E l h) end.
Lemma wsg_cons l a c : (forall y, In y c -> (l < y)%N) -> wsg (l :: a) c = wsg a c.
Proof.
  induction c as [|x c IH]; intros H; [reflexivity|]. cbn [wsg]. rewrite IH by (intros; apply H; right; assumption). f_equal. cbn [filter].
  specialize (H x (or_introl eq_refl)). destruct (N.ltb_spec x l); [lia|reflexivity].
Qed.
Lemma filter_all l a : (forall y, In y a -> (l < y)%N) -> filter (N.ltb l) (l :: a) = a.
Proof.
  intros H. cbn [filter]. rewrite N.ltb_irrefl. induction a as [|x a IH]; [reflexivity|]. cbn [filter]. pose proof (H x (or_introl eq_refl)).
  destruct (N.ltb_spec l x); [|lia]. f_equal. apply IH. intros; apply H; right; assumption.
Qed.
Lemma land_pow2_bit b l : N.land (2 ^ l) b = (if N.testbit b l then 2 ^ l else 0)%N.
Proof.
  apply N.bits_inj. intros k. rewrite N.land_spec, N.pow2_bits_eqb. destruct (N.eqb_spec l k) as [->|Ne].
  - destruct (N.testbit b k); [rewrite N.pow2_bits_true; reflexivity|rewrite N.bits_0; reflexivity].
  - destruct (N.testbit b l); [rewrite N.pow2_bits_false by assumption|rewrite N.bits_0]; reflexivity.
Qed.
Lemma sumf_op a b h : sumf (op_blade a b) h = if N.eqb (N.land a b) 0 then sign_of a b * h (N.lor a b) else 0.
Proof. unfold op_blade. destruct (N.eqb (N.land a b) 0); cbn [sumf]; [|reflexivity]. rewrite Rplus_0_r. reflexivity. Qed.
Lemma op_unit b h : sumf (op_blade 0 b) h = h b.
Proof. rewrite sumf_op, N.land_0_l, N.eqb_refl, sign_0_l, N.lor_0_l. apply Rmult_1_l. Qed.
Lemma land_add m l b : N.testbit m l = false -> (N.land (N.lxor m (2 ^ l)) b = 0%N <-> N.land m b = 0%N /\ N.testbit b l = false).
Proof.
  intros Tl. rewrite <- (lor_lxor m (2 ^ l)), land_lor_0, land_pow2_bit. 2:{ rewrite N.land_comm, land_pow2_bit, Tl. reflexivity. }
  destruct (N.testbit b l); [|tauto]. split; [intros [_ H]; exfalso; revert H; apply N.pow_nonzero; discriminate|intros [_ H]; discriminate H].
Qed.
Lemma E_free l h b : N.testbit b l = false -> E l h b = sign_of (2 ^ l) b * h (N.lxor b (2 ^ l)).
Proof. intros H. unfold E. rewrite H. reflexivity. Qed.
Lemma E_used l h b : N.testbit b l = true -> E l h b = 0.
Proof. intros H. unfold E. rewrite H. reflexivity. Qed.
Lemma flip_mid m b l : N.lxor (N.lxor m b) (2 ^ l) = N.lxor (N.lxor m (2 ^ l)) b.
Proof. rewrite !N.lxor_assoc. f_equal. apply N.lxor_comm. Qed.
Lemma ring3 w x y z : w * (x * y * z) = w * x * y * z. Proof. ring. Qed.
Lemma ring2 x y z : x * (1 * y * z) = x * y * z. Proof. ring. Qed.
Lemma op_add l m b h : N.testbit m l = false -> sign_of (2 ^ l) m = 1 -> sumf (op_blade m b) (E l h) = sumf (op_blade (N.lxor m (2 ^ l)) b) h.
Proof.
  intros Tl Sl. rewrite !sumf_op. pose proof (land_add m l b Tl) as El.
  destruct (N.eqb_spec (N.land m b) 0) as [H|H]; destruct (N.eqb_spec (N.land (N.lxor m (2 ^ l)) b) 0) as [H'|H'].
  - destruct (proj1 El H') as [_ T]. rewrite (E_free l h (N.lor m b)) by (rewrite N.lor_spec, Tl, T; reflexivity). rewrite (lor_lxor m b H), sign_lxor_r, Sl, sign_lxor_l.
    rewrite (lor_lxor (N.lxor m (2 ^ l)) b H'), (flip_mid m b l). apply ring2.
  - rewrite (E_used l h (N.lor m b)); [apply Rmult_0_r|]. rewrite N.lor_spec. destruct (N.testbit b l); [apply orb_true_r|]. exfalso. apply H', El. auto.
  - exfalso. apply H, El, H'.
  - reflexivity.
Qed.
Lemma crea_op m : incr m -> forall h b, crea m h b = sumf (op_blade (bits m) b) h.
Proof.
  induction m as [|l m IH]; intros I h b; [symmetry; apply op_unit|]. change (crea (l :: m) h b) with (crea m (E l h) b). rewrite (IH (proj2 (proj2 I))), bits_cons.
  apply op_add; [exact (bits_high m l I)|exact (sign_above l m (proj1 I) (proj2 (proj2 I)) (proj1 (proj2 I)))].
Qed.

Section Form.
(** [B i j] is the inner product of the basis vectors [i] and [j]. *)
Variable B : N -> N -> R.

(** Contraction by basis vector [i]. *)
Definition D (i : N) (h : fn) : fn := fun b => lsum (fun j => B i j * P j h b) idx.

Lemma D_plus i f g b : D i (fun x => f x + g x) b = D i f b + D i g b.
Proof. unfold D. rewrite <- lsum_plus. apply lsum_ext. intros j _. rewrite P_plus. ring. Qed.
Lemma D_mult i c f b : D i (fun x => c * f x) b = c * D i f b.
Proof. unfold D. rewrite <- lsum_mult. apply lsum_ext. intros j _. rewrite P_mult. ring. Qed.
Lemma P_0 j b : P j (fun _ => 0) b = 0.
Proof. unfold P. generalize (sign_of (2 ^ j) b). intros. destruct (N.testbit b j); ring. Qed.
Lemma D_0 i b : D i (fun _ => 0) b = 0.
Proof. unfold D. transitivity (lsum (fun _ : N => 0) idx); [|apply lsum_0]. apply lsum_ext. intros j _. rewrite P_0. ring. Qed.
Lemma DD i l h b : D i (D l h) b = - D l (D i h) b.
Proof.
  unfold D at 1 3. rewrite (lsum_ext _ (fun j => lsum (fun k => B i j * B l k * P j (P k h) b) idx)).
  2:{ intros j _. unfold D. rewrite P_lsum, <- lsum_mult. apply lsum_ext. intros k _. rewrite P_mult. ring. }
  rewrite lsum_exch. replace (- _) with (-1 * lsum (fun j => B l j * P j (D i h) b) idx) by ring. rewrite <- lsum_mult. apply lsum_ext. intros k Hk. apply idx_in in Hk.
  unfold D. rewrite P_lsum, <- !lsum_mult. apply lsum_ext. intros j Hj. apply idx_in in Hj. rewrite P_mult, (PP j k b Hj Hk). ring.
Qed.
Lemma pick (f : N -> R) k l : NoDup l -> In k l -> lsum (fun j => f j * (if N.eqb j k then 1 else 0)) l = f k.
Proof.
  induction l as [|x l IH]; intros ND HI; [destruct HI|]. inversion ND as [|? ? N1 N2]; subst. cbn [lsum]. destruct (N.eqb_spec x k) as [->|Ne].
  - rewrite (lsum_ext _ (fun _ => 0)); [rewrite lsum_0; ring|]. intros y Hy. destruct (N.eqb_spec y k) as [->|]; [contradiction|ring].
  - destruct HI as [->|HI]; [congruence|]. rewrite IH by assumption. ring.
Qed.
Lemma idx_nodup : NoDup idx.
Proof. unfold idx. apply Injective_map_NoDup; [intros a b H; lia|apply seq_NoDup]. Qed.
Lemma ED i l h b : (l < 64)%N -> E l (D i h) b = B i l * h b - D i (E l h) b.
Proof.
  intros Hl. unfold D. rewrite E_lsum. rewrite (lsum_ext _ (fun j => h b * (B i j * (if N.eqb j l then 1 else 0)) + -1 * (B i j * P j (E l h) b))).
  - rewrite lsum_plus, !lsum_mult, (pick (B i) l idx idx_nodup (proj2 (idx_in l) Hl)). ring.
  - intros j Hj. apply idx_in in Hj. rewrite E_mult. pose proof (EP j l b Hj Hl h) as Q.
    generalize dependent (E l (P j h) b). generalize (P j (E l h) b) (h b) (B i j). intros. destruct (N.eqb j l); nra.
Qed.

(** Alternating sum over the lists obtained by removing one element. *)
Fixpoint rsum (f : N -> R) (a : list N) (phi : list N -> R) : R :=
  match a with [] => 0 | l :: a' => f l * phi a' - rsum f a' (fun x => phi (l :: x)) end.
Lemma rsum_ext f a phi psi : (forall x, S (length x) = length a -> phi x = psi x) -> rsum f a phi = rsum f a psi.
Proof.
  revert phi psi. induction a as [|l a IH]; intros phi psi H; cbn [rsum]; [reflexivity|]. rewrite (H a) by reflexivity. f_equal. apply IH. intros x Hx. apply H. cbn [length]. lia.
Qed.
Lemma rsum_plus f a phi psi : rsum f a (fun x => phi x + psi x) = rsum f a phi + rsum f a psi.
Proof. revert phi psi. induction a as [|l a IH]; intros phi psi; cbn [rsum]; [ring|]. rewrite (IH (fun x => phi (l :: x)) (fun x => psi (l :: x))). ring. Qed.
Lemma rsum_mult f a c phi : rsum f a (fun x => c * phi x) = c * rsum f a phi.
Proof. revert phi. induction a as [|l a IH]; intros phi; cbn [rsum]; [ring|]. rewrite (IH (fun x => phi (l :: x))). ring. Qed.
Lemma rsum_lsum {A} f a (phi : list N -> A -> R) m : rsum f a (fun x => lsum (phi x) m) = lsum (fun y => rsum f a (fun x => phi x y)) m.
Proof.
  induction m as [|y m IH]; cbn [lsum].
  - revert phi. induction a as [|l a IH]; intros phi; cbn [rsum]; [reflexivity|]. rewrite (IH (fun x => phi (l :: x))). ring.
  - rewrite rsum_plus, IH. reflexivity.
Qed.
Lemma D_rsum i f a (phi : list N -> fn) b : D i (fun x => rsum f a (fun l => phi l x)) b = rsum f a (fun l => D i (phi l) b).
Proof.
  revert phi. induction a as [|l a IH]; intros phi; cbn [rsum]; [apply D_0|].
  rewrite <- (IH (fun x => phi (l :: x))). rewrite <- D_mult. replace (D i (fun x => f l * phi a x) b - D i (fun x => rsum f a (fun x0 => phi (l :: x0) x)) b) with (D i (fun x => f l * phi a x) b + -1 * D i (fun x => rsum f a (fun x0 => phi (l :: x0) x)) b) by ring.
  rewrite <- D_mult, <- D_plus. f_equal. apply functional_extensionality. intros x. ring.
Qed.

(** Left multiplication by the blade with the factors [a]. *)
Fixpoint mulb (a : list N) (h : fn) : fn :=
  match a with [] => h | l :: a' => fun b => mulb a' (E l h) b + alt a' * D l (mulb a' h) b end.
Lemma mulb_plus a f g b : mulb a (fun x => f x + g x) b = mulb a f b + mulb a g b.
Proof.
  revert f g b. induction a as [|l a IH]; intros f g b; cbn [mulb]; [reflexivity|].
  replace (E l (fun x => f x + g x)) with (fun x => E l f x + E l g x) by (apply functional_extensionality; intros; symmetry; apply E_plus).
  replace (mulb a (fun x => f x + g x)) with (fun x => mulb a f x + mulb a g x) by (apply functional_extensionality; intros; symmetry; apply IH).
  rewrite IH, D_plus. ring.
Qed.
Lemma mulb_mult a c f b : mulb a (fun x => c * f x) b = c * mulb a f b.
Proof.
  revert f b. induction a as [|l a IH]; intros f b; cbn [mulb]; [reflexivity|].
  replace (E l (fun x => c * f x)) with (fun x => c * E l f x) by (apply functional_extensionality; intros; symmetry; apply E_mult).
  replace (mulb a (fun x => c * f x)) with (fun x => c * mulb a f x) by (apply functional_extensionality; intros; symmetry; apply IH).
  rewrite IH, D_mult. ring.
Qed.

Lemma rsum_alt f a (phi : list N -> R) : rsum f a (fun x => alt x * phi x) = - alt a * rsum f a phi.
Proof.
  revert phi. induction a as [|l a IH]; intros phi; cbn [rsum]; [ring|]. rewrite (rsum_ext f a (fun x => alt (l :: x) * phi (l :: x)) (fun x => -1 * (alt x * phi (l :: x)))) by (intros; cbn [alt]; ring).
  rewrite rsum_mult, (IH (fun x => phi (l :: x))). cbn [alt]. ring.
Qed.
Lemma mulb_D i a : Forall (fun l => (l < 64)%N) a -> forall h b,
  mulb a (D i h) b = alt a * D i (mulb a h) b + rsum (B i) a (fun x => mulb x h b).
Proof.
  induction 1 as [|l a Hl Ha IH]; intros h b; cbn [mulb alt rsum]; [ring|].
  replace (E l (D i h)) with (fun x => B i l * h x + -1 * D i (E l h) x) by (apply functional_extensionality; intros x; rewrite (ED i l h x Hl); ring).
  rewrite mulb_plus, !mulb_mult, IH.
  replace (mulb a (D i h)) with (fun x => alt a * D i (mulb a h) x + rsum (B i) a (fun l0 => mulb l0 h x)) by (apply functional_extensionality; intros x; symmetry; apply IH).
  rewrite D_plus, D_mult, D_rsum, (DD l i).
  replace (D i (fun x => mulb a (E l h) x + alt a * D l (mulb a h) x) b) with (D i (mulb a (E l h)) b + alt a * D i (D l (mulb a h)) b) by (rewrite D_plus, D_mult; reflexivity).
  rewrite (rsum_plus (B i) a (fun x => mulb x (E l h) b) (fun x => alt x * D l (mulb x h) b)).
  rewrite (rsum_alt (B i) a (fun x => D l (mulb x h) b)). change (fun l0 => D l (fun x => mulb l0 h x) b) with (fun x => D l (mulb x h) b). generalize (alt_sq a). generalize (alt a). intros z Z.
  generalize (D i (D l (mulb a h)) b) (rsum (B i) a (fun x => D l (mulb x h) b)) (rsum (B i) a (fun x => mulb x (E l h) b)) (D i (mulb a (E l h)) b) (mulb a h b). intros. ring.
Qed.

(** Repeated contraction: by the first element first. *)
Fixpoint conts (c : list N) (h : fn) : fn := match c with [] => h | x :: c' => D x (conts c' h) end.
Lemma conts_plus c f g b : conts c (fun x => f x + g x) b = conts c f b + conts c g b.
Proof.
  revert b. induction c as [|i c IH]; intros b; cbn [conts]; [reflexivity|]. rewrite <- D_plus. f_equal. apply functional_extensionality. exact IH.
Qed.
Lemma E_conts s c : (s < 64)%N -> forall h b, E s (conts c h) b = rsum (fun x => B x s) c (fun c' => conts c' h b) + alt c * conts c (E s h) b.
Proof.
  intros Hs. induction c as [|i c IH]; intros h b; cbn [conts alt rsum]; [ring|]. rewrite (ED i s _ b Hs).
  replace (E s (conts c h)) with (fun x => rsum (fun y => B y s) c (fun c' => conts c' h x) + alt c * conts c (E s h) x) by (apply functional_extensionality; intros x; symmetry; apply IH).
  rewrite D_plus, D_mult, D_rsum. change (fun l => D i (fun x => conts l h x) b) with (fun c' => D i (conts c' h) b). ring.
Qed.

(** Determinant of the form on two lists of vectors, by expansion along the first of [s]. *)
Fixpoint minor (s c : list N) : R :=
  match s with [] => match c with [] => 1 | _ => 0 end | x :: s' => rsum (fun y => B y x) c (minor s') end.

Lemma minor_len s : forall c, length s <> length c -> minor s c = 0.
Proof.
  induction s as [|x s IH]; intros c H; cbn [minor]; [destruct c; [contradiction H; reflexivity|reflexivity]|].
  rewrite (rsum_ext _ c _ (fun _ => 0 * 0)); [rewrite rsum_mult; ring|]. intros y Hy. rewrite IH; [ring|]. cbn [length] in H. lia.
Qed.

Lemma D_zero i h : D i h 0%N = 0.
Proof. unfold D. transitivity (lsum (fun _ : N => 0) idx); [|apply lsum_0]. apply lsum_ext. intros j _. unfold P. rewrite N.bits_0. ring. Qed.

(** Repeated contraction of a blade, by minors. *)
Lemma conts_nil c h : conts c h 0%N = minor [] c * h 0%N.
Proof. destruct c as [|x c]; cbn [conts minor]; [ring|]. rewrite D_zero. ring. Qed.
Definition cterm (c : list N) (h : fn) (p : list N * list N) : R := minor (fst p) c * sgn (fst p) (snd p) * h (bits (snd p)).
Lemma cterm_out s r c h p : incr (s :: r) -> In p (splits r) -> alt c * cterm c (E s h) p = cterm c h (fst p, s :: snd p).
Proof.
  intros I Hp. destruct (splits_in r p Hp) as [Hi Hs]. destruct (Hs (proj2 (proj2 I))) as [I1 I2]. unfold cterm. cbn [fst snd].
  assert (A1 : forall y, In y (fst p) -> (s < y)%N) by (intros y Y; apply (proj1 (proj2 I)), Hi; auto). assert (A2 : incr (s :: snd p)). { split; [exact (proj1 I)|]. split; [intros y Y; apply (proj1 (proj2 I)), Hi; auto|exact I2]. }
  rewrite (E_low s (snd p) h A2), (sgn_second s (fst p) (snd p) (proj1 I) I1 A1). generalize (sgn (fst p) (snd p)) (h (bits (s :: snd p))). intros z y.
  destruct (Nat.eq_dec (length (fst p)) (length c)) as [Hl|Hl]; [rewrite (alt_len _ _ Hl); ring|rewrite (minor_len (fst p) c Hl); ring].
Qed.
Lemma cterm_in s r c h p : incr (s :: r) -> In p (splits r) -> rsum (fun x => B x s) c (fun c' => cterm c' h p) = cterm c h (s :: fst p, snd p).
Proof.
  intros I Hp. destruct (splits_in r p Hp) as [Hi Hs]. destruct (Hs (proj2 (proj2 I))) as [I1 I2]. unfold cterm. cbn [fst snd].
  rewrite (sgn_first s (fst p) (snd p) (proj1 I) I2) by (intros y Y; apply (proj1 (proj2 I)), Hi; auto). generalize (sgn (fst p) (snd p)) (h (bits (snd p))). intros z y.
  rewrite (rsum_ext _ c _ (fun x => (z * y) * minor (fst p) x)) by (intros; ring). rewrite rsum_mult. cbn [minor]. change (fun x => minor (fst p) x) with (minor (fst p)). ring.
Qed.
Lemma conts_expand r : incr r -> forall c h, conts c h (bits r) = lsum (cterm c h) (splits r).
Proof.
  induction r as [|s r IH]; intros I c h.
  - change (bits []) with 0%N. rewrite conts_nil. cbn [splits lsum]. unfold cterm. cbn [fst snd]. rewrite sgn_nil. change (bits []) with 0%N. ring.
  - rewrite <- (E_low s r (conts c h) I), (E_conts s c (proj1 I)). cbn [splits]. rewrite lsum_app, !lsum_map. pose proof (proj2 (proj2 I)) as Ir. rewrite Rplus_comm. f_equal.
    + rewrite (IH Ir), <- lsum_mult. apply lsum_ext. intros p Hp. exact (cterm_out s r c h p I Hp).
    + rewrite (rsum_ext _ c _ (fun c' => lsum (cterm c' h) (splits r))) by (intros c' _; apply (IH Ir)).
      rewrite rsum_lsum. apply lsum_ext. intros p Hp. exact (cterm_in s r c h p I Hp).
Qed.

Lemma D_lsum {A} i (F : A -> fn) l b : D i (fun x => lsum (fun k => F k x) l) b = lsum (fun k => D i (F k) b) l.
Proof. induction l; cbn [lsum]; [apply D_0|]. rewrite D_plus, IHl. reflexivity. Qed.
Lemma mulb_expand a : incr a -> forall h b, mulb a h b = lsum (fun p => wsg a (fst p) * conts (fst p) (crea (snd p) h) b) (splits a).
Proof.
  induction a as [|l a IH]; intros I h b; cbn [mulb splits].
  - cbn [lsum fst snd wsg conts crea]. ring.
  - pose proof (proj2 (proj2 I)) as Ia. rewrite lsum_app, !lsum_map. cbn [fst snd]. f_equal.
    + rewrite (IH Ia). apply lsum_ext. intros p Hp. destruct (splits_in a p Hp) as [Hi _]. rewrite wsg_cons by (intros y Y; apply (proj1 (proj2 I)), Hi; auto). reflexivity.
    + replace (mulb a h) with (fun x => lsum (fun p => wsg a (fst p) * conts (fst p) (crea (snd p) h) x) (splits a)) by (apply functional_extensionality; intros x; symmetry; apply (IH Ia)).
      rewrite D_lsum, <- lsum_mult. apply lsum_ext. intros p Hp. destruct (splits_in a p Hp) as [Hi _]. cbn [wsg conts]. rewrite (filter_all l a (proj1 (proj2 I))), wsg_cons by (intros y Y; apply (proj1 (proj2 I)), Hi; auto).
      rewrite D_mult. ring.
Qed.
(** The product of two blades, expanded. *)
Theorem mulb_blades a r h : incr a -> incr r ->
  mulb a h (bits r) = lsum (fun p => lsum (fun q => wsg a (fst p) * minor (fst q) (fst p) * sgn (fst q) (snd q) * sumf (op_blade (bits (snd p)) (bits (snd q))) h) (splits r)) (splits a).
Proof.
  intros Ia Ir. rewrite (mulb_expand a Ia). apply lsum_ext. intros p Hp. rewrite (conts_expand r Ir), <- lsum_mult. apply lsum_ext. intros q Hq. unfold cterm.
  destruct (splits_in a p Hp) as [_ Hs]. rewrite (crea_op (snd p) (proj2 (Hs Ia))). apply ring3.
Qed.
End Form.
