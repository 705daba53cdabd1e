(** The expanded product is the Clifford product of the form: it satisfies the laws that define it, and
    they determine it. *)
From Coq Require Import NArith ZArith List Bool Reals Lra Lia FunctionalExtensionality.
From Verif Require Import Bits SpecBits BitsBase BitsProofs Sem SpecMv SpecAlg MvBase GradeProofs SmartProofs Clifford SpecGeneral Wick.
Import ListNotations.
Local Open Scope R_scope.

Local Opaque sign_of.
Lemma EE j k h b : (j < 64)%N -> (k < 64)%N -> E j (E k h) b = - E k (E j h) b.
Proof.
  intros Hj Hk. unfold E. rewrite !bit_flip, !sign_lxor_r. destruct (N.eq_dec j k) as [->|Ne].
  - rewrite N.eqb_refl. generalize (sign_of (2 ^ k) b) (sign_of (2 ^ k) (2 ^ k)). intros. destruct (N.testbit b k); cbn [xorb]; ring.
  - rewrite (proj2 (N.eqb_neq j k) Ne), (proj2 (N.eqb_neq k j) (not_eq_sym Ne)), !xorb_false_r, (sign_other j k Hj Hk Ne), (flip_comm b j k).
    generalize (sign_of (2 ^ j) b) (sign_of (2 ^ k) b) (sign_of (2 ^ k) (2 ^ j)) (h (N.lxor (N.lxor b (2 ^ k)) (2 ^ j))). intros.
    destruct (N.testbit b j), (N.testbit b k); ring.
Qed.

Lemma indices_incr_from n k b : (k + n = 64)%nat -> incr (filter (N.testbit b) (map N.of_nat (seq k n))) /\ (forall y, In y (filter (N.testbit b) (map N.of_nat (seq k n))) -> (N.of_nat k <= y)%N).
Proof.
  revert k. induction n as [|n IH]; intros k H; cbn [seq map filter]; [cbn; tauto|]. destruct (IH (S k) ltac:(lia)) as [I Hy].
  destruct (N.testbit b (N.of_nat k)).
  - split; [|intros y [<-|Y]; [lia|apply Hy in Y; lia]]. cbn [incr]. split; [lia|]. split; [intros y Y; apply Hy in Y; lia|exact I].
  - split; [exact I|]. intros y Y. apply Hy in Y. lia.
Qed.
Lemma indices_incr b : incr (indices b).
Proof. exact (proj1 (indices_incr_from 64 0 b eq_refl)). Qed.
Lemma indices_spec b y : In y (indices b) <-> (y < 64)%N /\ N.testbit b y = true.
Proof. unfold indices. rewrite filter_In. fold idx. rewrite idx_in. reflexivity. Qed.
Lemma bits_lt l n : incr l -> (forall y, In y l -> (y < n)%N) -> (bits l < 2 ^ n)%N.
Proof.
  intros I H. induction l as [|x l IH]; [apply N.neq_0_lt_0, N.pow_nonzero; discriminate|]. rewrite bits_cons. apply lxor_lt; [apply IH; [exact (proj2 (proj2 I))|intros; apply H; right; assumption]|].
  apply N.pow_lt_mono_r; [lia|]. apply H. left. reflexivity.
Qed.
Lemma bits_indices b : (b < 2 ^ 64)%N -> bits (indices b) = b.
Proof.
  intros Hb. apply N.bits_inj. intros k. pose proof (bits_bit (indices b) (indices_incr b) k) as Q. rewrite indices_spec in Q.
  destruct (N.ltb_spec k 64) as [Hk|Hk].
  - destruct (N.testbit (bits (indices b)) k), (N.testbit b k); intuition congruence.
  - rewrite (testbit_high b 64 k Hb Hk). apply (testbit_high _ 64 k); [|exact Hk]. apply bits_lt; [apply indices_incr|]. intros y Y. apply indices_spec in Y. apply Y.
Qed.
Lemma incr_unique l : forall m, incr l -> incr m -> (forall y, In y l <-> In y m) -> l = m.
Proof.
  induction l as [|x l IH]; intros m Il Im H.
  - destruct m as [|y m]; [reflexivity|]. destruct (proj2 (H y) (or_introl eq_refl)).
  - destruct m as [|y m]; [destruct (proj1 (H x) (or_introl eq_refl))|].
    assert (x = y) as <-. { destruct (proj1 (H x) (or_introl eq_refl)) as [E1|E1]; [auto|]. destruct (proj2 (H y) (or_introl eq_refl)) as [E2|E2]; [auto|]. pose proof (proj1 (proj2 Im) x E1). pose proof (proj1 (proj2 Il) y E2). lia. }
    f_equal. apply IH; [exact (proj2 (proj2 Il))|exact (proj2 (proj2 Im))|]. intros z. split; intros Z.
    + destruct (proj1 (H z) (or_intror Z)) as [<-|Q]; [|exact Q]. pose proof (proj1 (proj2 Il) x Z). lia.
    + destruct (proj2 (H z) (or_intror Z)) as [<-|Q]; [|exact Q]. pose proof (proj1 (proj2 Im) x Z). lia.
Qed.
Lemma indices_bits l : incr l -> indices (bits l) = l.
Proof.
  intros I. apply incr_unique; [apply indices_incr|exact I|]. intros y. rewrite indices_spec, (bits_bit l I y). split; [tauto|]. intros H. split; [exact (incr_lt l I y H)|exact H].
Qed.
Lemma incr_all l : incr l -> Forall (fun x => (x < 64)%N) l.
Proof. intros I. apply Forall_forall. exact (incr_lt l I). Qed.

Lemma indices_filter b : indices b = filter (N.testbit b) idx. Proof. reflexivity. Qed.
Lemma indices_0 : indices 0 = []. Proof. reflexivity. Qed.
Local Opaque indices idx.
Section Form.
Variable B : N -> N -> R.
Notation mulb := (mulb B).
Notation D := (D B).
(** Left multiplication by a basis vector. *)
Definition V (l : N) (h : fn) : fn := fun b => E l h b + D l h b.

Lemma mulb_ext a h k b : (forall x, h x = k x) -> mulb a h b = mulb a k b.
Proof. intros H. f_equal. apply functional_extensionality. exact H. Qed.
Lemma mulb_opp a h b : mulb a (fun x => - h x) b = - mulb a h b.
Proof. replace (- mulb a h b) with (-1 * mulb a h b) by ring. rewrite <- mulb_mult. apply mulb_ext. intros; ring. Qed.

Lemma mulb_swap l m a h b : (l < 64)%N -> (m < 64)%N -> mulb (l :: m :: a) h b = - mulb (m :: l :: a) h b.
Proof.
  intros Hl Hm. cbn [Wick.mulb alt]. rewrite (mulb_ext a (E m (E l h)) (fun x => - E l (E m h) x)) by (intros x; apply EE; assumption). rewrite mulb_opp, !D_plus, !D_mult, (DD B l m).
  generalize (alt a). intros z. generalize (mulb a (E l (E m h)) b) (D m (mulb a (E l h)) b) (D l (mulb a (E m h)) b) (D m (D l (mulb a h)) b). intros. ring.
Qed.

Fixpoint insert (l : N) (x : list N) : list N :=
  match x with [] => [l] | y :: x' => if N.ltb l y then l :: x else y :: insert l x' end.
Lemma insert_in l x y : In y (insert l x) <-> y = l \/ In y x.
Proof. induction x as [|z x IH]; cbn [insert]; [cbn [In]; intuition|]. destruct (N.ltb l z); cbn [In]; [intuition|]. rewrite IH. intuition. Qed.
Lemma insert_incr l x : (l < 64)%N -> ~ In l x -> incr x -> incr (insert l x).
Proof.
  intros Hl. induction x as [|y x IH]; intros Ni I; cbn [insert]; [cbn [incr In]; intuition|]. destruct (N.ltb_spec l y) as [H|H].
  - cbn [incr]. split; [exact Hl|]. split; [|exact I]. intros z [<-|Z]; [exact H|]. pose proof (proj1 (proj2 I) z Z). lia.
  - cbn [incr]. split; [exact (proj1 I)|]. split; [|apply IH; [intros Q; apply Ni; right; exact Q|exact (proj2 (proj2 I))]].
    intros z Z. apply insert_in in Z. destruct Z as [->|Z]; [|exact (proj1 (proj2 I) z Z)]. assert (l <> y) by (intros ->; apply Ni; left; reflexivity). lia.
Qed.
Lemma insert_bits l x : bits (insert l x) = N.lxor (bits x) (2 ^ l).
Proof.
  induction x as [|y x IH]; cbn [insert]; [apply bits_cons|]. destruct (N.ltb l y); [apply bits_cons|]. rewrite !bits_cons, IH. apply flip_comm.
Qed.
Lemma insert_len l x : length (insert l x) = S (length x).
Proof. induction x as [|y x IH]; cbn [insert length]; [reflexivity|]. destruct (N.ltb l y); cbn [length]; [reflexivity|]. rewrite IH. reflexivity. Qed.

Lemma sign_of_cons l y x : (l < 64)%N -> (y < 64)%N -> (y < l)%N -> sign_of (2 ^ l) (bits (y :: x)) = - sign_of (2 ^ l) (bits x).
Proof. intros Hl Hy H. rewrite bits_cons, sign_lxor_r, (sign_pow2 l y Hl Hy). destruct (N.ltb_spec y l); [ring|lia]. Qed.
(** A factor already present gives zero; a new factor moves to its place with the reordering sign. *)
Lemma mulb_insert l x : (l < 64)%N -> incr x -> forall h b,
  mulb (l :: x) h b = if N.testbit (bits x) l then 0 else sign_of (2 ^ l) (bits x) * mulb (insert l x) h b.
Proof.
  intros Hl. induction x as [|y x IH]; intros I h b.
  - change (bits []) with 0%N. rewrite N.bits_0, sign_0_r. cbn [insert]. ring.
  - pose proof (proj1 I) as Hy. pose proof (proj2 (proj2 I)) as Ix. cbn [insert]. destruct (N.ltb_spec l y) as [H|H].
    + assert (I' : incr (l :: y :: x)). { split; [exact Hl|]. split; [|exact I]. intros z [<-|Z]; [exact H|]. pose proof (proj1 (proj2 I) z Z). lia. }
      rewrite (bits_high (y :: x) l I'), (sign_above l (y :: x) Hl I (proj1 (proj2 I'))). ring.
    + destruct (N.eq_dec l y) as [->|Ne].
      * rewrite (proj2 (bits_bit (y :: x) I y) (or_introl eq_refl)). pose proof (mulb_swap y y x h b Hy Hy). lra.
      * assert (Tb : N.testbit (bits (y :: x)) l = N.testbit (bits x) l). { rewrite bits_cons, bit_flip. destruct (N.eqb_spec y l); [congruence|]. apply xorb_false_r. }
        rewrite Tb, (sign_of_cons l y x Hl Hy ltac:(lia)), (mulb_swap l y x h b Hl Hy).
        change (mulb (y :: l :: x) h b) with (mulb (l :: x) (E y h) b + alt (l :: x) * D y (mulb (l :: x) h) b). rewrite (IH Ix).
        replace (mulb (l :: x) h) with (fun z => if N.testbit (bits x) l then 0 else sign_of (2 ^ l) (bits x) * mulb (insert l x) h z) by (apply functional_extensionality; intros z; symmetry; apply (IH Ix)).
        destruct (N.testbit (bits x) l); [rewrite D_0; ring|]. rewrite D_mult.
        change (mulb (y :: insert l x) h b) with (mulb (insert l x) (E y h) b + alt (insert l x) * D y (mulb (insert l x) h) b).
        rewrite (alt_len (insert l x) (l :: x)) by apply insert_len. generalize (sign_of (2 ^ l) (bits x)) (mulb (insert l x) (E y h) b) (alt (l :: x)) (D y (mulb (insert l x) h) b). intros. ring.
Qed.

(** Removing one factor. *)
Lemma P_bits_cons j y x (psi : fn) : (j < 64)%N -> incr (y :: x) ->
  P j psi (bits (y :: x)) = (if N.eqb j y then 1 else 0) * psi (bits x) - P j (fun z => psi (N.lxor z (2 ^ y))) (bits x).
Proof.
  intros Hj I. pose proof (proj1 I) as Hy. pose proof (proj2 (proj2 I)) as Ix. unfold P. rewrite bits_cons, bit_flip, sign_lxor_r. destruct (N.eqb_spec j y) as [->|Ne].
  - rewrite N.eqb_refl, (bits_high x y I). cbn [xorb]. rewrite (sign_above y x Hy Ix (proj1 (proj2 I))), (sign_self y Hy), flip2. ring.
  - destruct (N.eqb_spec y j); [congruence|]. rewrite xorb_false_r. destruct (N.testbit (bits x) j) eqn:T; [|ring]. apply (proj1 (bits_bit x Ix j)) in T.
    rewrite (sign_pow2 j y Hj Hy). pose proof (proj1 (proj2 I) j T). destruct (N.ltb_spec y j); [|lia]. rewrite (flip_comm (bits x) y j).
    generalize (sign_of (2 ^ j) (bits x)) (psi (N.lxor (N.lxor (bits x) (2 ^ j)) (2 ^ y))). intros. ring.
Qed.
Lemma rsum_P f x : incr x -> forall psi : fn, rsum f x (fun z => psi (bits z)) = lsum (fun j => f j * P j psi (bits x)) idx.
Proof.
  induction x as [|y x IH]; intros I psi; cbn [rsum].
  - symmetry. transitivity (lsum (fun _ : N => 0) idx); [|apply lsum_0]. apply lsum_ext. intros j _. unfold P. change (bits []) with 0%N. rewrite N.bits_0. ring.
  - rewrite (rsum_ext f x _ (fun z => (fun w => psi (N.lxor w (2 ^ y))) (bits z))) by (intros z _; rewrite bits_cons; reflexivity). rewrite (IH (proj2 (proj2 I)) (fun w => psi (N.lxor w (2 ^ y)))).
    rewrite (lsum_ext (fun j => f j * P j psi (bits (y :: x))) (fun j => psi (bits x) * (f j * (if N.eqb j y then 1 else 0)) + -1 * (f j * P j (fun z => psi (N.lxor z (2 ^ y))) (bits x)))).
    + rewrite lsum_plus, !lsum_mult, (pick f y idx idx_nodup (proj2 (idx_in y) (proj1 I))). generalize (psi (bits x)) (f y) (lsum (fun j => f j * P j (fun z => psi (N.lxor z (2 ^ y))) (bits x)) idx). intros. ring.
    + intros j Hj. apply idx_in in Hj. rewrite (P_bits_cons j y x psi Hj I). generalize (P j (fun z => psi (N.lxor z (2 ^ y))) (bits x)) (psi (bits x)) (f j). intros. destruct (N.eqb j y); ring.
Qed.
Lemma rsum_D i x (psi : fn) : incr x -> rsum (B i) x (fun z => psi (bits z)) = D i psi (bits x).
Proof. intros I. rewrite (rsum_P (B i) x I psi). reflexivity. Qed.

(** Left multiplication by a factor list through left multiplication by its first factor. *)
Lemma mulb_V l a h b : Forall (fun x => (x < 64)%N) a -> mulb (l :: a) h b = mulb a (V l h) b - rsum (B l) a (fun x => mulb x h b).
Proof.
  intros H. unfold V. rewrite mulb_plus. change (fun x => D l h x) with (D l h). change (fun x => E l h x) with (E l h). rewrite (mulb_D B l a H). cbn [Wick.mulb]. ring.
Qed.

Lemma rsum_ext_incr f a : incr a -> forall phi psi, (forall x, incr x -> (forall y, In y x -> In y a) -> S (length x) = length a -> phi x = psi x) -> rsum f a phi = rsum f a psi.
Proof.
  induction a as [|l a IH]; intros I phi psi H; cbn [rsum]; [reflexivity|]. pose proof (proj2 (proj2 I)) as Ia.
  rewrite (H a Ia) by (try reflexivity; intros; right; assumption). f_equal. apply (IH Ia). intros x Ix Hx Hl. apply H.
  - split; [exact (proj1 I)|]. split; [|exact Ix]. intros y Y. apply (proj1 (proj2 I)), Hx, Y.
  - intros y [<-|Y]; [left; reflexivity|right; apply Hx, Y].
  - cbn [length]. rewrite Hl. reflexivity.
Qed.

(** Blades as lists. *)
(** Product of two blades against a functional. *)
Definition M (a : N) (h : fn) (b : N) : R := mulb (indices a) h b.

(** A vector times (a blade times anything). *)
Lemma V_assoc l x h c : (l < 64)%N -> incr x -> V l (fun z => M z h c) (bits x) = mulb x (V l h) c.
Proof.
  intros Hl I. pose proof (mulb_V l x h c (incr_all x I)) as Q. unfold V at 1. rewrite <- (rsum_D l x (fun z => M z h c) I).
  rewrite (rsum_ext_incr (B l) x I _ (fun z => mulb z h c)) by (intros z Iz _ _; unfold M; rewrite (indices_bits z Iz); reflexivity).
  pose proof (mulb_insert l x Hl I h c) as Q2. destruct (N.testbit (bits x) l) eqn:T.
  - rewrite (E_used l _ _ T). rewrite Q2 in Q. generalize dependent (rsum (B l) x (fun z => mulb z h c)). intros. lra.
  - rewrite (E_free l _ _ T), <- insert_bits. unfold M. rewrite indices_bits. 2:{ apply insert_incr; [exact Hl| |exact I]. intros Z. apply (bits_bit x I l) in Z. congruence. }
    rewrite <- Q2, Q. ring.
Qed.

(** Associativity, for all blades. *)
Lemma mulb_ext_bits a r h k : incr a -> incr r -> (forall x, (x < 2 ^ 64)%N -> h x = k x) -> mulb a h (bits r) = mulb a k (bits r).
Proof.
  intros Ia Ir H. rewrite (mulb_blades B a r h Ia Ir), (mulb_blades B a r k Ia Ir). apply lsum_ext. intros p Hp. apply lsum_ext. intros q Hq. f_equal.
  apply sumf_ext_in. intros t Ht. apply H. destruct (splits_in _ p Hp) as [_ Sp]. destruct (splits_in _ q Hq) as [_ Sq]. destruct (Sp Ia) as [_ I1]. destruct (Sq Ir) as [_ I2].
  unfold op_blade in Ht. destruct (N.eqb _ 0); [|destruct Ht]. destruct Ht as [<-|[]]. cbn [snd]. apply lor_lt; apply bits_lt; auto; apply incr_lt; assumption.
Qed.
Lemma mulb_ext64 a h k b : incr a -> (forall x, (x < 2 ^ 64)%N -> h x = k x) -> (b < 2 ^ 64)%N -> mulb a h b = mulb a k b.
Proof. intros I H Hb. pose proof (mulb_ext_bits a (indices b) h k I (indices_incr b) H) as Q. rewrite (bits_indices b Hb) in Q. exact Q. Qed.
Lemma M_rsum b f a (phi : list N -> fn) c : M b (fun x => rsum f a (fun l => phi l x)) c = rsum f a (fun l => M b (phi l) c).
Proof.
  unfold M. revert phi. induction a as [|l a IH]; intros phi; cbn [rsum].
  - replace (fun _ : N => 0) with (fun _ : N => 0 * 0) by (apply functional_extensionality; intros; ring). rewrite mulb_mult. ring.
  - rewrite <- (IH (fun x => phi (l :: x))). rewrite <- mulb_mult. replace (mulb (indices b) (fun x => f l * phi a x) c - mulb (indices b) (fun x => rsum f a (fun x0 => phi (l :: x0) x)) c) with (mulb (indices b) (fun x => f l * phi a x) c + -1 * mulb (indices b) (fun x => rsum f a (fun x0 => phi (l :: x0) x)) c) by ring.
    rewrite <- mulb_mult, <- mulb_plus. apply mulb_ext. intros x. ring.
Qed.
Lemma M_minus b h k c : M b (fun x => h x - k x) c = M b h c - M b k c.
Proof. unfold M. replace (mulb (indices b) h c - mulb (indices b) k c) with (mulb (indices b) h c + -1 * mulb (indices b) k c) by ring. rewrite <- mulb_mult, <- mulb_plus. apply mulb_ext. intros; ring. Qed.
Lemma mulb_assoc n : forall a, (length a <= n)%nat -> incr a -> forall b c h, (b < 2 ^ 64)%N -> (c < 2 ^ 64)%N -> mulb a (fun x => M x h c) b = M b (mulb a h) c.
Proof.
  induction n as [|n IH]; intros a Hn I b c h Hb Hc.
  - destruct a; [reflexivity|cbn in Hn; lia].
  - destruct a as [|l a]; [reflexivity|]. pose proof (proj2 (proj2 I)) as Ia. pose proof (proj1 I) as Hl. cbn [length] in Hn.
    rewrite (mulb_V l a _ b (incr_all a Ia)).
    rewrite (mulb_ext64 a (V l (fun x => M x h c)) (fun x => M x (V l h) c) b Ia). 3:{ exact Hb. }
    2:{ intros x Hx. rewrite <- (bits_indices x Hx) at 1. apply V_assoc; [exact Hl|apply indices_incr]. }
    rewrite (IH a ltac:(lia) Ia b c (V l h) Hb Hc).
    rewrite (rsum_ext_incr (B l) a Ia _ (fun x => M b (mulb x h) c)) by (intros x Ix _ Hx; apply IH; [lia|exact Ix|exact Hb|exact Hc]).
    rewrite <- (M_rsum b (B l) a (fun x => mulb x h) c). rewrite <- M_minus. unfold M. apply mulb_ext. intros x. symmetry. apply (mulb_V l a h x (incr_all a Ia)).
Qed.

(** ** The product as a formal sum *)
Definition wick (a b : N) : mv :=
  flat_map (fun p => flat_map (fun q => scale (wsg (indices a) (fst p) * minor B (fst q) (fst p) * sgn (fst q) (snd q)) (op_blade (bits (snd p)) (bits (snd q)))) (splits (indices b))) (splits (indices a)).
Lemma sumf_flat {A} (f : A -> mv) l h : sumf (flat_map f l) h = lsum (fun x => sumf (f x) h) l.
Proof. induction l; cbn [flat_map lsum]; [reflexivity|]. rewrite sumf_app, IHl. reflexivity. Qed.
Lemma sumf_wick a b h : (b < 2 ^ 64)%N -> sumf (wick a b) h = M a h b.
Proof.
  intros Hb. unfold M, wick. pose proof (mulb_blades B (indices a) (indices b) h (indices_incr a) (indices_incr b)) as Q. rewrite (bits_indices b Hb) in Q. rewrite Q, sumf_flat.
  apply lsum_ext. intros p _. rewrite sumf_flat. apply lsum_ext. intros q _. apply sumf_scale.
Qed.
Lemma sumf_contract i b h : (b < 2 ^ 64)%N -> sumf (contract B i b) h = D i h b.
Proof.
  intros Hb. unfold contract, Wick.D. assert (H : forall l, Forall (fun j => (j < 64)%N) l -> sumf (map (fun j => (B i j * sign_of (2 ^ j) (N.lxor b (2 ^ j)), N.lxor b (2 ^ j))) (filter (N.testbit b) l)) h = lsum (fun j => B i j * P j h b) l).
  { induction 1 as [|j l Hj Hl IH]; cbn [filter lsum]; [reflexivity|]. unfold P at 1. destruct (N.testbit b j); cbn [map sumf]; rewrite IH; [|ring]. rewrite sign_lxor_r, (sign_self j Hj). generalize (sign_of (2 ^ j) b) (h (N.lxor b (2 ^ j))). intros. ring. }
  rewrite indices_filter. apply (H idx). apply Forall_forall. intros j. apply idx_in.
Qed.
Lemma sumf_vector i b h : sumf (op_blade (2 ^ i) b) h = E i h b.
Proof.
  rewrite sumf_op, land_pow2_bit. unfold E. destruct (N.testbit b i) eqn:T.
  - destruct (N.eqb_spec (2 ^ i) 0) as [H|_]; [exfalso; revert H; apply N.pow_nonzero; discriminate|reflexivity].
  - rewrite N.eqb_refl, lor_lxor by (rewrite land_pow2_bit, T; reflexivity). rewrite (N.lxor_comm (2 ^ i) b). reflexivity.
Qed.
Lemma pow2_64 n x : (n <= 64)%N -> (x < 2 ^ n)%N -> (x < 2 ^ 64)%N.
Proof. intros Hn Hx. apply (N.lt_le_trans _ _ _ Hx), N.pow_le_mono_r; [discriminate|exact Hn]. Qed.
Lemma indices_below n b y : (b < 2 ^ n)%N -> In y (indices b) -> (y < n)%N.
Proof. intros Hb Y. apply indices_spec in Y. destruct Y as [_ Y]. destruct (N.ltb_spec y n); [assumption|]. rewrite (testbit_high b n y Hb) in Y by assumption. discriminate. Qed.
Lemma wick_space n a b : (a < 2 ^ n)%N -> (b < 2 ^ n)%N -> in_space n (wick a b).
Proof.
  intros Ha Hb. unfold wick, in_space. apply Forall_flat_map, Forall_forall. intros p Hp. apply Forall_flat_map, Forall_forall. intros q Hq. apply Forall_forall. intros t Ht.
  unfold scale in Ht. apply in_map_iff in Ht. destruct Ht as (u & <- & Hu). unfold op_blade in Hu. destruct (N.eqb _ 0); [|destruct Hu]. destruct Hu as [<-|[]]. cbn [snd].
  destruct (splits_in _ p Hp) as [Ep Sp]. destruct (splits_in _ q Hq) as [Eq Sq]. destruct (Sp (indices_incr a)) as [_ I1]. destruct (Sq (indices_incr b)) as [_ I2].
  apply lor_lt; apply bits_lt; auto; intros y Y; [apply (indices_below n a y Ha), Ep|apply (indices_below n b y Hb), Eq]; auto.
Qed.
Lemma sumf_in_space n m h k : in_space n m -> (forall x, (x < 2 ^ n)%N -> h x = k x) -> sumf m h = sumf m k.
Proof. intros Hm H. apply sumf_ext_in. intros p Hp. apply H. exact (proj1 (Forall_forall _ _) Hm p Hp). Qed.

Theorem wick_geometric n : (n <= 64)%N -> geometric n B wick.
Proof.
  intros Hn. split; [intros; apply wick_space; assumption|]. split; [|split].
  - intros b Hb. apply meq_iff. intros h. rewrite (sumf_wick 0 b h (pow2_64 n b Hn Hb)). unfold M. rewrite indices_0. rewrite sumf1. cbn [Wick.mulb]. ring.
  - intros i b Hi Hb. pose proof (pow2_64 n b Hn Hb) as Hb'. apply meq_iff. intros h. rewrite (sumf_wick _ b h Hb'), sumf_app, sumf_vector, (sumf_contract i b h Hb'). unfold M. rewrite (indices_pow2 i) by lia. cbn [Wick.mulb alt]. ring.
  - intros a b c Ha Hb Hc. pose proof (pow2_64 n) as L. apply meq_iff. intros h. rewrite !sumf_bilinear.
    rewrite (sumf_ext (wick a b) _ (fun x => M x h c)). 2:{ intros x. rewrite sumf1, (sumf_wick x c h (L c Hn Hc)). ring. }
    rewrite (sumf_wick a b _ (L b Hn Hb)), sumf1.
    rewrite (sumf_in_space n (wick b c) _ (fun x => M a h x)) by (try apply wick_space; auto; intros x Hx; apply sumf_wick, (L x Hn Hx)).
    rewrite (sumf_wick b c _ (L c Hn Hc)), Rmult_1_l. unfold M at 1. exact (mulb_assoc (length (indices a)) (indices a) (le_n _) (indices_incr a) b c h (L b Hn Hb) (L c Hn Hc)).
Qed.

Section Unique.
Variables (n : N) (G : N -> N -> mv).
Hypotheses (Hn : (n <= 64)%N) (HG : geometric n B G).
Lemma G_vector l y h : (l < n)%N -> (y < 2 ^ n)%N -> sumf (G (2 ^ l)%N y) h = V l h y.
Proof.
  intros Hl Hy. destruct HG as (_ & _ & G2 & _). rewrite (proj1 (meq_iff _ _) (G2 l y Hl Hy) h), sumf_app, sumf_vector, (sumf_contract l y h (pow2_64 n y Hn Hy)). reflexivity.
Qed.
Lemma G_list m : forall a, (length a <= m)%nat -> incr a -> (forall y, In y a -> (y < n)%N) -> forall b h, (b < 2 ^ n)%N -> sumf (G (bits a) b) h = mulb a h b.
Proof.
  induction m as [|m IH]; intros a Hm I Ha b h Hb; (destruct a as [|l a]; [|try (cbn in Hm; lia)]).
  1, 2: destruct HG as (_ & G1 & _); change (bits []) with 0%N; rewrite (proj1 (meq_iff _ _) (G1 b Hb) h), sumf1; cbn [Wick.mulb]; ring.
  cbn [length] in Hm. pose proof (proj2 (proj2 I)) as Ia. assert (Hl : (l < n)%N) by (apply Ha; left; reflexivity). assert (Ha' : forall y, In y a -> (y < n)%N) by (intros; apply Ha; right; assumption).
  pose proof (bits_lt a n Ia Ha') as Hba. destruct HG as (G0 & _ & _ & G3).
  assert (Hl2 : (2 ^ l < 2 ^ n)%N) by (apply N.pow_lt_mono_r; [lia|exact Hl]).
  pose proof (proj1 (meq_iff _ _) (G3 (2 ^ l)%N (bits a) b Hl2 Hba Hb) h) as Q. rewrite !sumf_bilinear in Q.
  rewrite (sumf_ext (G (2 ^ l)%N (bits a)) _ (fun x => sumf (G x b) h)) in Q by (intros x; rewrite sumf1; ring).
  rewrite (G_vector l (bits a) _ Hl Hba) in Q. rewrite sumf1, Rmult_1_l in Q.
  rewrite (sumf_in_space n (G (bits a) b) _ (V l h)) in Q by (try (apply G0; assumption); intros x Hx; apply (G_vector l x h Hl Hx)).
  rewrite (IH a ltac:(lia) Ia Ha' b (V l h) Hb) in Q. unfold V at 1 in Q. rewrite (E_low l a _ I) in Q. rewrite <- (rsum_D l a _ Ia) in Q.
  rewrite (rsum_ext_incr (B l) a Ia _ (fun x => mulb x h b)) in Q by (intros x Ix Hx Hlen; apply IH; auto; lia).
  rewrite (mulb_V l a h b (incr_all a Ia)). rewrite <- Q. ring.
Qed.
Theorem geometric_sumf a b h : (a < 2 ^ n)%N -> (b < 2 ^ n)%N -> sumf (G a b) h = M a h b.
Proof.
  intros Ha Hb. pose proof (G_list (length (indices a)) (indices a) (le_n _) (indices_incr a) (fun y Y => indices_below n a y Ha Y) b h Hb) as Q.
  rewrite (bits_indices a (pow2_64 n a Hn Ha)) in Q. exact Q.
Qed.
Theorem geometric_unique a b : (a < 2 ^ n)%N -> (b < 2 ^ n)%N -> meq (G a b) (wick a b).
Proof. intros Ha Hb. apply meq_iff. intros h. rewrite (geometric_sumf a b h Ha Hb). symmetry. apply sumf_wick, (pow2_64 n b Hn Hb). Qed.
End Unique.
End Form.
