(** Basic facts on expressions: induction principle, equality. *)
From Coq Require Import NArith ZArith List Bool Lia.
From Verif Require Import Bits Expr.
Import ListNotations.

Section Ind.
  Context (P : expr -> Prop).
  Context (HCV : forall z, P (CV z)) (HGV : forall t i, P (GV t i)) (HSV : P SV)
    (HCB : forall b, P (CBits b)) (HGB : forall t i, P (GBits t i)) (HSB : P SBits)
    (HBo : forall b, P (CBool b)) (HCBl : forall b, P (CBlade b))
    (HDB : forall pg b, P b -> P (DBlade pg b))
    (HCo : forall c b, P c -> P b -> P (Comp c b))
    (HFn : forall f l, Forall P l -> P (Fn f l)).
  Fixpoint expr_ind' (e : expr) : P e :=
    match e with
    | CV z => HCV z
    | GV t i => HGV t i
    | SV => HSV
    | CBits b => HCB b
    | GBits t i => HGB t i
    | SBits => HSB
    | CBool b => HBo b
    | CBlade b => HCBl b
    | DBlade pg b => HDB pg b (expr_ind' b)
    | Comp c b => HCo c b (expr_ind' c) (expr_ind' b)
    | Fn f l => HFn f l ((fix go (l : list expr) : Forall P l :=
        match l with [] => Forall_nil P | x :: xs => Forall_cons x (expr_ind' x) (go xs) end) l)
    end.
End Ind.

Lemma fname_eqb_eq f g : fname_eqb f g = true <-> f = g.
Proof.
  split; [|intros ->; apply N.eqb_refl].
  destruct f, g; intros H; try reflexivity; discriminate H.
Qed.

Lemma expr_eqb_list f g l m : expr_eqb (Fn f l) (Fn g m) = (fname_eqb f g && exprs_eqb l m)%bool.
Proof. reflexivity. Qed.

Lemma expr_eqb_eq a : forall b, expr_eqb a b = true <-> a = b.
Proof.
  induction a using expr_ind'; intros b'; destruct b'; try (cbn; split; intros; congruence);
    rewrite ?expr_eqb_list; cbn [expr_eqb];
    rewrite ?andb_true_iff, ?Z.eqb_eq, ?N.eqb_eq, ?Bool.eqb_true_iff; try (split; intros; intuition congruence).
  - rewrite IHa. split; intuition congruence.
  - rewrite IHa1, IHa2. split; intuition congruence.
  - rewrite fname_eqb_eq. assert (E : exprs_eqb l args = true <-> l = args).
    { revert args. induction H as [|x xs Hx Hxs IH]; intros [|y ys]; cbn; try (split; intros; congruence).
      rewrite andb_true_iff, Hx, IH. split; intuition congruence. }
    rewrite E. split; intuition congruence.
Qed.

Lemma expr_eqb_refl a : expr_eqb a a = true.
Proof. apply expr_eqb_eq; reflexivity. Qed.

Lemma exprs_eqb_eq l : forall m, exprs_eqb l m = true <-> l = m.
Proof.
  induction l as [|x xs IH]; intros [|y ys]; cbn; try (split; intros; congruence).
  rewrite andb_true_iff, expr_eqb_eq, IH. split; intuition congruence.
Qed.
