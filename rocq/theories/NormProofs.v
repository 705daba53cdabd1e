(** Roots of scalars and norms. *)
From Coq Require Import NArith ZArith List Bool Lia Reals Lra.
From Verif Require Import Bits SpecBits Expr ExprBase Sem Wf SpecMv SpecAlg MvBase RPowProofs Simp SimpProofs SimpProofs2 SmartProofs SpecAbs AbsProofs PresProofs.
Import ListNotations.
Local Open Scope R_scope.

(** ** The square root of an expression whose sign is settled by its shape squares to it. *)
Lemma rpow_sqrt v : 0 <= v -> rpow v (/ 2) = Some (sqrt v).
Proof.
  intros H. destruct (Req_dec v 0) as [->|N]; [rewrite rpow_zero, sqrt_0 by lra; reflexivity|]. rewrite rpow_pos by lra. rewrite Rpower_sqrt by lra. reflexivity.
Qed.
Lemma half_num g : num g half (/ 2).
Proof. apply num_pow. exists 2, (-1). split; [apply num_cv|]. split; [apply num_cv|]. apply rpow_m1'. lra. Qed.
Lemma rpow_even_root x k v : rpow x (IZR (2 * k)) = Some v -> exists u, rpow x (IZR k) = Some u /\ u * u = v.
Proof.
  intros H. destruct (Req_dec x 0) as [->|N].
  - apply rpow_zero_inv in H as [L ->]. apply (lt_IZR 0) in L. exists 0. split; [apply rpow_zero, (IZR_lt 0); lia|lra].
  - rewrite rpow_int in * by auto. assert (Q : powerRZ x (2 * k) = v) by congruence. clear H. exists (powerRZ x k). split; [reflexivity|]. rewrite <- Q. replace (2 * k)%Z with (k + k)%Z by lia. rewrite powerRZ_add by auto. reflexivity.
Qed.
Lemma atomic_root n a r : wf a = true -> atomic a = true -> eng n OPow a half = Some r -> wf r = true /\ forall g v, num g a v -> 0 <= v -> num g r (sqrt v).
Proof.
  intros W A E. destruct (s_pow _ (eng_ok n) a half r W eq_refl E) as [Wr V]. split; [exact Wr|]. intros g v N H. apply (V g v (/ 2)); [exact N|apply half_num|apply rpow_sqrt, H|left; exact A].
Qed.
Theorem even_root : forall n a r, wf a = true -> sure_nonneg a = true -> eng n OPow a half = Some r ->
  wf r = true /\ forall g v, num g a v -> exists u, num g r u /\ u * u = v.
Proof.
  induction n as [|n IH]; intros a r W Sn E; [discriminate|]. destruct (atomic_inv a W) as [A|[(x & xs & ->)|(x & p & ->)]].
  - destruct (atomic_root _ a r W A E) as [Wr V]. split; [exact Wr|]. intros g v N. pose proof (sure_ok g a v Sn N) as H. exists (sqrt v). split; [apply V; auto|apply sqrt_sqrt, H].
  - destruct (wf_mul_inv _ _ W) as (Wx & Wxs & Nxs). cbn [eng power_step apply_rules pow_misc1 pow_misc2 pow_misc3 half no] in E. cbn [pow_distr] in E. fold half in E. unfold yes in E.
    destruct (eng n OPow x half) as [p|] eqn:Ep; [|discriminate E]. destruct (mk_mul xs) as [t|] eqn:Et; [|discriminate E]. destruct (eng n OPow t half) as [q|] eqn:Eq; [|discriminate E].
    destruct (eng n OMul p q) as [r'|] eqn:Em; [|discriminate E]. cbn in E. assert (Q : r' = r) by congruence. subst r'. clear E.
    cbn [sure_nonneg forallb] in Sn. apply andb_prop in Sn as [S1 S2]. destruct (IH x p Wx S1 Ep) as [Wp Vp].
    assert (Wt : wf t = true /\ sure_nonneg t = true /\ forall g v, num g (Fn NMul xs) v -> num g t v).
    { destruct xs as [|y [|z l]]; [congruence|..].
      - cbn in Et. assert (y = t) as <- by congruence. cbn in Wxs, S2. rewrite andb_true_r in Wxs, S2. repeat split; auto. intros g v H. apply num_mul_cons in H as (a & b & Ha & Hb & ->). apply num_mul_nil in Hb as ->. rewrite Rmult_1_r. exact Ha.
      - cbn [mk_mul] in Et. destruct (existsb _ _); [discriminate Et|]. assert (Q : Fn NMul (y :: z :: l) = t) by congruence. rewrite <- Q. repeat split; auto. }
    destruct Wt as (Wt & St & Vt). destruct (IH t q Wt St Eq) as [Wq Vq]. destruct (s_mul _ (eng_ok n) p q r Wp Wq Em) as [Wr Vr]. split; [exact Wr|].
    intros g v N. apply num_mul_cons in N as (a & b & Ha & Hb & ->). destruct (Vp g a Ha) as (u & Hu & <-). destruct (Vq g b (Vt g b Hb)) as (w & Hw & <-). exists (u * w). split; [apply Vr; auto|ring].
  - cbn [sure_nonneg] in Sn. apply wf_pow_inv in W as (A & Wx & Wp). pose proof E as E0. cbn [eng power_step apply_rules pow_misc1 pow_misc2 pow_misc3 half no] in E. cbn [pow_distr] in E. fold half in E. unfold yes in E.
    destruct (eng n OMul p half) as [e|] eqn:Ee; [|discriminate E]. destruct (eng n OPow x e) as [r'|] eqn:Er; [|discriminate E]. cbn in E. assert (Q : r' = r) by congruence. subst r'. clear E.
    destruct (s_mul _ (eng_ok n) p half e Wp eq_refl Ee) as [We Ve]. destruct (s_pow _ (eng_ok n) x e r Wx We Er) as [Wr Vr]. split; [exact Wr|]. intros g v N. apply num_pow in N as (a & b & Ha & Hb & P).
    pose proof (Ve g b (/ 2) Hb (half_num g)) as Ne. apply orb_prop in Sn as [Sx|Sp].
    + pose proof (sure_ok g x a Sx Ha) as La. pose proof (SimpProofs2.rpow_nonneg _ _ _ La P) as Lv. exists (sqrt v). split; [|apply sqrt_sqrt, Lv]. apply (Vr g a (b * / 2)); [exact Ha|exact Ne| |left; exact A]. apply (rpow_rpow a b (/ 2) v); auto. apply rpow_sqrt, Lv.
    + destruct p as [z| | | | | | | | | |]; try discriminate Sp. apply num_cv_inv in Hb as ->. apply Z.even_spec in Sp as [k ->]. destruct (rpow_even_root a k v P) as (u & Pu & <-). exists u. split; [|reflexivity].
      apply (Vr g a (IZR (2 * k) * / 2)); [exact Ha|exact Ne| |left; exact A]. replace (IZR (2 * k) * / 2) with (IZR k) by (rewrite mult_IZR; field). exact Pu.
Qed.
