From Coq Require Import NArith ZArith List Bool Reals Lra Lia.
From Verif Require Import Bits Expr Sem Wf Simp SpecRat RPowProofs SimpProofs SimpProofs2.
Import ListNotations.
Local Open Scope R_scope.

Lemma lowest_wf e : lowest e -> wf e = true.
Proof. intros [(n & ->)|[(d & D & ->)|(n & d & D & _ & _ & _ & ->)]]; reflexivity. Qed.
Lemma rational_exact fuel g a b va vb : lowest a -> lowest b -> num g a va -> num g b vb ->
  (forall r, eng fuel OAdd a b = Some r -> num g r (va + vb)) /\
  (forall r, eng fuel OMul a b = Some r -> num g r (va * vb)).
Proof.
  intros A B Na Nb. apply lowest_wf in A, B. split; intros r H.
  - apply (s_add _ (eng_ok fuel)) in H as [_ H]; auto.
  - apply (s_mul _ (eng_ok fuel)) in H as [_ H]; auto.
Qed.
Lemma fraction_value g n d : (d <> 0)%Z -> num g (frac_c n d) (IZR n / IZR d) /\ num g (inv_c d) (1 / IZR d).
Proof.
  intros D. assert (I : num g (inv_c d) (1 / IZR d)).
  { apply num_pow. exists (IZR d), (-1). split; [apply num_cv|]. split; [apply num_cv|].
    rewrite rpow_m1' by (apply not_0_IZR; exact D). f_equal. unfold Rdiv. ring. }
  split; [|exact I]. apply num_mul_cons. exists (IZR n), (1 / IZR d). split; [apply num_cv|]. split; [|unfold Rdiv; ring].
  apply num_mul_cons. exists (1 / IZR d), 1. split; [exact I|]. split; [apply num_mul_nil; reflexivity|ring].
Qed.
