(** Laws of the exact number instance. *)
From Coq Require Import QArith Qcanon.
From Verif.Model Require Import Num.
From Verif.Spec Require Import GraphSpec.
From Verif.Proofs Require Import Util.

Lemma xadd_comm a b : xadd a b = xadd b a.
Proof. destruct a, b; cbn; try done. f_equal. apply Qcplus_comm. Qed.
Lemma xadd_assoc a b c : xadd a (xadd b c) = xadd (xadd a b) c.
Proof. destruct a, b, c; cbn; try done. f_equal. apply Qcplus_assoc. Qed.
Lemma xadd_0_l a : xadd (Fin 0%Qc) a = a.
Proof. destruct a; cbn; try done. f_equal. apply Qcplus_0_l. Qed.
Lemma xadd_0_r a : xadd a (Fin 0%Qc) = a.
Proof. by rewrite xadd_comm, xadd_0_l. Qed.

Lemma exact_n0 : @n0 exact = Fin 0%Qc.
Proof. unfold n0. cbn. f_equal. Qed.
Lemma exact_n1 : @n1 exact = Fin 1%Qc.
Proof. unfold n1. cbn. f_equal. Qed.

Lemma foldl_xadd (l : list xq) a b : foldl xadd (xadd a b) l = xadd a (foldl xadd b l).
Proof. revert b. induction l as [|x l IH]; intros b; cbn; [done|]. by rewrite <-xadd_assoc, IH. Qed.

Lemma sum_left_perm (l1 l2 : list (@num exact)) : l1 ≡ₚ l2 → @sum_left exact l1 = @sum_left exact l2.
Proof.
  unfold sum_left. generalize (@n0 exact). cbn. intros a H. revert a.
  induction H as [|x l1 l2 H IH|x y l|l1 l2 l3 H1 IH1 H2 IH2]; intros a; cbn; [done|apply IH| |].
  - by rewrite <-!xadd_assoc, (xadd_comm x y).
  - by rewrite IH1.
Qed.
