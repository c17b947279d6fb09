(** Linear (and some nonlinear) arithmetic on [Qc] through [Q]. *)
From Coq Require Import QArith Qcanon Lqa.

Lemma qc_this_add (a b : Qc) : (this (a + b)%Qc == this a + this b)%Q.
Proof. apply Qred_correct. Qed.
Lemma qc_this_mul (a b : Qc) : (this (a * b)%Qc == this a * this b)%Q.
Proof. apply Qred_correct. Qed.
Lemma qc_this_opp (a : Qc) : (this (- a)%Qc == - this a)%Q.
Proof. apply Qred_correct. Qed.
Lemma qc_this_sub (a b : Qc) : (this (a - b)%Qc == this a - this b)%Q.
Proof. unfold Qcminus, Qminus. rewrite qc_this_add, qc_this_opp. reflexivity. Qed.
Lemma qc_this_inv (a : Qc) : (this (/ a)%Qc == / this a)%Q.
Proof. apply Qred_correct. Qed.
Lemma qc_this_div (a b : Qc) : (this (a / b)%Qc == this a / this b)%Q.
Proof. unfold Qcdiv, Qdiv. rewrite qc_this_mul, qc_this_inv. reflexivity. Qed.
Lemma qc_this_Q2Qc (q : Q) : (this (Q2Qc q) == q)%Q.
Proof. apply Qred_correct. Qed.
Lemma qc_eq_q (a b : Qc) : a = b -> (this a == this b)%Q.
Proof. intros ->. reflexivity. Qed.
Lemma qc_neq_q (a b : Qc) : a <> b -> ~ (this a == this b)%Q.
Proof. intros H E. apply H, Qc_is_canon, E. Qed.

Ltac qc_norm :=
  repeat match goal with
  | H : @eq Qc _ _ |- _ => apply qc_eq_q in H
  | H : ~ @eq Qc _ _ |- _ => apply qc_neq_q in H
  | |- @eq Qc _ _ => apply Qc_is_canon
  | |- ~ @eq Qc _ _ => let E := fresh in intros E
  end;
  unfold Qcle, Qclt, Qcdiv in *;
  repeat (rewrite ?qc_this_add, ?qc_this_mul, ?qc_this_sub, ?qc_this_opp, ?qc_this_inv, ?qc_this_Q2Qc in *);
  change (this 0%Qc) with 0%Q in *; change (this 1%Qc) with 1%Q in *.

Ltac qclra := qc_norm; lra.
Ltac qcnra := qc_norm; nra.

Example t1 (a b c : Qc) : (a < b -> b + c <= 0 -> a + c < 0 + 0)%Qc.
Proof. intros. qclra. Qed.
Example t2 (a b : Qc) : (0 < a -> 0 < b -> 0 < a * b)%Qc.
Proof. intros. qcnra. Qed.
Example t3 (a b : Qc) : (a + b = 1 -> b = 1 - a)%Qc.
Proof. intros. qclra. Qed.
Example t4 (a b : Qc) : (a <> 0 -> a <= 0 -> a < 0)%Qc.
Proof. intros. qc_norm. destruct (Qlt_le_dec a 0); [assumption|]. exfalso. apply H. lra. Qed.

Global Arguments Qcplus : simpl never.
Global Arguments Qcminus : simpl never.
Global Arguments Qcmult : simpl never.
Global Arguments Qcopp : simpl never.
Global Arguments Qcinv : simpl never.
Global Arguments Qcdiv : simpl never.
