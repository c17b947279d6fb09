(** Order laws of rounded non-negative arithmetic, shared by the exact and the
    IEEE instance. *)
From Coq Require Import QArith Qcanon Lqa.
From Verif.Model Require Import Num.
From Verif.Proofs Require Import Util ExactNum QcLra.
Open Scope Z_scope.

Record ord_laws (N : Num) := {
  o_ok : num → Prop;
  o_ok_ofZ z : o_ok (nofZ z);
  o_ok_inf : o_ok ninf;
  o_ok_add a b : o_ok a → o_ok b → o_ok (nadd a b);
  o_ok_sub a b : o_ok a → o_ok b → o_ok (nsub a b);
  o_ok_mul a b : o_ok a → o_ok b → o_ok (nmul a b);
  o_ok_div a b : o_ok a → o_ok b → o_ok (ndiv a b);
  (* comparison: a total preorder on the values that are not NaN *)
  o_trans a b c : o_ok a → o_ok b → o_ok c → nleb a b = true → nleb b c = true → nleb a c = true;
  o_refl_l a b : o_ok a → o_ok b → nleb a b = true → nleb a a = true;
  o_refl_r a b : o_ok a → o_ok b → nleb a b = true → nleb b b = true;
  o_total a b : o_ok a → o_ok b → nleb a a = true → nleb b b = true → nltb a b = false → nleb b a = true;
  o_nlt a b : o_ok a → o_ok b → nleb a b = true → nltb b a = false;
  o_lt_le a b : o_ok a → o_ok b → nltb a b = true → nleb a b = true;
  o_eq a b : o_ok a → o_ok b → neqb a b = nleb a b && nleb b a;
  o_01 : nltb n0 n1 = true;
  o_1inf : nltb n1 ninf = true;
  o_big : nltb n0 (nofZ (10 ^ 100)) = true;
  (* arithmetic of non-negative values *)
  o_add a a' b b' : o_ok a → o_ok a' → o_ok b → o_ok b' →
    nleb n0 a = true → nleb a a' = true → nleb n0 b = true → nleb b b' = true →
    nleb (nadd a b) (nadd a' b') = true;
  o_add0 a : o_ok a → nleb n0 a = true → neqb (nadd a n0) a = true;
  o_0add a : o_ok a → nleb n0 a = true → nleb a (nadd n0 a) = true;
  o_mul a a' b b' : o_ok a → o_ok a' → o_ok b → o_ok b' →
    nleb n0 a = true → nleb a a' = true → nltb a' ninf = true →
    nleb n0 b = true → nleb b b' = true → nltb b' ninf = true →
    nleb (nmul a b) (nmul a' b') = true;
  o_mul1 a : o_ok a → nleb n0 a = true → neqb (nmul n1 a) a = true;
  o_mul0 a : o_ok a → nleb n0 a = true → nltb a ninf = true → neqb (nmul n0 a) n0 = true;
  o_div a b t : o_ok a → o_ok b → o_ok t →
    nleb n0 a = true → nleb a b = true → nltb n0 t = true → nltb t ninf = true →
    nleb (ndiv a t) (ndiv b t) = true;
  o_div_self t : o_ok t → nltb n0 t = true → nltb t ninf = true → neqb (ndiv t t) n1 = true;
  o_div_nan t : o_ok t → nleb n0 t = true → nltb n0 t && nltb t ninf = false → nisnan (ndiv t t) = true;
  o_div0 t : o_ok t → nltb n0 t = true → neqb (ndiv n0 t) n0 = true;
  o_div_inf a : o_ok a → nleb n0 a = true → nltb a ninf = true → neqb (ndiv a ninf) n0 = true
}.

Section derived.
  Context {N : Num} (L : ord_laws N).
  Notation ok := (o_ok N L).

  Lemma ol_ok0 : ok n0. Proof. apply o_ok_ofZ. Qed.
  Lemma ol_ok1 : ok n1. Proof. apply o_ok_ofZ. Qed.
  Lemma ol_00 : nleb n0 n0 = true.
  Proof. eapply (o_refl_l N L n0 n1); [apply ol_ok0|apply ol_ok1|]. apply (o_lt_le N L); [apply ol_ok0|apply ol_ok1|apply o_01]. exact L. Qed.
  Lemma ol_01 : nleb n0 n1 = true.
  Proof. apply (o_lt_le N L); [apply ol_ok0|apply ol_ok1|]. apply o_01. exact L. Qed.

  Lemma ol_eq_le a b : ok a → ok b → neqb a b = true → nleb a b = true ∧ nleb b a = true.
  Proof. intros Ha Hb H. rewrite (o_eq N L) in H by done. by apply andb_true_iff in H. Qed.

  (** adding a non-negative value *)
  Lemma ol_add_nonneg a b : ok a → ok b → nleb n0 a = true → nleb n0 b = true → nleb n0 (nadd a b) = true.
  Proof.
    intros Ha Hb H1 H2. pose proof ol_ok0 as Z0. pose proof ol_00 as L0.
    destruct (ol_eq_le (nadd n0 n0) n0) as [E1 E2]; [by apply o_ok_add|done|by apply (o_add0 N L)|].
    eapply (o_trans N L _ (nadd n0 n0)); [done|by apply o_ok_add|by apply o_ok_add|done|].
    by apply (o_add N L).
  Qed.
  Lemma ol_add_le a b : ok a → ok b → nleb n0 a = true → nleb n0 b = true → nleb a (nadd a b) = true.
  Proof.
    intros Ha Hb H1 H2. pose proof ol_ok0 as Z0. pose proof ol_00 as L0.
    destruct (ol_eq_le (nadd a n0) a) as [E1 E2]; [by apply o_ok_add|done|by apply (o_add0 N L)|].
    eapply (o_trans N L _ (nadd a n0)); [done|by apply o_ok_add|by apply o_ok_add|done|].
    apply (o_add N L); try done. by apply (o_refl_r N L n0 a).
  Qed.
End derived.

(** * The exact instance *)
Lemma Qc_ltb_true a b : Qc_ltb a b = true ↔ (a < b)%Qc.
Proof. unfold Qc_ltb. destruct (Qclt_le_dec a b) as [H|H]; split; try done. intros H'. exfalso. by eapply Qcle_not_lt. Qed.
Lemma Qc_ltb_false a b : Qc_ltb a b = false ↔ (b <= a)%Qc.
Proof. unfold Qc_ltb. destruct (Qclt_le_dec a b) as [H|H]; split; try done. intros H'. exfalso. by eapply Qcle_not_lt. Qed.
Lemma Qc_eqb_true a b : Qc_eqb a b = true ↔ a = b.
Proof. unfold Qc_eqb. destruct (Qcanon.Qc_eq_dec a b); split; congruence. Qed.
Lemma Qc_eqb_false a b : Qc_eqb a b = false ↔ a ≠ b.
Proof. unfold Qc_eqb. destruct (Qcanon.Qc_eq_dec a b); split; congruence. Qed.

Lemma xleb_Fin a b : xleb (Fin a) (Fin b) = true ↔ (a <= b)%Qc.
Proof.
  unfold xleb. cbn. rewrite orb_true_iff, Qc_ltb_true, Qc_eqb_true. split.
  - intros [H| ->]; [by apply Qclt_le_weak|apply Qcle_refl].
  - intros H. apply Qcle_lt_or_eq in H. destruct H; [by left|by right].
Qed.
Lemma xltb_Fin a b : xltb (Fin a) (Fin b) = true ↔ (a < b)%Qc.
Proof. apply Qc_ltb_true. Qed.
Lemma xltb_Fin_false a b : xltb (Fin a) (Fin b) = false ↔ (b <= a)%Qc.
Proof. apply Qc_ltb_false. Qed.
Lemma xeqb_Fin a b : xeqb (Fin a) (Fin b) = true ↔ a = b.
Proof. apply Qc_eqb_true. Qed.
Lemma xeqb_refl a : a ≠ NaN → xeqb a a = true.
Proof. destruct a; try done. intros _. by apply xeqb_Fin. Qed.
Lemma xleb_nonneg a : xleb (Fin 0%Qc) a = true → a = PInf ∨ ∃ q, a = Fin q ∧ (0 <= q)%Qc.
Proof. destruct a; intros H; try done; [right|by left]. exists q. split; [done|]. by apply xleb_Fin. Qed.
Lemma xltb_fin a : xltb a PInf = true → xleb (Fin 0%Qc) a = true → ∃ q, a = Fin q ∧ (0 <= q)%Qc.
Proof. intros H H0. apply xleb_nonneg in H0 as [->|H0]; done. Qed.
Lemma xltb_pos a : xltb (Fin 0%Qc) a = true → a = PInf ∨ ∃ q, a = Fin q ∧ (0 < q)%Qc.
Proof. destruct a; intros H; try done; [right|by left]. exists q. split; [done|]. by apply xltb_Fin. Qed.


Definition exact_laws : ord_laws exact.
Proof.
  refine {| o_ok := fun _ => True |}; try done; cbn [num nadd nsub nmul ndiv nopp nabs nltb nleb neqb ninf exact];
    rewrite ?exact_n0, ?exact_n1.
  - intros a b c _ _ _. destruct a, b, c; try done. rewrite !xleb_Fin. apply Qcle_trans.
  - intros a b _ _. destruct a, b; try done; intros _; apply xleb_Fin, Qcle_refl.
  - intros a b _ _. destruct a, b; try done; intros _; apply xleb_Fin, Qcle_refl.
  - intros a b _ _. destruct a, b; try done. intros _ _. rewrite xltb_Fin_false. by rewrite xleb_Fin.
  - intros a b _ _. destruct a, b; try done. rewrite xltb_Fin_false. by rewrite xleb_Fin.
  - intros a b _ _ H. unfold xleb. by rewrite H.
  - intros a b _ _. destruct a as [x| | |], b as [y| | |]; try done. unfold xleb. cbn.
    destruct (Qc_eqb x y) eqn:E; [apply Qc_eqb_true in E as ->|apply Qc_eqb_false in E].
    + rewrite !(proj2 (Qc_eqb_true y y) eq_refl). by rewrite !orb_true_r.
    + assert (Qc_eqb y x = false) as -> by (apply Qc_eqb_false; congruence). rewrite !orb_false_r.
      destruct (Qc_ltb x y) eqn:E1, (Qc_ltb y x) eqn:E2; try done.
      apply Qc_ltb_true in E1, E2. exfalso. qclra.
  - intros a a' b b' _ _ _ _ Ha Ha' Hb Hb'.
    apply xleb_nonneg in Ha as [->|(x & -> & Hx)], Hb as [->|(y & -> & Hy)];
      destruct a' as [x'| | |], b' as [y'| | |]; try done.
    apply xleb_Fin in Ha', Hb'. apply xleb_Fin. qclra.
  - intros a _ Ha. rewrite xadd_0_r. apply xeqb_refl. by intros ->.
  - intros a _ Ha. rewrite xadd_0_l. unfold xleb. rewrite xeqb_refl by (by intros ->). by rewrite orb_true_r.
  - intros a a' b b' _ _ _ _ Ha Ha' Fa Hb Hb' Fb.
    apply xleb_nonneg in Ha as [->|(x & -> & Hx)], Hb as [->|(y & -> & Hy)];
      destruct a' as [x'| | |], b' as [y'| | |]; try done.
    apply xleb_Fin in Ha', Hb'. apply xleb_Fin. clear Fa Fb. qcnra.
  - intros a _ Ha. apply xleb_nonneg in Ha as [->|(x & -> & Hx)]; [done|]. apply xeqb_Fin. apply Qcmult_1_l.
  - intros a _ Ha Fa. apply xltb_fin in Fa as (q & -> & Hq); [|done]. apply xeqb_Fin. apply Qcmult_0_l.
  - intros a b t _ _ _ Ha Hab Ht Ft.
    apply xltb_pos in Ht as [->|(q & -> & Hq)]; [done|]. clear Ft.
    assert (Qc_eqb q 0%Qc = false) as Eq. { apply Qc_eqb_false. intros ->. by apply Qclt_not_eq in Hq. }
    assert (Qc_ltb q 0%Qc = false) as Eq'. { apply Qc_ltb_false. by apply Qclt_le_weak. }
    apply xleb_nonneg in Ha as [->|(x & -> & Hx)]; destruct b as [y| | |]; try done; cbn; rewrite ?Eq, ?Eq'; try done.
    apply xleb_Fin in Hab. apply xleb_Fin.
    apply Qcmult_le_compat_r; [done|]. apply Qclt_le_weak. qc_norm. by apply Qinv_lt_0_compat.
  - intros t _ Ht Ft. apply xltb_pos in Ht as [->|(q & -> & Hq)]; [done|].
    assert (q ≠ 0%Qc) as Eq. { intros ->. by apply Qclt_not_eq in Hq. }
    cbn. rewrite (proj2 (Qc_eqb_false q 0%Qc) Eq). apply Qc_eqb_true. by apply Qcmult_inv_r.
  - intros t _ Ht Hf. apply xleb_nonneg in Ht as [->|(q & -> & Hq)]; [done|].
    rewrite andb_true_r in Hf. apply xltb_Fin_false in Hf. assert (q = 0%Qc) as -> by qclra. done.
  - intros t _ Ht. apply xltb_pos in Ht as [->|(q & -> & Hq)]; [done|].
    assert (q ≠ 0%Qc) as Eq. { intros ->. by apply Qclt_not_eq in Hq. }
    cbn. rewrite (proj2 (Qc_eqb_false q 0%Qc) Eq). apply Qc_eqb_true. apply Qcmult_0_l.
  - intros a _ Ha Fa. apply xltb_fin in Fa as (q & -> & Hq); done.
Defined.
