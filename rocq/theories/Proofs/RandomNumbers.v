(** The fractions of [0,1) and the points of the unit disc that normal deviates
    are made of. *)
From Coq Require Import ZArith Reals Lra Psatz QArith Qcanon Qreals.
From Coq.Floats Require Import SpecFloat.
From Flocq Require Import Core.Core IEEE754.BinarySingleNaN.
From Verif.Proofs Require Import B64Bridge.
From Verif.Model Require Import Base Num Random.
From Verif.Spec Require Import AccuracySpec RandomSpec.
From Verif.Proofs Require Import Util ExactNum QcLra OrdLaws B64Laws Rounding Accuracy.
Open Scope Z_scope.

#[local] Existing Instance B64Bridge.Hprec.
#[local] Existing Instance B64Bridge.Hmax.

(** * Exact numbers *)
Lemma fraction_QR w0 w1 : QR (fraction w0 w1) = (IZR (w0 + 2 ^ 32 * w1) / IZR (2 ^ 64))%R.
Proof. unfold fraction. rewrite QR_Q2Qc. unfold Q2R. cbn [Qnum Qden]. reflexivity. Qed.
Lemma inject_QR z : QR (Q2Qc (inject_Z z)) = IZR z.
Proof. rewrite QR_Q2Qc. unfold Q2R, inject_Z. cbn [Qnum Qden]. by rewrite Rinv_1, Rmult_1_r. Qed.
Lemma fraction_range w0 w1 : word w0 → word w1 → (0 <= fraction w0 w1)%Qc ∧ (fraction w0 w1 < 1)%Qc.
Proof.
  unfold word. intros H0 H1. assert (0 ≤ w0 + 2 ^ 32 * w1 < 2 ^ 64) as [Ha Hb] by lia.
  apply IZR_le in Ha. apply IZR_lt in Hb.
  split; [apply QR_le; rewrite QR_0|apply QR_lt; rewrite QR_1]; rewrite fraction_QR; [apply Rmult_le_pos; [done|]; apply Rlt_le, Rinv_0_lt_compat; by apply (IZR_lt 0)|].
  apply (Rmult_lt_reg_r (IZR (2 ^ 64))); [by apply (IZR_lt 0)|]. unfold Rdiv. rewrite Rmult_assoc, Rinv_l, Rmult_1_r, Rmult_1_l; [done|]. by apply (IZR_neq _ 0).
Qed.
Lemma inject_ne z : z ≠ 0 → Q2Qc (inject_Z z) ≠ 0%Qc.
Proof. intros H E. apply QR_eq in E. rewrite QR_0, inject_QR in E. by apply (eq_IZR z 0) in E. Qed.
Lemma xdiv_Fin a b : b ≠ 0%Qc → xdiv (Fin a) (Fin b) = Fin (a / b)%Qc.
Proof. intros H. unfold xdiv, Qc_eqb. destruct (Qcanon.Qc_eq_dec b 0%Qc) as [E|]; [by destruct (H E)|done]. Qed.
Lemma xleb_Fin a b : xleb (Fin a) (Fin b) = true ↔ (a <= b)%Qc.
Proof.
  unfold xleb. cbn [xltb xeqb]. unfold Qc_ltb, Qc_eqb. destruct (Qclt_le_dec a b) as [H|H]; cbn [orb].
  - split; [intros _; by apply Qclt_le_weak|done].
  - destruct (Qcanon.Qc_eq_dec a b) as [->|H']; [split; [intros _; apply Qcle_refl|done]|]. split; [done|]. intros H2. exfalso. apply H'. by apply Qcle_antisym.
Qed.
Lemma canonical_exact w0 w1 : word w0 → word w1 → @canonical exact w0 w1 = Fin (fraction w0 w1).
Proof.
  intros H0 H1. destruct (fraction_range w0 w1 H0 H1) as [Hp Hl].
  assert (ndiv (nadd (nadd n0 (nmul (nofZ w0) n1)) (nmul (nofZ w1) (nofZ (2 ^ 32)))) (nofZ (2 ^ 64)) = (Fin (fraction w0 w1) : @num exact)) as E.
  { rewrite exact_n0, exact_n1. cbn [nadd nmul ndiv nofZ exact xmul xadd]. rewrite xdiv_Fin by (by apply inject_ne).
    f_equal. apply QR_eq. rewrite fraction_QR, QR_div, !QR_add, !QR_mul, !inject_QR, QR_0, QR_1, plus_IZR, mult_IZR by (by apply inject_ne). f_equal. lra. }
  unfold canonical. rewrite E. rewrite exact_n1. cbn [nleb exact].
  destruct (xleb (Fin 1%Qc) (Fin (fraction w0 w1))) eqn:B; [|done]. exfalso. apply xleb_Fin in B. by apply (Qclt_not_le _ _ Hl).
Qed.
Lemma centred_exact w0 w1 : word w0 → word w1 → @centred exact w0 w1 = Fin (coordinate w0 w1).
Proof.
  intros H0 H1. unfold centred. rewrite canonical_exact, exact_n1 by done. cbn [nmul nsub nofZ exact xmul]. unfold xsub. cbn [xopp xadd]. reflexivity.
Qed.
Lemma polar_exact nsqrt nlog w0 w1 w2 w3 : word w0 → word w1 → word w2 → word w3 →
  let x := coordinate w0 w1 in let y := coordinate w2 w3 in let r := (x * x + y * y)%Qc in
  (@polar exact nsqrt nlog w0 w1 w2 w3 = None ↔ r = 0%Qc ∨ (1 < r)%Qc) ∧
  (∀ l q, r ≠ 0%Qc → (r <= 1)%Qc → nlog (Fin r) = Fin l → nsqrt (Fin (- Q2Qc 2 * l / r)%Qc) = Fin q → (q * q = - Q2Qc 2 * l / r)%Qc →
    ∃ a b, @polar exact nsqrt nlog w0 w1 w2 w3 = Some (Fin a, Fin b) ∧ (a = y * q)%Qc ∧ (b = x * q)%Qc ∧ (a * a + b * b = - Q2Qc 2 * l)%Qc).
Proof.
  intros H0 H1 H2 H3 x y r. unfold polar. rewrite !centred_exact by done. fold x y.
  assert (@nadd exact (@nmul exact (Fin x) (Fin x)) (@nmul exact (Fin y) (Fin y)) = Fin r) as -> by done. cbv zeta.
  rewrite exact_n0, exact_n1. cbn [nltb neqb exact xltb xeqb]. unfold Qc_ltb, Qc_eqb.
  destruct (Qclt_le_dec 1 r) as [A|A]; cbn [orb].
  - split; [split; [by right|done]|]. intros l q _ C. by apply (Qclt_not_le _ _ A) in C.
  - destruct (Qcanon.Qc_eq_dec r 0%Qc) as [B|B]; [split; [split; [by left|done]|done]|]. split.
    + split; [done|]. intros [C|C]; [done|]. by apply (Qclt_not_le _ _ C) in A.
    + intros l q _ _ El Eq Hq. assert (@ndiv exact (@nmul exact (nofZ (-2)) (Fin l)) (Fin r) = Fin (- Q2Qc 2 * l / r)%Qc) as E.
      { cbn [ndiv nmul nofZ exact xmul]. rewrite xdiv_Fin by done. done. }
      rewrite El, E, Eq. exists (y * q)%Qc, (x * q)%Qc. split; [done|]. do 2 (split; [done|]).
      transitivity (r * (q * q))%Qc; [unfold r; ring|]. rewrite Hq. by field.
Qed.

(** * Doubles *)
Lemma near_ofZ z : 0 ≤ z ≤ 2 ^ 64 → near 1 (@nofZ b64 z) (IZR z).
Proof.
  intros [H0 H1]. cbn [nofZ b64]. change b64_prec with B64Bridge.prec; change b64_emax with B64Bridge.emax. rewrite binary_normalize_equiv.
  pose proof (binary_normalize_correct B64Bridge.prec B64Bridge.emax _ _ mode_NE z 0 false) as C. cbv zeta in C.
  assert (F2R (Float radix2 z 0) = IZR z) as EF by (unfold F2R; cbn [Fnum Fexp]; cbn [bpow]; lra). rewrite EF in C.
  change (round radix2 (SpecFloat.fexp B64Bridge.prec B64Bridge.emax) (round_mode mode_NE) (IZR z)) with (rnd (IZR z)) in C.
  apply IZR_le in H0. assert (IZR z <= bpow radix2 64)%R as H1' by (change (bpow radix2 64) with (IZR (2 ^ 64)); by apply IZR_le).
  assert (0 <= rnd (IZR z))%R as P by (rewrite <-rnd_0; by apply rnd_le).
  assert (rel 1 (rnd (IZR z)) (IZR z)) as R.
  { apply rnd_rel0. destruct (Z.eq_dec z 0) as [->|Hz]; [by left|right]. apply le_IZR in H0. apply (Rle_trans _ 1); [change 1%R with (bpow radix2 0); by apply bpow_le|].
    apply IZR_le. lia. }
  assert (rnd (IZR z) < bpow radix2 B64Bridge.emax)%R as B.
  { destruct R as [R _]. assert ((1 + eps) ^ 1 <= 2)%R by (apply pe_small; lia). apply (Rle_lt_trans _ (bpow radix2 64 * bpow radix2 1)); [|rewrite <-bpow_plus; by apply bpow_lt].
    eapply Rle_trans; [exact R|]. change (bpow radix2 1) with 2%R. apply Rmult_le_compat; try lra. pose proof (pe_ge1 1). lra. }
  rewrite Rlt_bool_true in C by (rewrite Rabs_pos_eq; done). destruct C as (E & F & _).
  split; [apply ok_B2SF|]. split; [by destruct (binary_normalize _ _ _ _ _ _ _ _)|]. split; [done|]. rewrite SF2R_B2SF, E. done.
Qed.
(** Powers of two, and one, are not rounded. *)
Lemma near_exact k z : 0 < z → ∀ m e, @nofZ b64 z = S754_finite false m e → b64_ok (@nofZ b64 z) → (IZR (Zpos m) * bpow radix2 e = IZR z)%R → near k (@nofZ b64 z) (IZR z).
Proof.
  intros Hz m e E Hok V. split; [done|]. rewrite E. split; [done|]. split; [apply IZR_le; lia|]. cbn [SF2R]. unfold F2R. cbn [Fnum Fexp cond_Zopp]. rewrite V.
  apply rel_refl. apply IZR_le; lia.
Qed.
Lemma ofZ_ok z : b64_ok (@nofZ b64 z).
Proof. cbn [nofZ b64]. change b64_prec with B64Bridge.prec; change b64_emax with B64Bridge.emax. rewrite binary_normalize_equiv. apply ok_B2SF. Qed.
Lemma near_n1 k : near k (@n1 b64) 1.
Proof. apply (near_exact k 1 ltac:(lia) (2 ^ 52) (-52)); [by vm_compute|apply ofZ_ok|]. change (2 ^ 52)%positive with 4503599627370496%positive. cbn [bpow]. change (Z.pow_pos radix2 52) with 4503599627370496. lra. Qed.
Lemma frac_tame a b : 0 ≤ a → 0 < b ≤ 2 ^ 64 → a ≤ 2 ^ 130 → tame (-1000) 1000 (IZR a / IZR b).
Proof.
  intros Ha [Hb Hb'] Ha'. assert (0 < IZR b)%R as P by (by apply (IZR_lt 0)). assert (IZR b <= bpow radix2 64)%R as B by (change (bpow radix2 64) with (IZR (2 ^ 64)); by apply IZR_le). split.
  - destruct (Z.eq_dec a 0) as [->|Hz]; [left; unfold Rdiv; lra|right]. apply (Rmult_le_reg_r (IZR b)); [done|]. unfold Rdiv. rewrite Rmult_assoc, Rinv_l, Rmult_1_r by lra.
    apply (Rle_trans _ 1); [|apply IZR_le; lia]. apply (Rle_trans _ (bpow radix2 (-1000) * bpow radix2 64)); [apply Rmult_le_compat_l; [apply bpow_ge_0|done]|].
    rewrite <-bpow_plus. change 1%R with (bpow radix2 0). by apply bpow_le.
  - apply (Rmult_le_reg_r (IZR b)); [done|]. unfold Rdiv. rewrite Rmult_assoc, Rinv_l, Rmult_1_r by lra. apply (Rle_trans _ (bpow radix2 130)); [change (bpow radix2 130) with (IZR (2 ^ 130)); by apply IZR_le|].
    rewrite <-(Rmult_1_r (bpow radix2 130)). apply Rmult_le_compat; [apply bpow_ge_0|lra|by apply bpow_le|]. apply IZR_le. lia.
Qed.
Lemma int_tame a : 0 ≤ a → a ≤ 2 ^ 130 → tame (-1000) 1000 (IZR a).
Proof. intros H0 H1. pose proof (frac_tame a 1 H0 ltac:(lia) H1) as H. unfold Rdiv in H. by rewrite Rinv_1, Rmult_1_r in H. Qed.
Lemma raw_near w0 w1 : word w0 → word w1 →
  near 8 (@ndiv b64 (nadd (nadd n0 (nmul (nofZ w0) n1)) (nmul (nofZ w1) (nofZ (2 ^ 32)))) (nofZ (2 ^ 64))) (QR (fraction w0 w1)).
Proof.
  unfold word. intros H0 H1. rewrite fraction_QR, plus_IZR, mult_IZR.
  assert (near 2 (@nmul b64 (nofZ w0) n1) (IZR w0)) as A.
  { replace (IZR w0) with (IZR w0 * 1)%R by lra. apply (near_mul 1 0); [apply near_ofZ; lia|apply near_n1|lia|]. rewrite Rmult_1_r. apply int_tame; lia. }
  assert (near 3 (@nadd b64 n0 (nmul (nofZ w0) n1)) (IZR w0)) as B.
  { replace (IZR w0) with (0 + IZR w0)%R by lra. apply (near_add 2); [apply near_0|done|lia|]. rewrite Rplus_0_l. apply int_tame; lia. }
  assert (near 3 (@nmul b64 (nofZ w1) (nofZ (2 ^ 32))) (IZR (2 ^ 32) * IZR w1)) as C.
  { rewrite Rmult_comm. apply (near_mul 1 1); [apply near_ofZ; lia|by apply near_ofZ|lia|]. rewrite <-mult_IZR. apply int_tame; lia. }
  apply (near_mono 6); [lia|]. apply (near_div 4 1); [apply near_add; [done|done|lia|]|by apply near_ofZ|by apply (IZR_lt 0)|lia|];
    rewrite <-mult_IZR, <-plus_IZR; [apply int_tame; lia|apply frac_tame; lia].
Qed.
(** The largest number that is delivered. *)
Definition top64 : @num b64 := ndiv (nofZ (2 ^ 53 - 1)) (nofZ (2 ^ 53)).
Lemma top_val : top64 = S754_finite false 9007199254740991 (-53).
Proof. by vm_compute. Qed.
Lemma top_q : q_of top64 = Fin (Q2Qc (inject_Z (2 ^ 53 - 1)) * pow2 (-53))%Qc.
Proof. by rewrite top_val. Qed.
Lemma top_R : QR (Q2Qc (inject_Z (2 ^ 53 - 1)) * pow2 (-53))%Qc = (1 - bpow radix2 (-53))%R.
Proof.
  rewrite QR_mul, QR_pow2, inject_QR, minus_IZR, Rmult_minus_distr_r, Rmult_1_l. f_equal. change (IZR (2 ^ 53)) with (bpow radix2 53). by rewrite <-bpow_plus.
Qed.
Lemma canonical_b64 w0 w1 : word w0 → word w1 →
  ∃ c, q_of (@canonical b64 w0 w1) = Fin c ∧ (0 <= c)%Qc ∧ (c < 1)%Qc ∧ within 8 c (fraction w0 w1).
Proof.
  intros H0 H1. pose proof (raw_near w0 w1 H0 H1) as Hn. destruct (fraction_range w0 w1 H0 H1) as [_ Fl]. apply QR_lt in Fl. rewrite QR_1 in Fl.
  unfold canonical. set (x := ndiv _ (nofZ (2 ^ 64))) in *. cbv zeta.
  destruct (near_inv _ _ _ Hn) as (b & Eb & Fb & Nb & Vb & Pb & Rb). destruct (near_inv _ _ _ (near_n1 0)) as (o & Eo & Fo & No & Vo & _ & Ro).
  assert (v o = 1%R) as V1. { destruct Ro as [R1 R2]. cbn in R1, R2. lra. }
  assert (nleb n1 x = Rle_bool (v o) (v b)) as El. { rewrite Eo, Eb. cbn [nleb b64]. by apply SFleb_v. }
  rewrite El, V1. destruct (Rle_bool_spec 1 (v b)) as [G|G].
  - fold top64. eexists. split; [exact top_q|]. assert (0 < bpow radix2 (-53) <= 1 / 2)%R as [P1 P2].
    { split; [apply bpow_gt_0|]. apply (Rle_trans _ (bpow radix2 (-1))); [apply bpow_le; lia|]. change (bpow radix2 (-1)) with (/ 2)%R. lra. }
    split; [apply QR_le; rewrite QR_0, top_R; lra|]. split; [apply QR_lt; rewrite QR_1, top_R; lra|]. apply within_rel. rewrite top_R. split.
    + destruct Rb as [Rb _]. lra.
    + pose proof (pe_mono 1 8 ltac:(lia)) as M. rewrite pow_1 in M. assert (eps = 2 * bpow radix2 (-53))%R as Ee by (unfold eps; change 2%R with (bpow radix2 1); by rewrite <-bpow_plus).
      apply (Rle_trans _ ((1 - bpow radix2 (-53)) * (1 + eps))); [rewrite Ee; nra|]. apply Rmult_le_compat_l; lra.
  - destruct Hn as (Ho & Hf & _ & Hr). destruct (q_val x Hf) as [[c Ec] Ev]. exists c. rewrite Ec in Ev. cbn in Ev. assert (QR c = v b) as Ev' by (rewrite Vb; exact Ev).
    split; [done|]. split; [apply QR_le; rewrite QR_0; lra|]. split; [apply QR_lt; rewrite QR_1; lra|]. apply within_rel. by rewrite Ev'.
Qed.
