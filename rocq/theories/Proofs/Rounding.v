(** Relative errors of double arithmetic on non-negative numbers. *)
From Coq Require Import ZArith Reals Lra Psatz QArith Qcanon Qreals.
From Coq.Floats Require Import SpecFloat.
From Flocq Require Import Core.Core IEEE754.BinarySingleNaN Relative.
From Verif.Proofs Require Import B64Bridge.
From Verif.Model Require Import Num.
From Verif.Spec Require Import AccuracySpec.
From Verif.Proofs Require Import OrdLaws B64Laws.
Open Scope Z_scope.

#[local] Existing Instance B64Bridge.Hprec.
#[local] Existing Instance B64Bridge.Hmax.

(** * Rationals as reals *)
Definition QR (q : Qc) : R := Q2R (this q).
Lemma QR_Q2Qc q : QR (Q2Qc q) = Q2R q.
Proof. unfold QR. cbn. apply Qeq_eqR, Qred_correct. Qed.
Lemma QR_add a b : QR (a + b)%Qc = (QR a + QR b)%R.
Proof. unfold Qcplus. rewrite QR_Q2Qc. apply Q2R_plus. Qed.
Lemma QR_mul a b : QR (a * b)%Qc = (QR a * QR b)%R.
Proof. unfold Qcmult. rewrite QR_Q2Qc. apply Q2R_mult. Qed.
Lemma QR_opp a : QR (- a)%Qc = (- QR a)%R.
Proof. unfold Qcopp. rewrite QR_Q2Qc. apply Q2R_opp. Qed.
Lemma QR_0 : QR 0%Qc = 0%R.
Proof. apply RMicromega.Q2R_0. Qed.
Lemma QR_1 : QR 1%Qc = 1%R.
Proof. apply RMicromega.Q2R_1. Qed.
Lemma QR_le a b : (a <= b)%Qc ↔ (QR a <= QR b)%R.
Proof. split; [apply Qle_Rle|apply Rle_Qle]. Qed.
Lemma QR_lt a b : (a < b)%Qc ↔ (QR a < QR b)%R.
Proof. split; [apply Qlt_Rlt|apply Rlt_Qlt]. Qed.
Lemma QR_eq a b : a = b ↔ QR a = QR b.
Proof. split; [by intros ->|]. intros H. apply Qc_is_canon. by apply eqR_Qeq. Qed.
Lemma QR_inv a : a ≠ 0%Qc → QR (/ a)%Qc = (/ QR a)%R.
Proof.
  intros H. unfold Qcinv. rewrite QR_Q2Qc. apply Q2R_inv. intros E. apply H. apply Qc_is_canon. done.
Qed.
Lemma QR_div a b : b ≠ 0%Qc → QR (a / b)%Qc = (QR a / QR b)%R.
Proof. intros H. unfold Qcdiv, Rdiv. by rewrite QR_mul, QR_inv. Qed.
Lemma QR_pow a k : QR (a ^ k)%Qc = (QR a ^ k)%R.
Proof. induction k as [|k IH]; cbn; [apply QR_1|]. by rewrite QR_mul, IH. Qed.
Lemma QR_pow2 e : QR (pow2 e) = bpow radix2 e.
Proof.
  unfold pow2. rewrite QR_Q2Qc, RMicromega.Q2RpowerRZ, bpow_powerRZ; [|left; done].
  f_equal. unfold Q2R. cbn. lra.
Qed.

(** * Relative distance *)
Definition eps : R := bpow radix2 (-52).
Lemma eps_pos : (0 < eps)%R.
Proof. apply bpow_gt_0. Qed.
Definition rel (k : nat) (a b : R) : Prop := (a <= b * (1 + eps) ^ k)%R ∧ (b <= a * (1 + eps) ^ k)%R.
Lemma pe_ge1 k : (1 <= (1 + eps) ^ k)%R.
Proof. apply pow_R1_Rle. pose proof eps_pos. lra. Qed.
Lemma pe_mono j k : (j ≤ k)%nat → ((1 + eps) ^ j <= (1 + eps) ^ k)%R.
Proof. apply Rle_pow. pose proof eps_pos. lra. Qed.
Lemma within_rel k a b : within k a b ↔ rel k (QR a) (QR b).
Proof.
  unfold within, rel. by rewrite !QR_le, !QR_mul, QR_pow, QR_add, QR_1, QR_pow2.
Qed.

Lemma rel_refl k a : (0 <= a)%R → rel k a a.
Proof. intros H. pose proof (pe_ge1 k). split; nra. Qed.
Lemma rel_mono j k a b : (0 <= a)%R → (0 <= b)%R → (j ≤ k)%nat → rel j a b → rel k a b.
Proof.
  intros Ha Hb Hk [H1 H2]. pose proof (pe_mono j k Hk). split.
  - eapply Rle_trans; [exact H1|]. by apply Rmult_le_compat_l.
  - eapply Rle_trans; [exact H2|]. by apply Rmult_le_compat_l.
Qed.
Lemma rel_sym k a b : rel k a b → rel k b a.
Proof. by intros [H1 H2]. Qed.
Lemma rel_trans j k a b c : rel j a b → rel k b c → rel (j + k) a c.
Proof.
  intros [H1 H2] [H3 H4]. unfold rel. rewrite pow_add. pose proof (pe_ge1 j). pose proof (pe_ge1 k). split.
  - eapply Rle_trans; [exact H1|]. rewrite (Rmult_comm (_ ^ j)), <-Rmult_assoc. apply Rmult_le_compat_r; [lra|done].
  - eapply Rle_trans; [exact H4|]. rewrite <-Rmult_assoc. apply Rmult_le_compat_r; [lra|done].
Qed.
Lemma rel_nonneg k a b : (0 <= b)%R → rel k a b → (0 <= a)%R.
Proof. intros Hb [H1 H2]. pose proof (pe_ge1 k). nra. Qed.
Lemma rel_add k a b a' b' : rel k a b → rel k a' b' → rel k (a + a') (b + b').
Proof. intros [H1 H2] [H3 H4]. split; rewrite Rmult_plus_distr_r; lra. Qed.
Lemma rel_mul j k a b a' b' : (0 <= a)%R → (0 <= b)%R → (0 <= a')%R → (0 <= b')%R →
  rel j a b → rel k a' b' → rel (j + k) (a * a') (b * b').
Proof.
  intros Ha Hb Ha' Hb' [H1 H2] [H3 H4]. unfold rel. rewrite pow_add. split.
  - replace (b * b' * ((1 + eps) ^ j * (1 + eps) ^ k))%R with ((b * (1 + eps) ^ j) * (b' * (1 + eps) ^ k))%R by ring. by apply Rmult_le_compat.
  - replace (a * a' * ((1 + eps) ^ j * (1 + eps) ^ k))%R with ((a * (1 + eps) ^ j) * (a' * (1 + eps) ^ k))%R by ring. by apply Rmult_le_compat.
Qed.
Lemma rel_inv k a b : (0 < a)%R → (0 < b)%R → rel k a b → rel k (/ a) (/ b).
Proof.
  intros Ha Hb [H1 H2]. pose proof (pe_ge1 k). split.
  - apply (Rmult_le_reg_l (a * b)); [by apply Rmult_lt_0_compat|].
    replace (a * b * / a)%R with b by (field; lra). replace (a * b * (/ b * (1 + eps) ^ k))%R with (a * (1 + eps) ^ k)%R by (field; lra). done.
  - apply (Rmult_le_reg_l (a * b)); [by apply Rmult_lt_0_compat|].
    replace (a * b * / b)%R with a by (field; lra). replace (a * b * (/ a * (1 + eps) ^ k))%R with (b * (1 + eps) ^ k)%R by (field; lra). done.
Qed.
Lemma rel_min k a b t : (0 <= t)%R → rel k a b → rel k (Rmin a t) (Rmin b t).
Proof.
  intros Ht [H1 H2]. pose proof (pe_ge1 k). unfold rel, Rmin.
  destruct (Rle_dec a t), (Rle_dec b t); split; try done; nra.
Qed.

(** Few errors do not even double a number. *)
Lemma pe_bound k : (INR k * eps <= 1 / 2)%R → ((1 + eps) ^ k <= 1 + 2 * (INR k * eps))%R.
Proof.
  intros H. pose proof eps_pos as He.
  assert (∀ j, (INR j * eps <= 1)%R → ((1 + eps) ^ j * (1 - INR j * eps) <= 1)%R) as Hj.
  { induction j as [|j IH]; intros Hj; [cbn; lra|]. rewrite S_INR in Hj |- *. cbn [Rpow_def.pow].
    pose proof (pos_INR j) as Hp. specialize (IH ltac:(nra)). pose proof (pe_ge1 j) as H1.
    replace ((1 + eps) * (1 + eps) ^ j * (1 - (INR j + 1) * eps))%R with
      ((1 + eps) ^ j * (1 - INR j * eps) - (1 + eps) ^ j * ((INR j + 1) * (eps * eps)))%R by ring.
    assert (0 <= (1 + eps) ^ j * ((INR j + 1) * (eps * eps)))%R; [|lra]. apply Rmult_le_pos; [lra|]. apply Rmult_le_pos; nra. }
  specialize (Hj k ltac:(lra)). pose proof (pe_ge1 k). pose proof (pos_INR k).
  assert (0 <= INR k * eps)%R by (apply Rmult_le_pos; lra).
  assert (1 <= (1 + 2 * (INR k * eps)) * (1 - INR k * eps))%R by nra.
  apply (Rmult_le_reg_r (1 - INR k * eps)); lra.
Qed.
Lemma small_half k : Z.of_nat k ≤ 2 ^ 50 → (INR k * eps <= 1 / 4)%R.
Proof.
  intros H. rewrite INR_IZR_INZ. apply IZR_le in H. unfold eps.
  assert (IZR (2 ^ 50) * bpow radix2 (-52) = 1 / 4)%R as E.
  { change (2 ^ 50) with (radix2 ^ 50). rewrite IZR_Zpower, <-bpow_plus by done. change (bpow radix2 (50 + -52)) with (/ 4)%R. lra. }
  rewrite <-E. apply Rmult_le_compat_r; [apply bpow_ge_0|done].
Qed.
Lemma pe_small k : Z.of_nat k ≤ 2 ^ 50 → ((1 + eps) ^ k <= 2)%R.
Proof. intros H%small_half. pose proof (pe_bound k ltac:(lra)). lra. Qed.

(** * Rounding *)
Lemma rnd_rel x : (bpow radix2 (-1022) <= x)%R → rel 1 (rnd x) x.
Proof.
  intros Hx. assert (0 < x)%R as Hp by (eapply Rlt_le_trans; [apply bpow_gt_0|exact Hx]).
  assert (Rabs (rnd x - x) <= /2 * bpow radix2 (-53 + 1) * Rabs x)%R as H.
  { apply (relative_error_N_FLT radix2 (-1074) 53); [done|]. change (-1074 + 53 - 1) with (-1022). by rewrite Rabs_pos_eq by lra. }
  change (-53 + 1) with (-52) in H. fold eps in H. rewrite (Rabs_pos_eq x) in H by lra.
  assert (eps <= 1)%R as H1. { change 1%R with (bpow radix2 0). by apply bpow_le. }
  pose proof eps_pos. apply Rabs_le_inv in H. unfold rel. rewrite pow_1. split; nra.
Qed.
Lemma rnd_rel0 x : x = 0%R ∨ (bpow radix2 (-1022) <= x)%R → rel 1 (rnd x) x.
Proof. intros [->|H]; [rewrite rnd_0; apply rel_refl; lra|by apply rnd_rel]. Qed.

(** Zero or of a size given by powers of two. *)
Definition tame (lo hi : Z) (t : R) : Prop := (t = 0%R ∨ (bpow radix2 lo <= t)%R) ∧ (t <= bpow radix2 hi)%R.
Lemma tame_nonneg lo hi t : tame lo hi t → (0 <= t)%R.
Proof. intros [[->|H] _]; [lra|]. eapply Rle_trans; [apply bpow_ge_0|exact H]. Qed.
Lemma tame_mono lo hi lo' hi' t : lo' ≤ lo → hi ≤ hi' → tame lo hi t → tame lo' hi' t.
Proof.
  intros H1 H2 [H3 H4]. split.
  - destruct H3 as [->|H3]; [by left|right]. eapply Rle_trans; [|exact H3]. by apply bpow_le.
  - eapply Rle_trans; [exact H4|]. by apply bpow_le.
Qed.
Lemma tame_0 lo hi : tame lo hi 0.
Proof. split; [by left|apply bpow_ge_0]. Qed.
Lemma tame_add lo hi s t : tame lo hi s → tame lo hi t → tame lo (hi + 1) (s + t).
Proof.
  intros Hs Ht. pose proof (tame_nonneg _ _ _ Hs) as Ps. pose proof (tame_nonneg _ _ _ Ht) as Pt.
  destruct Hs as [[->|Hs] Hs'], Ht as [[->|Ht] Ht']; (split; [|rewrite bpow_plus; change (bpow radix2 1) with 2%R; lra]); try (right; lra).
  left. lra.
Qed.
Lemma tame_mul lo hi lo' hi' s t : tame lo hi s → tame lo' hi' t → tame (lo + lo') (hi + hi') (s * t).
Proof.
  intros Hs Ht. pose proof (tame_nonneg _ _ _ Hs) as Ps. pose proof (tame_nonneg _ _ _ Ht) as Pt. split.
  - destruct Hs as [[->|Hs] Hs'], Ht as [[->|Ht] Ht']; [left; lra..|]. right. rewrite bpow_plus.
    apply Rmult_le_compat; try done; apply bpow_ge_0.
  - rewrite bpow_plus. apply Rmult_le_compat; try done; [apply Hs|apply Ht].
Qed.

(** A double near an exact number. *)
Definition near (k : nat) (x : @num b64) (t : R) : Prop :=
  b64_ok x ∧ is_finite_SF x = true ∧ (0 <= t)%R ∧ rel k (SF2R radix2 x) t.
Lemma near_nonneg k x t : near k x t → (0 <= SF2R radix2 x)%R.
Proof. intros (_ & _ & H & Hr). by eapply rel_nonneg. Qed.
Lemma near_mono j k x t : (j ≤ k)%nat → near j x t → near k x t.
Proof.
  intros Hk H. pose proof (near_nonneg _ _ _ H) as Hx. destruct H as (H1 & H2 & H3 & H4). do 3 (split; [done|]). by eapply rel_mono.
Qed.
Lemma near_inv k x t : near k x t → ∃ b : bf, x = B2SF b ∧ is_finite b = true ∧ is_nan b = false ∧ v b = SF2R radix2 x ∧ (0 <= v b)%R ∧ rel k (v b) t.
Proof.
  intros H. pose proof (near_nonneg _ _ _ H) as Hx. destruct H as ((b & ->)%ok_inv & H2 & H3 & H4).
  assert (is_finite b = true) as Hf by (by destruct b). assert (v b = SF2R radix2 (B2SF b)) as Ev by (rewrite v_fin, SF2R_B2SF; done).
  exists b. rewrite Ev. do 2 (split; [done|]). split; [by destruct b|]. done.
Qed.
Lemma round_near m (z : bf) s t : is_nan z = false → v z = Rmin (rnd s) big → (0 <= s)%R → rel m s t → Z.of_nat m ≤ 2 ^ 50 →
  tame (-1000) 1000 t → near (S m) (B2SF z) t.
Proof.
  intros Nz Ez Ps Hm Hk Ht. pose proof (tame_nonneg _ _ _ Ht) as Pt. pose proof (pe_small m Hk) as H2. pose proof (pe_ge1 m) as H1.
  assert (rel 1 (rnd s) s) as Hr.
  { apply rnd_rel0. destruct Ht as [[->|Ht] _]; [left; destruct Hm as [Hm _]; rewrite Rmult_0_l in Hm; lra|]. right.
    assert (bpow radix2 (-1000) <= s * 2)%R. { eapply Rle_trans; [exact Ht|]. eapply Rle_trans; [apply Hm|]. by apply Rmult_le_compat_l. }
    assert (bpow radix2 (-1022) * 2 <= bpow radix2 (-1000))%R; [|lra]. change 2%R with (bpow radix2 1). rewrite <-bpow_plus. by apply bpow_le. }
  assert (rnd s < big)%R as Hb.
  { assert (eps <= 1)%R as He. { change 1%R with (bpow radix2 0). by apply bpow_le. }
    assert (rnd s <= s * 2)%R. { eapply Rle_trans; [apply Hr|]. rewrite pow_1. apply Rmult_le_compat_l; lra. }
    assert (s <= bpow radix2 1000 * 2)%R. { eapply Rle_trans; [apply Hm|]. apply Rmult_le_compat; try lra. apply Ht. }
    eapply Rle_lt_trans; [exact H|]. apply (Rle_lt_trans _ (bpow radix2 1000 * 2 * 2)); [lra|].
    change 2%R with (bpow radix2 1). rewrite <-!bpow_plus. by apply bpow_lt. }
  rewrite Rmin_left in Ez by lra. assert (0 <= rnd s)%R as Pr. { rewrite <-rnd_0. by apply rnd_le. }
  assert (is_finite z = true) as Fz. { apply v_lt_big_fin; [done|lra|lra]. }
  split; [apply ok_B2SF|]. split; [by destruct z|]. split; [done|]. rewrite SF2R_B2SF, <-v_fin, Ez by done.
  change (S m) with (1 + m)%nat. by eapply rel_trans.
Qed.
Lemma near_add k x s y t : near k x s → near k y t → Z.of_nat k ≤ 2 ^ 50 → tame (-1000) 1000 (s + t) → near (S k) (nadd x y) (s + t).
Proof.
  intros (a & -> & Fa & Na & _ & Pa & Ra)%near_inv (b & -> & Fb & Nb & _ & Pb & Rb)%near_inv Hk Ht.
  cbn [nadd b64]. change b64_prec with B64Bridge.prec; change b64_emax with B64Bridge.emax. rewrite add_equiv.
  destruct (bplus_v a b) as [N E]; try done. eapply round_near; try done; [lra|by apply rel_add].
Qed.
Lemma near_mul j k x s y t : near j x s → near k y t → Z.of_nat (j + k) ≤ 2 ^ 50 → tame (-1000) 1000 (s * t) → near (S (j + k)) (nmul x y) (s * t).
Proof.
  intros Hx Hy Hk Ht. assert (0 <= s)%R by apply Hx. assert (0 <= t)%R by apply Hy.
  destruct (near_inv _ _ _ Hx) as (a & -> & Fa & Na & _ & Pa & Ra). destruct (near_inv _ _ _ Hy) as (b & -> & Fb & Nb & _ & Pb & Rb).
  cbn [nmul b64]. change b64_prec with B64Bridge.prec; change b64_emax with B64Bridge.emax. rewrite mul_equiv.
  destruct (bmult_v a b) as [N E]; try done. eapply round_near; try done; [by apply Rmult_le_pos|by apply rel_mul].
Qed.
Lemma near_pos k x t : (0 < t)%R → near k x t → (0 < SF2R radix2 x)%R.
Proof. intros Ht (_ & _ & _ & H & H'). pose proof (pe_ge1 k). nra. Qed.
Lemma near_div j k x s y t : near j x s → near k y t → (0 < t)%R → Z.of_nat (j + k) ≤ 2 ^ 50 → tame (-1000) 1000 (s / t) → near (S (j + k)) (ndiv x y) (s / t).
Proof.
  intros Hx Hy Hp Hk Ht. assert (0 <= s)%R by apply Hx. pose proof (near_pos _ _ _ Hp Hy) as Hyp.
  destruct (near_inv _ _ _ Hx) as (a & -> & Fa & Na & Ea & Pa & Ra). destruct (near_inv _ _ _ Hy) as (b & -> & Fb & Nb & Eb & Pb & Rb).
  cbn [ndiv b64]. change b64_prec with B64Bridge.prec; change b64_emax with B64Bridge.emax. rewrite div_equiv. rewrite <-Eb in Hyp.
  destruct (bdiv_v a b) as [N E]; try done. assert (0 < / v b)%R by (by apply Rinv_0_lt_compat). assert (0 < / t)%R by (by apply Rinv_0_lt_compat).
  eapply round_near; try done; [apply Rmult_le_pos; lra|]. apply rel_mul; try done; try lra. by apply rel_inv.
Qed.
Lemma near_lt j k x s y t : near j x s → near k y t → (s * (1 + eps) ^ (j + k) < t)%R → nltb x y = true ∧ nltb y x = false.
Proof.
  intros Hx Hy Hl. pose proof (near_nonneg _ _ _ Hx) as Px. pose proof (near_nonneg _ _ _ Hy) as Py.
  assert (0 <= s)%R by apply Hx. assert (0 <= t)%R by apply Hy.
  destruct (near_inv _ _ _ Hx) as (a & -> & Fa & Na & Ea & Pa & Ra). destruct (near_inv _ _ _ Hy) as (b & -> & Fb & Nb & Eb & Pb & Rb).
  cbn [nltb b64]. rewrite !SFltb_v by done.
  assert (v a < v b)%R as Hv.
  { destruct Ra as [Ra _], Rb as [_ Rb]. rewrite pow_add in Hl. pose proof (pe_ge1 k). 
    apply (Rmult_lt_reg_r ((1 + eps) ^ k)); [lra|]. eapply Rlt_le_trans; [|exact Rb]. eapply Rle_lt_trans; [|exact Hl].
    rewrite <-Rmult_assoc. apply Rmult_le_compat_r; [lra|done]. }
  split; [by apply Rlt_bool_true|apply Rlt_bool_false; lra].
Qed.
Lemma near_0 k : near k n0 0.
Proof. split; [apply (ok_B2SF (B754_zero false))|]. split; [done|]. split; [lra|]. apply rel_refl. cbn. lra. Qed.
Lemma near_gt0 k x t : near k x t → nltb n0 x = true ↔ (0 < t)%R.
Proof.
  intros H. split.
  - intros Hl. destruct (near_inv _ _ _ H) as (b & -> & Fb & Nb & Eb & Pb & Rb). rewrite n0_zero in Hl. cbn [nltb b64] in Hl.
    rewrite SFltb_v in Hl by done. destruct (Rlt_bool_spec (v (B754_zero false)) (v b)) as [Hv|]; [|done]. rewrite v_zero in Hv.
    destruct Rb as [Rb _]. pose proof (pe_ge1 k). destruct (Rle_lt_dec t 0); [nra|done].
  - intros Ht. eapply (near_lt 0 k n0 0); [apply near_0|exact H|lra].
Qed.
