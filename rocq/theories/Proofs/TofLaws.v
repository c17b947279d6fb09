(** IEEE binary64 satisfies the laws behind the times-of-flight: no product
    [t * (u / t)] underflows to zero when [u / t] does not. *)
From Coq Require Import ZArith QArith Qcanon Reals Lra Psatz.
From Coq.Floats Require Import SpecFloat.
From Flocq Require Import Core.Core IEEE754.BinarySingleNaN.
From Verif.Proofs Require Import B64Bridge.
From Verif.Model Require Import Num TracerTofSolver.
From Verif.Proofs Require Import ExactNum QcLra OrdLaws B64Laws SolverOrd TofRange.
Open Scope Z_scope.
#[local] Existing Instance B64Bridge.Hprec.
#[local] Existing Instance B64Bridge.Hmax.

Notation fe := (SpecFloat.fexp B64Bridge.prec B64Bridge.emax).
Definition tiny : R := bpow radix2 (SpecFloat.emin B64Bridge.prec B64Bridge.emax).
#[local] Instance fe_valid : Valid_exp fe.
Proof. apply fexp_correct. reflexivity. Qed.
#[local] Instance fe_mono : Monotone_exp fe.
Proof. apply (FLT_exp_monotone (SpecFloat.emin B64Bridge.prec B64Bridge.emax) B64Bridge.prec). Qed.

Lemma tiny_pos : (0 < tiny)%R.
Proof. apply bpow_gt_0. Qed.
Lemma tiny_le x : generic_format radix2 fe x → (0 < x)%R → (tiny <= x)%R.
Proof.
  intros Hx Hp. apply (generic_format_ge_bpow radix2 fe); [|done|done].
  intros e. unfold fe. apply Z.le_max_r.
Qed.
Lemma rnd_format x : generic_format radix2 fe (rnd x).
Proof. apply generic_format_round; [exact _|apply valid_rnd_N]. Qed.
(** Rounding down loses at most a third. *)
Lemma rnd_loss x : (0 < rnd x)%R → (x <= 3 / 2 * rnd x)%R.
Proof.
  intros H. pose proof (error_le_half_ulp_round radix2 fe (fun z => negb (Z.even z)) x) as He.
  pose proof (ulp_le_abs radix2 fe (rnd x)) as Hu. unfold rnd in *. rewrite Rabs_pos_eq in Hu by lra.
  specialize (Hu ltac:(lra) (rnd_format x)). apply Rabs_le_inv in He. lra.
Qed.
Lemma rnd_pos x : (2 / 3 * tiny <= x)%R → (0 < rnd x)%R.
Proof.
  intros H. pose proof tiny_pos as Ht.
  assert (0 <= rnd x)%R as [|E]. { rewrite <-rnd_0. apply rnd_le. lra. } { done. }
  exfalso. pose proof (error_le_half_ulp_round radix2 fe (fun z => negb (Z.even z)) x) as He.
  unfold rnd in E. rewrite <-E in He.
  assert (ulp radix2 fe 0 = tiny) as Eu.
  { apply (ulp_FLT_0 radix2 (SpecFloat.emin B64Bridge.prec B64Bridge.emax) B64Bridge.prec). }
  rewrite Eu in He. apply Rabs_le_inv in He. lra.
Qed.

Lemma v_format (x : bf) : is_finite x = true → generic_format radix2 fe (v x).
Proof. intros H. rewrite v_fin by done. apply generic_format_B2R. Qed.

Lemma inf_inv (x : bf) : is_nan x = false → (0 <= v x)%R → SFltb (B2SF x) (B2SF (B754_infinity false : bf)) = false →
  x = B754_infinity false.
Proof.
  intros Nx Hx H. rewrite SFltb_v in H by done. cbn [v] in H. destruct (Rlt_bool_spec (v x) big) as [|Hb]; [done|].
  destruct (is_finite x) eqn:F.
  - exfalso. rewrite v_fin in Hb by done. pose proof (fin_lt x F) as H1. apply Rabs_def2 in H1. lra.
  - destruct x as [|s| |]; try done. destruct s; [|done]. cbn [v] in Hx. pose proof big_pos. lra.
Qed.
Lemma pos_cases (x : bf) : is_nan x = false → (0 < v x)%R → Bsign x = false ∧ ∀ s, x ≠ B754_zero s.
Proof.
  intros Nx Hx. split; [|intros s ->; rewrite v_zero in Hx; lra].
  pose proof big_pos as Hb. destruct x as [s|s| |s m e Hm]; try done.
  - rewrite v_zero in Hx. lra.
  - destruct s; [|done]. cbn [v] in Hx. lra.
  - destruct s; [|done]. exfalso. apply (Rlt_irrefl 0). eapply Rlt_trans; [exact Hx|]. by apply F2R_lt_0.
Qed.

Definition b64_tof_laws : tof_laws b64_laws.
Proof.
  pose proof big_pos as Hbig.
  constructor;
    cbn [num nadd nsub nmul ndiv nopp nabs nltb nleb neqb ninf b64 o_ok b64_laws]; change b64_prec with B64Bridge.prec in *; change b64_emax with B64Bridge.emax in *;
    rewrite ?n0_zero, ?n1_one; change (S754_infinity false) with (B2SF (B754_infinity false : bf)).
  - split; by vm_compute.
  - intros a (x & ->)%ok_inv. rewrite SFleb_iff, v_zero. intros (_&Nx&Hx). rewrite mul_equiv, SFeqb_leb.
    destruct (is_finite x) eqn:Fx.
    + destruct (bmult_v x Bone) as [N1 E1]; try done. { rewrite v_one. lra. }
      rewrite v_one, Rmult_1_r, rnd_v, Rmin_left in E1 by (done || apply v_le_big).
      apply andb_true_iff. rewrite !SFleb_iff. rewrite E1. repeat split; try done; lra.
    + destruct x as [|s| |]; try done. destruct s; [cbn [v] in Hx; lra|]. done.
  - intros a (x & ->)%ok_inv. rewrite SFleb_iff, SFltb_iff, v_zero. intros (_&Nx&Hx) (_&_&Ix). cbn [v] in Ix.
    rewrite mul_equiv, SFeqb_leb.
    destruct (bmult_v x (B754_zero false)) as [N1 E1]; try done; try (apply v_lt_big_fin; try done; lra). { rewrite v_zero; lra. }
    rewrite v_zero, Rmult_0_r, rnd_0, Rmin_left in E1 by lra.
    apply andb_true_iff. rewrite !SFleb_iff. rewrite E1, v_zero. repeat split; try done; lra.
  - intros a b (x & ->)%ok_inv (y & ->)%ok_inv. rewrite mul_equiv, !SFleb_iff, SFltb_iff, v_zero. intros (_&Nx&Hx) Ix (_&Ny&Hy).
    apply inf_inv in Ix; [subst x|done|done]. destruct (pos_cases y Ny Hy) as [Sy Zy].
    assert (Bmult mode_NE (B754_infinity false) y = B754_infinity false) as ->.
    { destruct y as [s|s| |s m e Hm]; try done; [by destruct (Zy s)|cbn in Sy; by subst s|cbn in Sy; by subst s]. }
    split; [repeat split; try done; cbn [v]; lra|done].
  - intros a b (x & ->)%ok_inv (y & ->)%ok_inv. rewrite div_equiv, SFleb_iff, !SFltb_iff, v_zero. intros (_&Nx&Hx) Ix (_&Ny&Hy) (_&_&Iy).
    apply inf_inv in Ix; [subst x|done|done]. destruct (pos_cases y Ny Hy) as [Sy Zy].
    assert (Bdiv mode_NE (B754_infinity false) y = B754_infinity false) as ->; [|done].
    destruct y as [s|s| |s m e Hm]; try done; [by destruct (Zy s)|cbn in Sy; subst s; lra|cbn in Sy; by subst s].
  - intros a b (x & ->)%ok_inv (y & ->)%ok_inv. rewrite !div_equiv, mul_equiv, !SFleb_iff, !SFltb_iff, v_zero.
    intros (_&Nx&Hx) (_&Ny&Hxy) (_&_&Hy) (_&_&Iy) (_&Nc&Hc). cbn [v] in Iy.
    assert (is_finite y = true) as Fy by (apply v_lt_big_fin; try done; lra).
    assert (is_finite x = true) as Fx by (apply v_lt_big_fin; try done; lra).
    destruct (bdiv_v x y) as [_ Ec]; try done. set (c := Bdiv mode_NE x y) in *.
    assert (0 < v x)%R as Px.
    { destruct Hx as [|E]; [done|]. exfalso. rewrite Ec, <-E in Hc. unfold Rdiv in Hc. rewrite Rmult_0_l, rnd_0, Rmin_left in Hc; lra. }
    assert (v x / v y <= 1)%R as Hq.
    { apply (Rmult_le_reg_r (v y)); [done|]. unfold Rdiv. rewrite Rmult_assoc, Rinv_l by lra. lra. }
    assert (rnd (v x / v y) <= 1)%R as Hr by (rewrite <-rnd_1; by apply rnd_le).
    assert (1 < big)%R as Hb1. { pose proof (fin_lt Bone one_fin) as H. rewrite Bone_correct in H. rewrite Rabs_pos_eq in H; lra. }
    rewrite Rmin_left in Ec by lra.
    assert (is_finite c = true) as Fc by (apply v_lt_big_fin; try done; rewrite Ec; lra).
    destruct (bmult_v y c) as [N1 E1]; try done; try lra. repeat split; try done. rewrite E1.
    apply Rmin_glb_lt; [|done]. apply rnd_pos. rewrite Ec in Hc |- *.
    pose proof (rnd_loss _ Hc) as Hl. pose proof (tiny_le _ (v_format x Fx) Px) as Ht.
    assert (v x = v x / v y * v y)%R as Eq by (field; lra). nra.
  - intros a (x & ->)%ok_inv. rewrite !SFleb_iff, v_zero. intros (_&Nx&_). repeat split; try done. apply v_le_big.
Qed.

(** The exact arithmetic satisfies them too. *)
Definition exact_tof_laws : tof_laws exact_laws.
Proof.
  constructor; cbn [num nadd nsub nmul ndiv nopp nabs nltb nleb neqb ninf exact]; rewrite ?exact_n0, ?exact_n1.
  - split; by vm_compute.
  - intros a _ [->|(q & -> & Hq)]%xleb_nonneg; [done|]. cbn. apply Qc_eqb_true. ring.
  - intros a _ [->|(q & -> & Hq)]%xleb_nonneg; [done|]. intros _. cbn. apply Qc_eqb_true. ring.
  - intros a b _ _ [->|(q & -> & Hq)]%xleb_nonneg; [|done]. intros _ [->|(r & -> & Hr)]%xltb_pos; [done|]. cbn.
    unfold xinf_scale. assert (Qc_eqb r 0 = false) as -> by (apply Qc_eqb_false; intros ->; done).
    by rewrite (proj2 (Qc_ltb_true 0 r) Hr).
  - intros a b _ _ [->|(q & -> & Hq)]%xleb_nonneg; [|done]. intros _ [->|(r & -> & Hr)]%xltb_pos; [done|]. intros _. cbn.
    assert (Qc_ltb r 0 = false) as -> by (apply Qc_ltb_false; by apply Qclt_le_weak). done.
  - intros u t _ _ Hu Hut Ht Ft. apply xltb_fin in Ft as (t' & -> & Ht0); [|].
    2:{ destruct (xltb_pos _ Ht) as [->|(r & -> & Hr)]; [done|]. apply xleb_Fin. by apply Qclt_le_weak. }
    apply xltb_Fin in Ht. apply xleb_nonneg in Hu as [->|(u' & -> & Hu)]; [done|].
    cbn. assert (Qc_eqb t' 0 = false) as -> by (apply Qc_eqb_false; intros ->; done).
    cbn. intros H%xltb_Fin. apply xltb_Fin. qcnra.
  - intros a _ [->|(q & -> & Hq)]%xleb_nonneg; done.
Qed.
