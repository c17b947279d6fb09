(** The order laws for IEEE binary64. *)
From Coq Require Import ZArith Reals Lra Psatz.
From Coq.Floats Require Import SpecFloat.
From Flocq Require Import Core.Core IEEE754.BinarySingleNaN.
From Verif.Proofs Require Import B64Bridge.
From Verif.Model Require Import Num.
From Verif.Proofs Require Import OrdLaws.
Open Scope Z_scope.

(** A double: a [spec_float] in canonical form. *)
Definition b64_ok (x : spec_float) : Prop := valid_binary b64_prec b64_emax x = true.

#[local] Existing Instance B64Bridge.Hprec.
#[local] Existing Instance B64Bridge.Hmax.

Lemma ok_inv x : b64_ok x → ∃ b : bf, x = B2SF b.
Proof. intros H. exists (SF2B x H). by rewrite B2SF_SF2B. Qed.
Lemma ok_B2SF (b : bf) : b64_ok (B2SF b).
Proof. apply valid_binary_B2SF. Qed.

Lemma n0_zero : @n0 b64 = B2SF (B754_zero false : bf).
Proof. reflexivity. Qed.
Lemma n1_one : @n1 b64 = B2SF (Bone : bf).
Proof. by vm_compute. Qed.
Lemma v_zero s : v (B754_zero s) = 0%R.
Proof. reflexivity. Qed.
Lemma one_fin : is_finite (Bone : bf) = true.
Proof. reflexivity. Qed.
Lemma v_one : v Bone = 1%R.
Proof. rewrite v_fin by apply one_fin. apply Bone_correct. Qed.
Lemma rnd_v (x : bf) : is_nan x = false → rnd (v x) = v x.
Proof.
  intros Nx. destruct (is_finite x) eqn:F; [rewrite v_fin by done; apply rnd_B2R|].
  destruct x as [|s| |]; try done. destruct s; cbn [v]; [|apply rnd_big].
  unfold rnd. rewrite round_NE_opp. f_equal. apply rnd_big.
Qed.

Definition b64_laws : ord_laws b64.
Proof.
  pose proof big_pos as Hbig.
  refine {| o_ok := b64_ok : @num b64 → Prop |};
    cbn [num nadd nsub nmul ndiv nopp nabs nltb nleb neqb ninf b64]; change b64_prec with B64Bridge.prec in *; change b64_emax with B64Bridge.emax in *;
    rewrite ?n0_zero, ?n1_one; change (S754_infinity false) with (B2SF (B754_infinity false : bf)).
  - intros z. cbn [nofZ b64]. change b64_prec with B64Bridge.prec; change b64_emax with B64Bridge.emax. rewrite binary_normalize_equiv. apply ok_B2SF.
  - apply ok_B2SF.
  - intros a b (x & ->)%ok_inv (y & ->)%ok_inv. rewrite add_equiv. apply ok_B2SF.
  - intros a b (x & ->)%ok_inv (y & ->)%ok_inv. rewrite sub_equiv. apply ok_B2SF.
  - intros a b (x & ->)%ok_inv (y & ->)%ok_inv. rewrite mul_equiv. apply ok_B2SF.
  - intros a b (x & ->)%ok_inv (y & ->)%ok_inv. rewrite div_equiv. apply ok_B2SF.
  - intros a b c (x & ->)%ok_inv (y & ->)%ok_inv (z & ->)%ok_inv. rewrite !SFleb_iff. intros (?&?&?) (?&?&?). repeat split; try done. lra.
  - intros a b (x & ->)%ok_inv (y & ->)%ok_inv. rewrite !SFleb_iff. intros (?&?&?). repeat split; try done. lra.
  - intros a b (x & ->)%ok_inv (y & ->)%ok_inv. rewrite !SFleb_iff. intros (?&?&?). repeat split; try done. lra.
  - intros a b (x & ->)%ok_inv (y & ->)%ok_inv. rewrite !SFleb_iff. intros (?&?&?) (?&?&?) Hlt. repeat split; try done.
    rewrite SFltb_v in Hlt by done. destruct (Rlt_bool_spec (v x) (v y)); [done|lra].
  - intros a b (x & ->)%ok_inv (y & ->)%ok_inv. rewrite !SFleb_iff. intros (?&?&?).
    rewrite SFltb_v by done. apply Rlt_bool_false. lra.
  - intros a b (x & ->)%ok_inv (y & ->)%ok_inv. rewrite SFleb_iff, SFltb_iff. intros (?&?&?). repeat split; try done. lra.
  - intros a b _ _. apply SFeqb_leb.
  - apply SFltb_iff. rewrite v_one, v_zero. repeat split; try done. lra.
  - apply SFltb_iff. rewrite v_one. repeat split; try done. cbn [v].
    pose proof (fin_lt Bone one_fin) as H. fold (@B2R B64Bridge.prec B64Bridge.emax) in H. rewrite Bone_correct in H.
    rewrite Rabs_pos_eq in H; lra.
  - done.
  - intros a a' b b' (x & ->)%ok_inv (x' & ->)%ok_inv (y & ->)%ok_inv (y' & ->)%ok_inv.
    rewrite !SFleb_iff, v_zero. intros (_&Nx&Hx) (_&Nx'&Hx') (_&Ny&Hy) (_&Ny'&Hy'). rewrite !add_equiv, SFleb_iff.
    destruct (bplus_v x y) as [N1 E1]; try done. destruct (bplus_v x' y') as [N2 E2]; try done; try lra.
    repeat split; try done. rewrite E1, E2.
    apply Rle_min_compat_r. apply rnd_le. lra.
  - intros a (x & ->)%ok_inv. rewrite SFleb_iff, v_zero. intros (_&Nx&Hx). rewrite add_equiv, SFeqb_leb.
    destruct (bplus_v x (B754_zero false)) as [N1 E1]; try done. { rewrite v_zero. lra. }
    rewrite v_zero, Rplus_0_r, rnd_v, Rmin_left in E1 by (done || apply v_le_big).
    apply andb_true_iff. rewrite !SFleb_iff. rewrite E1. repeat split; try done; lra.
  - intros a (x & ->)%ok_inv. rewrite SFleb_iff, v_zero. intros (_&Nx&Hx). rewrite add_equiv.
    destruct (bplus_v (B754_zero false) x) as [N1 E1]; try done. { rewrite v_zero. lra. }
    rewrite v_zero, Rplus_0_l, rnd_v, Rmin_left in E1 by (done || apply v_le_big).
    rewrite !SFleb_iff. rewrite E1. repeat split; try done; lra.
  - intros a a' b b' (x & ->)%ok_inv (x' & ->)%ok_inv (y & ->)%ok_inv (y' & ->)%ok_inv.
    rewrite !SFleb_iff, !SFltb_iff, v_zero. intros (_&Nx&Hx) (_&Nx'&Hx') (_&_&Ix) (_&Ny&Hy) (_&Ny'&Hy') (_&_&Iy). cbn [v] in Ix, Iy.
    rewrite !mul_equiv, SFleb_iff.
    destruct (bmult_v x y) as [N1 E1]; try done; try (apply v_lt_big_fin; try done; lra).
    destruct (bmult_v x' y') as [N2 E2]; try done; try (apply v_lt_big_fin; try done; lra); try lra.
    repeat split; try done. rewrite E1, E2. apply Rle_min_compat_r. apply rnd_le. nra.
  - intros a (x & ->)%ok_inv. rewrite SFleb_iff, v_zero. intros (_&Nx&Hx). rewrite mul_equiv, SFeqb_leb.
    destruct (is_finite x) eqn:Fx.
    + destruct (bmult_v Bone x) as [N1 E1]; try done. { rewrite v_one. lra. }
      rewrite v_one, Rmult_1_l, rnd_v, Rmin_left in E1 by (done || apply v_le_big).
      apply andb_true_iff. rewrite !SFleb_iff. rewrite E1. repeat split; try done; lra.
    + destruct x as [|s| |]; try done. destruct s; [cbn [v] in Hx; lra|]. done.
  - intros a (x & ->)%ok_inv. rewrite SFleb_iff, SFltb_iff, v_zero. intros (_&Nx&Hx) (_&_&Ix). cbn [v] in Ix.
    rewrite mul_equiv, SFeqb_leb.
    destruct (bmult_v (B754_zero false) x) as [N1 E1]; try done; try (apply v_lt_big_fin; try done; lra). { rewrite v_zero; lra. }
    rewrite v_zero, Rmult_0_l, rnd_0, Rmin_left in E1 by lra.
    apply andb_true_iff. rewrite !SFleb_iff. rewrite E1, v_zero. repeat split; try done; lra.
  - intros a b t (x & ->)%ok_inv (y & ->)%ok_inv (z & ->)%ok_inv.
    rewrite !SFleb_iff, !SFltb_iff, v_zero. intros (_&Nx&Hx) (_&Ny&Hxy) (_&Nz&Hz) (_&_&Iz). cbn [v] in Iz.
    assert (is_finite z = true) as Fz by (apply v_lt_big_fin; try done; lra).
    rewrite !div_equiv, SFleb_iff.
    assert (∀ u : bf, is_nan u = false → (0 <= v u)%R → is_finite u = false → Bdiv mode_NE u z = B754_infinity false) as Hinf.
    { intros u Nu Hu Fu. destruct u as [|s| |]; try done. destruct s; [cbn [v] in Hu; lra|].
      destruct z as [sz|sz| |sz mz ez Bz]; try done. { rewrite v_zero in Hz. lra. }
      assert (sz = false) as ->; [|done]. destruct sz; [|done]. exfalso. apply (Rlt_irrefl 0). eapply Rlt_trans; [exact Hz|]. by apply F2R_lt_0. }
    destruct (is_finite y) eqn:Fy.
    + assert (is_finite x = true) as Fx.
      { apply v_lt_big_fin; try done. eapply Rle_lt_trans; [exact Hxy|]. rewrite v_fin by done. pose proof (fin_lt y Fy) as H. apply Rabs_def2 in H. lra. }
      destruct (bdiv_v x z) as [N1 E1]; try done. destruct (bdiv_v y z) as [N2 E2]; try done; try lra.
      repeat split; try done. rewrite E1, E2. apply Rle_min_compat_r. apply rnd_le.
      apply Rmult_le_compat_r; [|done]. apply Rlt_le, Rinv_0_lt_compat, Hz.
    + assert (0 <= v y)%R as Hy by lra. rewrite (Hinf y) by done. destruct (is_finite x) eqn:Fx.
      * destruct (bdiv_v x z) as [N1 E1]; try done. repeat split; try done. apply v_le_big.
      * rewrite (Hinf x) by done. repeat split; try done. lra.
  - intros t (z & ->)%ok_inv. rewrite !SFltb_iff, v_zero. intros (_&Nz&Hz) (_&_&Iz). cbn [v] in Iz.
    assert (is_finite z = true) as Fz by (apply v_lt_big_fin; try done; lra).
    rewrite div_equiv, SFeqb_leb. destruct (bdiv_v z z) as [N1 E1]; try done; try lra.
    assert (v z / v z = 1)%R as Ez by (field; lra). rewrite Ez, rnd_1 in E1.
    assert (1 < big)%R as Hb1. { pose proof (fin_lt Bone one_fin) as H. rewrite Bone_correct in H. rewrite Rabs_pos_eq in H; lra. }
    rewrite Rmin_left in E1 by lra.
    apply andb_true_iff. rewrite !SFleb_iff. rewrite E1, v_one. repeat split; try done; lra.
  - intros t (z & ->)%ok_inv. rewrite SFleb_iff, v_zero. intros (_&Nz&Hz) Hf. unfold nisnan. cbn [neqb ndiv b64].
    change b64_prec with B64Bridge.prec; change b64_emax with B64Bridge.emax. rewrite div_equiv.
    rewrite !SFltb_v in Hf by done. rewrite v_zero in Hf. cbn [v] in Hf.
    destruct (Rlt_bool_spec 0 (v z)) as [Hz0|Hz0]; cbn [andb] in Hf.
    + destruct (Rlt_bool_spec (v z) big) as [|Hi]; [done|]. destruct (is_finite z) eqn:Fz.
      * rewrite v_fin in Hi by done. pose proof (fin_lt z Fz) as H. apply Rabs_def2 in H. lra.
      * by destruct z.
    + destruct z as [s|s| |s m e Hb]; try done.
      exfalso. assert (B2R (B754_finite s m e Hb) = 0%R) as E by (cbn [v] in Hz, Hz0; lra).
      cbn [B2R] in E. apply eq_0_F2R in E. by destruct s.
  - intros t (z & ->)%ok_inv. rewrite !SFltb_iff, v_zero. intros (_&Nz&Hz).
    rewrite div_equiv, SFeqb_leb. destruct (is_finite z) eqn:Fz.
    + destruct (bdiv_v (B754_zero false) z) as [N1 E1]; try done. { rewrite v_zero; lra. }
      rewrite v_zero in E1. unfold Rdiv in E1. rewrite Rmult_0_l, rnd_0, Rmin_left in E1 by lra.
      apply andb_true_iff. rewrite !SFleb_iff. rewrite E1, v_zero. repeat split; try done; lra.
    + by destruct z.
  - intros a (x & ->)%ok_inv. rewrite SFleb_iff, SFltb_iff, v_zero. intros (_&Nx&Hx) (_&_&Ix). cbn [v] in Ix.
    assert (is_finite x = true) as Fx by (apply v_lt_big_fin; try done; lra).
    by destruct x.
Defined.
