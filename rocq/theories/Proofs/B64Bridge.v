(** IEEE binary64 ([SpecFloat]) related to Flocq's [binary_float], and the order
    laws of non-negative rounded arithmetic. *)
From Coq Require Import ZArith Reals Lra Psatz.
From Coq.Floats Require Import SpecFloat.
From Flocq Require Import Core.Core IEEE754.BinarySingleNaN.

Definition prec : Z := 53.
Definition emax : Z := 1024.
#[local] Instance Hprec : FLX.Prec_gt_0 prec := eq_refl _.
#[local] Instance Hmax : Prec_lt_emax prec emax := eq_refl _.
Notation bf := (binary_float prec emax).

(** * Operations (after Flocq's IEEE754/PrimFloat.v) *)
Lemma round_nearest_even_equiv s m l : round_nearest_even m l = choice_mode mode_NE s m l.
Proof.
  case l; [reflexivity|intro c]. case c; [ | reflexivity..].
  now simpl; unfold Round.cond_incr; case Z.even.
Qed.
Lemma binary_round_aux_equiv sx mx ex lx :
  SpecFloat.binary_round_aux prec emax sx mx ex lx = binary_round_aux prec emax mode_NE sx mx ex lx.
Proof.
  unfold SpecFloat.binary_round_aux, binary_round_aux.
  set (mrse' := shr_fexp _ _ _). case mrse'; intros mrs' e'; simpl.
  now rewrite (round_nearest_even_equiv sx).
Qed.
Lemma binary_round_equiv s m e :
  SpecFloat.binary_round prec emax s m e = binary_round prec emax mode_NE s m e.
Proof.
  unfold SpecFloat.binary_round, binary_round, shl_align_fexp.
  set (mez := shl_align _ _ _); case mez as [mz ez]. apply binary_round_aux_equiv.
Qed.
Lemma binary_normalize_equiv m e szero :
  SpecFloat.binary_normalize prec emax m e szero
  = B2SF (binary_normalize prec emax Hprec Hmax mode_NE m e szero).
Proof.
  case m as [ | p | p]; [now simpl| |]; simpl; rewrite B2SF_SF2B; apply binary_round_equiv.
Qed.
Lemma add_equiv (x y : bf) : SFadd prec emax (B2SF x) (B2SF y) = B2SF (Bplus mode_NE x y).
Proof.
  case x as [sx|sx| |sx mx ex Bx]; case y as [sy|sy| |sy my ey By];
    [now (trivial || simpl; case Bool.eqb).. | ].
  apply binary_normalize_equiv.
Qed.
Lemma sub_equiv (x y : bf) : SFsub prec emax (B2SF x) (B2SF y) = B2SF (Bminus mode_NE x y).
Proof.
  case x as [sx|sx| |sx mx ex Bx]; case y as [sy|sy| |sy my ey By];
    [now (trivial || simpl; case Bool.eqb).. | ].
  simpl. unfold Zminus. rewrite <- cond_Zopp_negb. apply binary_normalize_equiv.
Qed.
Lemma mul_equiv (x y : bf) : SFmul prec emax (B2SF x) (B2SF y) = B2SF (Bmult mode_NE x y).
Proof.
  case x as [sx|sx| |sx mx ex Bx]; case y as [sy|sy| |sy my ey By]; [now trivial.. | ].
  simpl. rewrite B2SF_SF2B. apply binary_round_aux_equiv.
Qed.
Lemma div_equiv (x y : bf) : SFdiv prec emax (B2SF x) (B2SF y) = B2SF (Bdiv mode_NE x y).
Proof.
  case x as [sx|sx| |sx mx ex Bx]; case y as [sy|sy| |sy my ey By];
    [now (trivial || simpl; case Bool.eqb).. | ].
  simpl. rewrite B2SF_SF2B. set (melz := SFdiv_core_binary _ _ _ _ _ _).
  case melz as [[mz ez] lz]. apply binary_round_aux_equiv.
Qed.

(** * Extended value: infinities count as plus or minus 2^emax *)
Definition big : R := bpow radix2 emax.
Definition v (x : bf) : R :=
  match x with
  | B754_infinity s => if s then - big else big
  | _ => B2R x
  end%R.
Definition rnd (x : R) : R := round radix2 (SpecFloat.fexp prec emax) ZnearestE x.

Lemma big_pos : (0 < big)%R.
Proof. apply bpow_gt_0. Qed.

Lemma fin_lt (x : bf) : is_finite x = true -> (Rabs (B2R x) < big)%R.
Proof. intros _. apply abs_B2R_lt_emax. Qed.
Lemma v_fin (x : bf) : is_finite x = true -> v x = B2R x.
Proof. now destruct x. Qed.

Lemma SFltb_v (x y : bf) : is_nan x = false -> is_nan y = false ->
  SFltb (B2SF x) (B2SF y) = Rlt_bool (v x) (v y).
Proof.
  intros Hx Hy. change (Bltb x y = Rlt_bool (v x) (v y)).
  destruct (is_finite x) eqn:Fx; destruct (is_finite y) eqn:Fy.
  - rewrite Bltb_correct by assumption. now rewrite !v_fin.
  - rewrite (v_fin x Fx). pose proof (fin_lt x Fx) as H. apply Rabs_def2 in H.
    destruct y as [s|s| |]; try discriminate. destruct x as [sx|sx| |sx mx ex Bx]; try discriminate; destruct s; cbn -[big B2R];
    symmetry; (apply Rlt_bool_true || apply Rlt_bool_false); lra.
  - rewrite (v_fin y Fy). pose proof (fin_lt y Fy) as H. apply Rabs_def2 in H.
    destruct x as [s|s| |]; try discriminate. destruct y as [sx|sx| |sx mx ex Bx]; try discriminate; destruct s; cbn -[big B2R];
    symmetry; (apply Rlt_bool_true || apply Rlt_bool_false); lra.
  - pose proof big_pos. destruct x as [s|s| |], y as [t|t| |]; try discriminate. destruct s, t; cbn -[big];
    symmetry; (apply Rlt_bool_true || apply Rlt_bool_false); lra.
Qed.
Lemma SFleb_v (x y : bf) : is_nan x = false -> is_nan y = false ->
  SFleb (B2SF x) (B2SF y) = Rle_bool (v x) (v y).
Proof.
  intros Hx Hy. change (Bleb x y = Rle_bool (v x) (v y)).
  destruct (is_finite x) eqn:Fx; destruct (is_finite y) eqn:Fy.
  - rewrite Bleb_correct by assumption. now rewrite !v_fin.
  - rewrite (v_fin x Fx). pose proof (fin_lt x Fx) as H. apply Rabs_def2 in H.
    destruct y as [s|s| |]; try discriminate. destruct x as [sx|sx| |sx mx ex Bx]; try discriminate; destruct s; cbn -[big B2R];
    symmetry; (apply Rle_bool_true || apply Rle_bool_false); lra.
  - rewrite (v_fin y Fy). pose proof (fin_lt y Fy) as H. apply Rabs_def2 in H.
    destruct x as [s|s| |]; try discriminate. destruct y as [sx|sx| |sx mx ex Bx]; try discriminate; destruct s; cbn -[big B2R];
    symmetry; (apply Rle_bool_true || apply Rle_bool_false); lra.
  - pose proof big_pos. destruct x as [s|s| |], y as [t|t| |]; try discriminate. destruct s, t; cbn -[big];
    symmetry; (apply Rle_bool_true || apply Rle_bool_false); lra.
Qed.
Lemma SFleb_nan_l (x y : bf) : is_nan x = true -> SFleb (B2SF x) (B2SF y) = false.
Proof. now destruct x. Qed.
Lemma SFleb_nan_r (x y : bf) : is_nan y = true -> SFleb (B2SF x) (B2SF y) = false.
Proof. destruct y; try discriminate. now destruct x as [| [] | |]. Qed.
Lemma SFltb_nan_l (x y : bf) : is_nan x = true -> SFltb (B2SF x) (B2SF y) = false.
Proof. now destruct x. Qed.
Lemma SFltb_nan_r (x y : bf) : is_nan y = true -> SFltb (B2SF x) (B2SF y) = false.
Proof. destruct y; try discriminate. now destruct x as [| [] | |]. Qed.

Lemma SFleb_iff (x y : bf) :
  SFleb (B2SF x) (B2SF y) = true <-> is_nan x = false /\ is_nan y = false /\ (v x <= v y)%R.
Proof.
  destruct (is_nan x) eqn:Nx; [rewrite SFleb_nan_l by assumption; now intuition|].
  destruct (is_nan y) eqn:Ny; [rewrite SFleb_nan_r by assumption; now intuition|].
  rewrite SFleb_v by assumption. destruct (Rle_bool_spec (v x) (v y)); intuition; (discriminate || lra).
Qed.
Lemma SFltb_iff (x y : bf) :
  SFltb (B2SF x) (B2SF y) = true <-> is_nan x = false /\ is_nan y = false /\ (v x < v y)%R.
Proof.
  destruct (is_nan x) eqn:Nx; [rewrite SFltb_nan_l by assumption; now intuition|].
  destruct (is_nan y) eqn:Ny; [rewrite SFltb_nan_r by assumption; now intuition|].
  rewrite SFltb_v by assumption. destruct (Rlt_bool_spec (v x) (v y)); intuition; (discriminate || lra).
Qed.
Lemma SFeqb_leb (x y : spec_float) : SFeqb x y = (SFleb x y && SFleb y x)%bool.
Proof.
  unfold SFeqb, SFleb. destruct x as [sx|sx| |sx mx ex], y as [sy|sy| |sy my ey]; try reflexivity;
    try (destruct sx; reflexivity); try (destruct sy; reflexivity); try (destruct sx, sy; reflexivity).
  cbn. rewrite (Z.compare_antisym ex ey).
  assert (Pos.compare_cont Eq my mx = CompOpp (Pos.compare_cont Eq mx my)) as E.
  { now rewrite Pos.compare_cont_antisym. }
  rewrite E.
  destruct sx, sy; try reflexivity; destruct (Z.compare_spec ex ey); cbn; try reflexivity;
    destruct (Pos.compare_cont Eq mx my); reflexivity.
Qed.

(** * Arithmetic of non-negative values *)
Lemma v_le_big (x : bf) : (v x <= big)%R.
Proof.
  pose proof big_pos. destruct (is_finite x) eqn:F.
  - rewrite v_fin by assumption. pose proof (fin_lt x F) as H1. apply Rabs_def2 in H1. lra.
  - destruct x as [|[]| |]; try discriminate; cbn -[big]; lra.
Qed.
Lemma v_lt_big_fin (x : bf) : is_nan x = false -> (0 <= v x)%R -> (v x < big)%R -> is_finite x = true.
Proof. pose proof big_pos. destruct x as [|[]| |]; try discriminate; cbn -[big]; try lra; reflexivity. Qed.

Lemma rnd_le x y : (x <= y)%R -> (rnd x <= rnd y)%R.
Proof. apply round_le; [apply fexp_correct; reflexivity|apply valid_rnd_N]. Qed.
Lemma rnd_0 : rnd 0 = 0%R.
Proof. apply round_0, valid_rnd_N. Qed.
Lemma rnd_B2R (x : bf) : rnd (B2R x) = B2R x.
Proof. apply round_generic; [apply valid_rnd_N|]. apply generic_format_B2R. Qed.
Lemma rnd_1 : rnd 1 = 1%R.
Proof. rewrite <- (Bone_correct prec emax Hprec Hmax). apply rnd_B2R. Qed.
Lemma rnd_big : rnd big = big.
Proof.
  apply round_generic; [apply valid_rnd_N|]. apply generic_format_bpow. now vm_compute.
Qed.

Lemma overflow_inf (z : bf) s : B2SF z = binary_overflow prec emax mode_NE s -> z = B754_infinity s.
Proof. intros H. destruct z; cbn in H; try discriminate. now inversion H. Qed.

Lemma bplus_v (x y : bf) : is_nan x = false -> is_nan y = false -> (0 <= v x)%R -> (0 <= v y)%R ->
  is_nan (Bplus mode_NE x y) = false /\ v (Bplus mode_NE x y) = Rmin (rnd (v x + v y)) big.
Proof.
  intros Nx Ny Hx Hy. pose proof big_pos as Hb.
  assert (forall r, (big <= r)%R -> Rmin (rnd r) big = big) as Hsat.
  { intros r Hr. apply Rmin_right. rewrite <- rnd_big. now apply rnd_le. }
  destruct (is_finite x) eqn:Fx; destruct (is_finite y) eqn:Fy.
  - rewrite (v_fin x Fx) in *. rewrite (v_fin y Fy) in *.
    pose proof (Bplus_correct prec emax Hprec Hmax mode_NE x y Fx Fy) as H.
    change (round_mode mode_NE) with ZnearestE in H. fold (rnd (B2R x + B2R y)) in H. fold big in H.
    assert (0 <= rnd (B2R x + B2R y))%R as Hr. { rewrite <- rnd_0. apply rnd_le. lra. }
    rewrite Rabs_pos_eq in H by assumption.
    destruct (Rlt_bool_spec (rnd (B2R x + B2R y)) big) as [Hl|Hl].
    + destruct H as (H1 & H2 & _). split.
      * destruct (Bplus mode_NE x y); (discriminate || reflexivity).
      * rewrite v_fin by assumption. rewrite H1. rewrite Rmin_left; [reflexivity|]. now apply Rlt_le.
    + destruct H as (H1 & H2). apply overflow_inf in H1. rewrite H1. split; [reflexivity|].
      destruct (Bsign x) eqn:Sx; [|cbn -[big]; now rewrite Rmin_right].
      (* both negative signs: both zero, no overflow *)
      exfalso. assert (B2R x = 0%R) as E1.
      { destruct x as [sx|sx| |sx mx ex Bx]; try discriminate; [reflexivity|]. cbn in Sx. subst sx.
        exfalso. apply (Rlt_irrefl 0). eapply Rle_lt_trans; [exact Hx|]. now apply F2R_lt_0. }
      assert (B2R y = 0%R) as E2.
      { destruct y as [sx|sx| |sx mx ex Bx]; try discriminate; [reflexivity|]. cbn in H2. subst sx.
        exfalso. apply (Rlt_irrefl 0). eapply Rle_lt_trans; [exact Hy|]. now apply F2R_lt_0. }
      rewrite E1, E2, Rplus_0_r, rnd_0 in Hl. lra.
  - destruct y as [s|s| |]; try discriminate. destruct s; [cbn -[big] in Hy; lra|].
    assert (Bplus mode_NE x (B754_infinity false) = B754_infinity false) as -> by now destruct x.
    split; [reflexivity|]. cbn [v] in *. rewrite Hsat; [reflexivity|lra].
  - destruct x as [s|s| |]; try discriminate. destruct s; [cbn -[big] in Hx; lra|].
    assert (Bplus mode_NE (B754_infinity false) y = B754_infinity false) as -> by now destruct y.
    split; [reflexivity|]. cbn [v] in Hx |- *. rewrite Hsat; [reflexivity|]. cbn [v] in Hy. lra.
  - destruct x as [s|s| |], y as [t|t| |]; try discriminate. destruct s; [cbn -[big] in Hx; lra|].
    destruct t; [cbn -[big] in Hy; lra|]. split; [reflexivity|]. cbn [Bplus Bool.eqb v]. rewrite Hsat; [reflexivity|lra].
Qed.

Lemma pos_zero_or_plus (x : bf) : is_finite x = true -> (0 <= B2R x)%R -> B2R x = 0%R \/ Bsign x = false.
Proof.
  intros F H. destruct x as [sx|sx| |sx mx ex Bx]; try discriminate; [now left|].
  destruct sx; [|now right]. exfalso. apply (Rlt_irrefl 0). eapply Rle_lt_trans; [exact H|]. now apply F2R_lt_0.
Qed.

Lemma bmult_v (x y : bf) : is_finite x = true -> is_finite y = true -> (0 <= v x)%R -> (0 <= v y)%R ->
  is_nan (Bmult mode_NE x y) = false /\ v (Bmult mode_NE x y) = Rmin (rnd (v x * v y)) big.
Proof.
  intros Fx Fy Hx Hy. pose proof big_pos as Hb. rewrite (v_fin x Fx) in *. rewrite (v_fin y Fy) in *.
  pose proof (Bmult_correct prec emax Hprec Hmax mode_NE x y) as H.
  change (round_mode mode_NE) with ZnearestE in H. fold (rnd (B2R x * B2R y)) in H. fold big in H. rewrite Fx, Fy in H.
  assert (0 <= rnd (B2R x * B2R y))%R as Hr. { rewrite <- rnd_0. apply rnd_le. nra. }
  rewrite Rabs_pos_eq in H by assumption.
  destruct (Rlt_bool_spec (rnd (B2R x * B2R y)) big) as [Hl|Hl].
  - destruct H as (H1 & H2 & _). cbn [andb] in H2. split.
    + destruct (Bmult mode_NE x y); (discriminate || reflexivity).
    + rewrite v_fin by assumption. rewrite H1. rewrite Rmin_left; [reflexivity|]. now apply Rlt_le.
  - apply overflow_inf in H. rewrite H. split; [reflexivity|].
    destruct (pos_zero_or_plus x Fx Hx) as [E|E].
    { exfalso. rewrite E, Rmult_0_l, rnd_0 in Hl. lra. }
    destruct (pos_zero_or_plus y Fy Hy) as [E'|E'].
    { exfalso. rewrite E', Rmult_0_r, rnd_0 in Hl. lra. }
    rewrite E, E'. cbn -[big]. now rewrite Rmin_right.
Qed.

Lemma bdiv_v (x y : bf) : is_finite x = true -> is_finite y = true -> (0 <= v x)%R -> (0 < v y)%R ->
  is_nan (Bdiv mode_NE x y) = false /\ v (Bdiv mode_NE x y) = Rmin (rnd (v x / v y)) big.
Proof.
  intros Fx Fy Hx Hy. pose proof big_pos as Hb. rewrite (v_fin x Fx) in *. rewrite (v_fin y Fy) in *.
  assert (B2R y <> 0)%R as Hy0 by lra.
  pose proof (Bdiv_correct prec emax Hprec Hmax mode_NE x y Hy0) as H.
  change (round_mode mode_NE) with ZnearestE in H. fold (rnd (B2R x / B2R y)) in H. fold big in H. rewrite Fx in H.
  assert (0 <= B2R x / B2R y)%R as Hq. { apply Rmult_le_pos; [assumption|]. apply Rlt_le, Rinv_0_lt_compat. assumption. }
  assert (0 <= rnd (B2R x / B2R y))%R as Hr. { rewrite <- rnd_0. apply rnd_le. assumption. }
  rewrite Rabs_pos_eq in H by assumption.
  destruct (Rlt_bool_spec (rnd (B2R x / B2R y)) big) as [Hl|Hl].
  - destruct H as (H1 & H2 & _). split.
    + destruct (Bdiv mode_NE x y); (discriminate || reflexivity).
    + rewrite v_fin by assumption. rewrite H1. rewrite Rmin_left; [reflexivity|]. now apply Rlt_le.
  - apply overflow_inf in H. rewrite H. split; [reflexivity|].
    destruct (pos_zero_or_plus x Fx Hx) as [E|E].
    { exfalso. rewrite E in Hl. unfold Rdiv in Hl. rewrite Rmult_0_l, rnd_0 in Hl. lra. }
    destruct (pos_zero_or_plus y Fy (Rlt_le _ _ Hy)) as [E'|E']; [lra|].
    rewrite E, E'. cbn -[big]. now rewrite Rmin_right.
Qed.
