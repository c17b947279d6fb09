(** The F-Phi curve and the Lorenz coefficient computed with doubles stay close
    to those of exact arithmetic. *)
From Coq Require Import ZArith Reals Lra Psatz QArith Qcanon Qreals.
From Coq.QArith Require Qcabs.
From Coq.Floats Require Import SpecFloat.
From Flocq Require Import Core.Core IEEE754.BinarySingleNaN.
From Verif.Proofs Require Import B64Bridge.
From Verif.Model Require Import Base Num DerivedQuantities.
From Verif.Spec Require Import GiniSpec AccuracySpec CurveSpec.
From Verif.Proofs Require Import Util ExactNum QcLra OrdLaws B64Laws DerivedOrd DerivedExact DerivedLorenz Gini ExactRun Rounding Accuracy.
Open Scope Z_scope.

(** * Operations on doubles of moderate size *)
Definition unit_err : R := bpow radix2 (-51).
Notation V x := (SF2R radix2 x).
Definition dbl (x : @num b64) : Prop := b64_ok x ∧ is_finite_SF x = true.
Lemma dbl_inv x : dbl x → ∃ b : bf, x = B2SF b ∧ is_finite b = true ∧ V x = B2R b.
Proof. intros [(b & ->)%ok_inv H]. exists b. split; [done|]. split; [by destruct b|]. by rewrite SF2R_B2SF. Qed.
Lemma dbl_B2SF (b : bf) : is_finite b = true → dbl (B2SF b) ∧ V (B2SF b) = B2R b.
Proof. intros H. split; [split; [apply ok_B2SF|by destruct b]|apply SF2R_B2SF]. Qed.
Lemma unit_err_small : (0 < unit_err)%R ∧ (unit_err <= 1 / 1000)%R.
Proof.
  split; [apply bpow_gt_0|]. unfold unit_err. apply (Rle_trans _ (bpow radix2 (-10))); [by apply bpow_le|].
  change (bpow radix2 (-10)) with (/ 1024)%R. lra.
Qed.
Lemma rnd_unit z : (Rabs z <= 4)%R → (Rabs (rnd z - z) <= unit_err)%R.
Proof.
  intros Hz. unfold rnd. eapply Rle_trans; [apply error_le_half_ulp; apply fexp_correct; reflexivity|].
  assert (ulp radix2 (SpecFloat.fexp prec emax) z <= ulp radix2 (SpecFloat.fexp prec emax) (bpow radix2 2))%R as H.
  { apply ulp_le; [apply fexp_correct; reflexivity|apply fexp_monotone|]. rewrite (Rabs_pos_eq (bpow radix2 2)) by apply bpow_ge_0. exact Hz. }
  rewrite ulp_bpow in H. change (SpecFloat.fexp prec emax (2 + 1)) with (-50) in H. unfold unit_err.
  change (-50) with (-51 + 1) in H. rewrite bpow_plus in H. change (bpow radix2 1) with 2%R in H. lra.
Qed.
Lemma rnd_unit_lt z : (Rabs z <= 4)%R → (Rabs (rnd z) < big)%R.
Proof.
  intros Hz. pose proof (rnd_unit z Hz) as H. destruct unit_err_small as [H1 H2].
  apply (Rle_lt_trans _ 8); [|change 8%R with (bpow radix2 3); by apply bpow_lt].
  replace (rnd z) with ((rnd z - z) + z)%R by ring. eapply Rle_trans; [apply Rabs_triang|lra].
Qed.
Lemma abs_add x y : dbl x → dbl y → (Rabs (V x + V y) <= 4)%R → dbl (nadd x y) ∧ (Rabs (V (nadd x y) - (V x + V y)) <= unit_err)%R.
Proof.
  intros (a & -> & Fa & Ea)%dbl_inv (b & -> & Fb & Eb)%dbl_inv Hz. rewrite Ea, Eb in *.
  cbn [nadd b64]. change b64_prec with B64Bridge.prec; change b64_emax with B64Bridge.emax. rewrite add_equiv.
  pose proof (Bplus_correct prec emax Hprec Hmax mode_NE a b Fa Fb) as H. change (round_mode mode_NE) with ZnearestE in H.
  fold (rnd (B2R a + B2R b)) in H. fold big in H. rewrite Rlt_bool_true in H by by apply rnd_unit_lt.
  destruct H as (H1 & H2 & _). destruct (dbl_B2SF _ H2) as [D E]. split; [done|]. rewrite E, H1. by apply rnd_unit.
Qed.
Lemma abs_sub x y : dbl x → dbl y → (Rabs (V x - V y) <= 4)%R → dbl (nsub x y) ∧ (Rabs (V (nsub x y) - (V x - V y)) <= unit_err)%R.
Proof.
  intros (a & -> & Fa & Ea)%dbl_inv (b & -> & Fb & Eb)%dbl_inv Hz. rewrite Ea, Eb in *.
  cbn [nsub b64]. change b64_prec with B64Bridge.prec; change b64_emax with B64Bridge.emax. rewrite sub_equiv.
  pose proof (Bminus_correct prec emax Hprec Hmax mode_NE a b Fa Fb) as H. change (round_mode mode_NE) with ZnearestE in H.
  fold (rnd (B2R a - B2R b)) in H. fold big in H. rewrite Rlt_bool_true in H by by apply rnd_unit_lt.
  destruct H as (H1 & H2 & _). destruct (dbl_B2SF _ H2) as [D E]. split; [done|]. rewrite E, H1. by apply rnd_unit.
Qed.
Lemma abs_mul x y : dbl x → dbl y → (Rabs (V x * V y) <= 4)%R → dbl (nmul x y) ∧ (Rabs (V (nmul x y) - (V x * V y)) <= unit_err)%R.
Proof.
  intros (a & -> & Fa & Ea)%dbl_inv (b & -> & Fb & Eb)%dbl_inv Hz. rewrite Ea, Eb in *.
  cbn [nmul b64]. change b64_prec with B64Bridge.prec; change b64_emax with B64Bridge.emax. rewrite mul_equiv.
  pose proof (Bmult_correct prec emax Hprec Hmax mode_NE a b) as H. change (round_mode mode_NE) with ZnearestE in H.
  fold (rnd (B2R a * B2R b)) in H. fold big in H. rewrite Rlt_bool_true in H by by apply rnd_unit_lt.
  destruct H as (H1 & H2 & _). rewrite Fa, Fb in H2. destruct (dbl_B2SF _ H2) as [D E]. split; [done|]. rewrite E, H1. by apply rnd_unit.
Qed.
Lemma abs_div x y : dbl x → dbl y → (V y ≠ 0)%R → (Rabs (V x / V y) <= 4)%R → dbl (ndiv x y) ∧ (Rabs (V (ndiv x y) - (V x / V y)) <= unit_err)%R.
Proof.
  intros (a & -> & Fa & Ea)%dbl_inv (b & -> & Fb & Eb)%dbl_inv Hy Hz. rewrite Ea, Eb in *.
  cbn [ndiv b64]. change b64_prec with B64Bridge.prec; change b64_emax with B64Bridge.emax. rewrite div_equiv.
  pose proof (Bdiv_correct prec emax Hprec Hmax mode_NE a b Hy) as H. change (round_mode mode_NE) with ZnearestE in H.
  fold (rnd (B2R a / B2R b)) in H. fold big in H. rewrite Rlt_bool_true in H by by apply rnd_unit_lt.
  destruct H as (H1 & H2 & _). rewrite Fa in H2. destruct (dbl_B2SF _ H2) as [D E]. split; [done|]. rewrite E, H1. by apply rnd_unit.
Qed.
Lemma dbl_two : dbl n2 ∧ V (@n2 b64) = 2%R.
Proof. split; [split; vm_compute; reflexivity|]. change (@n2 b64) with (S754_finite false 4503599627370496 (-51)). change (4503599627370496 * / 2251799813685248 = 2)%R. lra. Qed.
Lemma dbl_half : dbl nhalf ∧ V (@nhalf b64) = (/ 2)%R.
Proof. split; [split; vm_compute; reflexivity|]. change (@nhalf b64) with (S754_finite false 4503599627370496 (-53)). change (4503599627370496 * / 9007199254740992 = / 2)%R. lra. Qed.

(** * The trapezoidal rule with doubles *)
Section trapezoid.
Context (n : nat) (P G : nat → @num b64).
Notation p k := (V (P k)).
Notation g k := (V (G k)).
Hypothesis HP : ∀ k, (k ≤ n)%nat → dbl (P k) ∧ (0 <= p k <= 1)%R.
Hypothesis HG : ∀ k, (k ≤ n)%nat → dbl (G k) ∧ (0 <= g k <= 1)%R.
Hypothesis Hup : ∀ k, (k < n)%nat → (p k <= p (S k))%R.
Hypothesis Hn : (INR n * unit_err <= 1 / 100)%R.

Fixpoint trap (f s : nat → R) (k : nat) : R :=
  match k with O => 0 | S k => trap f s k + (f k + f (S k)) * (s (S k) - s k) / 2 end%R.
Fixpoint steps (k : nat) : @num b64 :=
  match k with
  | O => n0
  | S k => nadd (steps k) (ndiv (nmul (nadd (G k) (G (S k))) (nsub (P (S k)) (P k))) n2)
  end.
Lemma trap_range k : (k ≤ n)%nat → (0 <= trap (λ i, g i) (λ i, p i) k <= p k - p 0)%R.
Proof.
  induction k as [|k IH]; intros Hk; cbn [trap]; [lra|]. specialize (IH ltac:(lia)). specialize (Hup k ltac:(lia)).
  destruct (HG k ltac:(lia)) as [_ H1], (HG (S k) ltac:(lia)) as [_ H2].
  assert (0 <= (g k + g (S k)) * (p (S k) - p k) <= 2 * (p (S k) - p k))%R; [|lra]. split.
  - apply Rmult_le_pos; lra.
  - apply Rmult_le_compat_r; lra.
Qed.
Lemma steps_close k : (k ≤ n)%nat → dbl (steps k) ∧ (Rabs (V (steps k) - trap (λ i, g i) (λ i, p i) k) <= 5 * INR k * unit_err)%R.
Proof.
  destruct unit_err_small as [U1 U2].
  induction k as [|k IH]; intros Hk.
  - split; [split; [by apply (ok_B2SF (B754_zero false))|done]|]. cbn. rewrite Rminus_0_r, Rabs_R0. lra.
  - destruct (IH ltac:(lia)) as [D IHk]. pose proof (trap_range k ltac:(lia)) as HT. cbn [steps trap].
    set (T := trap (λ i, g i) (λ i, p i) k) in *. destruct (HG k ltac:(lia)) as [D0 G0], (HG (S k) ltac:(lia)) as [D1 G1].
    destruct (HP k ltac:(lia)) as [E0 P0], (HP (S k) ltac:(lia)) as [E1 P1]. pose proof (Hup k ltac:(lia)) as Hu.
    destruct (HP 0%nat ltac:(lia)) as [_ P00].
    assert (INR k * unit_err <= 1 / 100)%R as Hkn.
    { eapply Rle_trans; [|exact Hn]. apply Rmult_le_compat_r; [lra|]. apply le_INR. lia. }
    assert (0 <= INR k)%R as Hk0 by apply pos_INR.
    destruct (abs_add (G k) (G (S k)) D0 D1) as [Da Ha]. { apply Rabs_le. lra. }
    destruct (abs_sub (P (S k)) (P k) E1 E0) as [Db Hb]. { apply Rabs_le. lra. }
    set (a := nadd (G k) (G (S k))) in *. set (b := nsub (P (S k)) (P k)) in *.
    apply Rabs_le_inv in Ha, Hb.
    assert (Rabs (V a * V b - (g k + g (S k)) * (p (S k) - p k)) <= 31 / 10 * unit_err)%R as Hab.
    { replace (V a * V b - (g k + g (S k)) * (p (S k) - p k))%R
        with ((V a - (g k + g (S k))) * V b + (g k + g (S k)) * (V b - (p (S k) - p k)))%R by ring.
      eapply Rle_trans; [apply Rabs_triang|]. rewrite !Rabs_mult.
      assert (Rabs (V a - (g k + g (S k))) <= unit_err)%R by (apply Rabs_le; lra).
      assert (Rabs (V b - (p (S k) - p k)) <= unit_err)%R by (apply Rabs_le; lra).
      assert (Rabs (V b) <= 11 / 10)%R by (apply Rabs_le; lra). assert (Rabs (g k + g (S k)) <= 2)%R by (apply Rabs_le; lra).
      pose proof (Rabs_pos (V b)). pose proof (Rabs_pos (g k + g (S k))).
      assert (Rabs (V a - (g k + g (S k))) * Rabs (V b) <= unit_err * (11 / 10))%R by (apply Rmult_le_compat; try lra; apply Rabs_pos).
      assert (Rabs (g k + g (S k)) * Rabs (V b - (p (S k) - p k)) <= 2 * unit_err)%R by (apply Rmult_le_compat; try lra; apply Rabs_pos).
      lra. }
    apply Rabs_le_inv in Hab.
    assert (0 <= (g k + g (S k)) * (p (S k) - p k) <= 2)%R as Hr.
    { split; [apply Rmult_le_pos; lra|]. apply (Rle_trans _ (2 * 1)); [apply Rmult_le_compat; lra|lra]. }
    set (r := ((g k + g (S k)) * (p (S k) - p k))%R) in *. clearbody r.
    destruct (abs_mul a b Da Db) as [Dm Hm]. { apply Rabs_le. lra. }
    set (m := nmul a b) in *. apply Rabs_le_inv in Hm. destruct dbl_two as [D2 E2].
    destruct (abs_div m n2 Dm D2) as [Dh Hh]. { rewrite E2. lra. } { rewrite E2. apply Rabs_le. lra. }
    rewrite E2 in Hh. set (h := ndiv m n2) in *. apply Rabs_le_inv in Hh, IHk.
    destruct (abs_add (steps k) h D Dh) as [Ds Hs]. { apply Rabs_le. lra. }
    split; [done|]. apply Rabs_le_inv in Hs. rewrite S_INR. apply Rabs_le. lra.
Qed.

(** Two curves. *)
Context (f s : nat → R) (e : R).
Hypothesis Hf : ∀ k, (k < n)%nat → (f k <= f (S k))%R.
Hypothesis Hf0 : f O = 0%R.
Hypothesis Hf1 : f n = 1%R.
Hypothesis He : ∀ k, (k ≤ n)%nat → (Rabs (p k - s k) <= e ∧ Rabs (g k - f k) <= e)%R.
Lemma trap_left k : (k ≤ n)%nat → (Rabs (trap (λ i, g i - f i) (λ i, p i) k) <= e * (p k - p 0))%R.
Proof.
  induction k as [|k IH]; intros Hk; cbn [trap]; [rewrite Rabs_R0; lra|]. specialize (IH ltac:(lia)). specialize (Hup k ltac:(lia)).
  destruct (He k ltac:(lia)) as [_ H1], (He (S k) ltac:(lia)) as [_ H2]. eapply Rle_trans; [apply Rabs_triang|].
  assert (Rabs ((g k - f k + (g (S k) - f (S k))) * (p (S k) - p k) / 2) <= e * (p (S k) - p k))%R; [|lra].
  unfold Rdiv. rewrite !Rabs_mult, (Rabs_pos_eq (/ 2)), (Rabs_pos_eq (p (S k) - p k)) by lra.
  assert (Rabs (g k - f k + (g (S k) - f (S k))) <= 2 * e)%R as H. { eapply Rle_trans; [apply Rabs_triang|lra]. }
  replace (e * (p (S k) - p k))%R with (2 * e * (p (S k) - p k) * / 2)%R by field.
  do 2 (apply Rmult_le_compat_r; [lra|]). exact H.
Qed.
Lemma trap_right k : (k ≤ n)%nat →
  (Rabs (trap f (λ i, p i - s i) k - f k * (p k - s k)) <= e * f k)%R.
Proof.
  induction k as [|k IH]; intros Hk; cbn [trap].
  { rewrite Hf0, Rmult_0_l, Rmult_0_r, Rminus_0_r, Rabs_R0. lra. }
  specialize (IH ltac:(lia)). specialize (Hf k ltac:(lia)). destruct (He k ltac:(lia)) as [H1 _], (He (S k) ltac:(lia)) as [H2 _].
  set (d0 := (p k - s k)%R) in *. set (d1 := (p (S k) - s (S k))%R) in *.
  replace (trap f (λ i, p i - s i) k + (f k + f (S k)) * (d1 - d0) / 2 - f (S k) * d1)%R
    with ((trap f (λ i, p i - s i) k - f k * d0) + - ((d0 + d1) * (f (S k) - f k) / 2))%R by field.
  eapply Rle_trans; [apply Rabs_triang|]. rewrite Rabs_Ropp.
  assert (Rabs ((d0 + d1) * (f (S k) - f k) / 2) <= e * (f (S k) - f k))%R; [|lra].
  unfold Rdiv. rewrite !Rabs_mult, (Rabs_pos_eq (/ 2)), (Rabs_pos_eq (f (S k) - f k)) by lra.
  assert (Rabs (d0 + d1) <= 2 * e)%R as H. { eapply Rle_trans; [apply Rabs_triang|lra]. }
  replace (e * (f (S k) - f k))%R with (2 * e * (f (S k) - f k) * / 2)%R by field.
  do 2 (apply Rmult_le_compat_r; [lra|]). exact H.
Qed.
Lemma trap_split k : trap (λ i, g i) (λ i, p i) k = (trap f s k + trap (λ i, g i - f i) (λ i, p i) k + trap f (λ i, p i - s i) k)%R.
Proof. induction k as [|k IH]; cbn [trap]; [ring|]. rewrite IH. field. Qed.
Lemma trap_close : (Rabs (trap (λ i, g i) (λ i, p i) n - trap f s n) <= 3 * e)%R.
Proof.
  rewrite trap_split. pose proof (trap_left n ltac:(lia)) as H1. pose proof (trap_right n ltac:(lia)) as H2. rewrite Hf1 in H2.
  destruct (He n ltac:(lia)) as [H3 _]. pose proof (Rabs_pos (p n - s n)) as H0. destruct (HP 0%nat ltac:(lia)) as [_ P0], (HP n ltac:(lia)) as [_ P1].
  assert (e * (p n - p 0) <= e * 1)%R by (apply Rmult_le_compat_l; lra).
  apply Rabs_le_inv in H1, H2, H3. apply Rabs_le. lra.
Qed.

Lemma lorenz_run (Phi F : list (@num b64)) : length Phi = S n → length F = S n → Z.of_nat n + 1 < 2 ^ 31 →
  (∀ k, (k ≤ n)%nat → Phi !! k = Some (P k)) → (∀ k, (k ≤ n)%nat → F !! k = Some (G k)) →
  lorenz_coefficient (Phi, F) = Ok (nmul n2 (nsub (steps n) nhalf)).
Proof.
  intros L1 L2 Hs E1 E2. unfold lorenz_coefficient.
  assert (zlen F = Z.of_nat n + 1) as Z1 by (unfold zlen; lia). assert (zlen Phi = Z.of_nat n + 1) as Z2 by (unfold zlen; lia).
  rewrite Z1, Z2, Z.eqb_refl. cbn [negb].
  rewrite to_size_small by lia. rewrite to_int_small by lia. replace (Z.of_nat n + 1 - 1) with (Z.of_nat n) by lia.
  destruct (forZ_ind n (fun (acc : @num b64) ii =>
      s1 ← zget Phi (ii + 1);
      s0 ← zget Phi ii;
      f0 ← zget F ii;
      f1 ← zget F (ii + 1);
      let len := nsub s1 s0 in
      Ok (nadd acc (ndiv (nmul (nadd f0 f1) len) n2))) (λ i acc, acc = steps i) (@n0 b64)) as (acc & E & Hacc).
  - reflexivity.
  - intros i acc Hi ->. eexists.
    rewrite (zget_of Phi (Z.of_nat i + 1) (P (S i))), (zget_of Phi (Z.of_nat i) (P i)), (zget_of F (Z.of_nat i) (G i)), (zget_of F (Z.of_nat i + 1) (G (S i)));
      try lia; try (rewrite ?Nat2Z.id; replace (Z.to_nat (Z.of_nat i + 1)) with (S i) by lia); try (apply E1; lia); try (apply E2; lia).
    cbn [mbind res_bind]. cbv zeta. split; [reflexivity|]. by replace (i + 1)%nat with (S i) by lia.
  - cbv zeta in E. etransitivity; [apply (f_equal (λ x, x ≫= λ integral, Ok (@nmul b64 n2 (@nsub b64 integral nhalf))) E)|].
    cbn [mbind res_bind]. by rewrite Hacc.
Qed.
Lemma lorenz_close : let x := nmul n2 (nsub (steps n) nhalf) in
  dbl x ∧ (Rabs (V x - (2 * trap f s n - 1)) <= (10 * INR n + 3) * unit_err + 6 * e)%R.
Proof.
  intros x. destruct (steps_close n ltac:(lia)) as [D H]. pose proof (trap_range n ltac:(lia)) as HT. pose proof trap_close as HC.
  destruct unit_err_small as [U1 U2]. destruct dbl_two as [D2 E2], dbl_half as [Dh Eh].
  destruct (HP 0%nat ltac:(lia)) as [_ P0], (HP n ltac:(lia)) as [_ P1]. apply Rabs_le_inv in H, HC.
  assert (0 <= INR n)%R by apply pos_INR.
  destruct (abs_sub (steps n) nhalf D Dh) as [Ds Hs]. { rewrite Eh. apply Rabs_le. lra. }
  rewrite Eh in Hs. apply Rabs_le_inv in Hs.
  destruct (abs_mul n2 (nsub (steps n) nhalf) D2 Ds) as [Dm Hm]. { rewrite E2. apply Rabs_le. lra. }
  rewrite E2 in Hm. apply Rabs_le_inv in Hm. split; [done|]. unfold x. apply Rabs_le. lra.
Qed.
End trapezoid.

(** * Normalised sums *)
Lemma psum_take {N : Num} (l : list num) acc i : (i < length l)%nat → psum_from acc l !! i = Some (foldl nadd acc (take (S i) l)).
Proof.
  revert acc i. induction l as [|x l IH]; intros acc i Hi; cbn [length] in Hi; [lia|]. destruct i as [|i]; cbn [psum_from].
  - by destruct l.
  - cbn [lookup list_lookup]. rewrite IH by lia. done.
Qed.
Lemma partial_take {N : Num} (l : list num) i : (i ≤ length l)%nat → partial_sum (n0 :: l) !! i = Some (sum_left (take i l)).
Proof. intros Hi. destruct i as [|i]; [by rewrite take_0|]. cbn [partial_sum lookup list_lookup]. by apply psum_take. Qed.
Lemma psum_length {N : Num} (l : list num) acc : length (psum_from acc l) = length l.
Proof. revert acc. induction l; intros acc; cbn [psum_from length]; [done|]. by rewrite IHl. Qed.
Lemma cumulative_take {N : Num} (l : list num) i : (i ≤ length l)%nat →
  cumulative_normalized l !! i = Some (ndiv (sum_left (take i l)) (sum_left l)).
Proof.
  intros Hi. unfold cumulative_normalized. change (map ?f ?q) with (f <$> q). rewrite list_lookup_fmap, partial_take by done. cbn [fmap option_fmap option_map]. do 2 f_equal.
  apply last_default. rewrite last_lookup. change (partial_sum (n0 :: l)) with (n0 :: psum_from n0 l). cbn [length pred]. rewrite psum_length.
  change (n0 :: psum_from n0 l) with (partial_sum (n0 :: l)). rewrite partial_take by done. by rewrite take_ge.
Qed.
Lemma cumulative_length {N : Num} (l : list num) : length (cumulative_normalized l) = S (length l).
Proof. unfold cumulative_normalized. rewrite map_length. cbn. by rewrite psum_length. Qed.

Lemma sum_fins {X} (q : X → Qc) (l : list X) : sum_left (map (λ x, Fin (q x) : @num exact) l) = Fin (qsum (q <$> l)).
Proof. change (@accumulate exact (map (λ x, Fin (q x)) l) = Fin (qsum (q <$> l))). rewrite <-accumulate_Fin, <-list_fmap_compose. done. Qed.
Lemma qsum_take_le (l : list Qc) i : Forall (λ x, (0 <= x)%Qc) l → (0 <= qsum (take i l))%Qc ∧ (qsum (take i l) <= qsum l)%Qc.
Proof.
  intros H. pose proof (qsum_nonneg _ (Forall_take _ i l H)) as H1. pose proof (qsum_nonneg _ (Forall_drop _ i l H)) as H2.
  split; [done|]. assert (qsum l = qsum (take i l) + qsum (drop i l))%Qc as -> by (by rewrite <-qsum_app, take_drop). qclra.
Qed.
Lemma cum_app {X} k lo hi (h : X → @num b64) (q : X → Qc) (l : list X) i :
  (∀ x, x ∈ l → app k lo hi (h x) (Fin (q x))) → (0 < qsum (q <$> l))%Qc → (i ≤ length l)%nat →
  Z.of_nat (2 * (k + length l)) ≤ 2 ^ 50 → -400 ≤ lo → hi ≤ 400 →
  ∃ x, cumulative_normalized (map h l) !! i = Some x ∧
    app (2 * (k + length l) + 1) (lo - hi - 50) 0 x (Fin (cumf (q <$> l) i)).
Proof.
  intros Ha Hp Hi Hk Hlo Hhi.
  assert (Forall (λ x, (0 <= x)%Qc) (q <$> l)) as Hnn.
  { apply Forall_fmap, Forall_forall. intros x Hx. destruct (Ha x Hx) as [_ (_ & _ & H & _) _]. cbn. apply QR_le. by rewrite QR_0. }
  exists (ndiv (sum_left (take i (map h l))) (sum_left (map h l))). split; [apply cumulative_take; by rewrite map_length|].
  change (take i (map h l)) with (take i (h <$> l)). rewrite <-fmap_take. change (h <$> take i l) with (map h (take i l)).
  assert (length (take i l) ≤ length l)%nat as Hlen by (rewrite take_length; lia).
  pose proof (app_sum k lo hi h (λ x, Fin (q x)) (take i l) ltac:(intros x (?&?&?)%elem_of_take; apply Ha, elem_of_list_lookup; eauto) ltac:(lia) ltac:(lia) ltac:(lia)) as A1.
  pose proof (app_sum k lo hi h (λ x, Fin (q x)) l Ha ltac:(lia) ltac:(lia) ltac:(lia)) as A2.
  rewrite sum_fins in A1, A2. apply (app_mono _ (k + length l) _ _ lo (hi + 50)) in A1; [|lia..].
  assert (qsum (q <$> l) ≠ 0%Qc) as Hne. { intros E. rewrite E in Hp. by apply Qclt_not_eq in Hp. }
  assert (ndiv (Fin (qsum (q <$> take i l)) : @num exact) (Fin (qsum (q <$> l))) = Fin (cumf (q <$> l) i)) as E.
  { cbn [ndiv exact]. unfold xdiv. rewrite (proj2 (Qc_eqb_false _ _) Hne). unfold cumf. by rewrite fmap_take. }
  rewrite <-E. apply QR_lt in Hp. rewrite QR_0 in Hp.
  replace (2 * (k + length l) + 1)%nat with (S ((k + length l) + (k + length l)))%nat by lia.
  eapply app_div; [exact A1|exact A2|done|lia|lia|lia|].
  destruct (qsum_take_le _ i Hnn) as [T1 T2]. rewrite <-fmap_take in T1, T2. apply QR_le in T1, T2. rewrite QR_0 in T1.
  destruct A1 as [_ _ [A1 _]], A2 as [_ _ [_ A2]]. rewrite !RV_Fin in *. set (a := QR (qsum (q <$> take i l))) in *. set (b := QR (qsum (q <$> l))) in *.
  assert (0 < / b)%R as Hb by by apply Rinv_0_lt_compat. split.
  - destruct A1 as [->|A1]; [left; unfold Rdiv; ring|right].
    apply (Rmult_le_reg_r b); [done|]. unfold Rdiv. rewrite Rmult_assoc, Rinv_l, Rmult_1_r by lra.
    eapply Rle_trans; [apply Rmult_le_compat_l; [apply bpow_ge_0|exact A2]|]. rewrite <-bpow_plus. by replace (lo - hi - 50 + (hi + 50)) with lo by lia.
  - change (bpow radix2 0) with 1%R. apply (Rmult_le_reg_r b); [done|]. unfold Rdiv. rewrite Rmult_assoc, Rinv_l, Rmult_1_r, Rmult_1_l by lra. done.
Qed.
Lemma app_abs k lo x y : app k lo 0 x y → Z.of_nat k ≤ 2 ^ 50 → (Rabs (V x - RV y) <= INR k * unit_err)%R.
Proof.
  intros [_ (_ & _ & H0 & H1 & H2) [_ H3]] Hk. change (bpow radix2 0) with 1%R in H3.
  pose proof (small_half k Hk) as Hs. pose proof (pe_bound k ltac:(lra)) as Hb. pose proof (pe_ge1 k) as Hg.
  assert (unit_err = 2 * eps)%R as -> by (unfold unit_err, eps; change (-51) with (-52 + 1); rewrite bpow_plus; change (bpow radix2 1) with 2%R; ring).
  assert (0 <= V x)%R as H4. { assert (0 < (1 + eps) ^ k)%R by lra. assert (0 <= V x * (1 + eps) ^ k)%R as H5 by lra. nra. }
  set (d := ((1 + eps) ^ k - 1)%R) in *. assert (0 <= d <= 2 * (INR k * eps))%R as Hd by (unfold d; lra).
  replace ((1 + eps) ^ k)%R with (1 + d)%R in * by (unfold d; ring). clearbody d. apply Rabs_le. nra.
Qed.

(** * Rounded travel times *)
Lemma qsum_fmap_le {A} (f g : A → Qc) l : (∀ x, x ∈ l → (f x <= g x)%Qc) → (qsum (f <$> l) <= qsum (g <$> l))%Qc.
Proof.
  induction l as [|a l IH]; intros H; [apply Qcle_refl|]. rewrite !fmap_cons, !qsum_cons.
  apply Qcplus_le_compat; [apply H; left|apply IH; intros; apply H; by right].
Qed.
Lemma spread_perm l l' : l ≡ₚ l' → spread l = spread l'.
Proof.
  intros H. unfold spread. rewrite (qsum_perm _ _ (fmap_Permutation _ _ _ H)). apply qsum_fmap_ext. intros x _.
  by apply qsum_perm, fmap_Permutation.
Qed.
Lemma volume_perm l l' : l ≡ₚ l' → volume l = volume l'.
Proof. intros H. by apply qsum_perm, fmap_Permutation. Qed.
Lemma flux_perm l l' : l ≡ₚ l' → flux l = flux l'.
Proof. intros H. by apply qsum_perm, fmap_Permutation. Qed.

Lemma abs_shift (a b a' b' e : Qc) : (a' <= a + e * a)%Qc → (a - e * a <= a')%Qc → (b' <= b + e * b)%Qc → (b - e * b <= b')%Qc →
  (Qcabs.Qcabs (a' - b') <= Qcabs.Qcabs (a - b) + e * (a + b))%Qc ∧ (Qcabs.Qcabs (a - b) <= Qcabs.Qcabs (a' - b') + e * (a + b))%Qc.
Proof.
  intros H1 H2 H3 H4. pose proof (Qcabs.Qcle_Qcabs (a - b)) as K1. pose proof (Qcabs.Qcle_Qcabs (a' - b')) as K2.
  pose proof (Qcabs.Qcle_Qcabs (- (a - b))) as K3. pose proof (Qcabs.Qcle_Qcabs (- (a' - b'))) as K4. rewrite Qcabs.Qcabs_opp in K3, K4.
  split; apply Qcabs.Qcabs_Qcle_condition; (set (A := Qcabs.Qcabs (a - b)) in *; set (B := Qcabs.Qcabs (a' - b')) in *; clearbody A B; split; qclra).
Qed.

Section times.
Context {X : Type} (l : list X) (t t' vol : X → Qc) (e : Qc).
Hypothesis Hv : ∀ x, x ∈ l → (0 <= vol x)%Qc.
Hypothesis Hr : ∀ x, x ∈ l → (/ t' x <= / t x + e * / t x)%Qc ∧ (/ t x - e * / t x <= / t' x)%Qc.
Notation z := ((λ x, (t x, vol x)) <$> l).
Notation z' := ((λ x, (t' x, vol x)) <$> l).

Lemma times_volume (s : X → Qc) : volume ((λ x, (s x, vol x)) <$> l) = qsum (vol <$> l).
Proof. unfold volume. by rewrite <-list_fmap_compose. Qed.
Lemma times_flux (s : X → Qc) : flux ((λ x, (s x, vol x)) <$> l) = qsum ((λ x, (vol x * / s x)%Qc) <$> l).
Proof. unfold flux. by rewrite <-list_fmap_compose. Qed.
Lemma times_spread (s : X → Qc) : spread ((λ x, (s x, vol x)) <$> l) =
  qsum ((λ x, qsum ((λ y, (vol x * vol y * Qcabs.Qcabs (/ s x - / s y))%Qc) <$> l)) <$> l).
Proof. unfold spread. rewrite <-list_fmap_compose. apply qsum_fmap_ext. intros x _. cbn. by rewrite <-list_fmap_compose. Qed.
Lemma extra_sum : qsum ((λ x, qsum ((λ y, (vol x * vol y * (e * (/ t x + / t y)))%Qc) <$> l)) <$> l) = (2 * e * volume z * flux z)%Qc.
Proof.
  rewrite times_volume, times_flux. set (R := qsum ((λ x, (vol x * / t x)%Qc) <$> l)). set (W := qsum (vol <$> l)).
  transitivity (qsum ((λ x, ((e * W) * (vol x * / t x) + (e * R) * vol x)%Qc) <$> l)).
  - apply qsum_fmap_ext. intros x _.
    transitivity (qsum ((λ y, ((e * (vol x * / t x)) * vol y + (e * vol x) * (vol y * / t y))%Qc) <$> l)).
    { apply qsum_fmap_ext. intros y _. ring. }
    rewrite qsum_fmap_add, !qsum_fmap_mul. fold R W. ring.
  - rewrite qsum_fmap_add, !qsum_fmap_mul. fold R W. ring.
Qed.
Lemma spread_shift : (spread z' <= spread z + 2 * e * volume z * flux z)%Qc ∧ (spread z <= spread z' + 2 * e * volume z * flux z)%Qc.
Proof.
  rewrite <-extra_sum, !times_spread, <-!qsum_fmap_add.
  split; apply qsum_fmap_le; intros x Hx; rewrite <-qsum_fmap_add; apply qsum_fmap_le; intros y Hy;
    destruct (Hr x Hx) as [X1 X2], (Hr y Hy) as [Y1 Y2]; destruct (abs_shift (/ t x) (/ t y) (/ t' x) (/ t' y) e X1 X2 Y1 Y2) as [A1 A2];
    pose proof (Hv x Hx) as V1; pose proof (Hv y Hy) as V2;
    assert (0 <= vol x * vol y)%Qc as Hp by (set (a := vol x) in *; set (b := vol y) in *; clearbody a b; clear -V1 V2; qcnra);
    rewrite <-Qcmult_plus_distr_r, !(Qcmult_comm (vol x * vol y)); by apply Qcmult_le_compat_r.
Qed.
Lemma flux_shift : (flux z' <= flux z + e * flux z)%Qc ∧ (flux z - e * flux z <= flux z')%Qc.
Proof.
  rewrite !times_flux. set (R := qsum ((λ x, (vol x * / t x)%Qc) <$> l)).
  assert (R + e * R = qsum ((λ x, ((1 + e) * (vol x * / t x))%Qc) <$> l))%Qc as -> by (rewrite qsum_fmap_mul; fold R; ring).
  assert (R - e * R = qsum ((λ x, ((1 - e) * (vol x * / t x))%Qc) <$> l))%Qc as -> by (rewrite qsum_fmap_mul; fold R; ring).
  split; apply qsum_fmap_le; intros x Hx; destruct (Hr x Hx) as [X1 X2]; pose proof (Hv x Hx) as V1;
    set (a := vol x) in *; set (b := (/ t x)%Qc) in *; set (c := (/ t' x)%Qc) in *; clearbody a b c; clear -V1 X1 X2.
  - replace ((1 + e) * (a * b))%Qc with ((b + e * b) * a)%Qc by ring. rewrite (Qcmult_comm a c). by apply Qcmult_le_compat_r.
  - replace ((1 - e) * (a * b))%Qc with ((b - e * b) * a)%Qc by ring. rewrite (Qcmult_comm a c). by apply Qcmult_le_compat_r.
Qed.
(** The coefficient with rounded times, between 0 and 1, is off by two roundings. *)
Lemma coefficient_shift : (0 < volume z)%Qc → (0 < flux z)%Qc → (0 < flux z')%Qc →
  (0 <= spread z' / (2 * volume z' * flux z') <= 1)%Qc →
  let L := (spread z / (2 * volume z * flux z))%Qc in let L' := (spread z' / (2 * volume z' * flux z'))%Qc in
  (L' <= L + 2 * e ∧ L <= L' + 2 * e)%Qc.
Proof.
  intros HV HR HR' HL L L'. destruct spread_shift as [S1 S2]. destruct flux_shift as [F1 F2].
  assert (volume z' = volume z) as EV by (by rewrite !times_volume).
  assert (flux z ≠ 0 ∧ flux z' ≠ 0 ∧ volume z ≠ 0)%Qc as (N1 & N2 & N3).
  { repeat split; intros E; [rewrite E in HR; by apply Qclt_not_eq in HR|rewrite E in HR'; by apply Qclt_not_eq in HR'|rewrite E in HV; by apply Qclt_not_eq in HV]. }
  assert (2 ≠ 0)%Qc as N0 by done.
  assert (spread z = L * (2 * volume z * flux z))%Qc as ES by (unfold L; field; done).
  assert (spread z' = L' * (2 * volume z * flux z'))%Qc as ES' by (unfold L'; rewrite EV; field; done).
  fold L' in HL. rewrite ES, ES' in S1, S2. clearbody L L'. set (W := volume z) in *. set (R := flux z) in *. set (R' := flux z') in *. clearbody W R R'.
  clear -HV HR HR' HL S1 S2 F1 F2.
  assert (L' * R' <= L * R + e * R)%Qc as K1.
  { apply (Qcmult_lt_0_le_reg_r _ _ (2 * W)); [clear -HV; qclra|].
    replace (L' * R' * (2 * W))%Qc with (L' * (2 * W * R'))%Qc by ring. eapply Qcle_trans; [exact S1|].
    replace ((L * R + e * R) * (2 * W))%Qc with (L * (2 * W * R) + 2 * e * W * R)%Qc by ring. apply Qcle_refl. }
  assert (L * R <= L' * R' + e * R)%Qc as K2.
  { apply (Qcmult_lt_0_le_reg_r _ _ (2 * W)); [clear -HV; qclra|].
    replace (L * R * (2 * W))%Qc with (L * (2 * W * R))%Qc by ring. eapply Qcle_trans; [exact S2|].
    replace ((L' * R' + e * R) * (2 * W))%Qc with (L' * (2 * W * R') + 2 * e * W * R)%Qc by ring. apply Qcle_refl. }
  destruct HL as [HL0 HL1].
  assert (L' * (R - R') <= e * R)%Qc as K3. { clear -HL0 HL1 F1 F2 HR. assert (R - R' <= e * R)%Qc by qclra. assert (0 <= e * R)%Qc by qclra. set (d := (R - R')%Qc) in *. set (m := (e * R)%Qc) in *. clearbody d m. qcnra. }
  assert (L' * (R' - R) <= e * R)%Qc as K4. { clear -HL0 HL1 F1 F2 HR. assert (R' - R <= e * R)%Qc by qclra. assert (0 <= e * R)%Qc by qclra. set (d := (R' - R)%Qc) in *. set (m := (e * R)%Qc) in *. clearbody d m. qcnra. }
  split; apply (Qcmult_lt_0_le_reg_r _ _ R HR); set (a := (L' * R')%Qc) in *.
  - replace (L' * R)%Qc with (a + L' * (R - R'))%Qc by (unfold a; ring). replace ((L + 2 * e) * R)%Qc with (L * R + e * R + e * R)%Qc by ring. by apply Qcplus_le_compat.
  - replace ((L' + 2 * e) * R)%Qc with (a + e * R + (e * R - L' * (R' - R)))%Qc by (unfold a; ring). clearbody a. clear -K2 K4.
    set (b := (L' * (R' - R))%Qc) in *. clearbody b. qclra.
Qed.
End times.

(** * Curves with doubles *)
Lemma dbl_leb x y : dbl x → dbl y → nleb x y = true ↔ (V x <= V y)%R.
Proof.
  intros (a & -> & Fa & ->)%dbl_inv (b & -> & Fb & ->)%dbl_inv. cbn [nleb b64]. rewrite SFleb_v, !v_fin by (done || by destruct a, b).
  split; [|apply Rle_bool_true]. by destruct (Rle_bool_spec (B2R a) (B2R b)).
Qed.
Lemma dbl_ltb x y : dbl x → dbl y → nltb x y = true ↔ (V x < V y)%R.
Proof.
  intros (a & -> & Fa & ->)%dbl_inv (b & -> & Fb & ->)%dbl_inv. cbn [nltb b64]. rewrite SFltb_v, !v_fin by (done || by destruct a, b).
  split; [|apply Rlt_bool_true]. by destruct (Rlt_bool_spec (B2R a) (B2R b)).
Qed.
Lemma dbl_0 : dbl n0 ∧ V (@n0 b64) = 0%R.
Proof. split; [split; [by apply (ok_B2SF (B754_zero false))|done]|done]. Qed.
Lemma dbl_1 : dbl n1 ∧ V (@n1 b64) = 1%R.
Proof. split; [split; vm_compute; reflexivity|]. change (@n1 b64) with (S754_finite false 4503599627370496 (-52)). change (4503599627370496 * / 4503599627370496 = 1)%R. lra. Qed.
Lemma dbl_inf x : dbl x → nltb x ninf = true.
Proof. intros (a & -> & Fa & _)%dbl_inv. by destruct a as [s| | |[] m e]; try destruct s. Qed.
Lemma app_dbl k lo hi x y : app k lo hi x y → dbl x.
Proof. intros [_ (H1 & H2 & _) _]. by split. Qed.
Lemma app_nonneg k lo hi x y : app k lo hi x y → (0 <= V x)%R.
Proof. intros [_ H _]. by eapply near_nonneg. Qed.
Lemma dbl_eq x y : dbl x → dbl y → neqb x y = true → V x = V y.
Proof.
  intros Dx Dy E. cbn [neqb b64] in E. rewrite SFeqb_leb in E. apply andb_true_iff in E as [E1 E2].
  apply (dbl_leb x y) in E1; [|done..]. apply (dbl_leb y x) in E2; [|done..]. lra.
Qed.

Lemma cum_ramp {X} k lo hi (h : X → @num b64) (q : X → Qc) (l : list X) :
  (∀ x, x ∈ l → app k lo hi (h x) (Fin (q x))) → (0 < qsum (q <$> l))%Qc →
  Z.of_nat (2 * (k + length l)) ≤ 2 ^ 50 → -400 ≤ lo → hi ≤ 400 →
  ∃ P : nat → @num b64, (∀ i, (i ≤ length l)%nat → cumulative_normalized (map h l) !! i = Some (P i) ∧
      app (2 * (k + length l) + 1) (lo - hi - 50) 0 (P i) (Fin (cumf (q <$> l) i)) ∧ dbl (P i) ∧ (0 <= V (P i) <= 1)%R) ∧
    (∀ i, (i < length l)%nat → (V (P i) <= V (P (S i)))%R).
Proof.
  intros Ha Hp Hk Hlo Hhi.
  assert (∀ i, (i ≤ length l)%nat → ∃ x, cumulative_normalized (map h l) !! i = Some x ∧
      app (2 * (k + length l) + 1) (lo - hi - 50) 0 x (Fin (cumf (q <$> l) i))) as HA by (intros; by apply cum_app).
  destruct (cumulative_ramp b64_laws (map h l)) as (HL & t & Ht & Htn & Htl & Hramp).
  { apply Forall_forall. intros x Hx. apply elem_of_list_fmap in Hx as (y & -> & Hy). pose proof (Ha y Hy) as A. split; [apply A|].
    apply dbl_leb; [apply dbl_0|by eapply app_dbl|]. rewrite (proj2 dbl_0). by eapply app_nonneg. }
  rewrite map_length in HL.
  pose proof (app_sum k lo hi h (λ x, Fin (q x)) l Ha ltac:(lia) ltac:(lia) ltac:(lia)) as A2. rewrite sum_fins in A2.
  assert (t = sum_left (map h l)) as ->.
  { rewrite last_lookup in Ht. change (partial_sum (n0 :: map h l)) with (n0 :: psum_from n0 (map h l)) in Ht. cbn [length pred] in Ht. rewrite psum_length in Ht.
    change (n0 :: psum_from n0 (map h l)) with (partial_sum (n0 :: map h l)) in Ht. rewrite partial_take, take_ge in Ht by done. congruence. }
  apply QR_lt in Hp. rewrite QR_0 in Hp.
  destruct Hramp as (_ & (b & Hb & Eb) & Hup).
  { apply (near_gt0 _ _ _ (ap_near _ _ _ _ _ A2)). by rewrite RV_Fin. }
  { apply dbl_inf. by eapply app_dbl. }
  exists (λ i, default n0 (cumulative_normalized (map h l) !! i)).
  assert (∀ i, (i ≤ length l)%nat → cumulative_normalized (map h l) !! i = Some (default n0 (cumulative_normalized (map h l) !! i))) as HS.
  { intros i Hi. destruct (HA i Hi) as (x & E & _). by rewrite E. }
  assert (∀ (i j : nat) (x y : @num b64), (i ≤ j)%nat → (j ≤ length l)%nat → cumulative_normalized (map h l) !! i = Some x → cumulative_normalized (map h l) !! j = Some y → (V x <= V y)%R) as HM.
  { intros i j x y Hij Hj Ex Ey. destruct (HA i ltac:(lia)) as (x' & Ex' & Ax). destruct (HA j Hj) as (y' & Ey' & Ay).
    rewrite Ex in Ex'. injection Ex' as Ex'. rewrite <-Ex' in Ax. rewrite Ey in Ey'. injection Ey' as Ey'. rewrite <-Ey' in Ay.
    apply dbl_leb; [by eapply app_dbl|by eapply app_dbl|].
    by apply (Hup i j). }
  rewrite last_lookup, HL in Hb. cbn [pred] in Hb.
  split.
  - intros i Hi. split; [by apply HS|]. destruct (HA i Hi) as (x & E & A). rewrite E. cbn [default]. split; [done|]. split; [by eapply app_dbl|].
    split; [by eapply app_nonneg|]. assert (V b = 1%R) as <-.
    { destruct dbl_1 as [D1 <-]. apply dbl_eq; [|done|done]. destruct (HA (length l) ltac:(lia)) as (y & Ey & Ay). rewrite Hb in Ey. injection Ey as Ey. rewrite <-Ey in Ay. by eapply app_dbl. }
    by apply (HM i (length l)).
  - intros i Hi. apply (HM i (S i)); [lia|lia|apply HS; lia|apply HS; lia].
Qed.

(** * The cells of the input *)
Lemma self_app x lo hi : b64_ok x → finite (q_of x) → tame lo hi (RV (q_of x)) → app 0 lo hi x (q_of x).
Proof.
  intros Hx Hf Ht. split; [done| |done]. pose proof (q_fin x Hf) as Fx. destruct (q_val x Fx) as [_ E]. pose proof (tame_nonneg _ _ _ Ht) as H0.
  split; [done|]. split; [done|]. split; [done|]. rewrite E in *. by apply rel_refl.
Qed.
Lemma plain_app x : b64_ok x → plain x → app 0 (-100) 100 x (q_of x).
Proof.
  intros Hx [E|H]; [|by apply q_app]. apply self_app; [done|rewrite E; by eexists|]. rewrite E, RV_Fin, QR_0. apply tame_0.
Qed.
Lemma rational_Fin x : finite (q_of x) → q_of x = Fin (rational x).
Proof. unfold rational. by intros [q ->]. Qed.

Lemma sorted_pairs {A} (Rel : relation A) (m : list A) : StronglySorted Rel m →
  ∀ i j x y, (i < j)%nat → m !! i = Some x → m !! j = Some y → Rel x y.
Proof.
  induction 1 as [|a m Hm IH Hall]; intros i j x y Hij Ex Ey; [done|]. destruct j as [|j]; [lia|]. cbn in Ey. destruct i as [|i].
  - cbn in Ex. injection Ex as ->. rewrite Forall_lookup in Hall. by eapply Hall.
  - cbn in Ex. eapply (IH i j); [lia|done..].
Qed.

Section input.
Context (srt : list (@num b64 * @num b64) → list (@num b64 * @num b64)) (itof ptof pv : list (@num b64)).
Hypothesis (Hs : sorting srt) (Oi : Forall b64_ok itof) (Op : Forall b64_ok ptof) (Ov : Forall b64_ok pv) (PI : plain_input itof ptof pv).
Notation X := (@num b64 * @num b64 * @num b64)%type.
Notation l0 := (zip (zip itof ptof) pv).
Notation tm := (λ x : X, nadd x.1.1 x.1.2).
Notation n := (length pv).
Lemma cell_data x : x ∈ l0 →
  app 1 (-100) 101 (tm x) (Fin (rational x.1.1 + rational x.1.2)%Qc) ∧ (0 < rational x.1.1 + rational x.1.2)%Qc ∧
  app 0 (-101) 102 (tm x) (Fin (rational (tm x))) ∧ app 0 (-100) 100 x.2 (Fin (rational x.2)).
Proof.
  intros Hx. apply elem_of_list_lookup in Hx as [i Hi]. destruct x as [[a b] v].
  apply lookup_zip_with_Some in Hi as ([a' b'] & v' & [= <- <- <-] & H & Hv). apply lookup_zip_with_Some in H as (a' & b' & [= <- <-] & Ha & Hb).
  pose proof (pi_time _ _ _ PI i _ _ Ha Hb) as Hp. destruct (pi_plain _ _ _ PI) as (P1 & P2 & P3).
  rewrite Forall_lookup in P1, P2, P3, Oi, Op, Ov. cbn [fst snd] in *.
  pose proof (plain_app _ (Oi _ _ Ha) (P1 _ _ Ha)) as A1. pose proof (plain_app _ (Op _ _ Hb) (P2 _ _ Hb)) as A2. pose proof (plain_app _ (Ov _ _ Hv) (P3 _ _ Hv)) as A3.
  rewrite (rational_Fin _ (ap_fin _ _ _ _ _ A1)) in A1. rewrite (rational_Fin _ (ap_fin _ _ _ _ _ A2)) in A2. rewrite (rational_Fin _ (ap_fin _ _ _ _ _ A3)) in A3.
  pose proof (app_add 0 (-100) 100 _ _ _ _ A1 A2 ltac:(lia) ltac:(lia) ltac:(lia)) as A. change (nadd (Fin ?u : @num exact) (Fin ?w)) with (Fin (u + w)%Qc : @num exact) in A.
  split; [exact A|]. split; [done|]. split; [|done]. destruct (app_dbl _ _ _ _ _ A) as [O F].
  destruct (q_val _ F) as [Ff Fv]. rewrite <-rational_Fin by done. apply self_app; [done|done|]. rewrite Fv.
  destruct A as [_ (_ & _ & _ & R1 & R2) [T1 T2]]. rewrite pow_1 in R1, R2. rewrite RV_Fin in *. set (m := QR (rational a + rational b)) in *.
  assert (eps <= 1)%R as He. { change 1%R with (bpow radix2 0). by apply bpow_le. }
  assert (0 < m)%R as Hm. { apply QR_lt in Hp. by rewrite QR_0 in Hp. } pose proof eps_pos as He0.
  assert (0 <= V (nadd a b))%R as H0 by (clear -R2 Hm He0; nra).
  split.
  - right. destruct T1 as [T1|T1]; [lra|]. change (-100) with (-101 + 1) in T1. rewrite bpow_plus in T1. change (bpow radix2 1) with 2%R in T1.
    assert (m <= V (nadd a b) * 2)%R by (eapply Rle_trans; [exact R2|]; apply Rmult_le_compat_l; lra). lra.
  - change 102 with (101 + 1). rewrite bpow_plus. change (bpow radix2 1) with 2%R. eapply Rle_trans; [exact R1|].
    change (100 + 1) with 101 in T2. apply Rmult_le_compat; lra.
Qed.
Lemma cell_time x : x ∈ l0 → (0 < rational (tm x))%Qc.
Proof.
  intros Hx. destruct (cell_data x Hx) as (A & Hp & B & _). apply QR_lt in Hp. rewrite QR_0 in Hp. apply QR_lt. rewrite QR_0.
  destruct B as [_ (_ & _ & _ & B & _) _]. rewrite Rmult_1_r, RV_Fin in B. eapply Rlt_le_trans; [|exact B]. eapply near_pos; [|exact (ap_near _ _ _ _ _ A)]. by rewrite RV_Fin.
Qed.
Lemma cell_volume x : x ∈ l0 → (0 <= rational x.2)%Qc.
Proof. intros Hx. destruct (cell_data x Hx) as (_ & _ & _ & [_ (_ & _ & H & _) _]). apply QR_le. by rewrite QR_0. Qed.
Lemma cell_rates_near x : x ∈ l0 → let w := (/ (rational x.1.1 + rational x.1.2))%Qc in
  (/ rational (tm x) <= w + pow2 (-52) * w)%Qc ∧ (w - pow2 (-52) * w <= / rational (tm x))%Qc.
Proof.
  intros Hx w. destruct (cell_data x Hx) as (A & Hp & B & _). pose proof (cell_time x Hx) as Ht. subst w.
  destruct A as [_ (_ & FA & _ & R) _]. rewrite RV_Fin in R. destruct (q_val _ FA) as [_ E]. rewrite rational_Fin, RV_Fin in E by apply q_val, FA. rewrite <-E in R.
  set (a := rational (tm x)) in *. set (b := (rational x.1.1 + rational x.1.2)%Qc) in *. clearbody a b.
  assert (a ≠ 0 ∧ b ≠ 0)%Qc as [Na Nb]. { split; intros ->; [by apply Qclt_not_eq in Ht|by apply Qclt_not_eq in Hp]. }
  apply QR_lt in Hp, Ht. rewrite QR_0 in Hp, Ht. apply rel_inv in R; [|done..]. destruct R as [R1 R2]. rewrite pow_1 in R1, R2.
  pose proof eps_pos as He. assert (0 < / QR a)%R by by apply Rinv_0_lt_compat. assert (0 < / QR b)%R by by apply Rinv_0_lt_compat.
  split; apply QR_le; unfold Qcminus; rewrite ?QR_add, ?QR_opp, !QR_mul, !QR_inv, QR_pow2 by done; fold eps; [lra|].
  set (u := (/ QR a)%R) in *. set (w := (/ QR b)%R) in *. clearbody u w. clear -R1 R2 He H H0.
  assert (w * (1 - eps) <= u * (1 + eps) * (1 - eps))%R. 2: nra.
  assert (eps <= 1)%R. { change 1%R with (bpow radix2 0). by apply bpow_le. } apply Rmult_le_compat_r; lra.
Qed.

(** The pairs that are sorted, and the result. *)
Lemma input_pairs : time_and_pv itof ptof pv (nmul n1 (accumulate pv)) = (λ x : X, (tm x, x.2)) <$> l0.
Proof.
  unfold time_and_pv. apply map_ext_in. intros [[a b] v] Hin. apply elem_of_list_In in Hin.
  assert (Forall (λ v : @num b64, b64_ok v ∧ nleb n0 v = true) pv) as Hpv.
  { destruct (pi_plain _ _ _ PI) as (_ & _ & P3). apply Forall_forall. intros y Hy. rewrite Forall_forall in P3, Ov. split; [by apply Ov|].
    pose proof (plain_app y (Ov y Hy) (P3 y Hy)) as A. apply dbl_leb; [apply dbl_0|by eapply app_dbl|]. rewrite (proj2 dbl_0). by eapply app_nonneg. }
  apply elem_of_zip_r in Hin. by rewrite (cutoff_one b64_laws pv v Hpv Hin).
Qed.
Lemma dbl_not_nan x : dbl x → nisnan x = false.
Proof.
  intros H. assert (nleb x x = true) as E by (apply dbl_leb; [done|done|lra]). unfold nisnan. cbn [neqb b64]. rewrite SFeqb_leb.
  cbn [nleb b64] in E. by rewrite E.
Qed.
Notation tp := ((λ x : X, (tm x, x.2)) <$> l0).
Lemma pair_data c : c ∈ tp → app 0 (-101) 102 c.1 (Fin (rational c.1)) ∧ (0 < rational c.1)%Qc ∧ app 0 (-100) 100 c.2 (Fin (rational c.2)).
Proof. intros (x & -> & Hx)%elem_of_list_fmap. destruct (cell_data x Hx) as (_ & _ & H1 & H2). split; [done|]. split; [by apply cell_time|done]. Qed.
Notation rat := (λ c : @num b64 * @num b64, (rational c.1, rational c.2)).
Lemma sorted_by_time (l : list (@num b64 * @num b64)) :
  (∀ c, c ∈ l → app 0 (-101) 102 c.1 (Fin (rational c.1)) ∧ (0 < rational c.1)%Qc ∧ app 0 (-100) 100 c.2 (Fin (rational c.2))) →
  StronglySorted (λ a b, lex_lt b a = false) l → by_time (rat <$> l).
Proof.
  unfold by_time. clear. intros HD Hsort. induction Hsort as [|c m Hm IH Hall]; [constructor|]. rewrite fmap_cons. constructor.
  - apply IH. intros d Hd. apply HD. by right.
  - apply Forall_fmap. rewrite Forall_forall in Hall |- *. intros d Hd. specialize (Hall d Hd). cbn.
    destruct (HD c ltac:(left)) as (A & _). destruct (HD d ltac:(by right)) as (B & _).
    apply QR_le. destruct (Rle_lt_dec (QR (rational c.1)) (QR (rational d.1))) as [|Hl]; [done|]. exfalso.
    assert (nltb d.1 c.1 = true) as E.
    { apply dbl_ltb; [by eapply app_dbl|by eapply app_dbl|]. pose proof (app_dbl _ _ _ _ _ A) as [_ FA]. pose proof (app_dbl _ _ _ _ _ B) as [_ FB].
      destruct (q_val _ FA) as [FA' EA], (q_val _ FB) as [FB' EB]. rewrite rational_Fin, RV_Fin in EA, EB by done. lra. }
    unfold lex_lt in Hall. rewrite E in Hall. done.
Qed.
Lemma sorted_cells : ∃ l, srt tp = l ∧ l ≡ₚ tp ∧ length l = n ∧ cells_ok (rat <$> l) ∧
  rat <$> l ≡ₚ rounded_cells itof ptof pv ∧ by_time (rat <$> l) ∧
  fphi_curve srt itof ptof pv n1 = Ok (cumulative_normalized (map snd l), cumulative_normalized (map (fun p => ndiv (snd p) (fst p)) l)).
Proof.
  assert (Forall no_nan tp) as Hnn.
  { apply Forall_forall. intros c Hc. destruct (pair_data c Hc) as (H1 & _ & H2). split; eapply dbl_not_nan, app_dbl; [exact H1|exact H2]. }
  destruct (Hs tp Hnn) as [Hp Hsort]. exists (srt tp). split; [done|]. split; [done|].
  assert (length tp = n) as Hlen. { rewrite fmap_length, !zip_with_length. destruct PI. lia. }
  split; [by rewrite Hp|].
  assert (∀ c, c ∈ srt tp → app 0 (-101) 102 c.1 (Fin (rational c.1)) ∧ (0 < rational c.1)%Qc ∧ app 0 (-100) 100 c.2 (Fin (rational c.2))) as HD.
  { intros c Hc. apply pair_data. by rewrite <-Hp. }
  assert (rat <$> srt tp ≡ₚ rounded_cells itof ptof pv) as HR.
  { rewrite Hp. unfold rounded_cells. rewrite <-list_fmap_compose. done. }
  assert (by_time (rat <$> srt tp)) as HB.
  { by apply sorted_by_time. }
  split.
  { split.
    - apply Forall_fmap, Forall_forall. intros c Hc. apply (HD c Hc).
    - apply Forall_fmap, Forall_forall. intros c Hc. destruct (HD c Hc) as (_ & _ & [_ (_ & _ & H & _) _]). cbn. apply QR_le. by rewrite QR_0.
    - intros i j x y Hij Ex Ey. destruct (decide (i = j)) as [->|Hne].
      + replace y with x by congruence. apply Qcle_refl.
      + by apply (sorted_pairs _ _ HB i j x y ltac:(lia)).
    - destruct (pi_some _ _ _ PI) as (v & Hv & Hv0). apply elem_of_list_lookup in Hv as [i Hv].
      destruct (lookup_lt_is_Some_2 itof i) as [a Ha]. { apply lookup_lt_Some in Hv. destruct PI. lia. }
      destruct (lookup_lt_is_Some_2 ptof i) as [b Hb]. { apply lookup_lt_Some in Hv. destruct PI. lia. }
      exists (rational (nadd a b), rational v). split; [|done]. rewrite HR. unfold rounded_cells. apply elem_of_list_fmap. exists (a, b, v).
      split; [done|]. apply elem_of_list_lookup. exists i. apply lookup_zip_with_Some. exists (a, b), v. split; [done|]. split; [|done].
      apply lookup_zip_with_Some. eauto. }
  split; [done|]. split; [done|].
  destruct PI. rewrite fphi_unfold by lia. cbv zeta. rewrite input_pairs.
  destruct (existsb _ tp) eqn:E; [|done]. exfalso. apply existsb_exists in E as (c & Hc & E). apply elem_of_list_In in Hc.
  rewrite Forall_forall in Hnn. destruct (Hnn c Hc) as [N1 N2]. by rewrite N1, N2 in E.
Qed.
Notation LX := (@num b64 * @num b64)%type.
Lemma curve_points (l : list LX) :
  (∀ c, c ∈ l → app 0 (-101) 102 c.1 (Fin (rational c.1)) ∧ (0 < rational c.1)%Qc ∧ app 0 (-100) 100 c.2 (Fin (rational c.2))) →
  cells_ok (rat <$> l) → Z.of_nat (length l) + 1 < 2 ^ 31 →
  (∃ P : nat → @num b64, (∀ i, (i ≤ length l)%nat → cumulative_normalized (map snd l) !! i = Some (P i) ∧
      app (2 * length l + 1) (-250) 0 (P i) (Fin (cumf (vols (rat <$> l)) i)) ∧ dbl (P i) ∧ (0 <= V (P i) <= 1)%R) ∧
    (∀ i, (i < length l)%nat → (V (P i) <= V (P (S i)))%R)) ∧
  (∃ P : nat → @num b64, (∀ i, (i ≤ length l)%nat → cumulative_normalized (map (fun p : LX => ndiv (snd p) (fst p)) l) !! i = Some (P i) ∧
      app (2 * length l + 3) (-453) 0 (P i) (Fin (cumf (rates (rat <$> l)) i)) ∧ dbl (P i) ∧ (0 <= V (P i) <= 1)%R) ∧
    (∀ i, (i < length l)%nat → (V (P i) <= V (P (S i)))%R)).
Proof.
  clear. intros HD Hok Hn.
  assert (vols (rat <$> l) = (λ c : LX, rational c.2) <$> l) as EV by (unfold vols; by rewrite <-list_fmap_compose).
  assert (rates (rat <$> l) = (λ c : LX, (rational c.2 / rational c.1)%Qc) <$> l) as ER by (unfold rates; by rewrite <-list_fmap_compose).
  split.
  - rewrite EV. destruct (cum_ramp 0 (-100) 100 (snd : LX → @num b64) (λ c : LX, rational c.2) l) as (P & H1 & H2); [|rewrite <-EV; by apply vols_pos|lia..|].
    { intros c Hc. apply (HD c Hc). }
    exists P. split; [|done]. intros i Hi. exact (H1 i Hi).
  - rewrite ER. destruct (cum_ramp 1 (-202) 201 (fun p : LX => ndiv (snd p) (fst p)) (λ c : LX, (rational c.2 / rational c.1)%Qc) l) as (P & H1 & H2); [|rewrite <-ER; by apply rates_pos|lia..|].
    + intros c Hc. destruct (HD c Hc) as (A & Hp & B). 
      assert (rational c.1 ≠ 0%Qc) as Hne. { intros E. rewrite E in Hp. by apply Qclt_not_eq in Hp. }
      assert (ndiv (Fin (rational c.2) : @num exact) (Fin (rational c.1)) = Fin (rational c.2 / rational c.1)%Qc) as <-.
      { cbn [ndiv exact]. unfold xdiv. by rewrite (proj2 (Qc_eqb_false _ _) Hne). }
      assert (0 < QR (rational c.1))%R as Hp'. { apply QR_lt in Hp. by rewrite QR_0 in Hp. }
      eapply (app_div 0 0 _ _ _ _ (-202) 201 c.2 _ c.1 _ B A); [done|lia|lia|lia|].
      destruct A as [_ _ [A1 A2]], B as [_ _ [B1 B2]]. rewrite !RV_Fin in *. set (a := QR (rational c.2)) in *. set (b := QR (rational c.1)) in *.
      destruct A1 as [A1|A1]; [lra|]. assert (0 < / b)%R by by apply Rinv_0_lt_compat. split.
      * destruct B1 as [->|B1]; [left; unfold Rdiv; ring|right]. apply (Rmult_le_reg_r b); [done|]. unfold Rdiv. rewrite Rmult_assoc, Rinv_l, Rmult_1_r by lra.
        eapply Rle_trans; [apply Rmult_le_compat_l; [apply bpow_ge_0|exact A2]|]. by rewrite <-bpow_plus.
      * apply (Rmult_le_reg_r b); [done|]. unfold Rdiv. rewrite Rmult_assoc, Rinv_l, Rmult_1_r by lra. eapply Rle_trans; [exact B2|].
        change 100 with (201 + (-101)). rewrite bpow_plus. apply Rmult_le_compat_l; [apply bpow_ge_0|done].
    + exists P. split; [|done]. intros i Hi. destruct (H1 i Hi) as (E & A & D). split; [done|]. split; [|done].
      replace (2 * length l + 3)%nat with (2 * (1 + length l) + 1)%nat by lia. exact A.
Qed.
Lemma cumf_volume (y : list (Qc * Qc)) k : cumf (vols y) k = (volume (take k y) / volume y)%Qc.
Proof. unfold cumf, volume, vols. by rewrite fmap_take. Qed.
Lemma cumf_flux (y : list (Qc * Qc)) k : cumf (rates y) k = (flux (take k y) / flux y)%Qc.
Proof. unfold cumf, flux, rates. by rewrite fmap_take. Qed.

Theorem curve_close : ∃ y Phi F, fphi_curve srt itof ptof pv n1 = Ok (Phi, F) ∧ y ≡ₚ rounded_cells itof ptof pv ∧ by_time y ∧
  length Phi = S n ∧ length F = S n ∧
  ∀ k, (k ≤ n)%nat → ∃ a b, Phi !! k = Some a ∧ F !! k = Some b ∧
    app (2 * n + 1) (-250) 0 a (Fin (volume (take k y) / volume y)%Qc) ∧ app (2 * n + 3) (-453) 0 b (Fin (flux (take k y) / flux y)%Qc).
Proof.
  destruct sorted_cells as (l & _ & Hp & Hlen & Hok & HR & HB & E). exists (rat <$> l).
  eexists _, _. split; [exact E|]. split; [done|]. split; [done|]. rewrite !cumulative_length, !map_length, Hlen. split; [done|]. split; [done|].
  intros k Hk. destruct (curve_points l) as [(P & HP & _) (Q & HQ & _)]; [|done|rewrite Hlen; apply PI|].
  { intros c Hc. apply pair_data. by rewrite <-Hp. }
  rewrite Hlen in HP, HQ. destruct (HP k Hk) as (EP & AP & _), (HQ k Hk) as (EQ & AQ & _). exists (P k), (Q k). split; [done|]. split; [done|].
  rewrite <-cumf_volume, <-cumf_flux. done.
Qed.

Lemma INR_err k : (INR k * unit_err = QR (errors k))%R.
Proof.
  unfold errors. rewrite QR_mul, QR_pow2, QR_Q2Qc. unfold Q2R, inject_Z. cbn [Qnum Qden]. by rewrite Rinv_1, Rmult_1_r, <-INR_IZR_INZ.
Qed.
Lemma trap_area (y : list (Qc * Qc)) k : (2 * trap (λ i, QR (cumf (rates y) i)) (λ i, QR (cumf (vols y) i)) k = QR (area y k))%R.
Proof.
  induction k as [|k IH]; cbn [trap area]; [rewrite QR_0; ring|]. unfold Qcminus. rewrite !QR_add, QR_mul, !QR_add, QR_opp, <-IH. field.
Qed.

Lemma ok_fin_inj (a b : Qc) : Ok (Fin a : @num exact) = Ok (Fin b) → a = b.
Proof. intros H. by injection H. Qed.
Theorem lorenz_accurate : ∃ g x, fphi_curve srt itof ptof pv n1 = Ok g ∧ lorenz_coefficient g = Ok x ∧
  let z := true_cells itof ptof pv in apart (errors (22 * (n + 1))) (q_of x) (spread z / (2 * volume z * flux z))%Qc.
Proof.
  destruct sorted_cells as (l & _ & Hp & Hlen & Hok & HR & HB & E). pose proof (pi_size _ _ _ PI) as Hsz.
  destruct (curve_points l) as [(P & HP & UP) (Q & HQ & _)]; [|done|rewrite Hlen; apply PI|].
  { intros c Hc. apply pair_data. by rewrite <-Hp. }
  rewrite Hlen in HP, UP, HQ. set (y := rat <$> l) in *.
  assert (length y = n) as Hly by (unfold y; by rewrite fmap_length).
  eexists _, (nmul n2 (nsub (steps P Q n) nhalf)). split; [exact E|]. split.
  { apply (lorenz_run n P Q); [by rewrite cumulative_length, map_length, Hlen..|done| |]; intros k Hk; [apply HP, Hk|apply HQ, Hk]. }
  destruct unit_err_small as [U1 _].
  destruct (lorenz_close n P Q) with (f := λ i, QR (cumf (rates y) i)) (s := λ i, QR (cumf (vols y) i)) (e := (INR (2 * n + 3) * unit_err)%R) as [Dx Hx].
  { intros k Hk. split; apply HP, Hk. }
  { intros k Hk. split; apply HQ, Hk. }
  { done. }
  { apply (Rle_trans _ (bpow radix2 31 * unit_err)).
    - apply Rmult_le_compat_r; [lra|]. rewrite INR_IZR_INZ. change (bpow radix2 31) with (IZR (2 ^ 31)). apply IZR_le. lia.
    - unfold unit_err. rewrite <-bpow_plus. apply (Rle_trans _ (bpow radix2 (-7))); [by apply bpow_le|]. change (bpow radix2 (-7)) with (/ 128)%R. lra. }
  { intros k Hk. apply QR_le. apply (F_mono y Hok); rewrite ?Hly; lia. }
  { by rewrite cumf_0, QR_0. }
  { rewrite <-Hly, (F_end y Hok). apply QR_1. }
  { intros k Hk. destruct (HP k Hk) as (_ & AP & _), (HQ k Hk) as (_ & AQ & _). split.
    - apply (app_mono _ (2 * n + 3) _ _ (-453) 0) in AP; [|lia..]. exact (app_abs _ _ _ _ AP ltac:(lia)).
    - exact (app_abs _ _ _ _ AQ ltac:(lia)). }
  rewrite trap_area in Hx. set (x := nmul n2 (nsub (steps P Q n) nhalf)) in *. clearbody x.
  destruct (q_val x (proj2 Dx)) as [Fx Ex]. rewrite (rational_Fin _ Fx), RV_Fin in Ex.
  (* the exact coefficient *)
  set (z := true_cells itof ptof pv). set (z' := rounded_cells itof ptof pv).
  pose proof (lorenz_area y ltac:(lia)) as L1. pose proof (lorenz_spread y Hok ltac:(lia)) as L2. rewrite L1 in L2.
  assert (area y n - 1 = spread z' / (2 * volume z' * flux z'))%Qc as L3.
  { unfold z'. rewrite <-(spread_perm _ _ HR), <-(volume_perm _ _ HR), <-(flux_perm _ _ HR). rewrite <-Hly. exact (ok_fin_inj _ _ L2). }
  destruct (coefficient_shift l0 (λ x : X, (rational x.1.1 + rational x.1.2)%Qc) (λ x : X, rational (tm x)) (λ x : X, rational x.2) (pow2 (-52))) as [S1 S2].
  { exact cell_volume. }
  { intros w Hw. exact (cell_rates_near w Hw). }
  { rewrite times_volume. pose proof (vols_pos y Hok) as Hv. rewrite (volume_perm _ _ HR : qsum (vols y) = _) in Hv.
    unfold rounded_cells in Hv. by rewrite times_volume in Hv. }
  { destruct (flux_shift l0 (λ x : X, (rational x.1.1 + rational x.1.2)%Qc) (λ x : X, rational (tm x)) (λ x : X, rational x.2) (pow2 (-52))
      cell_volume cell_rates_near) as [F1 _].
    pose proof (rates_pos y Hok) as Hv. rewrite (flux_perm _ _ HR : qsum (rates y) = _) in Hv. unfold rounded_cells in Hv.
    apply QR_lt in Hv. apply QR_le in F1. rewrite QR_add, QR_mul, QR_pow2 in F1. apply QR_lt. rewrite QR_0 in *. fold eps in F1. pose proof eps_pos as He.
    match goal with |- (0 < ?a)%R => set (r := a) in * end. clearbody r. assert (0 < r * (1 + eps))%R by lra. clear -He H. nra. }
  { pose proof (rates_pos y Hok) as Hv. by rewrite (flux_perm _ _ HR : qsum (rates y) = _) in Hv. }
  { fold (rounded_cells itof ptof pv). fold z'. rewrite <-L3. pose proof (area_lower y Hok n) as A1. pose proof (area_upper y Hok n) as A2.
    rewrite <-Hly in *. destruct (A2 ltac:(lia)) as [A3 _]. specialize (A1 ltac:(lia)). rewrite (Phi_end y Hok) in *. rewrite (F_end y Hok) in *.
    set (a := area y (length y)) in *. clearbody a. clear -A1 A3. split; qclra. }
  fold (true_cells itof ptof pv) (rounded_cells itof ptof pv) in S1, S2. fold z z' in S1, S2. rewrite <-L3 in S1, S2.
  exists (rational x). split; [by apply rational_Fin|].
  set (L := (spread z / (2 * volume z * flux z))%Qc) in *. clearbody L.
  assert (Rabs (QR (rational x) - QR L) <= QR (errors (22 * (n + 1))))%R as HF.
  { rewrite <-INR_err, Ex. apply QR_le in S1, S2. unfold Qcminus in S1, S2. rewrite !QR_add, !QR_mul, QR_pow2, ?QR_opp, QR_1 in S1, S2.
    assert (QR 2 = 2)%R as E2 by (change (2 * / 1 = 2)%R; lra). rewrite E2 in S1, S2.
    assert (unit_err = 2 * bpow radix2 (-52))%R as Eu by (unfold unit_err; change (-51) with (-52 + 1); rewrite bpow_plus; change (bpow radix2 1) with 2%R; ring).
    rewrite <-Eu in S1, S2. apply Rabs_le_inv in Hx. rewrite plus_INR, mult_INR in Hx. rewrite mult_INR, plus_INR.
    assert (INR 2 = 2 ∧ INR 3 = 3 ∧ INR 22 = 22 ∧ INR 1 = 1)%R as (I2 & I3 & I22 & I1) by (rewrite !INR_IZR_INZ; done).
    rewrite I2, I3 in Hx. rewrite I22, I1. apply Rabs_le. clear -Hx S1 S2. lra. }
  apply Qcabs.Qcabs_Qcle_condition. apply Rabs_le_inv in HF. split; apply QR_le; unfold Qcminus; rewrite QR_add, !QR_opp; lra.
Qed.
End input.
