(** Lorenz coefficient and sweep efficiency of an exact F-Phi curve. *)
From Coq Require Import QArith Qcanon Lqa.
From Verif.Model Require Import Num DerivedQuantities.
From Verif.Spec Require Import GraphSpec DerivedSpec.
From Verif.Proofs Require Import Util ExactNum QcLra OrdLaws DerivedOrd DerivedExact.
Open Scope Z_scope.

Lemma Qc_cancel_l (r x y : Qc) : r ≠ 0%Qc → (r * x = r * y)%Qc → x = y.
Proof.
  intros Hr E. rewrite <-(Qcmult_1_l x), <-(Qcmult_1_l y), <-(Qcmult_inv_l r Hr), <-!Qcmult_assoc. by rewrite E.
Qed.

Section curve.
Context (l : list (Qc * Qc)) (H : cells_ok l).
Notation n := (length l).
Notation Phi := (cumf (vols l)).
Notation F := (cumf (rates l)).

Lemma diag_area : (∀ k, (k ≤ n)%nat → F k = Phi k) → ∀ k, (k ≤ n)%nat → area l k = (Phi k * Phi k)%Qc.
Proof.
  intros Hd. induction k as [|k IH]; intros Hk; [rewrite cumf_0; cbn; qclra|].
  cbn [area]. rewrite IH, !Hd by lia. clear; qclra.
Qed.

(** The excess over the diagonal never decreases. *)
Lemma area_excess i j : (i ≤ j)%nat → (j ≤ n)%nat → (area l i - Phi i * Phi i <= area l j - Phi j * Phi j)%Qc.
Proof.
  induction 1 as [|j Hij IH]; intros Hj; [apply Qcle_refl|]. specialize (IH ltac:(lia)). cbn [area].
  pose proof (Phi_mono l H j (S j) ltac:(lia) Hj) as Hm.
  pose proof (F_above l H j ltac:(lia)) as H1. pose proof (F_above l H (S j) ltac:(lia)) as H2.
  set (a := area l j) in *. set (b := (area l i - Phi i * Phi i)%Qc) in *.
  set (x := Phi j) in *. set (x' := Phi (S j)) in *. set (y := F j) in *. set (y' := F (S j)) in *.
  clearbody a b x x' y y'. clear -IH Hm H1 H2. qcnra.
Qed.

Lemma area_one_same : area l n = 1%Qc → same_time l.
Proof.
  intros Ha. assert (∀ i p, l !! i = Some p → (0 < p.2)%Qc → (p.1 * / qsum (vols l) = / qsum (rates l))%Qc) as Hc.
  { intros i p Hi Hp. pose proof (lookup_lt_Some _ _ _ Hi) as Li.
    pose proof (area_excess (S i) n ltac:(lia) ltac:(lia)) as E1. rewrite Ha, (Phi_end l H) in E1.
    pose proof (area_lower l H i ltac:(lia)) as E2.
    pose proof (F_above l H i ltac:(lia)) as H1. pose proof (F_above l H (S i) ltac:(lia)) as H2.
    cbn [area] in E1. pose proof (Phi_step l i p Hi) as S1. pose proof (F_step l i p Hi) as S2.
    pose proof (Pi_pos l H) as HP. destruct (cell_ok l H i p Hi) as [Ht _]. pose proof (rate_vol p Ht) as Er.
    set (a := area l i) in *.
    set (x := Phi i) in *. set (x' := Phi (S i)) in *. set (y := F i) in *. set (y' := F (S i)) in *.
    set (P := (/ qsum (vols l))%Qc) in *. set (R := (/ qsum (rates l))%Qc) in *. set (r := (p.2 / p.1)%Qc) in *.
    clearbody a x x' y y' P R r. clear Ha.
    assert (0 < x' - x)%Qc as Hd by (clear -S1 HP Hp; qcnra).
    assert (((y - x) + (y' - x')) * (x' - x) <= 0)%Qc as Hz by (clear -E1 E2; qclra).
    assert (y = x ∧ y' = x') as [Ey Ey'].
    { assert ((y - x) + (y' - x') <= 0)%Qc as Hz'. { clear -Hz Hd. destruct (Qclt_le_dec 0 ((y - x) + (y' - x')))%Qc; [exfalso; qcnra|done]. }
      clear -Hz' H1 H2. split; qclra. }
    assert (p.2 * P = r * R)%Qc as E by (clear -S1 S2 Ey Ey'; qclra).
    rewrite <-Er in E. clear S1 S2. assert (r ≠ 0)%Qc as Hr. { intros Ez. rewrite Ez in Er. clear -Er Hp. qclra. }
    apply (Qc_cancel_l _ _ _ Hr). rewrite <-E. clear; qclra. }
  intros i j p q Hi Hj Hp Hq. pose proof (Hc i p Hi Hp) as E1. rewrite <-(Hc j q Hj Hq) in E1.
  pose proof (Pi_pos l H) as HP. set (P := (/ qsum (vols l))%Qc) in *. clearbody P.
  rewrite !(Qcmult_comm _ P) in E1. apply Qc_cancel_l in E1; [done|]. intros Ez. rewrite Ez in HP. by apply Qclt_not_eq in HP.
Qed.

(** ** lorenzCoefficient on a list of rationals *)
Lemma zget_Fin (x : list Qc) i a : 0 ≤ i → x !! Z.to_nat i = Some a → zget (fins x) i = Ok (Fin a).
Proof. intros Hi Hx. apply zget_of; [done|]. unfold fins. by rewrite list_lookup_fmap, Hx. Qed.

Lemma exact_n2 : @n2 exact = Fin 2%Qc.
Proof. unfold n2. cbn. f_equal. Qed.
Lemma exact_half : @nhalf exact = Fin (/ 2)%Qc.
Proof. unfold nhalf. rewrite exact_n1, exact_n2. cbn. f_equal. Qed.

Lemma lorenz_area : Z.of_nat n + 1 < 2 ^ 31 →
  @lorenz_coefficient exact (fins (qcum (vols l)), fins (qcum (rates l))) = Ok (Fin (area l n - 1)%Qc).
Proof.
  intros Hn. unfold lorenz_coefficient.
  assert (zlen (fins (qcum (rates l))) = Z.of_nat n + 1) as E1 by (unfold zlen, fins; rewrite fmap_length, qcum_length, rates_length; lia).
  assert (zlen (fins (qcum (vols l))) = Z.of_nat n + 1) as E2 by (unfold zlen, fins; rewrite fmap_length, qcum_length, vols_length; lia).
  rewrite E1, E2, Z.eqb_refl. cbn [negb].
  rewrite to_size_small by lia. rewrite to_int_small by lia. replace (Z.of_nat n + 1 - 1) with (Z.of_nat n) by lia.
  destruct (forZ_ind n (fun (acc : @num exact) ii =>
      s1 ← zget (fins (qcum (vols l))) (ii + 1);
      s0 ← zget (fins (qcum (vols l))) ii;
      f0 ← zget (fins (qcum (rates l))) ii;
      f1 ← zget (fins (qcum (rates l))) (ii + 1);
      let len := nsub s1 s0 in
      Ok (nadd acc (ndiv (nmul (nadd f0 f1) len) n2))) (λ i acc, acc = Fin (area l i * / 2)%Qc) (@n0 exact)) as (acc & E & Hacc).
  - rewrite exact_n0. cbn. f_equal. by rewrite Qcmult_0_l.
  - intros i acc Hi ->. eexists.
    rewrite (zget_Fin (qcum (vols l)) (Z.of_nat i + 1) (Phi (S i))), (zget_Fin (qcum (vols l)) (Z.of_nat i) (Phi i)), (zget_Fin (qcum (rates l)) (Z.of_nat i) (F i)), (zget_Fin (qcum (rates l)) (Z.of_nat i + 1) (F (S i)));
      try lia; try (rewrite ?Nat2Z.id; replace (Z.to_nat (Z.of_nat i + 1)) with (S i) by lia); try (apply qcum_cumf; rewrite ?vols_length, ?rates_length; lia).
    cbn [mbind res_bind]. cbv zeta. split; [reflexivity|]. rewrite exact_n2. cbn. f_equal.
    replace (i + 1)%nat with (S i) by lia. cbn [area]. clear; unfold Qcdiv, Qcminus. ring.
  - cbv zeta in E. etransitivity; [apply (f_equal (λ x, x ≫= λ integral, Ok (@nmul exact n2 (@nsub exact integral nhalf))) E)|].
    cbn [mbind res_bind]. rewrite Hacc, exact_n2, exact_half. cbn. f_equal. f_equal. clear. generalize (area l n). intros a. assert (2 * / 2 = 1)%Qc as E by by apply Qcmult_inv_r. replace (2 * (a * / 2 + - / 2))%Qc with (a * (2 * / 2) - (2 * / 2))%Qc by ring. rewrite E. ring.
Qed.

Theorem lorenz_range : Z.of_nat n + 1 < 2 ^ 31 →
  ∃ x, @lorenz_coefficient exact (fins (qcum (vols l)), fins (qcum (rates l))) = Ok (Fin x) ∧
    (0 <= x)%Qc ∧ (x < 1)%Qc ∧ (x = 0%Qc ↔ same_time l).
Proof.
  intros Hn. exists (area l n - 1)%Qc. rewrite lorenz_area by done. split; [done|].
  pose proof (area_lower l H n ltac:(lia)) as H1. pose proof (area_upper l H n ltac:(lia)) as (_ & H2 & _).
  pose proof (diag_area) as H3.
  rewrite (Phi_end l H) in H1, H2. rewrite (F_end l H) in H2.
  split; [clear -H1; qclra|]. split.
  - assert (0 < 1)%Qc as H01 by done. specialize (H2 H01). clear -H2. qclra.
  - split.
    + intros E. apply area_one_same. clear -E. qclra.
    + intros Hs. rewrite H3; [|by apply same_time_diag|done]. rewrite (Phi_end l H). clear; qclra.
Qed.

(** ** sweepEfficiency *)
Definition sweep_ok (k : nat) (st : list (@num exact) * list (@num exact)) : Prop :=
  ∃ tD Ev t e, st = (fins tD, fins Ev) ∧ length tD = length Ev ∧
    tD !! O = Some 0%Qc ∧ Ev !! O = Some 0%Qc ∧ non_decreasing tD ∧ non_decreasing Ev ∧
    last tD = Some t ∧ last Ev = Some e ∧ e = (Phi k + (1 - F k) * t)%Qc ∧
    (∀ m p, (k ≤ m)%nat → l !! m = Some p → (t * qsum (vols l) <= p.1 * qsum (rates l))%Qc).

Lemma non_decreasing_snoc x a b : non_decreasing x → last x = Some a → (a <= b)%Qc → non_decreasing (x ++ [b]).
Proof.
  intros Hx Hl Hab i j u w Hij Hu Hw.
  apply lookup_snoc_Some in Hu as [[Hi Hu]|[Hi <-]]; apply lookup_snoc_Some in Hw as [[Hj Hw]|[Hj <-]]; try lia.
  - exact (Hx i j u w Hij Hu Hw).
  - eapply Qcle_trans; [|exact Hab]. rewrite last_lookup in Hl. eapply (Hx i); [|done|exact Hl]. lia.
  - apply Qcle_refl.
Qed.

Lemma sweep_run : Z.of_nat n + 1 < 2 ^ 31 →
  ∃ st, @sweep_efficiency exact (fins (qcum (vols l)), fins (qcum (rates l))) = Ok st ∧ sweep_ok n st.
Proof.
  intros Hn. unfold sweep_efficiency.
  assert (zlen (fins (qcum (rates l))) = Z.of_nat n + 1) as E1 by (unfold zlen, fins; rewrite fmap_length, qcum_length, rates_length; lia).
  assert (zlen (fins (qcum (vols l))) = Z.of_nat n + 1) as E2 by (unfold zlen, fins; rewrite fmap_length, qcum_length, vols_length; lia).
  rewrite E1, E2, Z.eqb_refl. cbn [negb]. rewrite to_int_small by lia.
  rewrite (proj2 (Z.ltb_ge (Z.of_nat n + 1) 0)) by lia. rewrite forZ_shift. replace (Z.of_nat n + 1 - 1) with (Z.of_nat n) by lia.
  apply forZ_ind.
  - exists [0%Qc], [0%Qc], 0%Qc, 0%Qc. rewrite exact_n0. rewrite !cumf_0.
    assert (non_decreasing [0%Qc]) as Hnd. { intros [|i] [|j] a b _ Ha Hb; try done. cbn in Ha, Hb. injection Ha as <-. injection Hb as <-. apply Qcle_refl. }
    repeat split; try done; try (by clear; qclra).
    intros m p _ Hm. destruct (cell_ok l H m p Hm) as [Ht _]. pose proof (rates_pos l H) as Hr. clear -Ht Hr.
    set (R := qsum (rates l)) in *. clearbody R. qcnra.
  - intros i st Hi (tD & Ev & t & e & -> & Hlen & HtD0 & HEv0 & HtD & HEv & Lt & Le & He & Hnext).
    unfold sweep_step.
    rewrite (zget_Fin (qcum (rates l)) (1 + Z.of_nat i) (F (S i))), (zget_Fin (qcum (rates l)) (1 + Z.of_nat i - 1) (F i)), (zget_Fin (qcum (vols l)) (1 + Z.of_nat i) (Phi (S i))), (zget_Fin (qcum (vols l)) (1 + Z.of_nat i - 1) (Phi i));
      try lia; try (rewrite ?Nat2Z.id; replace (Z.to_nat (1 + Z.of_nat i - 1)) with i by lia; replace (Z.to_nat (1 + Z.of_nat i)) with (S i) by lia);
      try (apply qcum_cumf; rewrite ?vols_length, ?rates_length; lia).
    cbn [mbind res_bind]. cbv zeta. rewrite exact_n0, exact_n1. cbn [nsub neqb exact xsub xopp xadd xeqb].
    replace (i + 1)%nat with (S i) by lia.
    destruct (lookup_lt_is_Some_2 l i Hi) as [p Hp]. pose proof (Phi_step l i p Hp) as S1. pose proof (F_step l i p Hp) as S2.
    pose proof (Pi_pos l H) as HP. pose proof (Ri_pos l H) as HR. destruct (cell_ok l H i p Hp) as [Ht Hv]. pose proof (rate_vol p Ht) as Er.
    pose proof (vols_pos l H) as Hvp. pose proof (rates_pos l H) as Hrp.
    assert (qsum (vols l) ≠ 0)%Qc as NV by (intros Ez; rewrite Ez in Hvp; by apply Qclt_not_eq in Hvp).
    assert (qsum (rates l) ≠ 0)%Qc as NR by (intros Ez; rewrite Ez in Hrp; by apply Qclt_not_eq in Hrp).
    assert (p.1 ≠ 0)%Qc as NT by (intros Ez; rewrite Ez in Ht; by apply Qclt_not_eq in Ht).
    destruct (Qc_eqb (F (S i) + - F i)%Qc (Q2Qc 0)) eqn:Ez; cbn [negb].
    + eexists. split; [reflexivity|]. exists tD, Ev, t, e. repeat split; try done.
      * apply Qc_eqb_true in Ez. rewrite He.
        assert (p.2 = 0%Qc) as E0.
        { rewrite S2 in Ez. clear -Ez HR Er. set (R := (/ qsum (rates l))%Qc) in *. set (r := (p.2 / p.1)%Qc) in *. clearbody R r.
          assert (r * R = 0)%Qc as E by qclra. apply Qcmult_integral in E as [E|E]; [rewrite E in Er; clear -Er; qclra|].
          rewrite E in HR. by apply Qclt_not_eq in HR. }
        rewrite S1, S2, E0. unfold Qcdiv. rewrite !Qcmult_0_l. clear; qclra.
      * intros m q Hm Hq. apply (Hnext m q); [lia|done].
    + apply Qc_eqb_false in Ez.
      assert (p.2 ≠ 0)%Qc as NZ. { intros E0. apply Ez. rewrite S2, E0. unfold Qcdiv. rewrite !Qcmult_0_l. clear; qclra. }
      set (t' := ((Phi (S i) + - Phi i) / (F (S i) + - F i))%Qc).
      assert (t' = p.1 * qsum (rates l) / qsum (vols l))%Qc as Et'.
      { unfold t'. rewrite S1, S2. field. repeat split; try done.
        intros E0. apply Ez. rewrite S2. clear -E0 NT NR NZ. exfalso.
        apply NZ. rewrite <-E0. ring. }
      eexists. split.
      { cbn [ndiv exact xdiv]. rewrite (proj2 (Qc_eqb_false _ _) Ez). fold t'. cbn [nmul nadd exact xmul xadd]. reflexivity. }
      assert (t <= t')%Qc as Htt.
      { specialize (Hnext i p ltac:(lia) Hp). rewrite Et'. clear -Hnext Hvp NV.
        set (V := qsum (vols l)) in *. set (R := qsum (rates l)) in *. clearbody V R.
        apply (Qcmult_le_compat_r _ _ (/ V)%Qc) in Hnext; [|by apply Qclt_le_weak, Qcinv_pos].
        rewrite <-Qcmult_assoc, Qcmult_inv_r, Qcmult_1_r in Hnext by done. exact Hnext. }
      assert (Phi (S i) = Phi i + t' * (F (S i) - F i))%Qc as Eseg.
      { unfold t'. unfold Qcdiv. rewrite <-Qcmult_assoc, (Qcmult_comm (/ _)), Qcmult_assoc.
        change (F (S i) - F i)%Qc with (F (S i) + - F i)%Qc. rewrite <-Qcmult_assoc, Qcmult_inv_r by done. clear; qclra. }
      set (e' := (Phi (S i) + (1 + - F (S i)) * t')%Qc).
      assert (e <= e')%Qc as Hee.
      { unfold e'. rewrite He, Eseg.
        assert (F i <= 1)%Qc as HF. { rewrite <-(F_end l H). apply (F_mono l H); lia. }
        clear -HF Htt. set (y' := F (S i)). set (y := F i) in *. set (x := Phi i). clearbody y' y x t'. qcnra. }
      exists (tD ++ [t']), (Ev ++ [e']), t', e'. unfold fins. rewrite !fmap_app. repeat split; try done.
      * rewrite !app_length, Hlen. done.
      * by rewrite lookup_app, HtD0.
      * by rewrite lookup_app, HEv0.
      * by eapply non_decreasing_snoc.
      * by eapply non_decreasing_snoc.
      * by rewrite last_snoc.
      * by rewrite last_snoc.
      * intros m q Hm Hq. rewrite Et'. unfold Qcdiv.
        rewrite <-Qcmult_assoc, Qcmult_inv_l, Qcmult_1_r by done.
        apply Qcmult_le_compat_r; [|by apply Qclt_le_weak]. eapply (co_sort l H i m); eauto. lia.
Qed.

Theorem sweep_spec : Z.of_nat n + 1 < 2 ^ 31 →
  ∃ tD Ev, @sweep_efficiency exact (fins (qcum (vols l)), fins (qcum (rates l))) = Ok (fins tD, fins Ev) ∧
    length tD = length Ev ∧ tD !! O = Some 0%Qc ∧ Ev !! O = Some 0%Qc ∧
    non_decreasing tD ∧ non_decreasing Ev ∧ last Ev = Some 1%Qc ∧
    Forall (λ x, (0 <= x)%Qc ∧ (x <= 1)%Qc) Ev.
Proof.
  intros Hn. destruct (sweep_run Hn) as (st & E & tD & Ev & t & e & -> & H1 & H2 & H3 & H4 & H5 & H6 & H7 & H8 & _).
  assert (e = 1%Qc) as ->. { rewrite H8, (Phi_end l H), (F_end l H). clear; qclra. }
  exists tD, Ev. repeat split; try done. apply Forall_lookup. intros i x Hi. split.
  - by apply (H5 0%nat i); [lia|..].
  - rewrite last_lookup in H7. apply (H5 i (pred (length Ev)) x 1%Qc); [|done|exact H7]. apply lookup_lt_Some in Hi. lia.
Qed.
End curve.
