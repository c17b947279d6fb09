(** The Lorenz coefficient as a mean difference; sweep efficiency as a filled
    volume. *)
From Coq Require Import QArith Qcanon Lqa.
From Coq.QArith Require Qcabs.
From Verif.Model Require Import Num DerivedQuantities.
From Verif.Spec Require Import GraphSpec DerivedSpec GiniSpec.
From Verif.Proofs Require Import Util ExactNum QcLra OrdLaws DerivedOrd DerivedExact DerivedLorenz DerivedLink.
Open Scope Z_scope.

Lemma qsum_cons x l : qsum (x :: l) = (x + qsum l)%Qc.
Proof. done. Qed.
Lemma qsum_fmap_add {A} (f g : A → Qc) l : qsum ((λ x, (f x + g x)%Qc) <$> l) = (qsum (f <$> l) + qsum (g <$> l))%Qc.
Proof. induction l as [|x l IH]; [cbn; qclra|]. rewrite !fmap_cons, !qsum_cons, IH. ring. Qed.
Lemma qsum_fmap_ext {A} (f g : A → Qc) l : (∀ x, x ∈ l → f x = g x) → qsum (f <$> l) = qsum (g <$> l).
Proof.
  induction l as [|x l IH]; intros H; [done|]. rewrite !fmap_cons, !qsum_cons. rewrite H by left. f_equal. apply IH. intros y Hy. apply H. by right.
Qed.
Lemma qsum_fmap_mul {A} (f : A → Qc) a l : qsum ((λ x, (a * f x)%Qc) <$> l) = (a * qsum (f <$> l))%Qc.
Proof. induction l as [|x l IH]; [cbn; qclra|]. rewrite !fmap_cons, !qsum_cons, IH. ring. Qed.
Lemma qsum_fmap_zero {A} (f : A → Qc) l : (∀ x, x ∈ l → f x = 0%Qc) → qsum (f <$> l) = 0%Qc.
Proof.
  intros H. rewrite (qsum_fmap_ext f (λ _, 0%Qc)) by done. clear H. induction l as [|x l IH]; [done|].
  rewrite fmap_cons, qsum_cons, IH. ring.
Qed.

(** ** Pairs *)
Definition wd (c d : Qc * Qc) : Qc := (c.2 * d.2 * Qcabs.Qcabs (/ c.1 - / d.1))%Qc.
Lemma wd_sym c d : wd c d = wd d c.
Proof.
  unfold wd. replace (/ c.1 - / d.1)%Qc with (- (/ d.1 - / c.1))%Qc by ring. rewrite Qcabs.Qcabs_opp. ring.
Qed.
Lemma wd_self c : wd c c = 0%Qc.
Proof. unfold wd. rewrite Qcabs.Qcabs_pos; [ring|]. qclra. Qed.
Lemma wd_le c d : (0 < c.1)%Qc → (c.1 <= d.1)%Qc → wd c d = (c.2 / c.1 * d.2 - c.2 * (d.2 / d.1))%Qc.
Proof.
  intros Hc Hcd. unfold wd. rewrite Qcabs.Qcabs_pos.
  - unfold Qcdiv. ring.
  - assert (0 < d.1)%Qc as Hd by qclra. pose proof (Qcinv_pos _ Hc) as H1. pose proof (Qcinv_pos _ Hd) as H2.
    assert (c.1 * / c.1 = 1)%Qc as E1 by (apply Qcmult_inv_r; intros E; rewrite E in Hc; by apply Qclt_not_eq in Hc).
    assert (d.1 * / d.1 = 1)%Qc as E2 by (apply Qcmult_inv_r; intros E; rewrite E in Hd; by apply Qclt_not_eq in Hd).
    set (a := c.1) in *. set (b := d.1) in *. set (a' := (/ a)%Qc) in *. set (b' := (/ b)%Qc) in *. clearbody a b a' b'.
    assert (a' - b' = (b - a) * (a' * b'))%Qc as ->.
    { transitivity (a' * (b * b') - b' * (a * a'))%Qc; [rewrite E1, E2; ring|ring]. }
    assert (0 <= b - a)%Qc as K1 by (clear -Hcd; qclra). assert (0 <= a' * b')%Qc as K2 by (clear -H1 H2; qcnra).
    clear -K1 K2. set (u := (b - a)%Qc) in *. set (w := (a' * b')%Qc) in *. clearbody u w. qcnra.
Qed.
Lemma spread_snoc l c : spread (l ++ [c]) = (spread l + 2 * qsum ((λ d, wd d c) <$> l))%Qc.
Proof.
  unfold spread. fold wd. change (λ c0 : Qc * Qc, qsum ((λ d : Qc * Qc, (c0.2 * d.2 * Qcabs.Qcabs (/ c0.1 - / d.1))%Qc) <$> l ++ [c]))
    with (λ c0 : Qc * Qc, qsum ((λ d, wd c0 d) <$> l ++ [c])).
  rewrite fmap_app, qsum_app. cbn [fmap list_fmap]. rewrite (qsum_cons _ []). change (qsum []) with 0%Qc.
  rewrite (qsum_fmap_ext (λ c0, qsum ((λ d, wd c0 d) <$> l ++ [c])) (λ c0, (qsum ((λ d, wd c0 d) <$> l) + wd c0 c)%Qc)).
  2:{ intros x _. rewrite fmap_app, qsum_app. cbn [fmap list_fmap]. rewrite (qsum_cons _ []). change (qsum []) with 0%Qc. ring. }
  rewrite qsum_fmap_add. rewrite fmap_app, qsum_app. cbn [fmap list_fmap]. rewrite (qsum_cons _ []). change (qsum []) with 0%Qc.
  rewrite wd_self. rewrite (qsum_fmap_ext (λ d, wd c d) (λ d, wd d c)) by (intros; apply wd_sym). 
  change (λ c0 : Qc * Qc, qsum ((λ d : Qc * Qc, (c0.2 * d.2 * Qcabs.Qcabs (/ c0.1 - / d.1))%Qc) <$> l)) with (λ c0 : Qc * Qc, qsum ((λ d, wd c0 d) <$> l)).
  ring.
Qed.
Lemma spread_last l c : Forall (λ d : Qc * Qc, (0 < d.1)%Qc ∧ (d.1 <= c.1)%Qc) l →
  qsum ((λ d, wd d c) <$> l) = (qsum (rates l) * c.2 - qsum (vols l) * (c.2 / c.1))%Qc.
Proof.
  induction 1 as [|d l [Hd Hdc] _ IH]; [cbn; qclra|]. rewrite fmap_cons, qsum_cons, IH, wd_le by done.
  unfold rates, vols. rewrite !fmap_cons, !qsum_cons. ring.
Qed.

Section curve.
Context (l : list (Qc * Qc)) (H : cells_ok l).
Notation n := (length l).
Notation Phi := (cumf (vols l)).
Notation F := (cumf (rates l)).
Notation V := (qsum (vols l)).
Notation R := (qsum (rates l)).

Lemma V_ne : V ≠ 0%Qc.
Proof. pose proof (vols_pos l H) as Hv. intros E. rewrite E in Hv. by apply Qclt_not_eq in Hv. Qed.
Lemma R_ne : R ≠ 0%Qc.
Proof. pose proof (rates_pos l H) as Hv. intros E. rewrite E in Hv. by apply Qclt_not_eq in Hv. Qed.

Lemma area_spread k : (k ≤ n)%nat →
  (area l k * (V * R) = qsum (vols (take k l)) * qsum (rates (take k l)) + spread (take k l) / 2)%Qc.
Proof.
  induction k as [|k IH]; intros Hk.
  { rewrite take_0. cbn. unfold Qcdiv. ring. }
  specialize (IH ltac:(lia)). destruct (lookup_lt_is_Some_2 l k ltac:(lia)) as [p Hp].
  rewrite (take_S_r _ _ _ Hp). cbn [area].
  assert (∀ m, cumf (vols l) m = (qsum (vols (take m l)) / V)%Qc) as EP.
  { intros m. unfold cumf. f_equal. unfold vols. by rewrite fmap_take. }
  assert (∀ m, cumf (rates l) m = (qsum (rates (take m l)) / R)%Qc) as ER.
  { intros m. unfold cumf. f_equal. unfold rates. by rewrite fmap_take. }
  rewrite !EP, !ER, (take_S_r _ _ _ Hp). rewrite spread_snoc, spread_last.
  2:{ apply Forall_forall. intros d (j & Hj)%elem_of_list_lookup. pose proof (lookup_lt_Some _ _ _ Hj) as Lj. rewrite take_length in Lj.
      rewrite lookup_take in Hj by lia. split; [by apply (cell_ok l H j)|]. eapply (co_sort l H j k); [lia|done|done]. }
  pose proof V_ne as NV. pose proof R_ne as NR.
  unfold rates in *. unfold vols in *. rewrite !fmap_app, !qsum_app. cbn [fmap list_fmap]. rewrite !(qsum_cons _ []). change (qsum []) with 0%Qc.
  set (a := area l k) in *. set (v := qsum (take k l).*2) in *. set (s := spread (take k l)) in *.
  set (r := qsum ((λ p, (p.2 / p.1)%Qc) <$> take k l)) in *. set (x := (p.2 / p.1)%Qc). set (y := p.2).
  transitivity (a * (qsum l.*2 * qsum ((λ p, (p.2 / p.1)%Qc) <$> l)) + (r + (r + (x + 0))) * (y + 0))%Qc.
  { field. done. }
  rewrite IH. assert (2 * / 2 = 1)%Qc as E2 by by apply Qcmult_inv_r. unfold Qcdiv.
  transitivity (v * r + s * / 2 + (v * x + r * y + x * y) + (2 * / 2) * (r * y - v * x))%Qc; [rewrite E2; ring|ring].
Qed.

Theorem lorenz_spread : Z.of_nat n + 1 < 2 ^ 31 →
  @lorenz_coefficient exact (fins (qcum (vols l)), fins (qcum (rates l))) = Ok (Fin (spread l / (2 * V * R))%Qc).
Proof.
  intros Hn. rewrite (lorenz_area l) by done. do 2 f_equal. pose proof (area_spread n ltac:(lia)) as E. rewrite take_ge in E by done.
  pose proof V_ne as NV. pose proof R_ne as NR.
  assert (area l n = (area l n * (V * R)) / (V * R))%Qc as -> by (field; done). rewrite E.
  assert (2 ≠ 0)%Qc as N2 by done. field. done.
Qed.

(** ** Sweep efficiency *)
Lemma filled_app l1 l2 t : filled (l1 ++ l2) t = (filled l1 t + filled l2 t)%Qc.
Proof. unfold filled. by rewrite fmap_app, qsum_app. Qed.
Lemma filled_fast m t : Forall (λ c : Qc * Qc, (c.1 <= t)%Qc) m → filled m t = qsum (vols m).
Proof.
  unfold filled, vols. intros Hm. apply qsum_fmap_ext. intros c Hc. rewrite decide_True; [done|]. by apply (proj1 (Forall_forall _ _) Hm).
Qed.
Lemma filled_slow m t : Forall (λ c : Qc * Qc, (0 < c.1)%Qc ∧ (t <= c.1)%Qc) m → filled m t = (t * qsum (rates m))%Qc.
Proof.
  unfold filled, rates. intros Hm. rewrite <-qsum_fmap_mul. apply qsum_fmap_ext. intros c Hc.
  apply (proj1 (Forall_forall _ _) Hm) in Hc as [H0 H1]. destruct (decide (c.1 <= t)%Qc) as [H2|H2]; [|unfold Qcdiv; ring].
  assert (t = c.1) as -> by (apply Qcle_antisym; done).
  transitivity (c.2 / c.1 * c.1)%Qc; [by rewrite rate_vol|ring].
Qed.
Lemma Ev_filled i p : l !! i = Some p → (Phi (S i) + (1 - F (S i)) * (p.1 * R / V) = filled l p.1 / V)%Qc.
Proof.
  intros Hp. pose proof V_ne as NV. pose proof R_ne as NR. pose proof (lookup_lt_Some _ _ _ Hp) as Li.
  assert (filled l p.1 = (qsum (vols (take (S i) l)) + p.1 * qsum (rates (drop (S i) l)))%Qc) as ->.
  { rewrite <-(take_drop (S i) l) at 1. rewrite filled_app, filled_fast, filled_slow; [done| |].
    - apply Forall_forall. intros c (j & Hj)%elem_of_list_lookup. rewrite lookup_drop in Hj. split; [by eapply (cell_ok l H)|].
      eapply (co_sort l H i (S i + j)); [lia|done|done].
    - apply Forall_forall. intros c (j & Hj)%elem_of_list_lookup. pose proof (lookup_lt_Some _ _ _ Hj) as Lj. rewrite take_length in Lj.
      rewrite lookup_take in Hj by lia. eapply (co_sort l H j i); [lia|done|done]. }
  assert (R = qsum (rates (take (S i) l)) + qsum (rates (drop (S i) l)))%Qc as ER.
  { rewrite <-qsum_app. unfold rates. by rewrite <-fmap_app, take_drop. }
  unfold cumf. replace (take (S i) (vols l)) with (vols (take (S i) l)) by (unfold vols; by rewrite fmap_take).
  replace (take (S i) (rates l)) with (rates (take (S i) l)) by (unfold rates; by rewrite fmap_take).
  assert (qsum (rates (drop (S i) l)) = R - qsum (rates (take (S i) l)))%Qc as -> by (rewrite ER; ring).
  field. done.
Qed.

Definition live (m : list (Qc * Qc)) : list (Qc * Qc) := filter (λ c : Qc * Qc, (0 < c.2)%Qc) m.
Definition tDs (m : list (Qc * Qc)) : list Qc := 0%Qc :: ((λ c : Qc * Qc, (c.1 * R / V)%Qc) <$> live m).
Definition Evs (m : list (Qc * Qc)) : list Qc := 0%Qc :: ((λ c : Qc * Qc, (filled l c.1 / V)%Qc) <$> live m).

Lemma sweep_filled : Z.of_nat n + 1 < 2 ^ 31 →
  @sweep_efficiency exact (fins (qcum (vols l)), fins (qcum (rates l))) = Ok (fins (tDs l), fins (Evs l)).
Proof.
  intros Hn. unfold sweep_efficiency.
  assert (zlen (fins (qcum (rates l))) = Z.of_nat n + 1) as E1 by (unfold zlen, fins; rewrite fmap_length, qcum_length, rates_length; lia).
  assert (zlen (fins (qcum (vols l))) = Z.of_nat n + 1) as E2 by (unfold zlen, fins; rewrite fmap_length, qcum_length, vols_length; lia).
  rewrite E1, E2, Z.eqb_refl. cbn [negb]. rewrite to_int_small by lia.
  rewrite (proj2 (Z.ltb_ge (Z.of_nat n + 1) 0)) by lia. rewrite forZ_shift. replace (Z.of_nat n + 1 - 1) with (Z.of_nat n) by lia.
  destruct (forZ_ind n (λ st ii, sweep_step (fins (qcum (vols l))) (fins (qcum (rates l))) st (1 + ii))
    (λ i st, st = (fins (tDs (take i l)), fins (Evs (take i l)))) ([@n0 exact], [@n0 exact])) as (st & E & Hst).
  - rewrite take_0, exact_n0. done.
  - intros i st Hi ->. unfold sweep_step.
    rewrite (zget_Fin (qcum (rates l)) (1 + Z.of_nat i) (F (S i))), (zget_Fin (qcum (rates l)) (1 + Z.of_nat i - 1) (F i)), (zget_Fin (qcum (vols l)) (1 + Z.of_nat i) (Phi (S i))), (zget_Fin (qcum (vols l)) (1 + Z.of_nat i - 1) (Phi i));
      try lia; try (rewrite ?Nat2Z.id; replace (Z.to_nat (1 + Z.of_nat i - 1)) with i by lia; replace (Z.to_nat (1 + Z.of_nat i)) with (S i) by lia);
      try (apply qcum_cumf; rewrite ?vols_length, ?rates_length; lia).
    cbn [mbind res_bind]. cbv zeta. rewrite exact_n0, exact_n1. cbn [nsub neqb exact xsub xopp xadd xeqb].
    replace (i + 1)%nat with (S i) by lia.
    destruct (lookup_lt_is_Some_2 l i Hi) as [p Hp]. pose proof (Phi_step l i p Hp) as S1. pose proof (F_step l i p Hp) as S2.
    destruct (cell_ok l H i p Hp) as [Ht Hv]. pose proof (Ri_pos l H) as HR. pose proof (rate_vol p Ht) as Er. pose proof V_ne as NV. pose proof R_ne as NR.
    assert (p.1 ≠ 0)%Qc as NT by (intros Ez; rewrite Ez in Ht; by apply Qclt_not_eq in Ht).
    rewrite (take_S_r _ _ _ Hp). unfold tDs, Evs, live. rewrite filter_app.
    destruct (Qc_eqb (F (S i) + - F i)%Qc (Q2Qc 0)) eqn:Ez; cbn [negb].
    + apply Qc_eqb_true in Ez.
      assert (p.2 = 0%Qc) as E0.
      { rewrite S2 in Ez. clear -Ez HR Er. set (Ri := (/ R)%Qc) in *. set (r := (p.2 / p.1)%Qc) in *. clearbody Ri r.
        assert (r * Ri = 0)%Qc as E by qclra. apply Qcmult_integral in E as [E|E]; [rewrite E in Er; clear -Er; qclra|].
        rewrite E in HR. by apply Qclt_not_eq in HR. }
      eexists. split; [reflexivity|]. rewrite (filter_cons_False _ p []) by (rewrite E0; done). rewrite filter_nil, app_nil_r. done.
    + apply Qc_eqb_false in Ez.
      assert (p.2 ≠ 0)%Qc as NZ. { intros E0. apply Ez. rewrite S2, E0. unfold Qcdiv. rewrite !Qcmult_0_l. clear; qclra. }
      assert (0 < p.2)%Qc as Hpos. { apply Qcle_lt_or_eq in Hv as [|E0]; [done|]. by destruct NZ. }
      assert ((Phi (S i) + - Phi i) / (F (S i) + - F i) = p.1 * R / V)%Qc as Et'.
      { rewrite S1, S2. field. repeat split; try done.
        intros E0. apply Ez. rewrite S2. clear -E0 NT NR NZ. exfalso.
        apply NZ. rewrite <-E0. ring. }
      eexists. split.
      { cbn [ndiv exact xdiv]. rewrite (proj2 (Qc_eqb_false _ _) Ez). rewrite Et'. cbn [nmul nadd exact xmul xadd].
        change (1 + - F (S i))%Qc with (1 - F (S i))%Qc. rewrite (Ev_filled i p Hp). reflexivity. }
      rewrite (filter_cons_True _ p []) by done. rewrite filter_nil. unfold fins. rewrite !fmap_cons, !fmap_app. done.
  - rewrite take_ge in Hst by done. by rewrite <-Hst.
Qed.
End curve.

(** ** In terms of the input *)
Lemma counted_sum itof ptof pv f l (h : Qc * Qc → Qc) : (∀ t, h (t, 0%Qc) = 0%Qc) → l ≡ₚ qcells itof ptof pv f →
  qsum (h <$> l) = qsum (h <$> counted itof ptof pv f).
Proof.
  intros Hh Hp. rewrite (qsum_perm _ _ (fmap_Permutation h _ _ Hp)). unfold qcells.
  rewrite (qsum_perm _ _ (fmap_Permutation h _ _ (qcells_split _ _))). rewrite fmap_app, qsum_app, fmap_replicate, Hh, qsum_zeros, Qcplus_0_r.
  unfold counted. by rewrite survivors_eq.
Qed.
Lemma counted_volume itof ptof pv f l : l ≡ₚ qcells itof ptof pv f → qsum (vols l) = volume (counted itof ptof pv f).
Proof. intros Hp. apply (counted_sum _ _ _ _ _ snd); [done|exact Hp]. Qed.
Lemma counted_flux itof ptof pv f l : l ≡ₚ qcells itof ptof pv f → qsum (rates l) = flux (counted itof ptof pv f).
Proof.
  intros Hp. apply (counted_sum _ _ _ _ _ (λ c : Qc * Qc, (c.2 / c.1)%Qc)); [|exact Hp]. intros t. cbn. unfold Qcdiv. ring.
Qed.
Lemma counted_filled itof ptof pv f l t : l ≡ₚ qcells itof ptof pv f → filled l t = filled (counted itof ptof pv f) t.
Proof.
  intros Hp. apply counted_sum; [|exact Hp]. intros s. cbn. destruct (decide _); [done|]. ring.
Qed.
Lemma counted_spread itof ptof pv f l : l ≡ₚ qcells itof ptof pv f → spread l = spread (counted itof ptof pv f).
Proof.
  intros Hp. unfold spread.
  rewrite (qsum_fmap_ext _ (λ c : Qc * Qc, qsum ((λ d : Qc * Qc, (c.2 * d.2 * Qcabs.Qcabs (/ c.1 - / d.1))%Qc) <$> counted itof ptof pv f))).
  - apply counted_sum; [|exact Hp]. intros t. apply qsum_fmap_zero. intros d _. cbn. ring.
  - intros c _. apply counted_sum; [|exact Hp]. intros t. cbn. ring.
Qed.
Lemma live_replicate k t : live (replicate k (t, 0%Qc)) = [].
Proof. induction k as [|k IH]; [done|]. cbn [replicate]. unfold live in *. by rewrite filter_cons_False. Qed.
Lemma StronglySorted_filter {A} (Rel : relation A) (P : A → Prop) `{!∀ x, Decision (P x)} (m : list A) :
  StronglySorted Rel m → StronglySorted Rel (filter P m).
Proof.
  induction 1 as [|x m Hm IH Hx]; [constructor|]. rewrite filter_cons. destruct (decide (P x)); [|done].
  constructor; [done|]. apply Forall_forall. intros y [_ Hy]%elem_of_list_filter. by apply (proj1 (Forall_forall _ _) Hx).
Qed.
Lemma StronglySorted_pairs {A} (Rel : relation A) (m : list A) :
  (∀ i j x y, (i < j)%nat → m !! i = Some x → m !! j = Some y → Rel x y) → StronglySorted Rel m.
Proof.
  induction m as [|x m IH]; intros Hm; constructor.
  - apply IH. intros i j a b Hij. apply (Hm (S i) (S j)). lia.
  - apply Forall_forall. intros y (j & Hy)%elem_of_list_lookup. apply (Hm O (S j)); [lia|done|done].
Qed.
Lemma counted_live itof ptof pv f l : l ≡ₚ qcells itof ptof pv f → live l ≡ₚ live (counted itof ptof pv f).
Proof.
  intros Hp. unfold live. rewrite Hp. unfold qcells. rewrite qcells_split, filter_app. unfold counted. rewrite survivors_eq.
  rewrite live_replicate, app_nil_r. done.
Qed.

Lemma live_sorted l : cells_ok l → by_time (live l).
Proof.
  intros H. apply StronglySorted_filter, StronglySorted_pairs. intros i j c d Hij Hc Hd. eapply (co_sort l H i j); [lia|done|done].
Qed.

Theorem curve_spread srt itof ptof pv f g : sorting (N:=exact) srt → fphi_input itof ptof pv f →
  @fphi_curve exact srt (fins itof) (fins ptof) (fins pv) (Fin f) = Ok g →
  let z := counted itof ptof pv f in
  lorenz_coefficient g = Ok (Fin (spread z / (2 * volume z * flux z))%Qc).
Proof.
  intros Hs Hi E' z. destruct (curve_exact srt _ _ _ _ Hs Hi) as (l & Pl & Ol & Ll & Sl & E).
  assert (g = (fins (qcum (vols l)), fins (qcum (rates l)))) as -> by (rewrite E in E'; congruence).
  rewrite (lorenz_spread l Ol) by (destruct Hi; lia).
  by rewrite (counted_spread _ _ _ _ _ Pl), (counted_volume _ _ _ _ _ Pl), (counted_flux _ _ _ _ _ Pl).
Qed.

Theorem curve_filled srt itof ptof pv f g : sorting (N:=exact) srt → fphi_input itof ptof pv f →
  @fphi_curve exact srt (fins itof) (fins ptof) (fins pv) (Fin f) = Ok g →
  let z := counted itof ptof pv f in
  ∃ y, y ≡ₚ filter (λ c : Qc * Qc, (0 < c.2)%Qc) z ∧ by_time y ∧
    sweep_efficiency g = Ok
      (fins (0%Qc :: ((λ c : Qc * Qc, (c.1 * flux z / volume z)%Qc) <$> y)),
       fins (0%Qc :: ((λ c : Qc * Qc, (filled z c.1 / volume z)%Qc) <$> y))).
Proof.
  intros Hs Hi E' z. destruct (curve_exact srt _ _ _ _ Hs Hi) as (l & Pl & Ol & Ll & Sl & E).
  assert (g = (fins (qcum (vols l)), fins (qcum (rates l)))) as -> by (rewrite E in E'; congruence).
  exists (live l). split; [by apply counted_live|]. split; [by apply live_sorted|].
  rewrite (sweep_filled l Ol) by (destruct Hi; lia). unfold tDs, Evs.
  rewrite (counted_volume _ _ _ _ _ Pl), (counted_flux _ _ _ _ _ Pl). fold z.
  replace ((λ c : Qc * Qc, (filled l c.1 / volume z)%Qc) <$> live l) with ((λ c : Qc * Qc, (filled z c.1 / volume z)%Qc) <$> live l); [done|].
  apply list_fmap_ext. intros i c _. by rewrite (counted_filled _ _ _ _ _ c.1 Pl).
Qed.

(** ** Only the distribution of the volume over the travel times matters *)
Lemma qsum_swap {A B} (h : A → B → Qc) (l : list A) (m : list B) :
  qsum ((λ x, qsum ((λ y, h x y) <$> m)) <$> l) = qsum ((λ y, qsum ((λ x, h x y) <$> l)) <$> m).
Proof.
  induction l as [|x l IH].
  - cbn. symmetry. by apply qsum_fmap_zero.
  - rewrite fmap_cons, qsum_cons, IH, <-qsum_fmap_add. done.
Qed.
Lemma qsum_pick (D : list Qc) (x : Qc) (g : Qc → Qc) : NoDup D → x ∈ D →
  qsum ((λ t, if decide (x = t) then g t else 0%Qc) <$> D) = g x.
Proof.
  induction 1 as [|t D Ht HD IH]; intros Hx; [by apply elem_of_nil in Hx|].
  rewrite fmap_cons, qsum_cons. apply elem_of_cons in Hx as [->|Hx].
  - rewrite decide_True by done. rewrite qsum_fmap_zero; [ring|]. intros s Hs. rewrite decide_False; [done|]. by intros ->.
  - rewrite decide_False by (by intros ->). rewrite IH by done. ring.
Qed.
Lemma volume_at_sum z t : volume_at z t = qsum ((λ c : Qc * Qc, if decide (c.1 = t) then c.2 else 0%Qc) <$> z).
Proof.
  unfold volume_at. induction z as [|c z IH]; [done|]. rewrite filter_cons, fmap_cons, qsum_cons, <-IH.
  destruct (decide (c.1 = t)); [done|]. ring.
Qed.
Lemma by_times (h : Qc → Qc) z D : NoDup D → (∀ c, c ∈ z → c.1 ∈ D) →
  qsum ((λ c : Qc * Qc, (h c.1 * c.2)%Qc) <$> z) = qsum ((λ t, (h t * volume_at z t)%Qc) <$> D).
Proof.
  intros HD Hz.
  rewrite (qsum_fmap_ext (λ t, (h t * volume_at z t)%Qc) (λ t, qsum ((λ c : Qc * Qc, if decide (c.1 = t) then (h t * c.2)%Qc else 0%Qc) <$> z))).
  2:{ intros t _. rewrite volume_at_sum, <-qsum_fmap_mul. apply qsum_fmap_ext. intros c _. destruct (decide _); [done|ring]. }
  rewrite <-qsum_swap. apply qsum_fmap_ext. intros c Hc. symmetry. apply (qsum_pick D c.1 (λ t, (h t * c.2)%Qc)); [done|]. by apply Hz.
Qed.

Section distribution.
Context (a b : Qc) (z z' : list (Qc * Qc)).
Hypothesis (Ha : (0 < a)%Qc) (Hb : (0 < b)%Qc) (Hd : same_distribution a b z z').

Lemma b_ne : b ≠ 0%Qc.
Proof. intros E. rewrite E in Hb. by apply Qclt_not_eq in Hb. Qed.
Lemma same_sum (h : Qc → Qc) : qsum ((λ c : Qc * Qc, (h c.1 * c.2)%Qc) <$> z') = (a * qsum ((λ c : Qc * Qc, (h (b * c.1) * c.2)%Qc) <$> z))%Qc.
Proof.
  pose proof b_ne as NB. set (D := remove_dups (z.*1 ++ ((λ t, (t / b)%Qc) <$> z'.*1))).
  assert (NoDup D) as HD by apply NoDup_remove_dups.
  assert (∀ t, (t / b)%Qc ∈ D ↔ t ∈ (λ t, (b * t)%Qc) <$> D) as HDb.
  { intros t. rewrite elem_of_list_fmap. split.
    - intros H. exists (t / b)%Qc. split; [field; done|done].
    - intros (s & -> & Hs). replace (b * s / b)%Qc with s by (field; done). done. }
  rewrite (by_times h z' ((λ t, (b * t)%Qc) <$> D)).
  - rewrite (by_times (λ t, h (b * t)%Qc) z D) by (try done; intros c Hc; apply elem_of_remove_dups, elem_of_app; left; by apply elem_of_list_fmap_1).
    rewrite <-list_fmap_compose, <-qsum_fmap_mul. apply qsum_fmap_ext. intros t _. unfold compose. rewrite Hd. ring.
  - apply NoDup_fmap_2; [|done]. intros x y E. apply (f_equal (λ t, (t / b)%Qc)) in E.
    replace x with (b * x / b)%Qc by (field; done). rewrite E. field. done.
  - intros c Hc. apply HDb, elem_of_remove_dups, elem_of_app. right. apply (elem_of_list_fmap_1 (λ t, (t / b)%Qc)). by apply elem_of_list_fmap_1.
Qed.
Lemma same_volume : volume z' = (a * volume z)%Qc.
Proof.
  pose proof (same_sum (λ _, 1%Qc)) as E. unfold volume.
  rewrite (qsum_fmap_ext (snd : Qc * Qc → Qc) (λ c, 1 * c.2)%Qc z'), (qsum_fmap_ext (snd : Qc * Qc → Qc) (λ c, 1 * c.2)%Qc z); [exact E| |]; intros; ring.
Qed.
Lemma same_flux : flux z' = (a / b * flux z)%Qc.
Proof.
  pose proof (same_sum (λ t, / t)%Qc) as E. unfold flux. pose proof b_ne as NB.
  rewrite (qsum_fmap_ext (λ c : Qc * Qc, (c.2 / c.1)%Qc) (λ c, / c.1 * c.2)%Qc z') by (intros; unfold Qcdiv; ring).
  rewrite E. unfold Qcdiv. rewrite <-!Qcmult_assoc. f_equal. rewrite <-qsum_fmap_mul. apply qsum_fmap_ext. intros c _.
  rewrite Qcinv_mult_distr. ring.
Qed.
Lemma same_filled t : filled z' (b * t)%Qc = (a * filled z t)%Qc.
Proof.
  pose proof b_ne as NB. 
  pose proof (same_sum (λ s, if decide (s <= b * t)%Qc then 1%Qc else (b * t / s)%Qc)) as E. unfold filled.
  rewrite (qsum_fmap_ext _ (λ c : Qc * Qc, ((if decide (c.1 <= b * t)%Qc then 1 else b * t / c.1) * c.2)%Qc) z') by (intros; destruct (decide _); ring).
  rewrite E. f_equal. apply qsum_fmap_ext. intros c _. destruct (decide (b * c.1 <= b * t)%Qc) as [H1|H1], (decide (c.1 <= t)%Qc) as [H2|H2].
  - ring.
  - destruct H2. apply (Qcmult_lt_0_le_reg_r _ _ b); [done|]. by rewrite !(Qcmult_comm _ b).
  - destruct H1. rewrite !(Qcmult_comm b). apply Qcmult_le_compat_r; [done|]. by apply Qclt_le_weak.
  - unfold Qcdiv. rewrite Qcinv_mult_distr. transitivity ((b * / b) * (t * / c.1 * c.2))%Qc; [ring|]. rewrite Qcmult_inv_r by done. ring.
Qed.
Lemma same_spread : spread z' = (a * a / b * spread z)%Qc.
Proof.
  pose proof b_ne as NB. unfold spread.
  rewrite (qsum_fmap_ext _ (λ c : Qc * Qc, (qsum ((λ d : Qc * Qc, (Qcabs.Qcabs (/ c.1 - / d.1) * d.2)%Qc) <$> z') * c.2)%Qc) z').
  2:{ intros c _. rewrite Qcmult_comm, <-qsum_fmap_mul. apply qsum_fmap_ext. intros. ring. }
  rewrite (same_sum (λ t, qsum ((λ d : Qc * Qc, (Qcabs.Qcabs (/ t - / d.1) * d.2)%Qc) <$> z'))).
  rewrite <-!qsum_fmap_mul. apply qsum_fmap_ext. intros c _.
  rewrite (same_sum (λ s, Qcabs.Qcabs (/ (b * c.1) - / s))).
  transitivity (a * a * c.2 * qsum ((λ d : Qc * Qc, (Qcabs.Qcabs (/ (b * c.1) - / (b * d.1)) * d.2)%Qc) <$> z))%Qc; [ring|].
  rewrite <-!qsum_fmap_mul. apply qsum_fmap_ext. intros d _.
  rewrite !Qcinv_mult_distr. replace (/ b * / c.1 - / b * / d.1)%Qc with (/ b * (/ c.1 - / d.1))%Qc by ring.
  rewrite Qcabs.Qcabs_Qcmult, (Qcabs.Qcabs_pos (/ b)); [unfold Qcdiv; ring|]. by apply Qclt_le_weak, Qcinv_pos.
Qed.
End distribution.

Lemma live_at z t : Forall (λ c : Qc * Qc, (0 <= c.2)%Qc) z → (0 < volume_at z t)%Qc ↔ t ∈ (live z).*1.
Proof.
  intros Hz. rewrite volume_at_sum, elem_of_list_fmap. induction Hz as [|c z Hc Hz IH].
  - cbn. split; [by intros []%Qclt_not_eq|]. intros (y & _ & []%elem_of_nil).
  - rewrite fmap_cons, qsum_cons. unfold live in *. rewrite filter_cons.
    assert (0 <= qsum ((λ c0 : Qc * Qc, if decide (c0.1 = t) then c0.2 else 0%Qc) <$> z))%Qc as H0.
    { clear -Hz. induction Hz as [|c z Hc Hz IH]; [cbn; qclra|]. rewrite fmap_cons, qsum_cons. destruct (decide _); qclra. }
    set (s := qsum _) in *. clearbody s. destruct (decide (c.1 = t)) as [E|E], (decide (0 < c.2)%Qc) as [L|L].
    + split; [|intros _; qclra]. intros _. exists c. split; [done|left].
    + assert (c.2 = 0%Qc) as -> by (apply Qcle_antisym; [by apply Qcnot_lt_le|done]).
      rewrite <-IH. split; intros; qclra.
    + split.
      * intros H. destruct (proj1 IH) as (y & Ey & Hy); [qclra|]. exists y. split; [done|by right].
      * intros (y & -> & [->|Hy]%elem_of_cons); [done|]. assert (0 < s)%Qc by (apply IH; eauto). qclra.
    + rewrite <-IH. split; intros; qclra.
Qed.

Lemma counted_nonneg itof ptof pv f : Forall (λ v, (0 <= v)%Qc) pv → Forall (λ c : Qc * Qc, (0 <= c.2)%Qc) (counted itof ptof pv f).
Proof.
  intros H. apply Forall_fmap. unfold survivors. apply Forall_forall. intros x Hx. apply elem_of_list_filter in Hx as [_ Hx].
  destruct x as [[u w] v]. cbn. apply elem_of_zip_r in Hx. by apply (proj1 (Forall_forall _ _) H).
Qed.

Lemma zip_points (f g : Qc * Qc → Qc) (y : list (Qc * Qc)) (x : xq * xq) :
  x ∈ zip (fins (0%Qc :: (f <$> y))) (fins (0%Qc :: (g <$> y))) ↔
  x = (Fin 0, Fin 0) ∨ ∃ c, c ∈ y ∧ x = (Fin (f c), Fin (g c)).
Proof.
  unfold fins. rewrite !fmap_cons. cbn [zip zip_with]. rewrite elem_of_cons. apply or_iff_compat_l.
  induction y as [|c y IH]; [split; [by intros ?%elem_of_nil|intros (c & []%elem_of_nil & _)]|].
  rewrite !fmap_cons. cbn [zip zip_with]. rewrite elem_of_cons. setoid_rewrite elem_of_cons. rewrite IH.
  split.
  - intros [->|(d & Hd & ->)]; eauto.
  - intros (d & [->|Hd] & ->); eauto.
Qed.
Lemma Qcmult_pos_inv a v : (0 < a)%Qc → (0 < a * v)%Qc → (0 < v)%Qc.
Proof. intros Ha H. destruct (Qclt_le_dec 0 v) as [|Hv]; [done|]. exfalso. clear -Ha H Hv. qcnra. Qed.

Theorem curve_distribution srt srt' a b itof ptof pv f g itof' ptof' pv' f' g' :
  sorting (N:=exact) srt → sorting (N:=exact) srt' → fphi_input itof ptof pv f → fphi_input itof' ptof' pv' f' →
  @fphi_curve exact srt (fins itof) (fins ptof) (fins pv) (Fin f) = Ok g →
  @fphi_curve exact srt' (fins itof') (fins ptof') (fins pv') (Fin f') = Ok g' →
  (0 < a)%Qc → (0 < b)%Qc → same_distribution a b (counted itof ptof pv f) (counted itof' ptof' pv' f') →
  lorenz_coefficient g' = lorenz_coefficient g ∧
  ∃ tD Ev tD' Ev', sweep_efficiency g = Ok (tD, Ev) ∧ sweep_efficiency g' = Ok (tD', Ev') ∧
    ∀ x, x ∈ zip tD Ev ↔ x ∈ zip tD' Ev'.
Proof.
  intros Hs Hs' Hi Hi' E E' Ha Hb Hd. set (z := counted itof ptof pv f) in *. set (z' := counted itof' ptof' pv' f') in *.
  pose proof (b_ne b Hb) as NB. assert (a ≠ 0%Qc) as NA by (intros E0; rewrite E0 in Ha; by apply Qclt_not_eq in Ha).
  assert (volume z ≠ 0%Qc ∧ flux z ≠ 0%Qc) as [NV NF].
  { destruct (curve_exact srt _ _ _ _ Hs Hi) as (l & Pl & Ol & _). subst z.
    rewrite <-(counted_volume _ _ _ _ _ Pl), <-(counted_flux _ _ _ _ _ Pl). split; [by apply V_ne|by apply R_ne]. }
  split.
  - rewrite (curve_spread srt _ _ _ _ _ Hs Hi E), (curve_spread srt' _ _ _ _ _ Hs' Hi' E'). do 2 f_equal.
    fold z z'. rewrite (same_spread a b z z'), (same_volume a b z z'), (same_flux a b z z') by done.
    assert (2 ≠ 0)%Qc as N2 by done. field. done.
  - destruct (curve_filled srt _ _ _ _ _ Hs Hi E) as (y & Py & _ & Ey). destruct (curve_filled srt' _ _ _ _ _ Hs' Hi' E') as (y' & Py' & _ & Ey').
    fold z in Py, Ey. fold z' in Py', Ey'. do 4 eexists. split; [exact Ey|]. split; [exact Ey'|].
    assert (∀ t, t ∈ y.*1 ↔ (b * t)%Qc ∈ y'.*1) as Hy.
    { intros t. rewrite Py, Py'. rewrite <-(live_at z), <-(live_at z') by (apply counted_nonneg; by eapply fi_pv).
      rewrite Hd. clear -Ha. set (v := volume_at z t). clearbody v. split; intros H; [qcnra|].
      by apply (Qcmult_pos_inv a v). }
    assert (∀ t, (b * t * flux z' / volume z')%Qc = (t * flux z / volume z)%Qc) as EF.
    { intros t. rewrite (same_volume a b z z'), (same_flux a b z z') by done. field. done. }
    assert (∀ t, (filled z' (b * t) / volume z')%Qc = (filled z t / volume z)%Qc) as EV.
    { intros t. rewrite (same_volume a b z z'), (same_filled a b z z') by done. field. done. }
    intros x. rewrite !zip_points. split; (intros [->|(c & Hc & ->)]; [by left|right]).
    + assert (b * c.1 ∈ y'.*1)%Qc as (d & Ed & Hd')%elem_of_list_fmap by (apply Hy; by apply elem_of_list_fmap_1).
      exists d. split; [done|]. rewrite <-Ed, EF, EV. done.
    + assert (b * (c.1 / b) ∈ y'.*1)%Qc as Hc' by (replace (b * (c.1 / b))%Qc with c.1 by (field; done); by apply elem_of_list_fmap_1).
      apply Hy, elem_of_list_fmap in Hc' as (d & Ed & Hd'). exists d. split; [done|]. rewrite <-EF, <-EV, <-Ed.
      replace (b * (c.1 / b))%Qc with c.1 by (field; done). done.
Qed.
