(** The F-Phi curve in exact arithmetic: C42-C45, C49, C50. *)
From Coq Require Import QArith Qcanon Lqa.
From Verif.Model Require Import Num DerivedQuantities.
From Verif.Spec Require Import GraphSpec DerivedSpec.
From Verif.Proofs Require Import Util ExactNum QcLra OrdLaws DerivedOrd.
Open Scope Z_scope.

(** ** Sums *)
Lemma qsum_app l1 l2 : qsum (l1 ++ l2) = (qsum l1 + qsum l2)%Qc.
Proof. induction l1 as [|x l IH]; cbn; [by rewrite Qcplus_0_l|]. unfold qsum in IH. rewrite IH. apply Qcplus_assoc. Qed.
Lemma qsum_nonneg l : Forall (λ x, (0 <= x)%Qc) l → (0 <= qsum l)%Qc.
Proof. induction 1 as [|x l Hx _ IH]; cbn; [apply Qcle_refl|]. unfold qsum in IH. qclra. Qed.
Lemma qsum_pos l x : Forall (λ x, (0 <= x)%Qc) l → x ∈ l → (0 < x)%Qc → (0 < qsum l)%Qc.
Proof.
  intros Hl Hx Hp. apply elem_of_list_split in Hx as (l1 & l2 & ->). rewrite qsum_app.
  apply Forall_app in Hl as [H1 H2]. apply Forall_cons in H2 as [_ H2].
  apply qsum_nonneg in H1, H2. cbn. fold (qsum l2). qclra.
Qed.
Lemma qsum_perm l1 l2 : l1 ≡ₚ l2 → qsum l1 = qsum l2.
Proof. induction 1 as [|x l1 l2 _ IH|x y l|l1 l2 l3 _ IH1 _ IH2]; unfold qsum in *; cbn; [done|by rewrite IH|qclra|congruence]. Qed.

Lemma take_seg {A} (i j : nat) (l : list A) : (i ≤ j)%nat → take j l = take i l ++ take (j - i) (drop i l).
Proof. intros. rewrite take_take_drop. f_equal. lia. Qed.

Lemma foldl_Fin a l : foldl xadd (Fin a) (Fin <$> l) = Fin (a + qsum l)%Qc.
Proof.
  revert a. induction l as [|x l IH]; intros a; cbn [foldl fmap list_fmap].
  - cbn. by rewrite Qcplus_0_r.
  - cbn [xadd]. rewrite IH. f_equal. cbn. fold (qsum l). qclra.
Qed.
Lemma accumulate_Fin l : @accumulate exact (Fin <$> l) = Fin (qsum l).
Proof. unfold accumulate. rewrite exact_n0. change (@nadd exact) with xadd. rewrite foldl_Fin. f_equal. apply Qcplus_0_l. Qed.

(** ** Normalised cumulative sums *)
Definition qcum (l : list Qc) : list Qc := (λ k, (qsum (take k l) / qsum l)%Qc) <$> seq 0 (S (length l)).

Lemma psum_Fin a l : @psum_from exact (Fin a) (Fin <$> l) = Fin <$> ((λ k, (a + qsum (take k l))%Qc) <$> seq 1 (length l)).
Proof.
  revert a. induction l as [|x l IH]; intros a; [done|].
  cbn [psum_from fmap list_fmap length seq]. f_equal.
  - cbn. f_equal. rewrite take_0. cbn [foldr]. qclra.
  - change (@nadd exact (Fin a) (Fin x)) with (Fin (a + x)%Qc).
    etransitivity; [apply IH|]. rewrite <-(fmap_S_seq 1), <-!list_fmap_compose.
    apply list_fmap_ext. intros i k Hk. cbn. f_equal. unfold qsum. qclra.
Qed.

Lemma partial_sum_Fin l : @partial_sum exact (@n0 exact :: (Fin <$> l)) = Fin <$> ((λ k, qsum (take k l)) <$> seq 0 (S (length l))).
Proof.
  unfold partial_sum. rewrite exact_n0, psum_Fin. cbn [seq fmap list_fmap]. f_equal. f_equal.
  apply list_fmap_ext. intros. apply Qcplus_0_l.
Qed.

Lemma cumulative_Fin l : qsum l ≠ 0%Qc → @cumulative_normalized exact (Fin <$> l) = Fin <$> qcum l.
Proof.
  intros H. unfold cumulative_normalized. rewrite partial_sum_Fin.
  rewrite (last_default _ _ (Fin (qsum l))).
  - unfold qcum. change (map ?f ?x) with (f <$> x). rewrite <-!list_fmap_compose. apply list_fmap_ext.
    intros i k Hk. cbn. by rewrite (proj2 (Qc_eqb_false _ _) H).
  - rewrite last_lookup, !fmap_length, seq_length. cbn [pred]. rewrite !list_lookup_fmap, lookup_seq_lt by lia. cbn.
    f_equal. f_equal. f_equal. by rewrite take_ge by lia.
Qed.

Lemma qcum_length l : length (qcum l) = S (length l).
Proof. unfold qcum. by rewrite fmap_length, seq_length. Qed.
Lemma qcum_lookup l k x : qcum l !! k = Some x ↔ (k ≤ length l)%nat ∧ x = (qsum (take k l) / qsum l)%Qc.
Proof.
  unfold qcum. rewrite list_lookup_fmap. split.
  - intros H. apply fmap_Some in H as (i & Hi & ->). apply lookup_seq in Hi as [-> Hi]. split; [lia|done].
  - intros [Hk ->]. by rewrite lookup_seq_lt by lia.
Qed.
Lemma qcum_0 l : qcum l !! O = Some 0%Qc.
Proof. apply qcum_lookup. split; [lia|]. cbn. unfold Qcdiv. by rewrite Qcmult_0_l. Qed.
Lemma qcum_last l : qsum l ≠ 0%Qc → last (qcum l) = Some 1%Qc.
Proof.
  intros H. rewrite last_lookup, qcum_length. cbn [pred]. apply qcum_lookup. split; [done|].
  rewrite take_ge by done. symmetry. by apply Qcmult_inv_r.
Qed.
Lemma Qcinv_pos x : (0 < x)%Qc → (0 < / x)%Qc.
Proof. intros H. qc_norm. by apply Qinv_lt_0_compat. Qed.
Lemma qcum_up l : Forall (λ x, (0 <= x)%Qc) l → (0 < qsum l)%Qc → non_decreasing (qcum l).
Proof.
  intros Hl Hp i j a b Hij Ha Hb. apply qcum_lookup in Ha as [Hi ->]. apply qcum_lookup in Hb as [Hj ->].
  unfold Qcdiv. apply Qcmult_le_compat_r; [|by apply Qclt_le_weak, Qcinv_pos].
  rewrite (take_seg i j) by done. rewrite qsum_app.
  assert (0 <= qsum (take (j - i) (drop i l)))%Qc by (apply qsum_nonneg, Forall_take, Forall_drop, Hl). qclra.
Qed.

(** ** The sorted cells *)
(** (travel time, pore volume) with positive times and no negative volume,
    sorted by time, with some volume. *)
Record cells_ok (l : list (Qc * Qc)) : Prop := {
  co_time : Forall (λ p, (0 < p.1)%Qc) l;
  co_vol : Forall (λ p, (0 <= p.2)%Qc) l;
  co_sort : ∀ i j p q, (i ≤ j)%nat → l !! i = Some p → l !! j = Some q → (p.1 <= q.1)%Qc;
  co_some : ∃ p, p ∈ l ∧ (0 < p.2)%Qc
}.
Definition vols (l : list (Qc * Qc)) : list Qc := l.*2.
Definition rates (l : list (Qc * Qc)) : list Qc := (λ p, (p.2 / p.1)%Qc) <$> l.

Lemma vols_pos l : cells_ok l → (0 < qsum (vols l))%Qc.
Proof.
  intros []. destruct co_some0 as (p & Hp & Hp'). apply (qsum_pos _ p.2); [|by apply elem_of_list_fmap_1|done].
  by apply Forall_fmap.
Qed.
Lemma rates_nonneg l : cells_ok l → Forall (λ x, (0 <= x)%Qc) (rates l).
Proof.
  intros []. apply Forall_fmap. apply Forall_forall. intros p Hp. cbn.
  rewrite Forall_forall in co_time0, co_vol0. specialize (co_time0 p Hp). specialize (co_vol0 p Hp). cbn in *.
  unfold Qcdiv. apply Qcinv_pos in co_time0. qcnra.
Qed.
Lemma rates_pos l : cells_ok l → (0 < qsum (rates l))%Qc.
Proof.
  intros H. pose proof (rates_nonneg l H) as Hn. destruct H. destruct co_some0 as (p & Hp & Hp').
  apply (qsum_pos _ (p.2 / p.1)%Qc); [done| |].
  - unfold rates. apply elem_of_list_fmap. by exists p.
  - rewrite Forall_forall in co_time0. specialize (co_time0 p Hp). apply Qcinv_pos in co_time0. unfold Qcdiv. qcnra.
Qed.

(** Volumes and rates of cells that are all slower (faster) than tau. *)
Lemma rate_vol p : (0 < p.1)%Qc → (p.2 / p.1 * p.1 = p.2)%Qc.
Proof.
  intros H. unfold Qcdiv. rewrite <-Qcmult_assoc, Qcmult_inv_l, Qcmult_1_r; [done|]. intros E. rewrite E in H. by apply Qclt_not_eq in H.
Qed.
Lemma faster_cells tau l : Forall (λ p, (0 < p.1)%Qc ∧ (0 <= p.2)%Qc ∧ (p.1 <= tau)%Qc) l →
  (qsum (vols l) <= tau * qsum (rates l))%Qc.
Proof.
  induction 1 as [|p l (Hp & Hv & Ht) _ IH]; cbn.
  - qclra.
  - unfold vols, rates in IH. unfold qsum in IH. pose proof (rate_vol p Hp) as E.
    assert (0 <= p.2 / p.1)%Qc as Hr. { unfold Qcdiv. apply Qcinv_pos in Hp. qcnra. }
    set (r := (p.2 / p.1)%Qc) in *. clearbody r. qcnra.
Qed.
Lemma slower_cells tau l : Forall (λ p, (0 < p.1)%Qc ∧ (0 <= p.2)%Qc ∧ (tau <= p.1)%Qc) l →
  (tau * qsum (rates l) <= qsum (vols l))%Qc.
Proof.
  induction 1 as [|p l (Hp & Hv & Ht) _ IH]; cbn.
  - qclra.
  - unfold vols, rates in IH. unfold qsum in IH. pose proof (rate_vol p Hp) as E.
    assert (0 <= p.2 / p.1)%Qc as Hr. { unfold Qcdiv. apply Qcinv_pos in Hp. qcnra. }
    set (r := (p.2 / p.1)%Qc) in *. clearbody r. qcnra.
Qed.

Lemma vols_seg i j l : take (j - i) (drop i (vols l)) = vols (take (j - i) (drop i l)).
Proof. unfold vols. by rewrite fmap_take, fmap_drop. Qed.
Lemma rates_seg i j l : take (j - i) (drop i (rates l)) = rates (take (j - i) (drop i l)).
Proof. unfold rates. by rewrite fmap_take, fmap_drop. Qed.

Lemma seg_lookup {A} (i j : nat) (l : list A) x : x ∈ take (j - i) (drop i l) → ∃ k, (i ≤ k)%nat ∧ (k < j)%nat ∧ l !! k = Some x.
Proof.
  intros H. apply elem_of_list_lookup in H as [k H]. pose proof (lookup_lt_Some _ _ _ H) as Hk. rewrite take_length in Hk.
  rewrite lookup_take in H by lia. rewrite lookup_drop in H. exists (i + k)%nat. split; [lia|]. split; [lia|done].
Qed.

Lemma mid_time l j : cells_ok l → (j ≤ length l)%nat → ∃ tau, (0 < tau)%Qc ∧
  (∀ k p, (k < j)%nat → l !! k = Some p → (p.1 <= tau)%Qc) ∧ (∀ k p, (j ≤ k)%nat → l !! k = Some p → (tau <= p.1)%Qc).
Proof.
  intros H Hj. destruct j as [|j].
  - destruct l as [|p l].
    + exists 1%Qc. split; [done|]. split; intros k p Hk; [lia|done].
    + exists p.1. destruct H. split; [by apply Forall_cons in co_time0 as []|]. split; [intros; lia|].
      intros k q _ Hq. by eapply (co_sort0 0 k)%nat; [lia|..].
  - destruct (lookup_lt_is_Some_2 l j) as [p Hp]; [lia|]. exists p.1. destruct H.
    split; [rewrite Forall_lookup in co_time0; by eapply co_time0|].
    split; intros k q Hk Hq; [eapply (co_sort0 k j)|eapply (co_sort0 j k)]; eauto; lia.
Qed.

Lemma seg_le l i j k : cells_ok l → (i ≤ j)%nat → (j ≤ k)%nat → (k ≤ length l)%nat →
  (qsum (take (k - j) (drop j (rates l))) * qsum (take (j - i) (drop i (vols l)))
   <= qsum (take (j - i) (drop i (rates l))) * qsum (take (k - j) (drop j (vols l))))%Qc.
Proof.
  intros H Hij Hjk Hk. destruct (mid_time l j H) as (tau & Htau & Hl & Hr); [lia|].
  rewrite !vols_seg, !rates_seg.
  assert (qsum (vols (take (j - i) (drop i l))) <= tau * qsum (rates (take (j - i) (drop i l))))%Qc as H1.
  { apply faster_cells. apply Forall_forall. intros p Hp. apply seg_lookup in Hp as (m & Hm & Hm' & Hp). destruct H.
    rewrite Forall_lookup in co_time0, co_vol0. specialize (co_time0 _ _ Hp). specialize (co_vol0 _ _ Hp). repeat split; try done. by eapply Hl. }
  assert (tau * qsum (rates (take (k - j) (drop j l))) <= qsum (vols (take (k - j) (drop j l))))%Qc as H2.
  { apply slower_cells. apply Forall_forall. intros p Hp. apply seg_lookup in Hp as (m & Hm & Hm' & Hp). destruct H.
    rewrite Forall_lookup in co_time0, co_vol0. specialize (co_time0 _ _ Hp). specialize (co_vol0 _ _ Hp). repeat split; try done. by eapply Hr. }
  assert (0 <= qsum (rates (take (j - i) (drop i l))))%Qc as H3.
  { rewrite <-rates_seg. apply qsum_nonneg, Forall_take, Forall_drop, rates_nonneg, H. }
  assert (0 <= qsum (rates (take (k - j) (drop j l))))%Qc as H4.
  { rewrite <-rates_seg. apply qsum_nonneg, Forall_take, Forall_drop, rates_nonneg, H. }
  set (A := qsum (vols (take (j - i) (drop i l)))) in *. set (B := qsum (rates (take (j - i) (drop i l)))) in *.
  set (C := qsum (vols (take (k - j) (drop j l)))) in *. set (D := qsum (rates (take (k - j) (drop j l)))) in *. clearbody A B C D.
  clear -H1 H2 H3 H4. qcnra.
Qed.

Definition curve_of (l : list (Qc * Qc)) : list Qc * list Qc := (qcum (vols l), qcum (rates l)).

Theorem curve_concave l : cells_ok l → concave (qcum (vols l)) (qcum (rates l)).
Proof.
  intros H i j k xi xj xk yi yj yk Hij Hjk Hxi Hxj Hxk Hyi Hyj Hyk.
  apply qcum_lookup in Hxi as [Li ->], Hxj as [Lj ->], Hxk as [Lk ->], Hyi as [_ ->], Hyj as [_ ->], Hyk as [_ ->].
  pose proof (vols_pos l H) as Pv. pose proof (rates_pos l H) as Pr. apply Qcinv_pos in Pv, Pr.
  unfold vols in Lk at 1. rewrite fmap_length in Lk.
  pose proof (seg_le l i j k H ltac:(lia) ltac:(lia) Lk) as Hs.
  rewrite (take_seg j k (vols l)), (take_seg j k (rates l)) by lia.
  rewrite (take_seg i j (vols l)), (take_seg i j (rates l)) by lia. rewrite !qsum_app.
  set (ai := qsum (take i (vols l))). set (bi := qsum (take i (rates l))).
  set (a1 := qsum (take (j - i) (drop i (vols l)))) in *. set (b1 := qsum (take (j - i) (drop i (rates l)))) in *.
  set (a2 := qsum (take (k - j) (drop j (vols l)))) in *. set (b2 := qsum (take (k - j) (drop j (rates l)))) in *.
  unfold Qcdiv. set (P := (/ qsum (vols l))%Qc) in *. set (R := (/ qsum (rates l))%Qc) in *. clearbody ai bi a1 b1 a2 b2 P R.
  replace (((bi + b1 + b2) * R - (bi + b1) * R) * ((ai + a1) * P - ai * P))%Qc with (b2 * a1 * (R * P))%Qc by qclra.
  replace (((bi + b1) * R - bi * R) * ((ai + a1 + a2) * P - (ai + a1) * P))%Qc with (b1 * a2 * (R * P))%Qc by qclra.
  apply Qcmult_le_compat_r; [done|]. apply Qclt_le_weak. qcnra.
Qed.

(** ** Points of the curve as functions of the index *)
Definition cumf (l : list Qc) (k : nat) : Qc := (qsum (take k l) / qsum l)%Qc.
Lemma qcum_cumf l k : (k ≤ length l)%nat → qcum l !! k = Some (cumf l k).
Proof. intros. by apply qcum_lookup. Qed.
Lemma cumf_0 l : cumf l 0 = 0%Qc.
Proof. unfold cumf. rewrite take_0. cbn. unfold Qcdiv. by rewrite Qcmult_0_l. Qed.
Lemma cumf_S l k x : l !! k = Some x → cumf l (S k) = (cumf l k + x * / qsum l)%Qc.
Proof. intros H. unfold cumf. rewrite (take_S_r _ _ _ H), qsum_app. cbn. unfold Qcdiv. qclra. Qed.
Lemma cumf_n l : qsum l ≠ 0%Qc → cumf l (length l) = 1%Qc.
Proof. intros H. unfold cumf. rewrite take_ge by done. by apply Qcmult_inv_r. Qed.

Section curve.
Context (l : list (Qc * Qc)) (H : cells_ok l).
Notation n := (length l).
Notation Phi := (cumf (vols l)).
Notation F := (cumf (rates l)).
Notation Pi := (/ qsum (vols l))%Qc.
Notation Ri := (/ qsum (rates l))%Qc.

Lemma Pi_pos : (0 < Pi)%Qc. Proof. apply Qcinv_pos, vols_pos, H. Qed.
Lemma Ri_pos : (0 < Ri)%Qc. Proof. apply Qcinv_pos, rates_pos, H. Qed.
Lemma Phi_step k p : l !! k = Some p → Phi (S k) = (Phi k + p.2 * Pi)%Qc.
Proof. intros E. apply cumf_S. unfold vols. by rewrite list_lookup_fmap, E. Qed.
Lemma F_step k p : l !! k = Some p → F (S k) = (F k + p.2 / p.1 * Ri)%Qc.
Proof. intros E. apply cumf_S. unfold rates. by rewrite list_lookup_fmap, E. Qed.
Lemma cell_ok k p : l !! k = Some p → (0 < p.1)%Qc ∧ (0 <= p.2)%Qc.
Proof. intros E. destruct H. rewrite Forall_lookup in co_time0, co_vol0. split; eauto. Qed.
Lemma Phi_end : Phi n = 1%Qc.
Proof. replace n with (length (vols l)) by apply fmap_length. apply cumf_n. pose proof (vols_pos l H) as Hp. intros E. rewrite E in Hp. by apply Qclt_not_eq in Hp. Qed.
Lemma F_end : F n = 1%Qc.
Proof. replace n with (length (rates l)) by apply fmap_length. apply cumf_n. pose proof (rates_pos l H) as Hp. intros E. rewrite E in Hp. by apply Qclt_not_eq in Hp. Qed.
Lemma vols_length : length (vols l) = n. Proof. apply fmap_length. Qed.
Lemma rates_length : length (rates l) = n. Proof. apply fmap_length. Qed.

Lemma Phi_mono i j : (i ≤ j)%nat → (j ≤ n)%nat → (Phi i <= Phi j)%Qc.
Proof.
  intros Hij Hj. eapply (qcum_up (vols l)); [|apply vols_pos, H|exact Hij|apply qcum_cumf; rewrite vols_length; lia..].
  apply Forall_fmap. destruct H. eapply Forall_impl; [exact co_vol0|]. done.
Qed.
Lemma F_mono i j : (i ≤ j)%nat → (j ≤ n)%nat → (F i <= F j)%Qc.
Proof.
  intros Hij Hj. eapply (qcum_up (rates l)); [|apply rates_pos, H|exact Hij|apply qcum_cumf; rewrite rates_length; lia..].
  by apply rates_nonneg.
Qed.

Lemma F_above k : (k ≤ n)%nat → (Phi k <= F k)%Qc.
Proof.
  intros Hk. destruct (decide (k = 0)%nat) as [->|H0]; [rewrite !cumf_0; apply Qcle_refl|].
  destruct (decide (k = n)) as [->|Hn]; [rewrite Phi_end, F_end; apply Qcle_refl|].
  assert ((F n - F k) * (Phi k - Phi 0%nat) <= (F k - F 0%nat) * (Phi n - Phi k))%Qc as Hc.
  { eapply (curve_concave l H 0%nat k n); try lia; apply qcum_cumf; rewrite ?vols_length, ?rates_length; lia. }
  rewrite !cumf_0, Phi_end, F_end in Hc. qclra.
Qed.

(** Twice the trapezoidal area. *)
Fixpoint area (k : nat) : Qc :=
  match k with O => 0 | S k => area k + (F k + F (S k)) * (Phi (S k) - Phi k) end%Qc.

Lemma area_lower k : (k ≤ n)%nat → (Phi k * Phi k <= area k)%Qc.
Proof.
  induction k as [|k IH]; intros Hk; [rewrite cumf_0; cbn; qclra|].
  specialize (IH ltac:(lia)). cbn [area]. pose proof (Phi_mono k (S k) ltac:(lia) Hk) as Hm.
  pose proof (F_above k ltac:(lia)) as H1. pose proof (F_above (S k) ltac:(lia)) as H2.
  set (a := area k) in *. set (x := Phi k) in *. set (x' := Phi (S k)) in *. set (y := F k) in *. set (y' := F (S k)) in *.
  clearbody a x x' y y'. qcnra.
Qed.
Lemma area_upper k : (k ≤ n)%nat → (area k <= 2 * (Phi k * F k))%Qc ∧ ((0 < Phi k)%Qc → (area k < 2 * (Phi k * F k))%Qc) ∧
  (Phi k = 0%Qc → F k = 0%Qc ∧ area k = 0%Qc).
Proof.
  induction k as [|k IH]; intros Hk.
  { rewrite !cumf_0. cbn. split; [qclra|]. split; [intros; qclra|done]. }
  destruct (IH ltac:(lia)) as (IH1 & IH2 & IH3). cbn [area].
  pose proof (Phi_mono k (S k) ltac:(lia) Hk) as Hm. pose proof (F_mono k (S k) ltac:(lia) Hk) as Hm'.
  pose proof (Phi_mono 0%nat k ltac:(lia) ltac:(lia)) as Hm0. pose proof (F_mono 0%nat k ltac:(lia) ltac:(lia)) as Hm0'. rewrite !cumf_0 in Hm0, Hm0'.
  pose proof (F_above (S k) ltac:(lia)) as H2.
  destruct (lookup_lt_is_Some_2 l k) as [p Hp]; [lia|]. pose proof (Phi_step k p Hp) as Es. pose proof (F_step k p Hp) as Ef.
  assert (Phi (S k) = 0%Qc → F (S k) = 0%Qc ∧ Phi k = 0%Qc) as Hz.
  { intros E. assert (Phi k = 0%Qc) as E' by qclra. split; [|done]. destruct (IH3 E') as [E'' _]. rewrite Ef, E''.
    assert (p.2 = 0%Qc) as ->. { pose proof Pi_pos. destruct (cell_ok k p Hp). rewrite E, E' in Es. set (P := Pi) in *. clearbody P.
      destruct (Qcmult_integral p.2 P) as [?|E3]; [qclra|done|]. rewrite E3 in H0. by apply Qclt_not_eq in H0. }
    unfold Qcdiv. rewrite !Qcmult_0_l. qclra. }
  destruct (Qclt_le_dec 0 (Phi k)) as [Hpos|Hnp].
  - specialize (IH2 Hpos).
    assert (area k + (F k + F (S k)) * (Phi (S k) - Phi k) < 2 * (Phi (S k) * F (S k)))%Qc as Hlt.
    { clear -IH2 Hm Hm' Hm0 Hm0' H2. set (a := area k) in *. set (x := Phi k) in *. set (x' := Phi (S k)) in *. set (y := F k) in *. set (y' := F (S k)) in *.
      clearbody a x x' y y'. qcnra. }
    split; [by apply Qclt_le_weak|]. split; [done|]. intros E. exfalso. clear -Hpos Hm E. qclra.
  - assert (Phi k = 0%Qc) as E0 by (clear -Hnp Hm0; qclra). destruct (IH3 E0) as [F0 A0]. rewrite A0, E0, F0.
    destruct (Qclt_le_dec 0 (Phi (S k))) as [Hpos'|Hnp'].
    + assert (0 + (0 + F (S k)) * (Phi (S k) - 0) < 2 * (Phi (S k) * F (S k)))%Qc as Hlt.
      { clear -Hpos' H2. set (x' := Phi (S k)) in *. set (y' := F (S k)) in *. clearbody x' y'. qcnra. }
      split; [by apply Qclt_le_weak|]. split; [done|]. intros E. exfalso. clear -Hpos' E. qclra.
    + assert (Phi (S k) = 0%Qc) as E1 by (clear -Hnp' E0 Hm; qclra). destruct (Hz E1) as [F1 _]. rewrite E1, F1.
      split; [clear; qclra|]. split; [intros Hc; exfalso; clear -Hc; qclra|]. intros _. split; [done|]. clear; qclra.
Qed.

Definition same_time : Prop := ∀ i j p q, l !! i = Some p → l !! j = Some q → (0 < p.2)%Qc → (0 < q.2)%Qc → p.1 = q.1.

Lemma same_time_diag : same_time → ∀ k, (k ≤ n)%nat → F k = Phi k.
Proof.
  intros Hs. destruct H as [Ht Hv _ (p & Hp & Hpv)]. pose proof (vols_pos l H) as Pv. pose proof (rates_pos l H) as Pr.
  apply elem_of_list_lookup in Hp as [i Hi].
  assert (∀ m : list (Qc * Qc), (∀ q, q ∈ m → q ∈ l) → qsum (vols m) = (p.1 * qsum (rates m))%Qc) as E.
  { induction m as [|q m IH]; intros Hm; [cbn; qclra|].
    change (qsum (vols (q :: m))) with (q.2 + qsum (vols m))%Qc.
    change (qsum (rates (q :: m))) with (q.2 / q.1 + qsum (rates m))%Qc.
    rewrite IH by (intros; apply Hm; by right).
    assert (q.2 = p.1 * (q.2 / q.1))%Qc as E.
    { assert (q ∈ l) as Hq by (apply Hm; left). apply elem_of_list_lookup in Hq as [j Hj].
      rewrite Forall_lookup in Ht, Hv. destruct (Qclt_le_dec 0 q.2) as [Hq|Hq].
      - rewrite (Hs i j p q Hi Hj Hpv Hq). rewrite Qcmult_comm. symmetry. apply rate_vol. by eapply Ht.
      - assert (q.2 = 0%Qc) as ->. { specialize (Hv _ _ Hj). cbn in Hv. clear -Hv Hq. qclra. } unfold Qcdiv. rewrite Qcmult_0_l. clear; qclra. }
    set (r := (q.2 / q.1)%Qc) in *. clearbody r. clear -E. qclra. }
  intros k Hk. unfold cumf.
  assert (take k (vols l) = vols (take k l)) as -> by (unfold vols; by rewrite fmap_take).
  assert (take k (rates l) = rates (take k l)) as -> by (unfold rates; by rewrite fmap_take).
  rewrite (E (take k l)) by (intros q Hq; rewrite <-(take_drop k l); set_solver).
  rewrite (E l) in Pv |- * by done.
  assert (0 < p.1)%Qc as Hp by (rewrite Forall_lookup in Ht; by eapply Ht).
  assert (p.1 ≠ 0)%Qc as N1 by (intros Ez; rewrite Ez in Hp; by apply Qclt_not_eq in Hp).
  assert (qsum (rates l) ≠ 0)%Qc as N2 by (intros Ez; rewrite Ez in Pr; by apply Qclt_not_eq in Pr).
  field. split; [done|done].
Qed.
End curve.
