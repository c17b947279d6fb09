(** Regrouping the wells of a problem, in exact arithmetic and without cycles: property C75. *)
From Coq Require Import QArith Qcanon.
From Verif.Model Require Import Base Num OMap Containers Solution AssembledConnections Tarjan TracerTofSolver Toolbox DerivedQuantities.
From Verif.Spec Require Import ToolboxSpec MirrorSpec DerivedSpec CyclicSpec MergeSpec.
From Verif.Proofs Require Import Util OMapFacts ExactNum QcLra OrdLaws ToolboxState ToolboxRates SolverBase SolverRun SolverTop SolverGen
  ToolboxFlow ToolboxVal ToolboxSane ToolboxThms GaussSeidel ExactRun ToolboxExact Duality Balance Cyclic.
Open Scope Z_scope.

Section merge.
Context (p : @problem exact) (g : cgraph) (f : cvalues) (Hp : valid p) (HP : poses p g f).
Context (HD : data finite p) (HV : pores_ok p).
Context (p' : @problem exact) (g' : cgraph) (f' : cvalues) (Hp' : valid p') (HP' : poses p' g' f').
Context (HD' : data finite p') (HV' : pores_ok p').
Context (Hac : acyclic (net_arcs p)) (d : direction) (HR : regrouped d p p').
Notation n := (pb_cells p).
Notation m := (pb_rates p).
Notation all := (seqZ 0 n).
Notation cq := (@cq).
Local Notation fin x := (Fin x : @num exact).
Local Open Scope Qc_scope.

Lemma same_flow : flow d p' = flow d p.
Proof. destruct HR as [E1 E2 _ _]. unfold flow, net_arcs. by rewrite E2. Qed.
Lemma same_acyclic : acyclic (net_arcs p').
Proof. destruct HR as [E1 E2 _ _]. unfold net_arcs in *. by rewrite E2. Qed.
Lemma same_Tt v : (0 ≤ v < n)%Z → Tt p' d v = Tt p d v.
Proof. intros Hv. unfold Tt, total_in. rewrite same_flow. destruct HR as [E1 _ _ ET]. by rewrite E1, (ET v Hv). Qed.
Lemma same_Wt u v : Wt p' d u v = Wt p d u v.
Proof. unfold Wt. by rewrite same_flow. Qed.
Lemma same_pvq v : pvq p' v = pvq p v.
Proof. unfold pvq, pore. destruct HR as [_ _ EP _]. by rewrite EP. Qed.
Lemma same_late v : (0 ≤ v < n)%Z → late p' d v = late p d v.
Proof. intros Hv. unfold late. by rewrite same_Tt, same_pvq. Qed.

Context (ev ev' : env) (sets sets' : list cellset) (sol sol' : @solution exact).
Context (H : diagnose d ev g p f sets = Ok (OSol sol)) (H' : diagnose d ev' g' p' f' sets' = Ok (OSol sol')).
Context (G G' : list cellset_id).
Context (HG : ∀ i, i ∈ G → is_well d m i → i ∈ map cs_id sets).
Context (HG' : ∀ i, i ∈ G' → is_well d (pb_rates p') i → i ∈ map cs_id sets').
Context (HJ : same_rates d p p' G G').

Lemma sum_rates v : (0 ≤ v < n)%Z → qsum (map (λ i, rq p' d i v) G') = qsum (map (λ i, rq p d i v) G).
Proof. intros Hv. pose proof (HJ v Hv) as E. rewrite (joint_q p' Hp' HD'), (joint_q p Hp HD) in E. by injection E. Qed.

Lemma sums_equal (h h' : cellset_id → Z → Qc) :
  (∀ i, i ∈ G → well_exact p d sol i (h i)) → (∀ i, i ∈ G' → well_exact p' d sol' i (h' i)) →
  ∀ v, (0 ≤ v < n)%Z → qsum (map (λ i, cq sol' i v) G') = qsum (map (λ i, cq sol i v) G) ∧
    qsum (map (λ i, cq sol' i v * h' i v) G') = qsum (map (λ i, cq sol i v * h i v) G).
Proof.
  intros Hh Hh'.
  apply (topo_ind p g f Hp HP d ev sets sol (λ v, qsum (map (λ i, cq sol' i v) G') = qsum (map (λ i, cq sol i v) G) ∧
    qsum (map (λ i, cq sol' i v * h' i v) G') = qsum (map (λ i, cq sol i v * h i v) G)) Hac H).
  intros v Hv IH.
  assert (∀ u, u ∈ all → qsum (map (λ i, cq sol' i u * Wt p d u v) G') = qsum (map (λ i, cq sol i u * Wt p d u v) G)) as M1.
  { intros u Hu. destruct (decide (flows (flow d p) u v)) as [Hf|Hf].
    - rewrite (qsum_ext _ (λ i, Wt p d u v * cq sol' i u)) by (intros; ring). rewrite (qsum_ext (λ i, cq sol i u * _) (λ i, Wt p d u v * cq sol i u)) by (intros; ring).
      rewrite !qsum_scale, (proj1 (IH u Hf)). done.
    - rewrite Wt_none by done. rewrite !qsum_0; [done|intros; ring|intros; ring]. }
  assert (∀ u, u ∈ all → qsum (map (λ i, h' i u * cq sol' i u * Wt p d u v) G') = qsum (map (λ i, h i u * cq sol i u * Wt p d u v) G)) as M2.
  { intros u Hu. destruct (decide (flows (flow d p) u v)) as [Hf|Hf].
    - rewrite (qsum_ext _ (λ i, Wt p d u v * (cq sol' i u * h' i u))) by (intros; ring). rewrite (qsum_ext (λ i, h i u * _ * _) (λ i, Wt p d u v * (cq sol i u * h i u))) by (intros; ring).
      rewrite !qsum_scale, (proj2 (IH u Hf)). done.
    - rewrite Wt_none by done. rewrite !qsum_0; [done|intros; ring|intros; ring]. }
  assert (∀ i, i ∈ G → (Tt p d v = 0 → cq sol i v = 0) ∧
    Tt p d v * cq sol i v = qsum (map (λ u, cq sol i u * Wt p d u v) all) + rq p d i v ∧
    (late p d v = true → cq sol i v * h i v = gs_M * cq sol i v) ∧
    (late p d v = false → Tt p d v * (cq sol i v * h i v) = pvq p v * cq sol i v + qsum (map (λ u, h i u * cq sol i u * Wt p d u v) all))) as F.
  { intros i Hi. destruct (Hh i Hi) as [_ Hw]. destruct (Hw v) as (_ & _ & _ & _ & F1 & F2 & F3 & F4). split_and!; [done|done| |].
    - intros El. destruct (Qc_eq_dec (cq sol i v) 0) as [->|Ez]; [ring|]. rewrite (F3 El Ez). ring.
    - intros El. rewrite Qcmult_assoc. by apply F4. }
  assert (∀ i, i ∈ G' → (Tt p d v = 0 → cq sol' i v = 0) ∧
    Tt p d v * cq sol' i v = qsum (map (λ u, cq sol' i u * Wt p d u v) all) + rq p' d i v ∧
    (late p d v = true → cq sol' i v * h' i v = gs_M * cq sol' i v) ∧
    (late p d v = false → Tt p d v * (cq sol' i v * h' i v) = pvq p v * cq sol' i v + qsum (map (λ u, h' i u * cq sol' i u * Wt p d u v) all))) as F'.
  { intros i Hi. destruct (Hh' i Hi) as [_ Hw]. destruct (Hw v) as (_ & _ & _ & _ & F1 & F2 & F3 & F4).
    rewrite (same_Tt v Hv) in F1, F2, F4. rewrite (same_late v Hv) in F3, F4. rewrite same_pvq in F4. rewrite (rg_cells _ _ _ HR) in F2, F4.
    split_and!; [done| | |].
    - rewrite F2. f_equal. apply qsum_ext. intros u _. by rewrite same_Wt.
    - intros El. destruct (Qc_eq_dec (cq sol' i v) 0) as [->|Ez]; [ring|]. rewrite (F3 El Ez). ring.
    - intros El. rewrite Qcmult_assoc, (F4 El). f_equal. apply qsum_ext. intros u _. by rewrite same_Wt. }
  assert (qsum (map (λ i, cq sol' i v) G') = qsum (map (λ i, cq sol i v) G)) as E1.
  { destruct (Qc_eq_dec (Tt p d v) 0) as [ET|ET].
    - rewrite !qsum_0; [done|intros i Hi; by apply (F i Hi)|intros i Hi; by apply (F' i Hi)].
    - apply (qcancel (Tt p d v)); [done|]. rewrite <-!qsum_scale.
      rewrite (qsum_ext _ (λ i, qsum (map (λ u, cq sol' i u * Wt p d u v) all) + rq p' d i v)) by (intros i Hi; apply (F' i Hi)).
      rewrite (qsum_ext (λ i, Tt p d v * cq sol i v) (λ i, qsum (map (λ u, cq sol i u * Wt p d u v) all) + rq p d i v)) by (intros i Hi; apply (F i Hi)).
      rewrite !qsum_plus, !(qsum_swap _ _ (seqZ 0 n)), (sum_rates v Hv). f_equal. by apply qsum_ext. }
  split; [done|]. destruct (late p d v) eqn:El.
  - rewrite (qsum_ext _ (λ i, gs_M * cq sol' i v)) by (intros i Hi; by apply (F' i Hi)).
    rewrite (qsum_ext (λ i, cq sol i v * h i v) (λ i, gs_M * cq sol i v)) by (intros i Hi; by apply (F i Hi)).
    by rewrite !qsum_scale, E1.
  - destruct (Qc_eq_dec (Tt p d v) 0) as [ET|ET].
    + rewrite !qsum_0; [done|intros i Hi; rewrite (proj1 (F i Hi) ET); ring|intros i Hi; rewrite (proj1 (F' i Hi) ET); ring].
    + apply (qcancel (Tt p d v)); [done|]. rewrite <-!qsum_scale.
      rewrite (qsum_ext _ (λ i, pvq p v * cq sol' i v + qsum (map (λ u, h' i u * cq sol' i u * Wt p d u v) all))) by (intros i Hi; by apply (F' i Hi)).
      rewrite (qsum_ext (λ i, Tt p d v * _) (λ i, pvq p v * cq sol i v + qsum (map (λ u, h i u * cq sol i u * Wt p d u v) all))) by (intros i Hi; by apply (F i Hi)).
      rewrite !qsum_plus, !qsum_scale, !(qsum_swap _ _ (seqZ 0 n)), E1. f_equal. by apply qsum_ext.
Qed.

Lemma choose : ∃ h h', (∀ i, i ∈ G → well_exact p d sol i (h i)) ∧ (∀ i, i ∈ G' → well_exact p' d sol' i (h' i)).
Proof.
  destruct (list_choice (λ i τ, well_exact p d sol i τ) (λ _, 0) G) as [h Hh].
  { intros i Hi. apply (local_exact p g f Hp HP HD HV Hac d ev sets sol i H). by apply HG. }
  destruct (list_choice (λ i τ, well_exact p' d sol' i τ) (λ _, 0) G') as [h' Hh'].
  { intros i Hi. apply (local_exact p' g' f' Hp' HP' HD' HV' same_acyclic d ev' sets' sol' i H'). by apply HG'. }
  by exists h, h'.
Qed.

Lemma regroup_conc v : (0 ≤ v < n)%Z →
  sum_left (map (λ i, value_at (sol_concentration sol' i) v) G') = sum_left (map (λ i, value_at (sol_concentration sol i) v) G).
Proof.
  intros Hv. destruct choose as (h & h' & Hh & Hh').
  rewrite (sum_left_fin (λ i, value_at (sol_concentration sol' i) v) (λ i, cq sol' i v)) by (intros i Hi; apply (Hh' i Hi)).
  rewrite (sum_left_fin (λ i, value_at (sol_concentration sol i) v) (λ i, cq sol i v)) by (intros i Hi; apply (Hh i Hi)).
  f_equal. by apply (sums_equal h h').
Qed.

Lemma early_eq (q : @problem exact) (s : @solution exact) i τ v : well_exact q d s i τ → (∀ t, om_find v (sol_tof s i) = Some t → nltb t max_tof = true) →
  cq s i v * mq (τ v) = cq s i v * τ v ∧ cq s i v * τ v <= cq s i v * gs_M.
Proof.
  intros [_ Hw] He. destruct (Hw v) as (W1 & W2 & Ht & Hn & _). destruct (om_find v (sol_tof s i)) as [t|] eqn:E.
  - specialize (Ht t eq_refl). rewrite mq_fin in Ht. specialize (He t eq_refl). rewrite Ht in He. apply mq_early in He as [-> Hlt].
    split; [done|]. apply Qclt_le_weak in Hlt. destruct W2 as [W2 _]. qcnra.
  - rewrite Hn by done. split; [ring|]. rewrite !Qcmult_0_l. apply Qcle_refl.
Qed.

Lemma regroup_times v : (0 ≤ v < n)%Z →
  (∀ i t, i ∈ G → om_find v (sol_tof sol i) = Some t → nltb t max_tof = true) →
  (∀ i t, i ∈ G' → om_find v (sol_tof sol' i) = Some t → nltb t max_tof = true) →
  sum_left (map (λ i, nmul (value_at (sol_concentration sol' i) v) (value_at (sol_tof sol' i) v)) G') =
  sum_left (map (λ i, nmul (value_at (sol_concentration sol i) v) (value_at (sol_tof sol i) v)) G).
Proof.
  intros Hv He He'. destruct choose as (h & h' & Hh & Hh').
  rewrite (sum_left_fin _ (λ i, cq sol' i v * mq (h' i v))) by (intros i Hi; apply (well_times p' d); by apply Hh').
  rewrite (sum_left_fin (λ i, nmul (value_at (sol_concentration sol i) v) _) (λ i, cq sol i v * mq (h i v))) by (intros i Hi; apply (well_times p d); by apply Hh).
  f_equal. rewrite (qsum_ext _ (λ i, cq sol' i v * h' i v)) by (intros i Hi; apply (early_eq p'); [by apply Hh'|by intros t; apply He']).
  rewrite (qsum_ext (λ i, cq sol i v * mq _) (λ i, cq sol i v * h i v)) by (intros i Hi; apply (early_eq p); [by apply Hh|by intros t; apply He]).
  by apply (sums_equal h h').
Qed.

(** One well made of several. *)
Lemma merge_times j v : G' = [j] → (0 ≤ v < n)%Z →
  let Y := sum_left (map (λ i, nmul (value_at (sol_concentration sol i) v) (value_at (sol_tof sol i) v)) G) in
  let Y' := nmul (value_at (sol_concentration sol' j) v) (value_at (sol_tof sol' j) v) in
  nleb Y Y' = true ∧ ((∀ i t, i ∈ G → om_find v (sol_tof sol i) = Some t → nltb t max_tof = true) → Y = Y').
Proof.
  intros EG Hv. cbn zeta. destruct choose as (h & h' & Hh & Hh'). destruct (sums_equal h h' Hh Hh' v Hv) as [Q1 Q2].
  assert (well_exact p' d sol' j (h' j)) as Hj by (apply Hh'; rewrite EG; left).
  rewrite EG in Q1, Q2. unfold qsum in Q1 at 1, Q2 at 1. cbn [map foldr] in Q1, Q2. rewrite Qcplus_0_r in Q1, Q2.
  rewrite (well_times p' d _ _ _ _ Hj).
  rewrite (sum_left_fin (λ i, nmul (value_at (sol_concentration sol i) v) _) (λ i, cq sol i v * mq (h i v))) by (intros i Hi; apply (well_times p d); by apply Hh).
  assert (∀ i, i ∈ G → 0 <= cq sol i v) as Hc0 by (intros i Hi; apply (Hh i Hi)).
  assert (qsum (map (λ i, cq sol i v * gs_M) G) = cq sol' j v * gs_M) as EM.
  { rewrite (qsum_ext _ (λ i, gs_M * cq sol i v)) by (intros; ring). rewrite qsum_scale, <-Q1. ring. }
  split.
  - apply xleb_Fin. unfold mq at 2. destruct (Qc_ltb gs_M (h' j v)) eqn:E.
    + rewrite <-EM. apply qsum_le. intros i Hi. pose proof (mq_le (h i v)). pose proof (Hc0 i Hi). qcnra.
    + rewrite Q2. apply qsum_le. intros i Hi. pose proof (mq_le (h i v)). pose proof (Hc0 i Hi). qcnra.
  - intros Hearly. f_equal.
    assert (∀ i, i ∈ G → cq sol i v * mq (h i v) = cq sol i v * h i v ∧ cq sol i v * h i v <= cq sol i v * gs_M) as He.
    { intros i Hi. apply (early_eq p); [by apply Hh|by intros t; apply Hearly]. }
    rewrite (qsum_ext _ (λ i, cq sol i v * h i v)) by (intros i Hi; by apply He). rewrite <-Q2.
    assert (cq sol' j v * h' j v <= cq sol' j v * gs_M) as Hle. { rewrite Q2, <-EM. apply qsum_le. intros i Hi. by apply He. }
    unfold mq. destruct (Qc_ltb gs_M (h' j v)) eqn:E; [|done]. apply Qc_ltb_true in E.
    destruct Hj as [_ Hj]. destruct (Hj v) as (_ & [Hpos _] & _).
    destruct (qle_eq_or_lt _ Hpos) as [E0|Hp0]; [rewrite E0; ring|]. exfalso. qcnra.
Qed.
End merge.
