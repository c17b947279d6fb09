(** Volumes and times of a pair of wells, in exact arithmetic. *)
From Coq Require Import String QArith Qcanon.
From Verif.Model Require Import Base Num OMap Containers Solution AssembledConnections Tarjan TracerTofSolver Toolbox DerivedQuantities.
From Verif.Spec Require Import GraphSpec FlowSpec DerivedSpec PairSpec ToolboxSpec MirrorSpec CyclicSpec.
From Verif.Proofs Require Import Util OMapFacts AConn ExactNum QcLra OrdLaws DerivedExact DerivedMisc DerivedTop SolverBase SolverRun SolverTop SolverGen GaussSeidel ExactRun ToolboxState ToolboxRates ToolboxFlow ToolboxVal ToolboxSane ToolboxThms ToolboxExact Duality Balance Cyclic.
Open Scope Z_scope.

(** The tables of a solution are in ascending order of cells. *)
Section sorted.
Context {N : Num} (p : problem) (g : cgraph) (f : cvalues) (Hp : valid p) (HP : poses p g f).
Lemma diagnose_wf d ev sets sol id : diagnose d ev g p f sets = Ok (OSol sol) →
  om_wf (sol_tof sol id) ∧ om_wf (sol_concentration sol id).
Proof.
  intros H. destruct (decide (id ∈ map cs_id sets)) as [Hid|Hid].
  2:{ destruct (diagnose_other p g f Hp HP d ev sets sol id H Hid) as [-> ->]. split; apply om_nil_wf. }
  destruct (diagnose_eq p g f Hp HP d) as (s & HS & E). rewrite E in H. destruct (start_sets_ok _ _ sets); [|done].
  destruct (val_inv p d s ev sets sol H) as [_ Hl]. destruct (Hl id) as [H1 _]. destruct (H1 Hid) as (j & Hj).
  destruct (lval_inv p d s _ _ _ _ _ Hj) as (st & Hrun & Hpos & Et & Ec).
  rewrite Et, Ec. split; apply tab_map_wf, om_nil_wf.
Qed.
End sorted.

Lemma value_some {N : Num} (l : cellset_values) v x : om_find v l = Some x → value_at l v = x.
Proof. unfold value_at. by intros ->. Qed.

Section times.
Context (p : @problem exact) (g : cgraph) (f : cvalues) (Hp : valid p) (HP : poses p g f).
Context (HD : data finite p) (HV : pores_ok p).
Notation n := (pb_cells p).
Notation m := (pb_rates p).
Notation src d := (only d (split_rates m)).
Notation all := (seqZ 0 n).
Notation Tt := (Tt p).
Notation Wt := (Wt p).
Notation rq := (rq p).
Notation pvq := (pvq p).
Notation infl d v := (qsum (map (λ u, Wt d u v) all)).
Local Notation fin x := (Fin x : @num exact).
Local Open Scope Qc_scope.

(** Pair volume as a sum over all cells. *)
Lemma conc_stores d ev sets sol id : diagnose d ev g p f sets = Ok (OSol sol) →
  stores (sol_concentration sol id) (λ v, qv <$> om_find v (sol_concentration sol id)).
Proof.
  intros H. destruct (diagnose_wf p g f Hp HP d ev sets sol id H) as [_ Hwf].
  split.
  - exact Hwf.
  - intros c x. rewrite <-om_find_elem by done. split.
    + intros E. exists (qv x). split; [exact (f_equal (fmap qv) E)|].
      rewrite <-(@value_some exact _ _ _ E). by rewrite (proj1 (well_values p g f Hp HP HD HV d ev sets sol id H c)).
    + intros (q & Eq & ->). apply fmap_Some in Eq as (y & E & ->). etransitivity; [exact E|]. f_equal.
      rewrite <-(@value_some exact _ _ _ E). by rewrite (proj1 (well_values p g f Hp HP HD HV d ev sets sol id H c)).
Qed.

Lemma at_conc (l : @cellset_values exact) v : PairSpec.at_cell (λ v, qv <$> om_find v l) v = qv (value_at l v).
Proof. unfold PairSpec.at_cell, value_at. generalize (om_find v l). intros [x|]; [done|]. by rewrite exact_n0. Qed.
Lemma pvs : pb_pv p = fins (map qv (pb_pv p)).
Proof.
  unfold fins. rewrite <-list_fmap_compose. rewrite <-(list_fmap_id (pb_pv p)) at 1. apply list_fmap_ext. intros i x Hx.
  pose proof (da_pv _ _ HD x (elem_of_list_lookup_2 _ _ _ Hx)) as [q ->]. done.
Qed.
Lemma conc_range d ev sets sol id v : diagnose d ev g p f sets = Ok (OSol sol) → is_Some (om_find v (sol_concentration sol id)) → (0 ≤ v < n)%Z.
Proof.
  intros H [x Hx]. destruct (decide (id ∈ map cs_id sets)) as [Hid|Hid].
  - destruct (diagnose_local p g f Hp HP d ev sets sol id H Hid) as (inj & comps & st & _ & _ & Hr & _ & _ & _ & Hc).
    rewrite Hc in Hx. destruct (decide (v ∈ concat comps)) as [Hv|]; [|done]. by apply Hr.
  - destruct (diagnose_other p g f Hp HP d ev sets sol id H Hid) as [_ E]. by rewrite E in Hx.
Qed.
Lemma volume_q d d' ev ev' sets sets' sol sol' i j : diagnose d ev g p f sets = Ok (OSol sol) → diagnose d' ev' g p f sets' = Ok (OSol sol') →
  pair_volume sol sol' (pb_pv p) i j = Ok (fin (qsum (map (λ v, pvq v * (cq sol i v * cq sol' j v)) all))).
Proof.
  intros H H'. rewrite pvs at 1.
  rewrite (volume_value sol sol' (map qv (pb_pv p)) i j _ _ (conc_stores d ev sets sol i H) (conc_stores d' ev' sets' sol' j H')).
  2:{ intros c Hc _. rewrite map_length. destruct (om_find c (sol_concentration sol i)) as [x|] eqn:E; [|by destruct Hc].
      pose proof (conc_range d ev sets sol i c H ltac:(by eexists)). pose proof (va_pv _ Hp). unfold zlen in *. lia. }
  do 2 f_equal. rewrite cell_sum_seq. unfold zlen. rewrite map_length.
  assert (Z.of_nat (length (pb_pv p)) = n) as -> by (exact (va_pv _ Hp)).
  apply qsum_ext. intros v _. f_equal.
  - unfold Balance.pvq, pore. rewrite list_lookup_fmap. by destruct (pb_pv p !! Z.to_nat v).
  - by rewrite !at_conc.
Qed.

Context (D : Qc) (PD : 0 <= D) (HDM : D < gs_M).
Notation early sol id := (∀ v t, om_find v (sol_tof sol id) = Some t → nleb t (fin D) = true).
(** What the times of a well leave out in a cell. *)
Lemma well_flow d ev sets sol id : (∀ v, ¬ flows (net_arcs p) v v) → diagnose d ev g p f sets = Ok (OSol sol) →
  early sol id →
  ∃ y : Z → Qc, (∀ v, nmul (value_at (sol_concentration sol id) v) (value_at (sol_tof sol id) v) = fin (y v)) ∧
    (∀ v, 0 <= y v ∧ y v <= D) ∧
    ∀ v, let e := leftover p d y (λ v, pvq v * cq sol id v) v in
      0 <= e ∧ e <= (gs_τt + gs_τc * D) * infl d v ∧ (acyclic (net_arcs p) → e = 0).
Proof.
  intros Hself H Hearly. destruct gs_consts as (E1 & E2 & E3 & Pt & Pc & _ & _).
  assert (0 <= gs_τt + gs_τc * D) as Hk0.
  { pose proof (qmul_nonneg gs_τc D (Qclt_le_weak _ _ Pc) PD) as Hm. set (k := gs_τc * D) in *. clearbody k. qclra. }
  assert (∀ v, 0 <= infl d v) as Hi0 by (intros v; apply qsum_map_nonneg; intros; apply (Wt_nonneg p Hp HD HV)).
  destruct (decide (id ∈ map cs_id sets)) as [Hid|Hid].
  2:{ destruct (diagnose_other p g f Hp HP d ev sets sol id H Hid) as [Ea Eb]. exists (λ _, 0). rewrite Ea, Eb.
    split; [done|]. split; [intros v; done|]. intros v. cbn zeta.
    assert (leftover p d (λ _, 0) (λ v, pvq v * cq sol id v) v = 0) as ->.
    { unfold leftover. rewrite qsum_0 by (intros; ring). assert (cq sol id v = 0) as -> by (unfold cq; by rewrite Eb). ring. }
    split; [done|]. split; [|done]. by apply qmul_nonneg. }
  destruct (diagnose_local p g f Hp HP d ev sets sol id H Hid) as (inj & comps & st & Hinj & Ho & Hr & Hrun & _ & Ht & Hc).
  pose proof (finite_local p Hp HD HV d id inj Hinj) as FD.
  destruct (exact_run_timed _ _ _ _ _ FD _ _ Ho) as (fuel & st' & q & Hrun' & Hrep & Hn & Hz & Hst).
  pose proof (run_det _ _ _ _ _ _ _ _ _ _ Hrun Hrun') as <-.
  assert (∀ v, v ∈ concat comps → q.1 v <= D ∧ mq (q.1 v) = q.1 v) as HM.
  { intros v Hv. specialize (Ht v). rewrite decide_True in Ht by done. specialize (Hearly _ _ Ht). rewrite (proj1 (Hrep v)), mq_fin in Hearly.
    apply xleb_Fin in Hearly. 
    assert (nltb (fin (mq (q.1 v))) max_tof = true) as Hlt. { rewrite E3. apply xltb_Fin. eapply Qcle_lt_trans; [exact Hearly|exact HDM]. }
    apply mq_early in Hlt as [E _]. by rewrite E in *. }
  assert (∀ v, 0 <= q.1 v ∧ q.1 v <= D) as HM'.
  { intros v. split; [apply Hn|]. destruct (decide (v ∈ concat comps)) as [Hv|Hv]; [by apply HM|].
    by rewrite (proj1 (Hz v Hv)). }
  assert (∀ v, value_at (sol_concentration sol id) v = fin (q.2 v)) as Hval.
  { intros v. unfold value_at. rewrite Hc. destruct (decide (v ∈ concat comps)) as [|Hv]; [apply Hrep|]. by rewrite exact_n0, (proj2 (Hz v Hv)). }
  assert (∀ v, cq sol id v = q.2 v) as Hcq by (intros v; unfold cq; by rewrite Hval).
  assert (∀ v, Tq n (flow d p) (src d) inj v = Tt d v) as HT by (intros v; unfold Duality.Tt; by rewrite (total_tot p Hp HD HV d id inj v Hinj)).
  exists (yf q). split_and!.
  - intros v. rewrite Hval. destruct (decide (v ∈ concat comps)) as [Hv|Hv].
    + rewrite (value_some _ v (fin (q.1 v))).
      * cbn [num nmul exact xmul]. f_equal. unfold yf. ring.
      * rewrite Ht, decide_True by done. by rewrite (proj1 (Hrep v)), mq_fin, (proj2 (HM v Hv)).
    + unfold value_at. rewrite Ht, decide_False, exact_n0 by done. unfold yf. rewrite (proj2 (Hz v Hv)). cbn [num nmul exact xmul default]. f_equal; ring.
  - intros v. unfold yf. destruct Hn as [Hn _]. destruct (Hn v), (HM' v). split; [by apply qmul_nonneg|].
    eapply Qcle_trans; [|eassumption]. rewrite <-(Qcmult_1_r (q.1 v)) at 2. rewrite !(Qcmult_comm (q.1 v)). by apply Qcmult_le_compat_r.
  - intros v. cbn zeta. destruct (decide (v ∈ concat comps)) as [Hv|Hv].
    + assert (leftover p d (yf q) (λ v, pvq v * cq sol id v) v = tres n (flow d p) (pb_pv p) (src d) inj q v) as ->.
      { unfold leftover, tres. rewrite <-(qmix_all p), HT, Hcq. unfold yf at 2. change (pq (pb_pv p) v) with (pvq v). ring. }
      assert (0 < q.2 v) as Hpos.
      { apply (reached_pos p Hp HD HV d id inj comps q Hinj Ho Hn); [|done]. intros u Hu. by apply Hst. }
      destruct (Hst v Hv) as [_ Htm]. specialize (Htm (all_regular p Hself d v) Hpos).
      destruct (capped _ _ _ _).
      { exfalso. destruct (HM v Hv) as [Hlt _]. rewrite Htm in Hlt. by apply Qclt_not_le in HDM. }
      destruct Htm as [H1 H2]. split; [done|]. split.
      * eapply Qcle_trans; [exact H2|]. rewrite !(qmix_all p).
        assert (qsum (map (λ u, 1 * Wt d u v) all) = infl d v) as -> by (apply qsum_ext; intros; ring).
        assert (qsum (map (λ u, q.1 u * Wt d u v) all) <= D * infl d v) as Hq.
        { rewrite <-qsum_scale. apply qsum_le. intros u _. apply Qcmult_le_compat_r; [apply HM'|apply (Wt_nonneg p Hp HD HV)]. }
        assert (gs_τc * qsum (map (λ u, q.1 u * Wt d u v) all) <= gs_τc * (D * infl d v)) as Hq'.
        { rewrite !(Qcmult_comm gs_τc). apply Qcmult_le_compat_r; [done|by apply Qclt_le_weak]. }
        assert ((gs_τt + gs_τc * D) * infl d v = gs_τt * infl d v + gs_τc * (D * infl d v)) as -> by ring.
        set (a := gs_τt * infl d v) in *. set (b := gs_τc * (D * infl d v)) in *. set (c := gs_τc * _) in *. clearbody a b c. qclra.
      * intros Hac.
        assert (∀ u, tot n (flow d p) (src d) inj u = total_in p d u) as HTt.
        { intros u. rewrite (total_tot p Hp HD HV d id inj u Hinj). apply (tot_fin _ _ _ _ _ FD). }
        destruct (cells_exact p Hp HD HV Hac d inj comps st q _ _ FD HTt Ho Hrun Hrep Hn v Hv) as (C1 & C2 & C3 & C4 & C5).
        destruct (late p d v) eqn:El.
        { exfalso. destruct (HM v Hv) as [Hlt _]. rewrite C3 in Hlt by done. by apply Qclt_not_le in HDM. }
        unfold tres. rewrite (qmix_all p), HT, (C5 eq_refl). change (pq (pb_pv p) v) with (pvq v). change (λ u, yf q u * Wt d u v) with (λ u, q.1 u * q.2 u * Wt d u v). ring.
    + assert (leftover p d (yf q) (λ v, pvq v * cq sol id v) v = 0) as ->; [|split; [done|split; [by apply qmul_nonneg|done]]].
      unfold leftover. rewrite Hcq. unfold yf at 2. rewrite (proj2 (Hz v Hv)). rewrite qsum_0; [ring|]. intros u _.
      destruct (decide (flows (flow d p) u v)) as [Hf|Hf]; [|rewrite Wt_none by done; ring].
      assert (u ∉ concat comps) as Hu; [|unfold yf; rewrite (proj2 (Hz u Hu)); ring].
      intros Hu. apply Hv. apply (oc_cover _ _ _ Ho). apply (oc_cover _ _ _ Ho) in Hu as (r & Hr' & Hl). exists r. split; [done|]. by eapply rtc_r.
Qed.

Notation time_slack := (nmul (nadd (ndiv cutoff (nofZ 1000000000000)) (ndiv (fin D) (nofZ 1000000000))) (sum_left (map (influx n (net_arcs p)) all))).
Lemma time_slack_q : time_slack = fin ((gs_τt + gs_τc * D) * flux_total p).
Proof.
  rewrite (flux_total_q p Hp HD HV). assert (nadd (ndiv cutoff (nofZ 1000000000000)) (ndiv (fin D) (nofZ 1000000000)) = fin (gs_τt + gs_τc * D)) as ->; [|done].
  assert (@ndiv exact cutoff (nofZ 1000000000000) = fin gs_τt) as -> by exact (proj1 gs_consts).
  assert (@ndiv exact (fin D) (nofZ 1000000000) = fin (gs_τc * D)) as ->; [|done].
  rewrite Qcmult_comm. done.
Qed.
Lemma swept_near d ev sets sol id : (∀ v, ¬ flows (net_arcs p) v v) → conserves p → diagnose d ev g p f sets = Ok (OSol sol) → early sol id →
  let out := sum_left (map (λ v, nmul (cell_total (opposite d) m v) (nmul (value_at (sol_concentration sol id) v) (value_at (sol_tof sol id) v))) all) in
  let vol := sum_left (map (λ v, nmul (pore p v) (value_at (sol_concentration sol id) v)) all) in
  nleb out vol = true ∧ nleb vol (nadd out time_slack) = true.
Proof.
  intros Hself Hcons H He. destruct (well_flow d ev sets sol id Hself H He) as (y & Ey & _ & Hl). cbn zeta.
  rewrite time_slack_q.
  rewrite (sum_left_fin _ (λ v, rates p (opposite d) v * y v)).
  2:{ intros v _. by rewrite (cell_total_q p Hp HD HV), Ey. }
  rewrite (sum_left_fin _ (λ v, pvq v * cq sol id v)).
  2:{ intros v _. by rewrite (proj1 (well_values p g f Hp HP HD HV d ev sets sol id H v)), (pore_q p HD HV). }
  pose proof (leftover_sum p Hp HD HV d y (λ v, pvq v * cq sol id v) Hcons) as E.
  assert (0 <= qsum (map (leftover p d y (λ v, pvq v * cq sol id v)) all)) as L1.
  { apply qsum_map_nonneg. intros v _. apply Hl. }
  assert (qsum (map (leftover p d y (λ v, pvq v * cq sol id v)) all) <= (gs_τt + gs_τc * D) * flux_total p) as L2.
  { rewrite <-(flux_total_any p d), <-qsum_scale. apply qsum_le. intros v _. apply Hl. }
  rewrite E in L1, L2. revert L1 L2. generalize (qsum (map (λ v, pvq v * cq sol id v) all)), (qsum (map (λ v, rates p (opposite d) v * y v) all)), ((gs_τt + gs_τc * D) * flux_total p).
  clear. intros a b e L1 L2. cbn [num nadd exact xadd]. split; apply xleb_Fin; qclra.
Qed.

Lemma pair_volume_near d ev ev' sets sets' sol sol' i j : (∀ v, ¬ flows (net_arcs p) v v) → conserves p →
  diagnose d ev g p f sets = Ok (OSol sol) → diagnose (opposite d) ev' g p f sets' = Ok (OSol sol') →
  early sol i → (is_well (opposite d) m j → j ∈ map cs_id sets') →
  let x := sum_left (map (λ v, nmul (joint_rate p (opposite d) [j] v) (nmul (value_at (sol_concentration sol i) v) (value_at (sol_tof sol i) v))) all) in
  ∃ V, pair_volume sol sol' (pb_pv p) i j = Ok V ∧ pair_volume sol' sol (pb_pv p) j i = Ok V ∧
    nleb x (nadd V time_slack) = true ∧ nleb V (nadd x time_slack) = true ∧ (acyclic (net_arcs p) → x = V).
Proof.
  intros Hself Hcons H H' He Hj. destruct (well_flow d ev sets sol i Hself H He) as (y & Ey & By & Hl). cbn zeta.
  rewrite time_slack_q. eexists. split; [by eapply volume_q|]. split.
  { rewrite (volume_q _ _ _ _ _ _ _ _ j i H' H). do 2 f_equal. apply qsum_ext. intros v _. ring. }
  rewrite (sum_left_fin _ (λ v, rq (opposite d) j v * y v)).
  2:{ intros v _. rewrite Ey, (joint_q p Hp HD). cbn [num nmul exact xmul map]. f_equal. unfold qsum. cbn [foldr]. ring. }
  set (e := leftover p d y (λ v, pvq v * cq sol i v)) in *.
  set (e' := leftover p (opposite d) (cq sol' j) (rq (opposite d) j)).
  pose proof (leftover_dual p d y (cq sol' j) (λ v, pvq v * cq sol i v) (rq (opposite d) j) Hcons) as E. fold e e' in E.
  rewrite (qsum_ext (λ v, pvq v * cq sol i v * cq sol' j v) (λ v, pvq v * (cq sol i v * cq sol' j v))) in E by (intros; ring).
  pose proof (λ v, well_leftover p g f Hp HP HD HV Hself (opposite d) ev' sets' sol' j v H' Hj) as He'. fold e' in He'.
  pose proof (λ v, proj2 (well_values p g f Hp HP HD HV (opposite d) ev' sets' sol' j H' v)) as Hc'.
  destruct gs_consts as (_ & _ & _ & Pt & Pc & _ & _).
  assert (∀ k v, 0 <= infl k v) as Hi0 by (intros k v; apply qsum_map_nonneg; intros; apply (Wt_nonneg p Hp HD HV)).
  assert (0 <= qsum (map (λ v, cq sol' j v * e v) all)) as L1.
  { apply qsum_map_nonneg. intros v _. apply qmul_nonneg; [apply Hc'|apply Hl]. }
  assert (qsum (map (λ v, cq sol' j v * e v) all) <= (gs_τt + gs_τc * D) * flux_total p) as L2.
  { rewrite <-(flux_total_any p d), <-qsum_scale. apply qsum_le. intros v _. eapply Qcle_trans; [|apply (Hl v)].
    rewrite <-(Qcmult_1_l (e v)) at 2. apply Qcmult_le_compat_r; [apply Hc'|apply Hl]. }
  assert (0 <= qsum (map (λ v, y v * e' v) all)) as L3.
  { apply qsum_map_nonneg. intros v _. apply qmul_nonneg; [apply By|apply He']. }
  assert (qsum (map (λ v, y v * e' v) all) <= (gs_τt + gs_τc * D) * flux_total p) as L4.
  { rewrite <-(flux_total_any p (opposite d)), <-qsum_scale. apply qsum_le. intros v _.
    transitivity (D * (gs_τc * infl (opposite d) v)).
    - transitivity (D * e' v); [apply Qcmult_le_compat_r; [apply By|apply He']|]. rewrite !(Qcmult_comm D). apply Qcmult_le_compat_r; [apply He'|done].
    - assert ((gs_τt + gs_τc * D) * infl (opposite d) v = D * (gs_τc * infl (opposite d) v) + gs_τt * infl (opposite d) v) as -> by ring.
      pose proof (qmul_nonneg gs_τt (infl (opposite d) v) (Qclt_le_weak _ _ Pt) (Hi0 _ _)) as Hm.
      set (a := gs_τt * _) in *. set (b := D * _) in *. clearbody a b. qclra. }
  split_and!.
  - revert E L1 L2 L3 L4. generalize (qsum (map (λ v, cq sol' j v * e v) all)), (qsum (map (λ v, y v * e' v) all)), ((gs_τt + gs_τc * D) * flux_total p),
      (qsum (map (λ v, rq (opposite d) j v * y v) all)), (qsum (map (λ v, pvq v * (cq sol i v * cq sol' j v)) all)).
    clear. intros a b t x V E L1 L2 L3 L4. cbn [num nadd exact xadd]. apply xleb_Fin; qclra.
  - revert E L1 L2 L3 L4. generalize (qsum (map (λ v, cq sol' j v * e v) all)), (qsum (map (λ v, y v * e' v) all)), ((gs_τt + gs_τc * D) * flux_total p),
      (qsum (map (λ v, rq (opposite d) j v * y v) all)), (qsum (map (λ v, pvq v * (cq sol i v * cq sol' j v)) all)).
    clear. intros a b t x V E L1 L2 L3 L4. cbn [num nadd exact xadd]. apply xleb_Fin; qclra.
  - intros Hac. f_equal. rewrite (qsum_0 (λ v, cq sol' j v * e v)) in E.
    2:{ intros v _. destruct (Hl v) as (_ & _ & Ez). rewrite (Ez Hac). ring. }
    rewrite (qsum_0 (λ v, y v * e' v)) in E.
    2:{ intros v _. assert (e' v = 0) as ->; [|ring].
        destruct (local_exact p g f Hp HP HD HV Hac (opposite d) ev' sets' sol' j H' Hj) as [τ [_ Hw]]. destruct (Hw v) as (_ & _ & _ & _ & _ & Ew & _).
        unfold e', leftover. rewrite Ew. ring. }
    rewrite !Qcplus_0_l in E. exact E.
Qed.
End times.
