(** Balances over wells and over cells, in exact arithmetic and without cycles:
    properties C59-C61. *)
From Coq Require Import QArith Qcanon.
From Verif.Model Require Import Base Num OMap Containers Solution AssembledConnections Tarjan TracerTofSolver Toolbox DerivedQuantities.
From Verif.Spec Require Import ToolboxSpec MirrorSpec DerivedSpec.
From Verif.Proofs Require Import Util OMapFacts ExactNum QcLra OrdLaws ToolboxState ToolboxRates SolverBase SolverRun SolverTop SolverGen
  ToolboxFlow ToolboxVal ToolboxSane ToolboxThms GaussSeidel ExactRun ToolboxExact Duality.
Open Scope Z_scope.

Lemma list_choice {X Y} `{EqDecision X} (P : X → Y → Prop) (y0 : Y) (l : list X) : (∀ x, x ∈ l → ∃ y, P x y) → ∃ h, ∀ x, x ∈ l → P x (h x).
Proof.
  induction l as [|x l IH]; intros H; [exists (λ _, y0); by intros x ?%elem_of_nil|].
  destruct IH as [h Hh]; [intros; apply H; by right|]. destruct (H x) as [y Hy]; [left|].
  exists (λ x', if decide (x' = x) then y else h x'). intros x' Hx'. destruct (decide (x' = x)) as [->|Hne]; [done|].
  apply Hh. by apply elem_of_cons in Hx' as [|].
Qed.

Section balance.
Context (p : @problem exact) (g : cgraph) (f : cvalues) (Hp : valid p) (HP : poses p g f).
Context (HD : data finite p) (HV : pores_ok p).
Context (Hac : acyclic (net_arcs p)).
Notation n := (pb_cells p).
Notation m := (pb_rates p).
Notation src d := (only d (split_rates m)).
Notation all := (seqZ 0 n).
Notation Tt := (Tt p).
Notation Wt := (Wt p).
Notation rq := (rq p).
Local Notation fin x := (Fin x : @num exact).
Local Open Scope Qc_scope.

Definition pvq (v : Z) : Qc := qv (pore p v).
Definition late (d : direction) (v : Z) : bool := Qc_ltb (Tt d v) (pvq v / gs_M).

(** The state of a run without cycles. *)
Lemma cells_exact d inj comps st (q : qstate) P fuel : finite_data n (flow d p) (pb_pv p) (src d) inj →
  (∀ v, tot n (flow d p) (src d) inj v = total_in p d v) →
  ordered (flow d p) P comps → run n (flow d p) (pb_pv p) (src d) inj fuel comps = Ok st → rep st q → nonneg q →
  ∀ v, v ∈ concat comps →
    (Tt d v = 0 → q.2 v = 0) ∧
    Tt d v * q.2 v = qsum (map (λ u, q.2 u * Wt d u v) all) + bq inj v ∧
    (late d v = true → q.1 v = gs_M) ∧
    (late d v = false → q.2 v = 0 → q.1 v = gs_M) ∧
    (late d v = false → Tt d v * q.2 v * q.1 v = pvq v * q.2 v + qsum (map (λ u, q.1 u * q.2 u * Wt d u v) all)).
Proof.
  intros FD HT Ho Hrun Hrep Hn v Hv. pose proof (acyclic_flow p d Hac) as Hac'.
  destruct (run_acyclic _ _ _ _ _ _ _ _ _ Ho Hac' Hrun) as [R1 _]. destruct (R1 v Hv) as (Ec & Et & Hok).
  pose proof (exact_good _ _ _ _ _ FD) as G. destruct Hn as [Hc1 Ht1].
  assert (tot n (flow d p) (src d) inj v = fin (Tt d v)) as ET. { rewrite (tot_fin _ _ _ _ _ FD). unfold Duality.Tt. rewrite <-HT. by rewrite (tot_fin _ _ _ _ _ FD). }
  pose proof (uc_fin _ _ _ _ _ FD st.2 q.2 v (λ u, proj2 (Hrep u))) as Eu. rewrite qmix_all in Eu.
  assert (0 <= qsum (map (λ u, q.2 u * Wt d u v) all)) as Hm0.
  { rewrite <-qmix_all. apply (qmix_nonneg _ _ _ _ _ _ G). intros; apply Hc1. }
  pose proof (g_b _ _ _ _ _ _ G v) as Hb0.
  assert (qsum (map (λ u, q.2 u * Wt d u v) all) + bq inj v = Tt d v * q.2 v ∧ (Tt d v = 0 → q.2 v = 0)) as [E1 E0].
  { unfold cellc in Ec. rewrite ET, Eu, (proj2 (Hrep v)), exact_n0 in Ec. cbn [num neqb ndiv exact xeqb] in Ec. unfold xdiv in Ec.
    destruct (Qc_eqb (Tt d v) 0) eqn:EZ.
    - injection Ec as Ec. apply Qc_eqb_true in EZ. unfold cell_ok in Hok. rewrite ET, Eu, exact_n0, EZ in Hok.
      cbn [num neqb nleb exact xeqb] in Hok. apply andb_true_iff in Hok as [_ Hok]. cbn in Hok. apply Qc_eqb_true in Hok. rewrite Hok, Ec, EZ. split; [ring|done].
    - injection Ec as Ec. apply Qc_eqb_false in EZ. split; [rewrite Ec; field; done|done]. }
  assert (nltb (total_in p d v) (ndiv (pore p v) max_tof) = late d v) as EL.
  { unfold late, pvq. rewrite <-HT, ET. change (pore p v) with (pvf (pb_pv p) v). rewrite (pq_fin _ _ _ _ _ FD).
    destruct gs_consts as (_ & _ & -> & _). cbn [num nltb ndiv exact]. unfold xdiv. by assert (Qc_eqb gs_M 0 = false) as -> by done. }
  unfold cellt in Et. rewrite HT in Et. change (pvf (pb_pv p) v) with (pore p v) in Et. rewrite EL in Et.
  rewrite (proj1 (Hrep v)), (proj2 (Hrep v)) in Et. destruct gs_consts as (_ & _ & EM & _).
  split; [done|]. split; [done|]. destruct (late d v) eqn:Hlate; split_and!; try done.
  - intros _. rewrite EM in Et. by injection Et.
  - intros _ Ez. rewrite Ez, exact_n0, EM in Et. change (@nltb exact (Fin 0) (Fin 0)) with false in Et. cbn iota in Et. by injection Et.
  - intros _. destruct (Qc_eq_dec (q.2 v) 0) as [Ez|Ez].
    { rewrite Ez in *. rewrite qsum_0; [ring|]. intros u Hu.
      assert (∀ u, u ∈ all → 0 <= q.2 u * Wt d u v) as Hnn.
      { intros u' _. apply qmul_nonneg; [apply Hc1|apply (Wt_nonneg p Hp HD HV)]. }
      assert (qsum (map (λ u, q.2 u * Wt d u v) all) = 0) as Es. { apply Qcle_antisym; [|done]. transitivity (Tt d v * 0); [|rewrite Qcmult_0_r; apply Qcle_refl]. rewrite <-E1. qclra. }
      pose proof (qsum_zero _ _ Hnn Es u Hu) as Hz. rewrite <-Qcmult_assoc, Hz. ring. }
    assert (0 < q.2 v) as Hpos. { destruct (qle_eq_or_lt _ (proj1 (Hc1 v))) as [|]; congruence. }
    rewrite exact_n0 in Et. change (@nltb exact (Fin 0) (Fin (q.2 v))) with (Qc_ltb 0 (q.2 v)) in Et.
    rewrite (proj2 (Qc_ltb_true _ _) Hpos) in Et.
    rewrite (mix_fin _ _ _ _ _ FD (λ u, nmul (st.1 u) (st.2 u)) (λ u, q.1 u * q.2 u)) in Et.
    2:{ intros u _. destruct (Hrep u) as [F1 F2]. transitivity (xmul (Fin (q.1 u)) (Fin (q.2 u))); [|done]. f_equal; [exact F1|exact F2]. }
    rewrite qmix_all, <-HT, ET in Et. change (pore p v) with (pvf (pb_pv p) v) in Et. rewrite (pq_fin _ _ _ _ _ FD) in Et.
    cbn [num nmul nadd ndiv exact xmul xadd] in Et. unfold xdiv in Et.
    assert (Tt d v ≠ 0) as HT0 by (intros E; by apply Ez, E0).
    assert (Tt d v * q.2 v ≠ 0) as Hne by (intros E; apply Qcmult_integral in E as [|]; done).
    rewrite (proj2 (Qc_eqb_false _ _) Hne) in Et. injection Et as Et. rewrite Et at 1. unfold pvq, pq, pvf, pore. field. done.
Qed.

Notation cq := (@cq).
(** The equations of one well, in all cells. *)
Definition well_exact (d : direction) (sol : solution) (id : cellset_id) (τ : Z → Qc) : Prop :=
  (∀ v, value_at (sol_concentration sol id) v = fin (cq sol id v)) ∧
  ∀ v, 0 <= τ v ∧ (0 <= cq sol id v ∧ cq sol id v <= 1) ∧
    (∀ t, om_find v (sol_tof sol id) = Some t → t = nmin (fin (τ v)) max_tof) ∧
    (om_find v (sol_tof sol id) = None → cq sol id v = 0) ∧
    (Tt d v = 0 → cq sol id v = 0) ∧
    Tt d v * cq sol id v = qsum (map (λ u, cq sol id u * Wt d u v) all) + rq d id v ∧
    (late d v = true → cq sol id v ≠ 0 → τ v = gs_M) ∧
    (late d v = false → Tt d v * cq sol id v * τ v = pvq v * cq sol id v + qsum (map (λ u, τ u * cq sol id u * Wt d u v) all)).

Lemma local_exact d ev sets sol id : diagnose d ev g p f sets = Ok (OSol sol) →
  (is_well d m id → id ∈ map cs_id sets) → ∃ τ, well_exact d sol id τ.
Proof.
  intros H Hreq. destruct (decide (id ∈ map cs_id sets)) as [Hid|Hid].
  - destruct (local_values p g f Hp HP HD HV d ev sets sol id H Hid) as (inj & comps & st & q & Hinj & Ho & Hrun & Hrep & Hn & Hs & Ht & Hc & Hval).
    pose proof (finite_local p Hp HD HV d id inj Hinj) as FD.
    assert (∀ v, cq sol id v = q.2 v) as Hcq by (intros v; unfold Duality.cq; by rewrite Hval).
    assert (∀ v, bq inj v = rq d id v) as Hb by (intros v; unfold bq, Duality.rq; by rewrite Hinj).
    exists q.1. split; [intros v; by rewrite Hcq|]. intros v.
    rewrite (qsum_ext (λ u, cq sol id u * Wt d u v) (λ u, q.2 u * Wt d u v)) by (intros u _; by rewrite Hcq).
    rewrite (qsum_ext (λ u, q.1 u * cq sol id u * Wt d u v) (λ u, q.1 u * q.2 u * Wt d u v)) by (intros u _; by rewrite Hcq).
    rewrite Hcq, <-Hb. split; [apply Hn|]. split; [apply Hn|]. rewrite Ht.
    destruct (decide (v ∈ concat comps)) as [Hv|Hv].
    + split; [by intros t [= <-]|]. split; [done|].
      assert (∀ u, tot n (flow d p) (src d) inj u = total_in p d u) as HT.
      { intros u. rewrite (total_tot p Hp HD HV d id inj u Hinj). apply (tot_fin _ _ _ _ _ FD). }
      destruct (cells_exact d inj comps st q _ _ FD HT Ho Hrun Hrep Hn v Hv) as (C1 & C2 & C3 & C4 & C5).
      split_and!; try done. intros Hl _. by apply C3.
    + assert (∀ u, u ∉ concat comps → q.2 u = 0) as Hz.
      { intros u Hu. pose proof (Hval u) as E. unfold value_at in E. rewrite Hc, decide_False, exact_n0 in E by done. by injection E. }
      assert (∀ u, q.2 u * Wt d u v = 0) as Hm.
      { intros u. destruct (decide (flows (flow d p) u v)) as [Hf|Hf]; [|rewrite Wt_none by done; ring].
        rewrite Hz; [ring|]. intros Hu. apply Hv. apply (oc_cover _ _ _ Ho). apply (oc_cover _ _ _ Ho) in Hu as (r & Hr & Hl). exists r. split; [done|]. by eapply rtc_r. }
      rewrite (Hz v Hv). split; [done|]. split; [done|]. split; [done|].
      rewrite (qsum_0 (λ u, q.2 u * Wt d u v)) by done.
      rewrite (qsum_0 (λ u, q.1 u * q.2 u * Wt d u v)) by (intros u _; rewrite <-Qcmult_assoc, Hm; ring).
      assert (bq inj v = 0) as ->.
      { unfold bq. rewrite Hinj. destruct (well_rate d m id v) as [r|] eqn:E; [|done]. exfalso. apply Hv, (oc_cover _ _ _ Ho). exists v. split; [by eexists|]. apply rtc_refl. }
      split_and!; [ring|done|intros _; ring].
  - destruct (diagnose_other p g f Hp HP d ev sets sol id H Hid) as [E1 E2].
    assert (∀ v, cq sol id v = 0) as Hz by (intros v; unfold Duality.cq; by rewrite E2).
    exists (λ _, 0). split; [intros v; by rewrite Hz, E2|]. intros v. rewrite !Hz, E1. split; [done|]. split; [done|].
    split; [done|]. split; [done|]. split; [done|].
    rewrite (qsum_0 (λ u, cq sol id u * Wt d u v)) by (intros u _; rewrite Hz; ring).
    rewrite (qsum_0 (λ u, 0 * cq sol id u * Wt d u v)) by (intros u _; ring).
    split_and!; [|done|intros _; ring]. unfold Duality.rq. destruct (well_rate d m id v) as [r|] eqn:E; [|ring].
    exfalso. apply Hid, Hreq. by exists v, r.
Qed.

Definition rates (d : direction) (v : Z) : Qc := qsum (map (λ id, rq d id v) (map fst m)).
Lemma cell_total_q d v : cell_total d m v = fin (rates d v).
Proof.
  pose proof (total_fin p Hp HD HV d v) as E. unfold total_in in E. rewrite (influx_fin _ _ _ _ _ (finite_global p Hp HD HV d)), qmix_all in E.
  rewrite (qsum_ext _ (λ u, Wt d u v)) in E by (intros; ring). destruct (ToolboxExact.total_fin p Hp HD d v) as (s & Es & _). rewrite Es in *.
  cbn [num nadd exact xadd] in E. apply (f_equal qv) in E. cbn [qv] in E. f_equal. unfold rates.
  transitivity (qsum (map (λ u, Wt d u v) all) + s - qsum (map (λ u, Wt d u v) all)); [ring|]. rewrite E. ring.
Qed.
(** The equations of all wells together. *)
Lemma global_exact d ev sets sol : diagnose d ev g p f sets = Ok (OSol sol) → zlen (sol_global_tof sol) = n ∧
  ∃ τ c : Z → Qc, ∀ v, (0 ≤ v < n)%Z → 0 <= τ v ∧ (0 <= c v ∧ c v <= 1) ∧
    sol_global_tof sol !! Z.to_nat v = Some (nmin (fin (τ v)) max_tof) ∧
    (Tt d v = 0 → c v = 0) ∧
    Tt d v * c v = qsum (map (λ u, c u * Wt d u v) all) + rates d v ∧
    (late d v = true → τ v = gs_M) ∧
    (c v = 0 → τ v = gs_M) ∧
    (late d v = false → Tt d v * c v * τ v = pvq v * c v + qsum (map (λ u, τ u * c u * Wt d u v) all)).
Proof.
  intros H. pose proof (va_cells _ Hp).
  destruct (diagnose_global p g f Hp HP d ev sets sol H) as (comps & st & Ho & Hrun & ->). split; [apply tab_zlen; lia|].
  pose proof (finite_global p Hp HD HV d) as FD.
  destruct (exact_run _ _ _ _ _ FD _ _ Ho) as (fuel & st' & q & Hrun' & Hrep & Hn & Hz & Hst).
  pose proof (run_det _ _ _ _ _ _ _ _ _ _ Hrun Hrun') as <-. exists q.1, q.2. intros v Hv.
  rewrite tab_lookup_Z by done. split; [apply Hn|]. split; [apply Hn|]. split; [by rewrite (proj1 (Hrep v))|].
  assert (v ∈ concat comps) as Hin by by apply (oc_cover _ _ _ Ho).
  assert (∀ u, tot n (flow d p) (src d) (ginj (src d)) u = total_in p d u) as HT.
  { intros u. rewrite (total_glob p Hp HD HV d u). apply (tot_fin _ _ _ _ _ FD). }
  destruct (cells_exact d _ comps st q _ _ FD HT Ho Hrun Hrep Hn v Hin) as (C1 & C2 & C3 & C4 & C5).
  assert (bq (ginj (src d)) v = rates d v) as Hb.
  { unfold bq, ginj. rewrite only_value by apply (va_rates _ Hp). rewrite cell_total_q, exact_n0. cbn [num nltb exact xltb].
    destruct (Qc_ltb 0 (rates d v)) eqn:E; [done|]. apply Qc_ltb_false in E. destruct (ToolboxExact.total_fin p Hp HD d v) as (s & Es & Hs).
    rewrite cell_total_q in Es. apply (f_equal qv) in Es. cbn [qv] in Es. rewrite <-Es in Hs. by apply Qcle_antisym. }
  rewrite Hb in C2. split_and!; try done. intros E0. destruct (late d v) eqn:El; [by apply C3|by apply C4].
Qed.

Lemma qcancel (a x y : Qc) : a ≠ 0 → a * x = a * y → x = y.
Proof. intros Ha E. rewrite <-(Qcmult_1_l x), <-(Qcmult_1_l y), <-(Qcmult_inv_l a Ha), <-!Qcmult_assoc. by rewrite E. Qed.

(** ** C60 *)
Definition mq (x : Qc) : Qc := if Qc_ltb gs_M x then gs_M else x.
Lemma mq_fin x : nmin (fin x) max_tof = fin (mq x).
Proof. destruct gs_consts as (_ & _ & -> & _). unfold nmin, mq. cbn [num nltb exact xltb]. by destruct (Qc_ltb gs_M x). Qed.
Lemma mq_le x : mq x <= x ∧ mq x <= gs_M.
Proof.
  unfold mq. destruct (Qc_ltb gs_M x) eqn:E.
  - apply Qc_ltb_true in E. split; [by apply Qclt_le_weak|apply Qcle_refl].
  - apply Qc_ltb_false in E. split; [apply Qcle_refl|done].
Qed.
Lemma mq_early x : nltb (fin (mq x)) max_tof = true → mq x = x ∧ x < gs_M.
Proof.
  destruct gs_consts as (_ & _ & -> & _). intros H. apply xltb_Fin in H. unfold mq in *. destruct (Qc_ltb gs_M x) eqn:E; [|done].
  exfalso. apply Qclt_not_le in H. apply H, Qcle_refl.
Qed.

Lemma well_times d sol id τ v : well_exact d sol id τ →
  nmul (value_at (sol_concentration sol id) v) (value_at (sol_tof sol id) v) = fin (cq sol id v * mq (τ v)).
Proof.
  intros [Hc H]. rewrite Hc. destruct (H v) as (_ & _ & Ht & Hn & _). unfold value_at.
  destruct (om_find v (sol_tof sol id)) as [t|] eqn:E.
  - rewrite (Ht t eq_refl), mq_fin. done.
  - rewrite Hn, exact_n0 by done. cbn [num nmul exact xmul]. f_equal. ring.
Qed.

Lemma zero_in d sol id τ v : well_exact d sol id τ → cq sol id v = 0 → ∀ u, u ∈ all → cq sol id u * Wt d u v = 0.
Proof.
  intros [_ H] E0. assert (∀ u, u ∈ all → 0 <= cq sol id u * Wt d u v) as Hnn.
  { intros u _. apply qmul_nonneg; [apply H|apply (Wt_nonneg p Hp HD HV)]. }
  apply qsum_zero; [done|]. destruct (H v) as (_ & _ & _ & _ & _ & E & _). rewrite E0 in E.
  assert (0 <= rq d id v).
  { unfold Duality.rq. destruct (well_rate d m id v) as [r|] eqn:Er; [|apply Qcle_refl]. destruct (rate_fin p Hp HD d id v r Er) as (y & -> & Hy). by apply Qclt_le_weak. }
  pose proof (qsum_map_nonneg _ _ Hnn). apply Qcle_antisym; [|done]. apply (f_equal (λ x, x - rq d id v)) in E. qclra.
Qed.

Lemma mean_times d ev sets sol : diagnose d ev g p f sets = Ok (OSol sol) → (∀ id, is_well d m id → id ∈ map cs_id sets) →
  ∀ v, (0 ≤ v < n)%Z → ∃ t, sol_global_tof sol !! Z.to_nat v = Some t ∧
    let S := sum_left (map (λ id, value_at (sol_concentration sol id) v) (map fst m)) in
    let Y := sum_left (map (λ id, nmul (value_at (sol_concentration sol id) v) (value_at (sol_tof sol id) v)) (map fst m)) in
    nleb Y (nmul S t) = true ∧
    ((∀ id x, om_find v (sol_tof sol id) = Some x → nltb x max_tof = true) → Y = nmul S t).
Proof.
  intros H Hall.
  destruct (list_choice (λ id τ, well_exact d sol id τ) (λ _, 0) (map fst m)) as [h Hh].
  { intros id _. apply (local_exact d ev sets sol id H). apply Hall. }
  destruct (global_exact d ev sets sol H) as (_ & τg & c & Hg).
  assert (∀ v, (0 ≤ v < n)%Z → qsum (map (λ id, cq sol id v) (map fst m)) = c v ∧
    qsum (map (λ id, cq sol id v * h id v) (map fst m)) = c v * τg v) as HQ.
  { apply (topo_ind p g f Hp HP d ev sets sol (λ v, qsum (map (λ id, cq sol id v) (map fst m)) = c v ∧
      qsum (map (λ id, cq sol id v * h id v) (map fst m)) = c v * τg v) Hac H).
    intros v Hv IH. destruct (Hg v Hv) as (G1 & G2 & G3 & G4 & G5 & G6 & G7 & G8).
    assert (∀ u, u ∈ all → qsum (map (λ id, cq sol id u * Wt d u v) (map fst m)) = c u * Wt d u v) as M1.
    { intros u Hu. destruct (decide (flows (flow d p) u v)) as [Hf|Hf].
      - rewrite (qsum_ext _ (λ id, Wt d u v * cq sol id u)) by (intros; ring). rewrite qsum_scale, (proj1 (IH u Hf)). ring.
      - rewrite Wt_none by done. rewrite qsum_0; [ring|]. intros; ring. }
    assert (∀ u, u ∈ all → qsum (map (λ id, h id u * cq sol id u * Wt d u v) (map fst m)) = τg u * c u * Wt d u v) as M2.
    { intros u Hu. destruct (decide (flows (flow d p) u v)) as [Hf|Hf].
      - rewrite (qsum_ext _ (λ id, Wt d u v * (cq sol id u * h id u))) by (intros; ring). rewrite qsum_scale, (proj2 (IH u Hf)). ring.
      - rewrite Wt_none by done. rewrite qsum_0; [ring|]. intros; ring. }
    assert (qsum (map (λ id, cq sol id v) (map fst m)) = c v) as E1.
    { destruct (Qc_eq_dec (Tt d v) 0) as [ET|ET].
      - rewrite (G4 ET). apply qsum_0. intros id Hid. by apply (Hh id Hid).
      - assert (Tt d v * qsum (map (λ id, cq sol id v) (map fst m)) = Tt d v * c v) as E.
        { rewrite <-qsum_scale, G5.
          rewrite (qsum_ext _ (λ id, qsum (map (λ u, cq sol id u * Wt d u v) all) + rq d id v)) by (intros id Hid; apply (Hh id Hid)).
          rewrite qsum_plus, qsum_swap. f_equal. by apply qsum_ext. }
        by apply (qcancel (Tt d v)). }
    split; [done|]. destruct (late d v) eqn:El.
    - rewrite (G6 eq_refl). rewrite (qsum_ext _ (λ id, gs_M * cq sol id v)).
      + rewrite qsum_scale, E1. ring.
      + intros id Hid. destruct (Hh id Hid) as [_ Hw]. destruct (Hw v) as (_ & _ & _ & _ & _ & _ & L & _).
        destruct (Qc_eq_dec (cq sol id v) 0) as [Ez|Ez]; [rewrite Ez; ring|]. rewrite (L El Ez). ring.
    - destruct (Qc_eq_dec (Tt d v) 0) as [ET|ET].
      + rewrite (G4 ET). rewrite qsum_0; [ring|]. intros id Hid. rewrite (proj1 (proj2 (proj2 (proj2 (proj2 (proj2 (Hh id Hid) v))))) ET). ring.
      + assert (Tt d v * qsum (map (λ id, cq sol id v * h id v) (map fst m)) = Tt d v * (c v * τg v)) as E.
        { rewrite <-qsum_scale, Qcmult_assoc, (G8 eq_refl).
          rewrite (qsum_ext _ (λ id, pvq v * cq sol id v + qsum (map (λ u, h id u * cq sol id u * Wt d u v) all))).
          2:{ intros id Hid. destruct (Hh id Hid) as [_ Hw]. destruct (Hw v) as (_ & _ & _ & _ & _ & _ & _ & L). rewrite <-(L El). ring. }
          rewrite qsum_plus, qsum_scale, E1, qsum_swap. f_equal. by apply qsum_ext. }
        by apply (qcancel (Tt d v)). }
  intros v Hv. destruct (Hg v Hv) as (G1 & G2 & G3 & _). destruct (HQ v Hv) as [Q1 Q2]. rewrite mq_fin in G3. eexists. split; [exact G3|].
  cbn zeta.
  rewrite (sum_left_fin (λ id, value_at (sol_concentration sol id) v) (λ id, cq sol id v)) by (intros id Hid; apply (Hh id Hid)).
  rewrite (sum_left_fin _ (λ id, cq sol id v * mq (h id v))) by (intros id Hid; apply (well_times d); by apply Hh).
  rewrite Q1. cbn [num nmul exact xmul].
  assert (∀ id, id ∈ map fst m → 0 <= cq sol id v) as Hc0 by (intros id Hid; apply (Hh id Hid)).
  assert (qsum (map (λ id, cq sol id v * gs_M) (map fst m)) = c v * gs_M) as EM.
  { rewrite (qsum_ext _ (λ id, gs_M * cq sol id v)) by (intros; ring). rewrite qsum_scale, Q1. ring. }
  split.
  - apply xleb_Fin. unfold mq at 2. destruct (Qc_ltb gs_M (τg v)) eqn:E.
    + rewrite <-EM. apply qsum_le. intros id Hid. pose proof (mq_le (h id v)). pose proof (Hc0 id Hid). qcnra.
    + rewrite <-Q2. apply qsum_le. intros id Hid. pose proof (mq_le (h id v)). pose proof (Hc0 id Hid). qcnra.
  - intros Hearly. f_equal.
    assert (∀ id, id ∈ map fst m → cq sol id v * mq (h id v) = cq sol id v * h id v ∧ cq sol id v * h id v <= cq sol id v * gs_M) as He.
    { intros id Hid. destruct (Hh id Hid) as [_ Hw]. destruct (Hw v) as (W1 & W2 & Ht & Hn & _).
      destruct (om_find v (sol_tof sol id)) as [t|] eqn:E.
      - specialize (Ht t eq_refl). rewrite mq_fin in Ht. specialize (Hearly id t E). rewrite Ht in Hearly. apply mq_early in Hearly as [-> Hlt].
        split; [done|]. apply Qclt_le_weak in Hlt. specialize (Hc0 id Hid). qcnra.
      - rewrite Hn by done. split; [ring|]. rewrite !Qcmult_0_l. apply Qcle_refl. }
    rewrite (qsum_ext _ (λ id, cq sol id v * h id v)) by (intros id Hid; by apply He). rewrite Q2.
    assert (c v * τg v <= c v * gs_M) as Hle. { rewrite <-Q2, <-EM. apply qsum_le. intros id Hid. by apply He. }
    unfold mq. destruct (Qc_ltb gs_M (τg v)) eqn:E; [|done]. apply Qc_ltb_true in E.
    destruct (qle_eq_or_lt _ (proj1 G2)) as [E0|Hpos]; [rewrite E0; ring|]. exfalso. qcnra.
Qed.

(** ** C61 *)
Lemma pore_q v : pore p v = fin (pvq v).
Proof. unfold pvq. change (pore p v) with (pvf (pb_pv p) v). destruct (pore_fin p HD HV v) as (q & -> & _). done. Qed.
Lemma out_total d u : conserves p → (0 ≤ u < n)%Z → Tt d u = qsum (map (λ v, Wt d u v) all) + rates (opposite d) u.
Proof.
  intros Hc Hu. assert (Tt d u = Tt (opposite d) u) as ->.
  { unfold Duality.Tt. destruct d; cbn [opposite]; by rewrite (Hc u Hu). }
  rewrite (Tt_eq p Hp HD HV). unfold rates. f_equal. apply qsum_ext. intros v _. destruct d; [apply (Wt_turn p Injection)|apply (Wt_turn p Production)].
Qed.

(** Summing the balances of all cells. *)
Lemma sum_balance d (τ c : Z → Qc) : conserves p →
  (∀ v, (0 ≤ v < n)%Z → Tt d v * c v * τ v = pvq v * c v + qsum (map (λ u, τ u * c u * Wt d u v) all)) →
  qsum (map (λ v, rates (opposite d) v * (c v * τ v)) all) = qsum (map (λ v, pvq v * c v) all).
Proof.
  intros Hc HE.
  assert (qsum (map (λ v, Tt d v * c v * τ v) all) = qsum (map (λ v, pvq v * c v) all) + qsum (map (λ u, c u * τ u * qsum (map (λ v, Wt d u v) all)) all)) as E.
  { rewrite (qsum_ext _ (λ v, pvq v * c v + qsum (map (λ u, τ u * c u * Wt d u v) all))) by (intros v Hv; apply HE; apply elem_of_seqZ in Hv; lia).
    rewrite qsum_plus, qsum_swap. f_equal. apply qsum_ext. intros u _. rewrite <-qsum_scale. apply qsum_ext. intros v _. ring. }
  rewrite (qsum_ext (λ v, Tt d v * c v * τ v) (λ v, rates (opposite d) v * (c v * τ v) + c v * τ v * qsum (map (λ u, Wt d v u) all))) in E.
  2:{ intros v Hv. rewrite (out_total d v Hc) by (apply elem_of_seqZ in Hv; lia). ring. }
  rewrite qsum_plus in E.
  set (a := qsum (map (λ v, rates (opposite d) v * (c v * τ v)) all)) in *.
  set (b := qsum (map (λ v, pvq v * c v) all)) in *.
  set (k := qsum (map (λ v, c v * τ v * qsum (map (λ u, Wt d v u) all)) all)) in *.
  apply (f_equal (λ x, x - k)) in E. transitivity (a + k - k); [ring|]. rewrite E. ring.
Qed.

Lemma swept d ev sets sol id : conserves p → diagnose d ev g p f sets = Ok (OSol sol) → (is_well d m id → id ∈ map cs_id sets) →
  (∀ v t, om_find v (sol_tof sol id) = Some t → nltb t max_tof = true) →
  sum_left (map (λ v, nmul (cell_total (opposite d) m v) (nmul (value_at (sol_concentration sol id) v) (value_at (sol_tof sol id) v))) all) =
  sum_left (map (λ v, nmul (pore p v) (value_at (sol_concentration sol id) v)) all).
Proof.
  intros Hc H Hid Hearly. destruct (local_exact d ev sets sol id H Hid) as [τ Hw].
  assert (∀ v, cq sol id v ≠ 0 → mq (τ v) = τ v ∧ late d v = false) as He.
  { intros v Hv. destruct Hw as [_ Hw]. destruct (Hw v) as (_ & _ & Ht & Hn & _ & _ & L & _).
    destruct (om_find v (sol_tof sol id)) as [t|] eqn:E; [|by rewrite Hn in Hv].
    specialize (Ht t eq_refl). rewrite mq_fin in Ht. specialize (Hearly v t E). rewrite Ht in Hearly. apply mq_early in Hearly as [Em Hlt].
    split; [done|]. destruct (late d v); [|done]. rewrite (L eq_refl Hv) in Hlt. exfalso. apply Qclt_not_le in Hlt. apply Hlt, Qcle_refl. }
  assert (∀ v, cq sol id v * mq (τ v) = cq sol id v * τ v) as Em.
  { intros v. destruct (Qc_eq_dec (cq sol id v) 0) as [->|Hv]; [ring|]. by rewrite (proj1 (He v Hv)). }
  rewrite (sum_left_fin _ (λ v, rates (opposite d) v * (cq sol id v * τ v))).
  2:{ intros v _. by rewrite cell_total_q, (well_times _ _ _ _ _ Hw), Em. }
  rewrite (sum_left_fin _ (λ v, pvq v * cq sol id v)).
  2:{ intros v _. rewrite (proj1 Hw). by rewrite pore_q. }
  f_equal. apply sum_balance; [done|]. intros v _. destruct (Qc_eq_dec (cq sol id v) 0) as [Ez|Hv].
  - rewrite qsum_0; [rewrite Ez; ring|]. intros u Hu. rewrite <-Qcmult_assoc, (zero_in _ _ _ _ _ Hw Ez u Hu). ring.
  - destruct Hw as [_ Hw]. destruct (Hw v) as (_ & _ & _ & _ & _ & _ & _ & L). apply L. by apply He.
Qed.

Lemma rq_nonneg d id v : 0 <= rq d id v.
Proof.
  unfold Duality.rq. destruct (well_rate d m id v) as [r|] eqn:Er; [|apply Qcle_refl].
  destruct (rate_fin p Hp HD d id v r Er) as (y & -> & Hy). by apply Qclt_le_weak.
Qed.

(** Tracer reaching every cell that has inflow. *)
Lemma ones d ev sets sol (c : Z → Qc) : conserves p → diagnose d ev g p f sets = Ok (OSol sol) →
  (∀ v, (0 ≤ v < n)%Z → Tt d v * c v = qsum (map (λ u, c u * Wt d u v) all) + rates d v) →
  ∀ v, (0 ≤ v < n)%Z → Tt d v ≠ 0 → c v = 1.
Proof.
  intros Hc H HE. apply (topo_ind p g f Hp HP d ev sets sol (λ v, Tt d v ≠ 0 → c v = 1) Hac H).
  intros v Hv IH HT. apply (qcancel (Tt d v) _ _ HT). rewrite (HE v Hv).
  rewrite Qcmult_1_r, (Tt_eq p Hp HD HV). unfold rates. f_equal. apply qsum_ext. intros u Hu.
  destruct (decide (flows (flow d p) u v)) as [Hf|Hf]; [|rewrite (Wt_none p) by done; ring].
  destruct (Qc_eq_dec (Tt d u) 0) as [E|E]; [|rewrite (IH u Hf E); ring].
  assert (Wt d u v = 0) as ->; [|ring].
  rewrite (out_total d u Hc) in E by (apply elem_of_seqZ in Hu; lia).
  assert (∀ w, w ∈ all → 0 <= Wt d u w) as Hnn by (intros; apply (Wt_nonneg p Hp HD HV)).
  apply (qsum_zero (λ w, Wt d u w) all); [done| |apply elem_of_seqZ; lia].
  pose proof (qsum_map_nonneg _ _ Hnn). assert (0 <= rates (opposite d) u) as Hr by (apply qsum_map_nonneg; intros; apply rq_nonneg).
  apply Qcle_antisym; [|done]. qclra.
Qed.
Lemma tt_eq d v : conserves p → (0 ≤ v < n)%Z → Tt d v = Tt (opposite d) v.
Proof. intros Hc Hv. unfold Duality.Tt. destruct d; cbn [opposite]; by rewrite (Hc v Hv). Qed.
Lemma tt_sign d v : 0 <= Tt d v ∧ (Tt d v = 0 → rates d v = 0 ∧ ∀ u, u ∈ all → Wt d u v = 0).
Proof.
  rewrite (Tt_eq p Hp HD HV).
  assert (∀ w, w ∈ all → 0 <= Wt d w v) as Hnn by (intros; apply (Wt_nonneg p Hp HD HV)).
  pose proof (qsum_map_nonneg _ _ Hnn) as H1. assert (0 <= rates d v) as Hr by (apply qsum_map_nonneg; intros; apply rq_nonneg).
  unfold rates in *. split; [qclra|]. intros E. split; [apply Qcle_antisym; [qclra|done]|].
  intros u Hu. apply (qsum_zero (λ w, Wt d w v) all); [done| |done]. apply Qcle_antisym; [qclra|done].
Qed.
Lemma tt_in d v : nltb n0 (total_in p d v) = true ↔ Tt d v ≠ 0.
Proof.
  destruct (tt_sign d v) as [H0 _]. unfold Duality.Tt in *. rewrite (total_fin p Hp HD HV) in *. cbn [qv] in *. rewrite exact_n0, xltb_Fin. split.
  - intros H E. rewrite E in H. apply Qclt_not_le in H. apply H, Qcle_refl.
  - intros H. destruct (qle_eq_or_lt _ H0); done.
Qed.

Lemma swept_all d ev sets sol : conserves p → diagnose d ev g p f sets = Ok (OSol sol) →
  (∀ v t, (0 ≤ v < n)%Z → sol_global_tof sol !! Z.to_nat v = Some t → nltb n0 (total_in p d v) = true → nltb t max_tof = true) →
  sum_left (map (λ v, nmul (cell_total (opposite d) m v) (default n0 (sol_global_tof sol !! Z.to_nat v))) all) =
  sum_left (map (pore p) (filter (λ v, nltb n0 (total_in p d v) = true) all)).
Proof.
  intros Hc H Hearly. destruct (global_exact d ev sets sol H) as (_ & τ & c & Hg).
  assert (∀ v, (0 ≤ v < n)%Z → Tt d v ≠ 0 → c v = 1) as H1.
  { apply (ones d ev sets sol c Hc H). intros v Hv. apply (Hg v Hv). }
  assert (∀ v, (0 ≤ v < n)%Z → Tt d v ≠ 0 → mq (τ v) = τ v ∧ late d v = false) as He.
  { intros v Hv HT. destruct (Hg v Hv) as (_ & _ & Et & _ & _ & L & Z0 & _). rewrite mq_fin in Et.
    pose proof (Hearly _ _ Hv Et (proj2 (tt_in d v) HT)) as Hlt. apply mq_early in Hlt as [Em Hlt]. split; [done|].
    destruct (late d v); [|done]. rewrite (L eq_refl) in Hlt. apply Qclt_not_le in Hlt. destruct Hlt. apply Qcle_refl. }
  rewrite (sum_left_fin _ (λ v, rates (opposite d) v * (c v * τ v))).
  2:{ intros v Hv%elem_of_seqZ. assert ((0 ≤ v < n)%Z) as Hv' by lia. destruct (Hg v Hv') as (_ & _ & -> & _).
      cbn [default from_option]. rewrite cell_total_q, mq_fin. cbn [num nmul exact xmul]. unfold id. f_equal.
      destruct (Qc_eq_dec (Tt d v) 0) as [E|E].
      - rewrite (tt_eq d v Hc Hv') in E. apply tt_sign in E as [-> _]. ring.
      - rewrite (proj1 (He v Hv' E)), (H1 v Hv' E). ring. }
  rewrite (sum_left_fin _ (λ v, pvq v * c v)).
  2:{ intros v [Hv1 Hv2%elem_of_seqZ]%elem_of_list_filter. apply tt_in in Hv1. rewrite (H1 v) by (lia || done). rewrite pore_q. f_equal. ring. }
  f_equal. rewrite qsum_filter0.
  2:{ intros v Hv%elem_of_seqZ HT. rewrite tt_in in HT. destruct (Hg v) as (_ & _ & _ & Hz & _); [lia|]. rewrite Hz; [ring|].
      destruct (Qc_eq_dec (Tt d v) 0); [done|]. by destruct HT. }
  apply sum_balance; [done|]. intros v Hv. destruct (Hg v Hv) as (_ & _ & _ & Hz & _ & _ & _ & L).
  destruct (Qc_eq_dec (Tt d v) 0) as [E|E]; [|by apply L, He].
  rewrite qsum_0; [rewrite (Hz E); ring|]. intros u Hu. apply tt_sign in E as [_ E]. rewrite (E u Hu). ring.
Qed.

(** ** C59 *)
Lemma shares d ev sets sol : conserves p → diagnose d ev g p f sets = Ok (OSol sol) → (∀ id, is_well d m id → id ∈ map cs_id sets) →
  ∀ v, (0 ≤ v < n)%Z → Tt d v ≠ 0 → qsum (map (λ id, cq sol id v) (map fst m)) = 1.
Proof.
  intros Hc H Hall. apply (ones d ev sets sol (λ v, qsum (map (λ id, cq sol id v) (map fst m))) Hc H). intros v Hv. rewrite <-qsum_scale.
  rewrite (qsum_ext _ (λ id, qsum (map (λ u, cq sol id u * Wt d u v) all) + rq d id v)).
  2:{ intros id _. destruct (local_exact d ev sets sol id H (Hall id)) as [τ [_ Hw]]. apply (Hw v). }
  rewrite qsum_plus, qsum_swap. f_equal. apply qsum_ext. intros u Hu.
  rewrite (qsum_ext _ (λ id, Wt d u v * cq sol id u)) by (intros; ring). rewrite qsum_scale. ring.
Qed.

Lemma well_total d id : sum_left (omap (well_rate d m id) all) = fin (qsum (map (rq d id) all)).
Proof.
  pose proof (sum_left_fin (λ x, x) qv (omap (well_rate d m id) all)) as E. rewrite map_id in E. rewrite E.
  2:{ intros x (v & _ & Hx)%elem_of_list_omap. destruct (rate_fin p Hp HD d id v x Hx) as (q & -> & _). done. }
  f_equal. clear E. generalize all. intros l. induction l as [|v l IH]; [done|]. cbn [omap list_omap map]. unfold Duality.rq at 1.
  unfold qsum in *. destruct (well_rate d m id v); cbn [map foldr]; rewrite <-IH; [done|ring].
Qed.

Lemma fluxes ev ev' sets sets' sol sol' i j :
  diagnose Injection ev g p f sets = Ok (OSol sol) → diagnose Production ev' g p f sets' = Ok (OSol sol') →
  (is_well Injection m i → i ∈ map cs_id sets) → (is_well Production m j → j ∈ map cs_id sets') →
  i ∈ map fst m → j ∈ map fst m →
  pair_flux sol sol' i j m = Ok (fin (qsum (map (λ v, rq Injection i v * cq sol' j v) all)), fin (- qsum (map (λ v, rq Production j v * cq sol i v) all))).
Proof.
  intros H H' Hi Hj Mi Mj. destruct (local_exact _ _ _ _ _ H Hi) as [? [V1 _]]. destruct (local_exact _ _ _ _ _ H' Hj) as [? [V2 _]].
  pose proof (va_rates _ Hp) as [Hm1 _].
  apply elem_of_list_fmap in Mi as ([i' vi] & Ei & Mi). cbn in Ei. subst i'. apply om_find_elem in Mi; [|done].
  apply elem_of_list_fmap in Mj as ([j' vj] & Ej & Mj). cbn in Ej. subst j'. apply om_find_elem in Mj; [|done].
  unfold pair_flux. rewrite Mi, Mj, (pair_sum p Hp HD _ vi Injection (cq sol' j) i Mi V2), (pair_sum p Hp HD _ vj Production (cq sol i) j Mj V1).
  do 3 f_equal; f_equal; ring.
Qed.

Lemma tt_pos d id v : rq d id v ≠ 0 → id ∈ map fst m → Tt d v ≠ 0.
Proof.
  intros Hr Hid E. apply tt_sign in E as [E _]. apply Hr. apply (qsum_zero (λ k, rq d k v) (map fst m)); [|done|done]. intros; apply rq_nonneg.
Qed.

Lemma spread d ev sets sol id : conserves p → diagnose (opposite d) ev g p f sets = Ok (OSol sol) →
  (∀ k, is_well (opposite d) m k → k ∈ map cs_id sets) → id ∈ map fst m →
  qsum (map (λ k, qsum (map (λ v, rq d id v * cq sol k v) all)) (map fst m)) = qsum (map (rq d id) all).
Proof.
  intros Hc H Hall Hid. rewrite qsum_swap. apply qsum_ext. intros v Hv%elem_of_seqZ. assert ((0 ≤ v < n)%Z) as Hv' by lia. rewrite qsum_scale.
  destruct (Qc_eq_dec (rq d id v) 0) as [->|Hr]; [ring|]. rewrite (shares _ _ _ _ Hc H Hall v Hv'); [ring|].
  rewrite <-tt_eq by done. by eapply tt_pos.
Qed.

Lemma pair_rates ev ev' sets sets' sol sol' : conserves p →
  diagnose Injection ev g p f sets = Ok (OSol sol) → diagnose Production ev' g p f sets' = Ok (OSol sol') →
  (∀ id, is_well Injection m id → id ∈ map cs_id sets) → (∀ id, is_well Production m id → id ∈ map cs_id sets') →
  ∃ F : cellset_id → cellset_id → @num exact * @num exact,
    (∀ i j, i ∈ map fst m → j ∈ map fst m → pair_flux sol sol' i j m = Ok (F i j)) ∧
    (∀ i, i ∈ map fst m → sum_left (map (λ j, (F i j).1) (map fst m)) = sum_left (omap (well_rate Injection m i) all)) ∧
    (∀ j, j ∈ map fst m → sum_left (map (λ i, (F i j).2) (map fst m)) = nopp (sum_left (omap (well_rate Production m j) all))).
Proof.
  intros Hc H H' Hi Hj.
  exists (λ i j, (fin (qsum (map (λ v, rq Injection i v * cq sol' j v) all)), fin (- qsum (map (λ v, rq Production j v * cq sol i v) all)))).
  split; [intros i j; apply (fluxes _ _ _ _ _ _ _ _ H H'); auto|]. split.
  - intros i Mi. cbn [fst]. rewrite (sum_left_fin _ (λ j, qsum (map (λ v, rq Injection i v * cq sol' j v) all))) by done.
    rewrite well_total. f_equal. by apply (spread Injection ev' sets' sol').
  - intros j Mj. cbn [snd]. rewrite (sum_left_fin _ (λ i, - (1) * qsum (map (λ v, rq Production j v * cq sol i v) all))) by (intros; f_equal; ring).
    rewrite well_total. cbn [num nopp exact xopp]. f_equal. rewrite qsum_scale, (spread Production ev sets sol j) by done. ring.
Qed.
End balance.
