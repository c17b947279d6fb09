(** Diagnostics in exact arithmetic on finite data: properties C23, C30, C31 and
    the exact parts of C27 and C29. *)
From Coq Require Import QArith Qcanon.
From Verif.Model Require Import Base Num OMap Containers Solution AssembledConnections Tarjan TracerTofSolver Toolbox.
From Verif.Spec Require Import ToolboxSpec DerivedSpec.
From Verif.Proofs Require Import Util OMapFacts AConn ExactNum QcLra OrdLaws DerivedOrd DerivedExact ToolboxState ToolboxRates SolverBase SolverRun SolverTop SolverGen SolverOrd TofRange TofLaws ToolboxFlow ToolboxVal ToolboxSane OppLaws ToolboxThms GaussSeidel ExactRun.
Open Scope Z_scope.

Section total.
Context {N : Num} (p : problem) (g : cgraph) (f : cvalues) (Hp : valid p) (HP : poses p g f).
Notation n := (pb_cells p).
Notation m := (pb_rates p).
Notation src d := (only d (split_rates m)).

Lemma well_elem d id : is_well d m id → id ∈ map fst m.
Proof.
  intros (c & x & H). unfold well_rate in H. destruct (om_find id m) as [vals|] eqn:E; [|done].
  apply om_find_elem in E; [|apply (va_rates _ Hp)]. apply elem_of_list_fmap. by exists (id, vals).
Qed.

(** One budget serves all computations. *)
Lemma diagnose_total d :
  (∀ id c x, well_rate d m id c = Some x → nltb x n0 = false) →
  (∀ comps, ordered (flow d p) (λ v, 0 ≤ v < n) comps →
    ∃ fuel st, run n (flow d p) (pb_pv p) (src d) (ginj (src d)) fuel comps = Ok st) →
  (∀ id inj comps, (∀ v, inj v = well_rate d m id v) →
    ordered (flow d p) (λ v, ∃ r, is_Some (well_rate d m id r) ∧ leads (flow d p) r v) comps →
    (∀ v, v ∈ concat comps → 0 ≤ v < n) →
    ∃ fuel st, run n (flow d p) (pb_pv p) (src d) inj fuel comps = Ok st ∧
      ∀ v, v ∈ concat comps → nleb (st.2 v) n0 = false) →
  ∃ fuel, ∀ ev sets, (fuel ≤ e_fuel ev)%nat → diagnose d ev g p f sets ≠ NoFuel ∧
    (alloc_ok ev → sets_ok d p sets → ∃ sol, diagnose d ev g p f sets = Ok (OSol sol)).
Proof.
  intros Hpos Hgl Hloc. destruct (diagnose_eq p g f Hp HP d) as (s & HS & E).
  destruct (Hgl (gcomps n s)) as (fg & stg & Hg); [by eapply gcomps_ordered|].
  assert (∀ ids : list cellset_id, ∃ fl, ∀ id, id ∈ ids → ∃ st,
    run n (flow d p) (pb_pv p) (src d) (λ v, om_find v (default [] (om_find id (by_id d (split_rates m))))) fl
      (lcomps n s (map fst (default [] (om_find id (by_id d (split_rates m)))))) = Ok st ∧
    ∀ v, v ∈ concat (lcomps n s (map fst (default [] (om_find id (by_id d (split_rates m)))))) → nleb (st.2 v) n0 = false) as Hids.
  { induction ids as [|id ids (fl & IH)]; [exists O; by intros ? ?%elem_of_nil|].
    destruct (Hloc id _ _ (proj1 (proj2 (starts_ok p Hp d id))) (comps_ordered p Hp d s HS id) (comps_range p Hp d s HS id)) as (fl' & st & Hr & Hc).
    exists (fl `max` fl')%nat. intros id' [->|Hin]%elem_of_cons.
    - exists st. split; [|done]. rewrite (run_fuel _ _ _ _ _ _ fl'); [done|lia|by rewrite Hr].
    - destruct (IH id' Hin) as (st' & Hr' & Hc'). exists st'. split; [|done].
      rewrite (run_fuel _ _ _ _ _ _ fl); [done|lia|by rewrite Hr']. }
  destruct (Hids (map fst m)) as (fl & Hl). exists (fg `max` fl)%nat. intros ev sets Hfuel. rewrite E. split.
  { destruct (start_sets_ok _ _ sets) eqn:Es; [|done]. pose proof (proj1 (start_sets_iff d m sets (va_rates _ Hp)) Es) as Es'. clear Es; rename Es' into Es.
    assert (∀ (st : cellset), st ∈ sets → ∀ h, local_val n (flow d p) (pb_pv p) (src d) s h (e_fuel ev)
      (default [] (om_find (cs_id st) (by_id d (split_rates m)))) ≠ NoFuel) as Hloc'.
    { intros st Hst h. destruct (Hl (cs_id st)) as (st' & Hr & _); [eapply well_elem, Es, Hst|].
      unfold local_val. destruct (ws_ok h 0); [|done]. destruct (scc_ok h 5); [|done]. destruct (scc_ok h 8); [|done]. cbn [negb].
      destruct (existsb _ _); [done|]. rewrite (run_fuel _ _ _ _ _ _ fl); [by rewrite Hr|lia|by rewrite Hr]. }
    unfold val. unfold global_val. destruct (ws_ok _ 0 && scc_ok _ 2); [|done]. destruct (scc_ok _ 8); [|done]. cbn [negb].
    rewrite (run_fuel _ _ _ _ _ _ fg); [|lia|by rewrite Hg]. rewrite Hg. cbn [mbind res_bind].
    generalize 1%nat (sol_assign_global sol_new (tab n (cap stg).1)). clear Es Hids Hl.
    induction sets as [|st sets IH]; intros k sol; [done|]. cbn [val_loop].
    specialize (Hloc' st ltac:(left) (e_heap ev k)) as Hst.
    destruct (local_val _ _ _ _ _ _ _ _) as [[tc|e]| | | |]; try done. cbn [mbind res_bind]. apply IH. intros st' Hst'. apply Hloc'. by right. }
  intros Ha Hs. rewrite (proj2 (start_sets_iff d m sets (va_rates _ Hp)) Hs).
  eapply val_ok.
  - apply gval_ok; [apply Ha|]. rewrite (run_fuel _ _ _ _ _ _ fg); [exact Hg|lia|by rewrite Hg].
  - intros j id Hid. apply elem_of_list_fmap in Hid as (st & -> & Hst).
    destruct (Hl (cs_id st)) as (st' & Hr & Hc); [eapply well_elem, Hs, Hst|].
    eexists. eapply lval_ok; [done|apply Ha|by apply Hpos| |exact Hc].
    rewrite (run_fuel _ _ _ _ _ _ fl); [exact Hr|lia|by rewrite Hr].
Qed.
End total.

Section exact.
Context (p : @problem exact) (g : cgraph) (f : cvalues) (Hp : valid p) (HP : poses p g f).
Context (HD : data finite p) (HV : pores_ok p).
Notation n := (pb_cells p).
Notation m := (pb_rates p).
Notation src d := (only d (split_rates m)).

Lemma exact_data : data (o_ok exact exact_laws) p.
Proof. destruct HD. by split. Qed.
Notation HD' := exact_data.
Notation LO := exact_opp_laws.
Local Notation fin x := (Fin x : @num exact).

Lemma finite_sum (l : list (@num exact)) : (∀ x, x ∈ l → finite x) → finite (sum_left l).
Proof.
  intros H. pose proof (sum_left_fin id qv l) as E. rewrite map_id in E. rewrite E; [by eexists|]. intros x Hx. by apply finite_qv, H.
Qed.
Lemma pos_fin x : finite x → nltb n0 x = true → ∃ q, x = Fin q ∧ (0 < q)%Qc.
Proof. intros [q ->] H. exists q. split; [done|]. rewrite exact_n0 in H. by apply xltb_Fin in H. Qed.

Lemma flow_fin d a : a ∈ flow d p → ∃ q, a.2 = Fin q ∧ (0 < q)%Qc.
Proof.
  intros Ha. apply pos_fin; [|by apply (flow_pos exact_laws LO p HD' d)].
  assert (∀ b, b ∈ net_arcs p → finite b.2) as Hn.
  { unfold net_arcs. intros b (x & Hx & E)%elem_of_list_omap. unfold net_arc in E.
    assert (finite (sum_left x.2)) as [q Eq]. { apply finite_sum. intros w Hw. by apply (da_flux _ _ HD x w). }
    rewrite Eq in E. destruct (nltb n0 (Fin q : @num exact)) in E; [injection E as <-; by eexists|].
    destruct (nltb (Fin q : @num exact) n0) in E; [|done]. injection E as <-. by eexists. }
  destruct d; cbn [flow] in Ha; [by apply Hn|]. apply elem_of_list_fmap in Ha as (b & -> & Hb). by apply (Hn b).
Qed.
Lemma rate_fin d id c x : well_rate d m id c = Some x → ∃ q, x = Fin q ∧ (0 < q)%Qc.
Proof.
  intros H. apply pos_fin; [|by apply (rate_pos exact_laws LO p Hp HD' d id c)].
  revert H. unfold well_rate. destruct (om_find id m) as [vals|] eqn:E1; [|done]. destruct (om_find c vals) as [y|] eqn:E2; [|done].
  apply om_find_elem in E1; [|apply (va_rates _ Hp)].
  pose proof (proj1 (Forall_forall _ _) (proj2 (va_rates _ Hp)) _ E1) as Hw. cbn in Hw.
  apply om_find_elem in E2; [|exact Hw]. destruct (da_rates _ _ HD _ _ E1 E2) as [q Eq]. cbn in Eq. rewrite Eq.
  unfold rate_part. destruct d.
  - destruct (nltb n0 _); [|done]. intros [= <-]. by eexists.
  - destruct (nltb n0 _); [done|]. destruct (nltb _ n0); [|done]. intros [= <-]. by eexists.
Qed.
Lemma total_fin d c : ∃ q, cell_total d m c = Fin q ∧ (0 <= q)%Qc.
Proof.
  assert (finite (cell_total d m c)) as [q E].
  { apply finite_sum. intros x (id & Hx)%cell_rates_elem. destruct (rate_fin _ _ _ _ Hx) as (q & -> & _). by eexists. }
  exists q. split; [done|]. destruct (total_nn exact_laws LO p Hp HD' d c) as [_ H]. rewrite E, exact_n0 in H. by apply xleb_Fin in H.
Qed.
Lemma pore_fin v : ∃ q, pvf (pb_pv p) v = Fin q ∧ (0 <= q)%Qc.
Proof.
  assert (finite (pvf (pb_pv p) v)) as [q E].
  { unfold pvf. destruct (pb_pv p !! Z.to_nat v) as [x|] eqn:E; [|by eexists]. apply (da_pv _ _ HD). by eapply elem_of_list_lookup_2. }
  exists q. split; [done|]. destruct (pvf_nn exact_laws p HD' HV v) as [_ H]. rewrite E, exact_n0 in H. by apply xleb_Fin in H.
Qed.

Lemma finite_local d id inj : (∀ v, inj v = well_rate d m id v) → finite_data n (flow d p) (pb_pv p) (src d) inj.
Proof.
  intros Hinj. pose proof (va_rates _ Hp) as Hr. split.
  - by apply flow_arcs.
  - apply flow_fin.
  - intros v. rewrite only_value by done. apply total_fin.
  - intros v r. rewrite Hinj, only_value by done. intros H. destruct (rate_fin _ _ _ _ H) as (q & -> & Hq).
    destruct (total_fin d v) as (s & Es & _). exists q, s. destruct (rate_le exact_laws LO p Hp HD' _ _ _ _ H) as [H1 H2].
    rewrite Es in *. rewrite exact_n0 in H2. apply xleb_Fin in H1. apply xltb_Fin in H2. split_and!; try done. by apply Qclt_le_weak.
  - apply pore_fin.
Qed.
Lemma finite_global d : finite_data n (flow d p) (pb_pv p) (src d) (ginj (src d)).
Proof.
  pose proof (va_rates _ Hp) as Hr. split.
  - by apply flow_arcs.
  - apply flow_fin.
  - intros v. rewrite only_value by done. apply total_fin.
  - intros v r. unfold ginj. rewrite only_value by done. destruct (total_fin d v) as (s & Es & Hs). rewrite Es.
    destruct (nltb n0 (Fin s : @num exact)) eqn:E; [|done]. intros [= <-]. exists s, s. rewrite exact_n0 in E. apply xltb_Fin in E.
    split_and!; try done.
  - apply pore_fin.
Qed.

(** Every cell downstream of a well gets a positive tracer value. *)
Lemma reached_pos d id inj comps q : (∀ v, inj v = well_rate d m id v) →
  ordered (flow d p) (λ v, ∃ r, is_Some (well_rate d m id r) ∧ leads (flow d p) r v) comps →
  nonneg q → (∀ v, v ∈ concat comps → settled n (flow d p) (src d) inj q v) → ∀ v, v ∈ concat comps → (0 < q.2 v)%Qc.
Proof.
  intros Hinj Ho [Hc _] Hs v Hv. apply (oc_cover _ _ _ Ho) in Hv as (r & [x Hr] & Hl).
  pose proof (finite_local d id inj Hinj) as FD. pose proof (exact_good _ _ _ _ _ FD) as G.
  assert (∀ u, 0 <= qmix (up n (flow d p)) (wq (flow d p)) q.2 u)%Qc as Hm.
  { intros u. apply (qmix_nonneg _ _ _ _ _ _ G). intros; apply Hc. }
  assert (∀ y, leads (flow d p) r y → settled n (flow d p) (src d) inj q y) as Hs'.
  { intros y Hy. apply Hs. apply (oc_cover _ _ _ Ho). exists r. split; [by eexists|done]. }
  apply rtc_ind_r with (P := λ v, (0 < q.2 v)%Qc) (3 := Hl).
  - apply (Hs' r); [by apply rtc_refl|]. destruct (rate_fin _ _ _ _ Hr) as (y & -> & Hy).
    assert (bq inj r = y) as ->; [by unfold bq; rewrite Hinj, Hr|]. specialize (Hm r). qclra.
  - intros y z Hry Hyz Hy. apply (Hs' z); [by eapply rtc_r|].
    assert (0 < qmix (up n (flow d p)) (wq (flow d p)) q.2 z)%Qc; [|pose proof (g_b _ _ _ _ _ _ G z); qclra].
    apply (up_elem _ _ _ _ _ FD) in Hyz. pose proof (w_pos _ _ _ _ _ FD _ _ Hyz) as Hw.
    eapply Qclt_le_trans; [|apply (qsum_elem_le (λ u, q.2 u * wq (flow d p) u z)%Qc _ y)]; [|intros; apply qmul_nonneg; [apply Hc|by apply (g_w _ _ _ _ _ _ G)]|done].
    rewrite <-(Qcmult_0_l (wq (flow d p) y z)). by apply Qcmult_lt_compat_r.
Qed.

(** C23, C30 *)
Lemma always_ok d : ∃ fuel, ∀ ev sets, (fuel ≤ e_fuel ev)%nat → diagnose d ev g p f sets ≠ NoFuel ∧
  (alloc_ok ev → sets_ok d p sets → ∃ sol, diagnose d ev g p f sets = Ok (OSol sol)).
Proof.
  apply (diagnose_total p g f Hp HP).
  - intros id c x H. destruct (rate_fin _ _ _ _ H) as (q & -> & Hq). rewrite exact_n0. apply xltb_Fin_false. by apply Qclt_le_weak.
  - intros comps Ho. destruct (exact_run _ _ _ _ _ (finite_global d) _ _ Ho) as (fuel & st & q & H & _). by exists fuel, st.
  - intros id inj comps Hinj Ho Hr. destruct (exact_run _ _ _ _ _ (finite_local d id inj Hinj) _ _ Ho) as (fuel & st & q & H & Hrep & Hn & Hz & Hs).
    exists fuel, st. split; [done|]. intros v Hv. rewrite (proj2 (Hrep v)), exact_n0. apply not_true_is_false. intros Hle%xleb_Fin. eapply Qclt_not_le; [|exact Hle]. by eapply reached_pos.
Qed.

Lemma totals_fin d v : ∃ q, total_in p d v = Fin q.
Proof.
  unfold total_in. pose proof (finite_global d) as FD. rewrite (influx_fin _ _ _ _ _ FD). destruct (total_fin d v) as (s & -> & _). by eexists.
Qed.
Lemma exact_no_overflow d : no_overflow d p.
Proof. intros v _. by destruct (totals_fin d v) as [q ->]. Qed.

(** The values of one well as rationals. *)
Lemma local_values_timed d ev sets sol id : diagnose d ev g p f sets = Ok (OSol sol) → id ∈ map cs_id sets →
  ∃ inj comps (st : fstate) q, (∀ v, inj v = well_rate d m id v) ∧
    ordered (flow d p) (λ v, ∃ r, is_Some (well_rate d m id r) ∧ leads (flow d p) r v) comps ∧
    run n (flow d p) (pb_pv p) (src d) inj (e_fuel ev) comps = Ok st ∧ rep st q ∧ nonneg q ∧
    (∀ v, v ∈ concat comps → (0 < q.2 v)%Qc ∧ settled n (flow d p) (src d) inj q v) ∧
    (∀ v, om_find v (sol_tof sol id) = if decide (v ∈ concat comps) then Some (nmin (fin (q.1 v)) max_tof) else None) ∧
    (∀ v, om_find v (sol_concentration sol id) = if decide (v ∈ concat comps) then Some (fin (q.2 v)) else None) ∧
    (∀ v, value_at (sol_concentration sol id) v = Fin (q.2 v)) ∧
    (∀ v, v ∈ concat comps → timed n (flow d p) (pb_pv p) (src d) inj q v).
Proof.
  intros H Hid.
  destruct (diagnose_local p g f Hp HP d ev sets sol id H Hid) as (inj & comps & st & Hinj & Ho & Hr & Hrun & _ & Ht & Hc).
  pose proof (finite_local d id inj Hinj) as FD.
  destruct (exact_run_timed _ _ _ _ _ FD _ _ Ho) as (fuel & st' & q & Hrun' & Hrep & Hn & Hz & Hst).
  assert (∀ v, v ∈ concat comps → settled n (flow d p) (src d) inj q v) as Hs by (intros; by apply Hst).
  pose proof (run_det _ _ _ _ _ _ _ _ _ _ Hrun Hrun') as <-.
  exists inj, comps, st, q. split_and!; try done.
  - intros v Hv. split; [by eapply reached_pos|by apply Hs].
  - intros v. rewrite Ht. by rewrite (proj1 (Hrep v)).
  - intros v. rewrite Hc. by rewrite (proj2 (Hrep v)).
  - intros v. unfold value_at. rewrite Hc. destruct (decide (v ∈ concat comps)) as [|Hv]; [apply Hrep|].
    rewrite exact_n0. by destruct (Hz v Hv) as [_ ->].
  - intros v Hv. by apply Hst.
Qed.

Lemma local_values d ev sets sol id : diagnose d ev g p f sets = Ok (OSol sol) → id ∈ map cs_id sets →
  ∃ inj comps (st : fstate) q, (∀ v, inj v = well_rate d m id v) ∧
    ordered (flow d p) (λ v, ∃ r, is_Some (well_rate d m id r) ∧ leads (flow d p) r v) comps ∧
    run n (flow d p) (pb_pv p) (src d) inj (e_fuel ev) comps = Ok st ∧ rep st q ∧ nonneg q ∧
    (∀ v, v ∈ concat comps → (0 < q.2 v)%Qc ∧ settled n (flow d p) (src d) inj q v) ∧
    (∀ v, om_find v (sol_tof sol id) = if decide (v ∈ concat comps) then Some (nmin (fin (q.1 v)) max_tof) else None) ∧
    (∀ v, om_find v (sol_concentration sol id) = if decide (v ∈ concat comps) then Some (fin (q.2 v)) else None) ∧
    (∀ v, value_at (sol_concentration sol id) v = Fin (q.2 v)).
Proof.
  intros H Hid. destruct (local_values_timed d ev sets sol id H Hid) as (inj & comps & st & q & H1 & H2 & H3 & H4 & H5 & H6 & H7 & H8 & H9 & _).
  by exists inj, comps, st, q.
Qed.

Lemma total_tot d id inj v : (∀ v, inj v = well_rate d m id v) → total_in p d v = Fin (Tq n (flow d p) (src d) inj v).
Proof.
  intros Hinj. pose proof (finite_local d id inj Hinj) as FD. rewrite <-(tot_fin _ _ _ _ _ FD).
  unfold tot, total_in. by rewrite (src_eff_fin _ _ _ _ _ FD), only_value by apply (va_rates _ Hp).
Qed.
Lemma own_uc d id inj c cq v : (∀ v, inj v = well_rate d m id v) → (∀ u, c u = Fin (cq u)) →
  own p d id v (mix n (flow d p) c v) = Fin (qmix (up n (flow d p)) (wq (flow d p)) cq v + bq inj v)%Qc.
Proof.
  intros Hinj Hc. pose proof (finite_local d id inj Hinj) as FD. rewrite <-(uc_fin _ _ _ _ _ FD c cq v Hc).
  unfold own, uc. by rewrite Hinj.
Qed.

(** C31 *)
Lemma near_solution d ev sets sol id : diagnose d ev g p f sets = Ok (OSol sol) → id ∈ map cs_id sets →
  ∀ v c, om_find v (sol_concentration sol id) = Some c → regular (flow d p) v →
  ∃ r, own p d id v (mix n (flow d p) (value_at (sol_concentration sol id)) v) = nadd (nmul (total_in p d v) c) (fin r) ∧
    (0 <= r)%Qc ∧ nleb (fin r) (nmul gs_tracer_tol (influx n (flow d p) v)) = true.
Proof.
  intros H Hid v c Hv Hself.
  destruct (local_values d ev sets sol id H Hid) as (inj & comps & st & q & Hinj & Ho & Hrun & Hrep & Hn & Hs & Ht & Hc & Hval).
  rewrite Hc in Hv. destruct (decide (v ∈ concat comps)) as [Hin|]; [|done]. injection Hv as <-.
  destruct (Hs v Hin) as [_ [Hset _]]. destruct (Hset Hself) as [H1 H2].
  rewrite (own_uc d id inj _ q.2 v Hinj Hval), (total_tot d id inj v Hinj).
  pose proof (finite_local d id inj Hinj) as FD. rewrite (influx_fin _ _ _ _ _ FD).
  eexists. split_and!; [|exact H1|].
  - cbn. f_equal. ring.
  - destruct gs_consts as (_ & -> & _). cbn [num nmul nleb exact xmul]. by apply xleb_Fin.
Qed.

(** C31: times-of-flight *)
Lemma near_times d ev sets sol id : diagnose d ev g p f sets = Ok (OSol sol) → id ∈ map cs_id sets →
  ∃ τ : Z → Qc, ∀ v, (0 <= τ v)%Qc ∧
    match om_find v (sol_tof sol id), om_find v (sol_concentration sol id) with
    | Some t, Some c => t = nmin (fin (τ v)) max_tof ∧ (regular (flow d p) v →
        (nltb (total_in p d v) (ndiv (pore p v) max_tof) = true → fin (τ v) = max_tof) ∧
        (nltb (total_in p d v) (ndiv (pore p v) max_tof) = false → ∃ r,
          nadd (nmul (pore p v) c) (mix n (flow d p) (λ u, nmul (fin (τ u)) (value_at (sol_concentration sol id) u)) v) =
            nadd (nmul (fin (τ v)) (nmul c (total_in p d v))) (fin r) ∧ (0 <= r)%Qc ∧
          nleb (fin r) (nadd (nmul gs_tof_tol (influx n (flow d p) v)) (nmul gs_tracer_tol (mix n (flow d p) (λ u, fin (τ u)) v))) = true))
    | None, None => True
    | _, _ => False
    end.
Proof.
  intros H Hid.
  destruct (local_values_timed d ev sets sol id H Hid) as (inj & comps & st & q & Hinj & Ho & Hrun & Hrep & Hn & Hs & Ht & Hc & Hval & Htm).
  pose proof (finite_local d id inj Hinj) as FD. exists q.1. intros v. split; [apply Hn|]. rewrite Ht, Hc.
  destruct (decide (v ∈ concat comps)) as [Hin|]; [|done]. split; [done|]. intros Hreg.
  pose proof (Htm v Hin Hreg (proj1 (Hs v Hin))) as Hv. rewrite (total_tot d id inj v Hinj).
  destruct gs_consts as (E1 & E2 & E3 & E4 & E5 & E6 & E7).
  assert (nltb (fin (Tq n (flow d p) (src d) inj v)) (ndiv (pore p v) max_tof) = capped (Tq n (flow d p) (src d) inj) (pq (pb_pv p)) gs_M v) as ->.
  { change (pore p v) with (pvf (pb_pv p) v). rewrite (pq_fin _ _ _ _ _ FD), E3. cbn [num nltb ndiv exact]. unfold xdiv.
    by assert (Qc_eqb gs_M 0 = false) as -> by done. }
  destruct (capped _ _ _ _) eqn:Ecap; (split; [|]); try done; intros _.
  - by rewrite Hv, E3.
  - destruct Hv as [Hv1 Hv2]. exists (tres n (flow d p) (pb_pv p) (src d) inj q v). split_and!; [|done|].
    + rewrite (mix_fin _ _ _ _ _ FD _ (λ u, q.1 u * q.2 u)%Qc). 2:{ intros u _. by rewrite Hval. }
      change (pore p v) with (pvf (pb_pv p) v). rewrite (pq_fin _ _ _ _ _ FD). cbn [num nmul nadd exact xmul xadd]. f_equal. unfold tres.
      change (yf q) with (λ u, q.1 u * q.2 u)%Qc. ring.
    + rewrite (mix_fin _ _ _ _ _ FD _ q.1) by done. rewrite (influx_fin _ _ _ _ _ FD), E1, E2. cbn [num nmul nadd nleb exact xmul xadd].
      by apply xleb_Fin.
Qed.

Lemma total_glob d v : total_in p d v = Fin (Tq n (flow d p) (src d) (ginj (src d)) v).
Proof.
  pose proof (finite_global d) as FD. rewrite <-(tot_fin _ _ _ _ _ FD).
  unfold tot, total_in. by rewrite (src_eff_fin _ _ _ _ _ FD), only_value by apply (va_rates _ Hp).
Qed.
Lemma near_global d ev sets sol : diagnose d ev g p f sets = Ok (OSol sol) → zlen (sol_global_tof sol) = n ∧
  ∃ τ c : Z → Qc, (∀ v, 0 <= τ v ∧ 0 <= c v)%Qc ∧ ∀ v, 0 ≤ v < n →
    sol_global_tof sol !! Z.to_nat v = Some (nmin (fin (τ v)) max_tof) ∧ (regular (flow d p) v →
      (∃ r, nadd (mix n (flow d p) (λ u, fin (c u)) v) (cell_total d m v) = nadd (nmul (total_in p d v) (fin (c v))) (fin r) ∧
        (0 <= r)%Qc ∧ nleb (fin r) (nmul gs_tracer_tol (influx n (flow d p) v)) = true) ∧
      ((0 < c v)%Qc →
        (nltb (total_in p d v) (ndiv (pore p v) max_tof) = true → fin (τ v) = max_tof) ∧
        (nltb (total_in p d v) (ndiv (pore p v) max_tof) = false → ∃ r,
          nadd (nmul (pore p v) (fin (c v))) (mix n (flow d p) (λ u, nmul (fin (τ u)) (fin (c u))) v) =
            nadd (nmul (fin (τ v)) (nmul (fin (c v)) (total_in p d v))) (fin r) ∧ (0 <= r)%Qc ∧
          nleb (fin r) (nadd (nmul gs_tof_tol (influx n (flow d p) v)) (nmul gs_tracer_tol (mix n (flow d p) (λ u, fin (τ u)) v))) = true))).
Proof.
  intros H. pose proof (va_cells _ Hp).
  destruct (diagnose_global p g f Hp HP d ev sets sol H) as (comps & st & Ho & Hrun & ->). split; [apply tab_zlen; lia|].
  pose proof (finite_global d) as FD.
  destruct (exact_run_timed _ _ _ _ _ FD _ _ Ho) as (fuel & st' & q & Hrun' & Hrep & Hn & Hz & Hst).
  pose proof (run_det _ _ _ _ _ _ _ _ _ _ Hrun Hrun') as <-. exists q.1, q.2. split; [intros v; split; apply Hn|]. intros v Hv.
  rewrite tab_lookup_Z by done. split; [by rewrite (proj1 (Hrep v))|]. intros Hreg.
  assert (v ∈ concat comps) as Hin by by apply (oc_cover _ _ _ Ho). destruct (Hst v Hin) as [[Hs _] Ht].
  specialize (Hs Hreg). rewrite (total_glob d v), (influx_fin _ _ _ _ _ FD).
  destruct gs_consts as (E1 & E2 & E3 & E4 & E5 & E6 & E7). split.
  - destruct Hs as [H1 H2]. exists (qmix (up n (flow d p)) (wq (flow d p)) q.2 v + bq (ginj (src d)) v - Tq n (flow d p) (src d) (ginj (src d)) v * q.2 v)%Qc.
    split_and!; [|done|].
    + rewrite (mix_fin _ _ _ _ _ FD _ q.2) by done.
      assert (cell_total d m v = Fin (bq (ginj (src d)) v)) as ->.
      { unfold bq, ginj. rewrite only_value by apply (va_rates _ Hp). destruct (total_fin d v) as (s & -> & Hs). rewrite exact_n0.
        cbn [num nltb exact xltb]. destruct (Qc_ltb 0 s) eqn:E; [done|]. apply Qc_ltb_false in E. f_equal. by apply Qcle_antisym. }
      cbn [num nmul nadd exact xmul xadd]. f_equal. ring.
    + rewrite E2. cbn [num nmul nleb exact xmul]. by apply xleb_Fin.
  - intros Hpos. specialize (Ht Hreg Hpos).
    assert (nltb (fin (Tq n (flow d p) (src d) (ginj (src d)) v)) (ndiv (pore p v) max_tof) =
      capped (Tq n (flow d p) (src d) (ginj (src d))) (pq (pb_pv p)) gs_M v) as ->.
    { change (pore p v) with (pvf (pb_pv p) v). rewrite (pq_fin _ _ _ _ _ FD), E3. cbn [num nltb ndiv exact]. unfold xdiv.
      by assert (Qc_eqb gs_M 0 = false) as -> by done. }
    destruct (capped _ _ _ _) eqn:Ecap; (split; [|]); try done; intros _; [by rewrite Ht, E3|].
    destruct Ht as [Hv1 Hv2]. exists (tres n (flow d p) (pb_pv p) (src d) (ginj (src d)) q v). split_and!; [|done|].
    + rewrite (mix_fin _ _ _ _ _ FD _ (λ u, q.1 u * q.2 u)%Qc) by done.
      change (pore p v) with (pvf (pb_pv p) v). rewrite (pq_fin _ _ _ _ _ FD). cbn [num nmul nadd exact xmul xadd]. f_equal. unfold tres.
      change (yf q) with (λ u, q.1 u * q.2 u)%Qc. ring.
    + rewrite (mix_fin _ _ _ _ _ FD _ q.1) by done. rewrite E1, E2. cbn [num nmul nadd nleb exact xmul xadd]. by apply xleb_Fin.
Qed.

(** C27: the balance *)
Lemma balance d ev sets sol id : acyclic (net_arcs p) →
  diagnose d ev g p f sets = Ok (OSol sol) → id ∈ map cs_id sets →
  ∃ τ : Z → Qc, ∀ v,
    match om_find v (sol_tof sol id), om_find v (sol_concentration sol id) with
    | Some t, Some c => t = nmin (fin (τ v)) max_tof ∧
        (nltb (total_in p d v) (ndiv (pore p v) max_tof) = true → fin (τ v) = max_tof) ∧
        (nltb (total_in p d v) (ndiv (pore p v) max_tof) = false →
         nmul (fin (τ v)) (nmul c (total_in p d v)) =
         nadd (nmul (pore p v) c) (mix n (flow d p) (λ u, nmul (fin (τ u)) (value_at (sol_concentration sol id) u)) v))
    | None, None => τ v = 0%Qc
    | _, _ => False
    end.
Proof.
  intros Hac H Hid. pose proof (acyclic_flow p d Hac) as Hac'.
  destruct (local_values d ev sets sol id H Hid) as (inj & comps & st & q & Hinj & Ho & Hrun & Hrep & Hn & Hs & Ht & Hc & Hval).
  destruct (run_acyclic _ _ _ _ _ _ _ _ _ Ho Hac' Hrun) as [R1 R2]. exists q.1. intros v. rewrite Ht, Hc.
  destruct (decide (v ∈ concat comps)) as [Hin|Hout].
  2:{ destruct (R2 v Hout) as [E _]. rewrite (proj1 (Hrep v)), exact_n0 in E. by injection E. }
  split; [done|]. destruct (R1 v Hin) as (_ & E & _). pose proof (finite_local d id inj Hinj) as FD.
  destruct (Hs v Hin) as [Hpos _]. rewrite (proj1 (Hrep v)), (proj2 (Hrep v)) in E. unfold cellt in E.
  rewrite (tot_fin _ _ _ _ _ FD) in E. rewrite (total_tot d id inj v Hinj). 
  change (pore p v) with (pvf (pb_pv p) v). destruct (nltb (Fin (Tq n (flow d p) (src d) inj v) : @num exact) _) in E |- *; (split; [|]); try done.
  intros _. rewrite exact_n0 in E. change (@nltb exact (Fin 0) (Fin (q.2 v))) with (Qc_ltb 0 (q.2 v)) in E.
  rewrite (proj2 (Qc_ltb_true _ _) Hpos) in E.
  rewrite (mix_fin _ _ _ _ _ FD (λ u, nmul (st.1 u) (st.2 u)) (λ u, q.1 u * q.2 u)%Qc) in E.
  2:{ intros u _. destruct (Hrep u) as [E1 E2]. transitivity (xmul (Fin (q.1 u)) (Fin (q.2 u))); [|done]. f_equal; [exact E1|exact E2]. }
  rewrite (mix_fin _ _ _ _ _ FD _ (λ u, q.1 u * q.2 u)%Qc).
  2:{ intros u _. rewrite Hval. done. }
  rewrite (pq_fin _ _ _ _ _ FD) in E |- *. cbn [num nmul nadd ndiv exact xmul xadd] in E |- *.
  assert (0 < Tq n (flow d p) (src d) inj v)%Qc as HT.
  { destruct (qle_eq_or_lt _ (T_nonneg _ _ _ _ _ _ (exact_good _ _ _ _ _ FD) v)) as [E0|]; [|done]. exfalso.
    destruct (R1 v Hin) as (Ec & _ & _). unfold cellc in Ec. rewrite (tot_fin _ _ _ _ _ FD), E0, (proj2 (Hrep v)), exact_n0 in Ec.
    change (@neqb exact (Fin 0) (Fin 0)) with true in Ec. cbn iota in Ec. injection Ec as Ec. by rewrite Ec in Hpos. }
  assert (Tq n (flow d p) (src d) inj v * q.2 v ≠ 0)%Qc as Hne.
  { intros E0. apply Qcmult_integral in E0 as [E0|E0]; [by rewrite E0 in HT|by rewrite E0 in Hpos]. }
  unfold xdiv in E. rewrite (proj2 (Qc_eqb_false _ _) Hne) in E. injection E as ->. f_equal. field.
  split; intros E0; [by rewrite E0 in Hpos|by rewrite E0 in HT].
Qed.

(** C29 *)
Lemma tof_range d ev sets sol id : diagnose d ev g p f sets = Ok (OSol sol) →
  (∀ v t, om_find v (sol_tof sol id) = Some t → ∃ x, t = Fin x ∧ (0 <= x)%Qc ∧ nleb t max_tof = true) ∧
  Forall (λ t : @num exact, ∃ x, t = Fin x ∧ (0 <= x)%Qc ∧ nleb t max_tof = true) (sol_global_tof sol).
Proof.
  intros H. assert (∀ x, (0 <= x)%Qc → ∃ y, @nmin exact (Fin x) max_tof = Fin y ∧ (0 <= y)%Qc ∧ nleb (@nmin exact (Fin x) max_tof) max_tof = true) as Hmin.
  { intros x Hx. destruct gs_consts as (_ & _ & EM & _ & _ & _ & HM). rewrite EM. unfold nmin. cbn [num nltb exact].
    destruct (xltb (Fin gs_M) (Fin x)) eqn:E; cbn [nleb exact].
    - exists gs_M. split_and!; [done|by apply Qclt_le_weak|]. apply xleb_Fin, Qcle_refl.
    - exists x. split_and!; [done|done|]. apply xltb_Fin_false in E. by apply xleb_Fin. }
  split.
  - intros v t Hv. destruct (decide (id ∈ map cs_id sets)) as [Hid|Hid].
    + destruct (local_values d ev sets sol id H Hid) as (inj & comps & st & q & Hinj & Ho & Hrun & Hrep & Hn & Hs & Ht & _).
      rewrite Ht in Hv. destruct (decide (v ∈ concat comps)); [|done]. injection Hv as <-. apply Hmin, Hn.
    + destruct (diagnose_other p g f Hp HP d ev sets sol id H Hid) as [E _]. by rewrite E in Hv.
  - destruct (diagnose_global p g f Hp HP d ev sets sol H) as (comps & st & Ho & Hrun & ->).
    destruct (exact_run _ _ _ _ _ (finite_global d) _ _ Ho) as (fuel & st' & q & Hrun' & Hrep & Hn & _).
    pose proof (run_det _ _ _ _ _ _ _ _ _ _ Hrun Hrun') as <-. unfold tab. apply Forall_map, Forall_forall. intros v _. destruct (Hrep v) as [Ev _].
    pose proof (Hmin (q.1 v) (proj2 Hn v)) as Hx. by rewrite <-Ev in Hx.
Qed.
End exact.
