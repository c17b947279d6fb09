(** Properties C25-C29, C33-C37, C40 and C41. *)
From Verif.Model Require Import Base Num OMap Containers Solution AssembledConnections Tarjan TracerTofSolver Toolbox.
From Verif.Spec Require Import ToolboxSpec.
From Verif.Proofs Require Import Util OMapFacts AConn OrdLaws DerivedOrd ToolboxState ToolboxRates SolverBase SolverRun SolverTop SolverGen SolverOrd TofRange ToolboxFlow ToolboxVal ToolboxSane.
Open Scope Z_scope.

Section thms.
Context {N : Num} (p : problem) (g : cgraph) (f : cvalues) (Hp : valid p) (HP : poses p g f).
Notation n := (pb_cells p).
Notation m := (pb_rates p).
Notation src d := (only d (split_rates m)).

Lemma flow_arcs d : arcs_ok n (flow d p).
Proof. destruct d; cbn [flow]; [by apply net_arcs_ok|]. apply turn_ok. by apply net_arcs_ok. Qed.

(** ** C25 *)
Lemma support d ev sets sol id v : diagnose d ev g p f sets = Ok (OSol sol) → id ∈ map cs_id sets →
  let P := ∃ r, is_Some (well_rate d m id r) ∧ leads (flow d p) r v in
  (is_Some (om_find v (sol_concentration sol id)) ↔ P) ∧ (is_Some (om_find v (sol_tof sol id)) ↔ P).
Proof.
  intros H Hid. destruct (diagnose_local p g f Hp HP d ev sets sol id H Hid) as (inj & comps & st & _ & Ho & _ & _ & _ & Ht & Hc).
  cbn zeta. rewrite Ht, Hc, <-(oc_cover _ _ _ Ho). destruct (decide (v ∈ concat comps)); split; split; try done; by intros [].
Qed.

Lemma tab_map_keys (h : Z → num) cells v : v ∈ map fst (tab_map_of h cells []) ↔ is_Some (om_find v (tab_map_of h cells [])).
Proof.
  pose proof (tab_map_wf h cells [] om_nil_wf) as Hw. destruct (om_find v (tab_map_of h cells [])) as [x|] eqn:E.
  - split; [done|]. intros _. apply om_find_elem in E; [|done]. apply elem_of_list_fmap. by exists (v, x).
  - apply om_find_none in E; [|done]. split; [done|]. by intros [].
Qed.

(** The maps of a solution are std::maps. *)
Lemma solution_maps d ev sets sol id : diagnose d ev g p f sets = Ok (OSol sol) →
  map_ok (sol_concentration sol id) ∧ map_ok (sol_tof sol id).
Proof.
  destruct (diagnose_eq p g f Hp HP d) as (s & HS & E). rewrite E. destruct (start_sets_ok _ _ sets); [|done].
  intros Hv. destruct (val_inv p d s ev sets sol Hv) as [_ H]. destruct (H id) as [H1 H2].
  destruct (decide (id ∈ map cs_id sets)) as [Hid|Hid].
  - destruct (H1 Hid) as (j & Hj). destruct (lval_inv p d s _ _ _ _ _ Hj) as (st & _ & _ & -> & ->).
    split; apply tab_map_wf, om_nil_wf.
  - destruct (H2 Hid) as [-> ->]. split; apply om_nil_wf.
Qed.

Lemma map_keys (mm : cellset_values) v : map_ok mm → v ∈ map fst mm ↔ is_Some (om_find v mm).
Proof.
  intros Hm. destruct (om_find v mm) as [x|] eqn:E.
  - split; [done|]. intros _. apply om_find_elem in E; [|done]. apply elem_of_list_fmap. by exists (v, x).
  - apply om_find_none in E; [|done]. split; [done|]. by intros [].
Qed.

Lemma support_keys d ev sets sol id : diagnose d ev g p f sets = Ok (OSol sol) → id ∈ map cs_id sets → ∀ v,
  (v ∈ map fst (sol_concentration sol id) ↔ ∃ r, is_Some (well_rate d m id r) ∧ leads (flow d p) r v) ∧
  (v ∈ map fst (sol_tof sol id) ↔ ∃ r, is_Some (well_rate d m id r) ∧ leads (flow d p) r v).
Proof.
  intros H Hid v. destruct (solution_maps d ev sets sol id H) as [H1 H2]. rewrite !map_keys by done.
  exact (support d ev sets sol id v H Hid).
Qed.

(** ** C26, C27 *)
Lemma turn_tc (A : list arc) u v : tc (flows (turn A)) u v → tc (flows A) v u.
Proof.
  induction 1 as [u v H|u w v H _ IH].
  - by apply tc_once, turn_flows.
  - eapply tc_r; [exact IH|]. by apply turn_flows.
Qed.
Lemma acyclic_flow d : acyclic (net_arcs p) → acyclic (flow d p).
Proof. destruct d; cbn [flow]; [done|]. intros H v Hv. by apply (H v), turn_tc. Qed.

Context (L : ord_laws N) (LO : opp_laws L) (HD : data (o_ok N L) p).

Lemma tracer_equation d ev sets sol id : acyclic (net_arcs p) →
  diagnose d ev g p f sets = Ok (OSol sol) → id ∈ map cs_id sets →
  ∀ v c, om_find v (sol_concentration sol id) = Some c →
  c = ndiv (own p d id v (mix n (flow d p) (value_at (sol_concentration sol id)) v))
           (total_in p d v).
Proof.
  intros Hac H Hid v c Hv. pose proof (acyclic_flow d Hac) as Hac'.
  destruct (diagnose_local p g f Hp HP d ev sets sol id H Hid) as (inj & comps & st & Hinj & Ho & Hr & Hrun & _ & _ & Hc).
  destruct (run_acyclic _ _ _ _ _ _ _ _ _ Ho Hac' Hrun) as [R1 R2].
  rewrite Hc in Hv. destruct (decide (v ∈ concat comps)) as [Hin|]; [|done]. injection Hv as <-.
  destruct (R1 v Hin) as (E & _ & _). rewrite E.
  assert (∀ u, value_at (sol_concentration sol id) u = st.2 u) as Hval.
  { intros u. unfold value_at. rewrite Hc. destruct (decide (u ∈ concat comps)) as [|Hu]; [done|]. symmetry. by apply R2. }
  assert (mix n (flow d p) (value_at (sol_concentration sol id)) v = mix n (flow d p) st.2 v) as ->.
  { apply (mix_ext _ _ (λ _, None)); intros u _; apply Hval. }
  pose proof (sane_local L LO p Hp HD d id inj (λ _, False) ltac:(done) Hinj) as Hs.
  unfold cellc. rewrite (tot_eq L _ _ _ _ _ Hs), only_value by apply (va_rates _ Hp).
  assert (nltb n0 (total_in p d v) = true) as Hpos.
  { apply (support_pos L LO p Hp HD); [by apply Hr|]. apply (oc_cover _ _ _ Ho) in Hin as (r & Hr1 & Hr2).
    destruct (decide (r = v)) as [->|Hne]; [by left; exists id|]. right.
    apply rtc_inv_r in Hr2 as [->|(u & _ & Hu)]; [done|]. by exists u. }
  rewrite (pos_ne L); [|apply o_ok_add|done].
  - unfold uc, own. by rewrite Hinj.
  - apply sum_left_nn, Forall_map, Forall_forall. intros u _. apply (flux_nn L _ _ _ _ _ Hs).
  - by apply total_nn.
Qed.

Lemma tof_equation d ev sets sol id : acyclic (net_arcs p) →
  diagnose d ev g p f sets = Ok (OSol sol) → id ∈ map cs_id sets →
  ∃ τ : Z → num, ∀ v,
    match om_find v (sol_tof sol id), om_find v (sol_concentration sol id) with
    | Some t, Some c => t = nmin (τ v) max_tof ∧
        τ v = travel (pore p v) (total_in p d v) c
                (mix n (flow d p) (λ u, nmul (τ u) (value_at (sol_concentration sol id) u)) v)
    | None, None => τ v = n0
    | _, _ => False
    end.
Proof.
  intros Hac H Hid. pose proof (acyclic_flow d Hac) as Hac'.
  destruct (diagnose_local p g f Hp HP d ev sets sol id H Hid) as (inj & comps & st & Hinj & Ho & Hr & Hrun & _ & Ht & Hc).
  destruct (run_acyclic _ _ _ _ _ _ _ _ _ Ho Hac' Hrun) as [R1 R2]. exists st.1. intros v. rewrite Ht.
  assert (∀ u, value_at (sol_concentration sol id) u = st.2 u) as Hval.
  { intros u. unfold value_at. rewrite Hc. destruct (decide (u ∈ concat comps)) as [|Hu]; [done|]. symmetry. by apply R2. }
  rewrite Hc. destruct (decide (v ∈ concat comps)) as [Hin|Hout]; [|by apply R2]. split; [done|].
  destruct (R1 v Hin) as (_ & E & _). rewrite E at 1.
  pose proof (sane_local L LO p Hp HD d id inj (λ _, False) ltac:(done) Hinj) as Hs.
  unfold cellt, travel. rewrite (tot_eq L _ _ _ _ _ Hs), only_value by apply (va_rates _ Hp).
  assert (mix n (flow d p) (λ u, nmul (st.1 u) (value_at (sol_concentration sol id) u)) v =
          mix n (flow d p) (λ u, nmul (st.1 u) (st.2 u)) v) as ->; [|done].
  apply (mix_ext _ _ (λ _, None)); intros u _; by rewrite Hval.
Qed.

Lemma global_equation d ev sets sol : acyclic (net_arcs p) →
  diagnose d ev g p f sets = Ok (OSol sol) →
  zlen (sol_global_tof sol) = n ∧ ∃ τ c : Z → num, ∀ v, 0 ≤ v < n →
    let T := total_in p d v in
    let q := cell_total d m v in
    sol_global_tof sol !! Z.to_nat v = Some (nmin (τ v) max_tof) ∧
    c v = (if neqb T n0 then n0 else ndiv (if nltb n0 q then nadd (mix n (flow d p) c v) q else mix n (flow d p) c v) T) ∧
    τ v = travel (pore p v) T (c v) (mix n (flow d p) (λ u, nmul (τ u) (c u)) v).
Proof.
  intros Hac H. pose proof (acyclic_flow d Hac) as Hac'. pose proof (va_cells _ Hp).
  destruct (diagnose_global p g f Hp HP d ev sets sol H) as (comps & st & Ho & Hrun & ->).
  destruct (run_acyclic _ _ _ _ _ _ _ _ _ Ho Hac' Hrun) as [R1 _].
  split; [apply tab_zlen; lia|]. exists st.1, st.2. intros v Hv. cbn zeta. rewrite tab_lookup_Z by done. split; [done|].
  assert (v ∈ concat comps) as Hin by by apply (oc_cover _ _ _ Ho).
  destruct (R1 v Hin) as (E1 & E2 & _).
  pose proof (sane_global L LO p Hp HD d (λ _, False) ltac:(done)) as Hs.
  split.
  - rewrite E1 at 1. unfold cellc, uc, ginj. rewrite (tot_eq L _ _ _ _ _ Hs), only_value by apply (va_rates _ Hp).
    by destruct (nltb n0 (cell_total d m v)).
  - rewrite E2 at 1. unfold cellt, travel. by rewrite (tot_eq L _ _ _ _ _ Hs), only_value by apply (va_rates _ Hp).
Qed.

(** ** C28, C29 *)
Context (LT : tof_laws L) (HV : pores_ok p).

Lemma value_ranges d ev sets sol id : no_overflow d p →
  diagnose d ev g p f sets = Ok (OSol sol) →
  (∀ v c, om_find v (sol_concentration sol id) = Some c →
     o_ok N L c ∧ nltb n0 c = true ∧ nleb c n1 = true) ∧
  (∀ v t, om_find v (sol_tof sol id) = Some t → nleb n0 t = true ∧ nleb t max_tof = true).
Proof.
  intros Hno H. destruct (decide (id ∈ map cs_id sets)) as [Hid|Hid].
  2:{ destruct (diagnose_other p g f Hp HP d ev sets sol id H Hid) as [E1 E2]. split; intros v x E; [by rewrite E2 in E|by rewrite E1 in E]. }
  destruct (diagnose_local p g f Hp HP d ev sets sol id H Hid) as (inj & comps & st & Hinj & Ho & Hr & Hrun & Hpos & Ht & Hc).
  pose proof (sane_local L LO p Hp HD d id inj _ Hno Hinj) as Hs.
  destruct (run_numbers L LT _ _ _ _ _ _ Hs (pvf_nn L p HD HV) (e_fuel ev) comps Hr) as [E|(st' & E & Hc1 & Ht1)];
    [by rewrite E in Hrun|]. rewrite E in Hrun. injection Hrun as ->. split.
  - intros v c. rewrite Hc. destruct (decide (v ∈ concat comps)) as [Hin|]; [|done]. intros [= <-].
    destruct (Hc1 v) as [[O1 L1] U1]. split_and!; try done. specialize (Hpos v Hin).
    pose proof (ol_ok0 L) as O0. destruct (nltb n0 (st.2 v)) eqn:E0; [done|].
    rewrite (o_total N L n0 (st.2 v)) in Hpos; try done; [apply (ol_00 L)|by apply (nn_refl L)].
  - intros v t. rewrite Ht. destruct (decide (v ∈ concat comps)) as [Hin|]; [|done]. intros [= <-].
    apply (cap_number L LT), Ht1.
Qed.

Lemma global_ranges d ev sets sol : no_overflow d p →
  diagnose d ev g p f sets = Ok (OSol sol) →
  Forall (λ t, nleb n0 t = true ∧ nleb t max_tof = true) (sol_global_tof sol).
Proof.
  intros Hno H.
  destruct (diagnose_global p g f Hp HP d ev sets sol H) as (comps & st & Ho & Hrun & ->).
  pose proof (sane_global L LO p Hp HD d _ Hno) as Hs.
  destruct (run_numbers L LT _ _ _ _ _ _ Hs (pvf_nn L p HD HV) (e_fuel ev) comps) as [E|(st' & E & Hc1 & Ht1)].
  { intros v. apply (oc_cover _ _ _ Ho). }
  { by rewrite E in Hrun. }
  rewrite E in Hrun. injection Hrun as ->. unfold tab. apply Forall_map, Forall_forall. intros v _. apply (cap_number L LT), Ht1.
Qed.
End thms.

(** ** The state machine *)
Section machine.
Context {N : Num}.

Lemma run_app t (cs cs' : list tb_call) : tb_run t (cs ++ cs') =
  (r ← tb_run t cs; r' ← tb_run r.1 cs'; Ok (r'.1, r.2 ++ r'.2)).
Proof.
  revert t. induction cs as [|c cs IH]; intros t; cbn [app tb_run].
  - cbn [mbind res_bind fst snd]. by destruct (tb_run t cs') as [[]| | | |].
  - destruct (tb_step t c) as [r| | | |]; try done. cbn [mbind res_bind]. rewrite IH.
    destruct (tb_run r.1 cs) as [[t1 o1]| | | |]; try done. cbn [mbind res_bind fst snd].
    destruct (tb_run t1 cs') as [[t2 o2]| | | |]; done.
Qed.

Lemma reached g cs t os : tb_run (tb_new g) cs = Ok (t, os) →
  tracks g (last (omap (accepted_pv g) cs)) (last (omap (accepted_flux g) cs)) (last (omap accepted_rates cs)) t.
Proof.
  intros H. pose proof (run_tracks _ _ _ _ _ _ _ _ (new_tracks g) H) as Ht. by rewrite !upd_none in Ht.
Qed.

(** C34 *)
Lemma rejects g cs t os : tb_run (tb_new g) cs = Ok (t, os) →
  (∀ pv, ∃ t', tb_step t (CPoreVolume pv) = Ok (t', if decide (zlen pv = cg_num_cells g) then ODone else OExn LogicError) ∧
     (zlen pv ≠ cg_num_cells g → t' = t)) ∧
  (∀ f, ∃ t', tb_step t (CFlux f) = Ok (t', if decide (cv_num_connections f = cg_num_connections g) then ODone else OExn LogicError) ∧
     (cv_num_connections f ≠ cg_num_connections g → t' = t)).
Proof.
  intros H. pose proof (tr_g _ _ _ _ _ (reached g cs t os H)) as Hg. split.
  - intros pv. cbn. unfold tb_assign_pv. rewrite Hg. destruct (Z.eqb_spec (zlen pv) (cg_num_cells g)); cbn [negb].
    + rewrite decide_True by done. by eexists.
    + rewrite decide_False by done. by exists t.
  - intros f. cbn. unfold tb_assign_flux. rewrite Hg. destruct (Z.eqb_spec (cv_num_connections f) (cg_num_connections g)); cbn [negb].
    + rewrite decide_True by done. by eexists.
    + rewrite decide_False by done. by exists t.
Qed.

(** C35 *)
Lemma unset_error g cs t os d ev sets : tb_run (tb_new g) cs = Ok (t, os) →
  default [] (last (omap (accepted_pv g) cs)) = [] ∨
  match last (omap (accepted_flux g) cs) with Some f => cv_num_connections f = 0 | None => True end →
  tb_step t (compute d ev sets) = Ok (t, OExn LogicError).
Proof.
  intros H Hu. destruct (reached g cs t os H) as [_ _ Hpv Hf _].
  assert (unset (tb_pvol t) (tb_flux t) = true) as E.
  { unfold unset. rewrite Hpv, Hf. destruct Hu as [->|Hu]; [done|]. apply orb_true_iff. right.
    destruct (last (omap (accepted_flux g) cs)); cbn [default]; [by apply Z.eqb_eq|done]. }
  destruct d; cbn [compute tb_step]; unfold tb_inj_diag, tb_prod_diag; fold (unset (tb_pvol t) (tb_flux t)); by rewrite E.
Qed.

Lemma start_error g cs t os d ev sets pv f (m : flux_map) st : tb_run (tb_new g) cs = Ok (t, os) →
  last (omap (accepted_pv g) cs) = Some pv → pv ≠ [] →
  last (omap (accepted_flux g) cs) = Some f → cv_num_connections f ≠ 0 →
  default [] (last (omap accepted_rates cs)) = m → rates_ok m →
  st ∈ sets → (¬ is_well d m (cs_id st) ∨ ∃ c, c ∈ cs_cells st ∧ ∀ id, well_rate d m id c = None) →
  tb_step t (compute d ev sets) = Ok (t, OExn RuntimeError).
Proof.
  intros H Epv Hpv0 Ef Hf0 Em Hm Hst Hbad. destruct (reached g cs t os H) as [_ _ Hpv Hf Hr].
  rewrite Epv in Hpv. rewrite Ef in Hf. cbn in Hpv, Hf. assert (rates_of t = split_rates m) as Hr' by (rewrite <-Em; exact Hr). clear Hr; rename Hr' into Hr.
  assert (unset (tb_pvol t) (tb_flux t) = false) as E.
  { unfold unset. rewrite Hpv, Hf. destruct pv; [done|]. cbn. by apply Z.eqb_neq. }
  assert (start_sets_ok (by_id d (rates_of t)) (only d (rates_of t)) sets = false) as E2.
  { rewrite Hr. apply not_true_iff_false. rewrite start_sets_iff by done. intros Hall. destruct (Hall st Hst) as [H1 H2].
    destruct Hbad as [Hb|(c & Hc & Hb)]; [done|]. destruct (H2 c Hc) as (id & x & Hx). by rewrite Hb in Hx. }
  destruct d; cbn [compute tb_step]; unfold tb_inj_diag, tb_prod_diag; fold (unset (tb_pvol t) (tb_flux t)); rewrite E;
    cbn [by_id only rates_of r_inj r_in r_prod r_out] in E2; by rewrite E2.
Qed.

(** C36 *)
Lemma cached_graph p g f cs t os : valid p → poses p g f → tb_run (tb_new g) cs = Ok (t, os) →
  last (omap (accepted_flux g) cs) = Some f → tb_built t = true →
  graph_of (pb_cells p) (net_arcs p) (tb_down t) ∧ graph_of (pb_cells p) (turn (net_arcs p)) (tb_up t).
Proof.
  intros Hp HP H Ef Hb. destruct (reached g cs t os H) as [Hc Hg _ Hf _]. rewrite Ef in Hf. cbn in Hf.
  specialize (Hc Hb). rewrite Hg, Hf in Hc. destruct (built_ok p g f Hp HP) as (dn & up & E & H1 & H2).
  rewrite E in Hc. injection Hc as -> ->. done.
Qed.

Lemma built_after t d ev sets t' sol : tb_step t (compute d ev sets) = Ok (t', OSol sol) → tb_built t' = true.
Proof.
  destruct d; cbn [compute tb_step]; unfold tb_inj_diag, tb_prod_diag; fold (unset (tb_pvol t) (tb_flux t));
    (destruct (unset (tb_pvol t) (tb_flux t)); [by intros [=]|]);
    (match goal with |- context [start_sets_ok ?a ?b ?c] => destruct (start_sets_ok a b c) end; cbn [negb]; [|by intros [=]]);
    intros H; apply bind_Ok in H as ([t1 r1] & H & E); injection E as -> E;
    apply bind_Ok in H as ([t2 [e|]] & H & H2);
    (injection H2 as <- <- || idtac); try done;
    apply bind_Ok in H2 as ([m2 r2] & _ & H2); injection H2 as <- <-; cbn [tb_built];
    (destruct (tb_built t) eqn:Hb; [by injection H as <-|]);
    unfold tb_build in H; apply bind_Ok in H as (st & _ & H); apply bind_Ok in H as ([dn [e|]] & _ & H); try done;
    apply bind_Ok in H as ([up [e|]] & _ & H); try done; by injection H as <-.
Qed.

(** C40 *)
Lemma inflow_state t m : rates_ok m → ∃ t', tb_step t (CInflow m) = Ok (t', ODone) ∧
  (∀ c, om_find c (tb_in t') = match cell_rates Injection m c with [] => None | l => Some (sum_left l) end) ∧
  (∀ c, om_find c (tb_out t') = match cell_rates Production m c with [] => None | l => Some (sum_left l) end) ∧
  (∀ id, match om_find id (tb_inj t') with
    | Some vals => is_well Injection m id ∧ map_ok vals ∧ ∀ c, om_find c vals = well_rate Injection m id c
    | None => ¬ is_well Injection m id end) ∧
  (∀ id, match om_find id (tb_prod t') with
    | Some vals => is_well Production m id ∧ map_ok vals ∧ ∀ c, om_find c vals = well_rate Production m id c
    | None => ¬ is_well Production m id end).
Proof.
  intros Hm. eexists. split; [done|]. cbn [tb_assign_inflow tb_in tb_out tb_inj tb_prod].
  pose proof (by_id_find Injection m) as H1. pose proof (by_id_find Production m) as H2. cbn [by_id] in H1, H2.
  split_and!.
  - intros c. pose proof (proj2 (only_find Injection m Hm) c) as Hc. cbn [only] in Hc. rewrite Hc. by destruct (cell_rates Injection m c).
  - intros c. pose proof (proj2 (only_find Production m Hm) c) as Hc. cbn [only] in Hc. rewrite Hc. by destruct (cell_rates Production m c).
  - intros id. specialize (H1 id Hm). destruct (om_find id (r_inj (split_rates m))) as [vals|]; [|done]. destruct H1 as (? & ? & ?). done.
  - intros id. specialize (H2 id Hm). destruct (om_find id (r_prod (split_rates m))) as [vals|]; [|done]. destruct H2 as (? & ? & ?). done.
Qed.

(** C41 *)
Lemma rates_kept g cs t os d ev sets t' o : tb_run (tb_new g) cs = Ok (t, os) →
  tb_step t (compute d ev sets) = Ok (t', o) →
  tb_inj t' = tb_inj t ∧ tb_prod t' = tb_prod t ∧ tb_in t' = tb_in t ∧ tb_out t' = tb_out t.
Proof.
  intros H Hs. destruct (reached g cs t os H) as [Hc _ _ _ _]. destruct (proj2 (compute_step t d ev sets Hc) t' o Hs) as [_ (_ & _ & _ & Hr)].
  unfold rates_of in Hr. by injection Hr.
Qed.
End machine.
