(** Which solutions the toolbox returns. *)
From Verif.Model Require Import Base Num OMap Containers Solution AssembledConnections Tarjan TracerTofSolver Toolbox.
From Verif.Spec Require Import ToolboxSpec.
From Verif.Proofs Require Import Util OMapFacts AConn ToolboxState ToolboxRates SolverBase SolverRun SolverTop SolverGen ToolboxFlow.
Open Scope Z_scope.

Section val.
Context {N : Num} (p : problem) (g : cgraph) (f : cvalues) (Hp : valid p) (HP : poses p g f).
Notation n := (pb_cells p).
Notation m := (pb_rates p).
Notation src d := (only d (split_rates m)).
Notation starts d id := (default [] (om_find id (by_id d (split_rates m)))).
Context (d : direction) (s : tts) (HS : solver_of n (flow d p) (pb_pv p) (src d) s).
Notation lval h fuel id := (local_val n (flow d p) (pb_pv p) (src d) s h fuel (starts d id)).
Notation gval h fuel := (global_val n (flow d p) (pb_pv p) (src d) s h fuel).
Notation comps id := (lcomps n s (map fst (starts d id))).
Notation lrun fuel id := (run n (flow d p) (pb_pv p) (src d) (λ v, om_find v (starts d id)) fuel (comps id)).
Notation grun fuel := (run n (flow d p) (pb_pv p) (src d) (ginj (src d)) fuel (gcomps n s)).
Notation val := (val p d s).
Notation val_loop := (val_loop p d s).

Lemma comps_ordered id : ordered (flow d p) (λ v, ∃ r, is_Some (well_rate d m id r) ∧ leads (flow d p) r v) (comps id).
Proof.
  destruct (starts_ok p Hp d id) as (_ & _ & Hk & Hr).
  pose proof (lcomps_ordered n (flow d p) (pb_pv p) (src d) s HS (map fst (starts d id)) Hr) as [H1 H2 H3 H4 H5].
  split; try done. intros v. rewrite H2. split; intros (r & Hr1 & Hr2); exists r; (split; [by apply Hk|done]).
Qed.

Lemma comps_range id v : v ∈ concat (comps id) → 0 ≤ v < n.
Proof.
  intros Hv. apply (oc_cover _ _ _ (comps_ordered id)) in Hv as (r & Hr & Hl).
  apply (leads_range n (flow d p) r v (so_arcs _ _ _ _ _ HS)); [done|].
  apply (starts_ok p Hp d id). by apply (starts_ok p Hp d id).
Qed.

Lemma lval_inv h fuel id tof conc : lval h fuel id = Ok (inl (tof, conc)) →
  ∃ st, lrun fuel id = Ok st ∧ (∀ v, v ∈ concat (comps id) → nleb (st.2 v) n0 = false) ∧
    tof = tab_map_of (cap st).1 (concat (comps id)) [] ∧ conc = tab_map_of st.2 (concat (comps id)) [].
Proof.
  unfold local_val. destruct (ws_ok h 0); [|done]. destruct (scc_ok h 5); [|done]. destruct (scc_ok h 8); [|done]. cbn [negb].
  destruct (existsb _ (starts d id)); [done|]. intros H. apply bind_Ok in H as (st & Hst & H). exists st.
  destruct (existsb (λ v, nleb (st.2 v) n0) (concat (comps id))) eqn:E; [done|]. injection H as <- <-.
  split_and!; try done. intros v Hv. destruct (nleb (st.2 v) n0) eqn:E2; [|done]. exfalso.
  assert (existsb (λ v, nleb (st.2 v) n0) (concat (comps id)) = true) as E3; [|congruence].
  apply existsb_exists. exists v. split; [by apply elem_of_list_In|done].
Qed.

Lemma lval_ok h fuel id st : (∀ i, h_ok h i = true) → (∀ c x, well_rate d m id c = Some x → nltb x n0 = false) →
  lrun fuel id = Ok st → (∀ v, v ∈ concat (comps id) → nleb (st.2 v) n0 = false) →
  lval h fuel id = Ok (inl (tab_map_of (cap st).1 (concat (comps id)) [], tab_map_of st.2 (concat (comps id)) [])).
Proof.
  intros Hh Hpos Hrun Hc. unfold local_val, ws_ok, scc_ok. rewrite !Hh. cbn [andb negb].
  destruct (starts_ok p Hp d id) as (Hw & Hf & _).
  destruct (existsb _ (starts d id)) eqn:E.
  { exfalso. apply existsb_exists in E as ([c x] & Hin & Hx). apply elem_of_list_In in Hin. apply om_find_elem in Hin; [|done].
    rewrite Hf in Hin. apply Hpos in Hin. cbn in Hx. congruence. }
  rewrite Hrun. cbn [mbind res_bind].
  destruct (existsb (λ v, nleb (st.2 v) n0) (concat (comps id))) eqn:E2; [|done].
  exfalso. apply existsb_exists in E2 as (v & Hin & Hx). apply elem_of_list_In in Hin. rewrite Hc in Hx by done. done.
Qed.

Lemma run_det n' A pv' src' inj fuel fuel' cs (st st' : fstate) :
  run n' A pv' src' inj fuel cs = Ok st → run n' A pv' src' inj fuel' cs = Ok st' → st = st'.
Proof.
  intros H1 H2. destruct (decide (fuel ≤ fuel')%nat) as [Hle|Hle].
  - rewrite (run_fuel n' A pv' src' inj cs fuel fuel' Hle) in H2; [congruence|]. by rewrite H1.
  - rewrite (run_fuel n' A pv' src' inj cs fuel' fuel) in H1; [congruence|lia|]. by rewrite H2.
Qed.

Lemma lval_det h h' fuel fuel' id x y : lval h fuel id = Ok (inl x) → lval h' fuel' id = Ok (inl y) → x = y.
Proof.
  destruct x as [a b], y as [a' b']. intros (st & E & _ & -> & ->)%lval_inv (st' & E' & _ & -> & ->)%lval_inv.
  by rewrite (run_det _ _ _ _ _ _ _ _ _ _ E E').
Qed.

Lemma gval_inv h fuel tof : gval h fuel = Ok (inl tof) → ∃ st, grun fuel = Ok st ∧ tof = tab n (cap st).1.
Proof.
  unfold global_val. destruct (ws_ok h 0 && scc_ok h 2); [|done]. destruct (scc_ok h 8); [|done]. cbn [negb].
  intros H. apply bind_Ok in H as (st & Hst & H). injection H as <-. by exists st.
Qed.
Lemma gval_ok h fuel st : (∀ i, h_ok h i = true) → grun fuel = Ok st → gval h fuel = Ok (inl (tab n (cap st).1)).
Proof. intros Hh Hrun. unfold global_val, ws_ok, scc_ok. rewrite !Hh. cbn [andb negb]. by rewrite Hrun. Qed.
Lemma gval_det h h' fuel fuel' x y : gval h fuel = Ok (inl x) → gval h' fuel' = Ok (inl y) → x = y.
Proof. intros (st & E & ->)%gval_inv (st' & E' & ->)%gval_inv. by rewrite (run_det _ _ _ _ _ _ _ _ _ _ E E'). Qed.

Lemma sol_values_set id id' x (mm : smap cellset_id cellset_values) : om_wf mm →
  sol_values id' (om_set id x mm) = if decide (id = id') then x else sol_values id' mm.
Proof.
  intros Hm. unfold sol_values. rewrite om_find_set by done. destruct (decide (id = id')) as [->|Hne].
  - rewrite decide_True by apply kcmp_refl. done.
  - rewrite decide_False; [done|]. intros E. apply Hne. by apply kcmp_eq.
Qed.

(** ** Loop over the start sets *)
Lemma val_loop_inv ev sets : ∀ k sol sol', om_wf (so_ttof sol) → om_wf (so_conc sol) →
  val_loop ev k sol sets = Ok (inl sol') →
  so_tof sol' = so_tof sol ∧ ∀ id,
    (id ∈ map cs_id sets → ∃ j, lval (e_heap ev j) (e_fuel ev) id = Ok (inl (sol_tof sol' id, sol_concentration sol' id))) ∧
    (id ∉ map cs_id sets → sol_tof sol' id = sol_tof sol id ∧ sol_concentration sol' id = sol_concentration sol id).
Proof.
  induction sets as [|st sets IH]; intros k sol sol' Hw1 Hw2; cbn [ToolboxFlow.val_loop].
  - intros [= <-]. split; [done|]. intros id. split; [by intros ?%elem_of_nil|done].
  - intros H. apply bind_Ok in H as ([[tof conc]|e] & Hl & H); [|done]. cbn [fst snd] in H.
    apply IH in H as [H1 H2]; [|by apply om_set_wf|by apply om_set_wf]. split; [done|].
    intros id. destruct (H2 id) as [H3 H4]. cbn [map]. rewrite elem_of_cons.
    destruct (decide (id ∈ map cs_id sets)) as [Hin|Hin].
    { split; [intros _; by apply H3|tauto]. }
    destruct (H4 Hin) as [E1 E2]. unfold sol_tof, sol_concentration in E1, E2 |- *.
    cbn [so_ttof so_conc sol_assign_conc sol_assign_tof] in E1, E2. rewrite sol_values_set in E1 by done. rewrite sol_values_set in E2 by done.
    destruct (decide (cs_id st = id)) as [<-|Hne].
    + split; [|tauto]. intros _. exists k. by rewrite E1, E2.
    + split; [intros [?|?]; congruence|]. done.
Qed.

Lemma val_loop_ok ev sets : (∀ j id, id ∈ map cs_id sets → ∃ tc, lval (e_heap ev j) (e_fuel ev) id = Ok (inl tc)) →
  ∀ k sol, ∃ sol', val_loop ev k sol sets = Ok (inl sol').
Proof.
  intros Hl. induction sets as [|st sets IH]; intros k sol; cbn [ToolboxFlow.val_loop]; [by eexists|].
  destruct (Hl k (cs_id st)) as [tc ->]; [left|]. cbn [mbind res_bind]. apply IH. intros; apply Hl; by right.
Qed.

Lemma val_inv ev sets sol : val ev sets = Ok (OSol sol) →
  gval (e_heap ev 0) (e_fuel ev) = Ok (inl (sol_global_tof sol)) ∧ ∀ id,
    (id ∈ map cs_id sets → ∃ j, lval (e_heap ev j) (e_fuel ev) id = Ok (inl (sol_tof sol id, sol_concentration sol id))) ∧
    (id ∉ map cs_id sets → sol_tof sol id = [] ∧ sol_concentration sol id = []).
Proof.
  unfold ToolboxFlow.val. intros H. apply bind_Ok in H as ([tof|e] & Hg & H); [|done].
  apply bind_Ok in H as ([sol'|e] & Hloop & H); [|done]. injection H as ->.
  apply val_loop_inv in Hloop as [H1 H2]; [|apply om_nil_wf|apply om_nil_wf]. split; [|done].
  unfold sol_global_tof. by rewrite H1.
Qed.
Lemma val_ok ev sets tof : gval (e_heap ev 0) (e_fuel ev) = Ok (inl tof) →
  (∀ j id, id ∈ map cs_id sets → ∃ tc, lval (e_heap ev j) (e_fuel ev) id = Ok (inl tc)) →
  ∃ sol, val ev sets = Ok (OSol sol).
Proof.
  intros Hg Hl. unfold ToolboxFlow.val. rewrite Hg. cbn [mbind res_bind].
  destruct (val_loop_ok ev sets Hl 1 (sol_assign_global sol_new tof)) as [sol ->]. by exists sol.
Qed.
End val.

(** ** Summary *)
Section summary.
Context {N : Num} (p : problem) (g : cgraph) (f : cvalues) (Hp : valid p) (HP : poses p g f).
Notation n := (pb_cells p).
Notation m := (pb_rates p).
Notation src d := (only d (split_rates m)).

(** The state computed for one well. *)
Lemma diagnose_local d ev sets sol id : diagnose d ev g p f sets = Ok (OSol sol) → id ∈ map cs_id sets →
  ∃ inj comps (st : fstate), (∀ v, inj v = well_rate d m id v) ∧
    ordered (flow d p) (λ v, ∃ r, is_Some (well_rate d m id r) ∧ leads (flow d p) r v) comps ∧
    (∀ v, v ∈ concat comps → 0 ≤ v < n) ∧
    run n (flow d p) (pb_pv p) (src d) inj (e_fuel ev) comps = Ok st ∧
    (∀ v, v ∈ concat comps → nleb (st.2 v) n0 = false) ∧
    (∀ v, om_find v (sol_tof sol id) = if decide (v ∈ concat comps) then Some (nmin (st.1 v) max_tof) else None) ∧
    (∀ v, om_find v (sol_concentration sol id) = if decide (v ∈ concat comps) then Some (st.2 v) else None).
Proof.
  destruct (diagnose_eq p g f Hp HP d) as (s & HS & E). rewrite E. destruct (start_sets_ok _ _ sets); [|done].
  intros Hv Hid. destruct (val_inv p d s ev sets sol Hv) as [_ H]. destruct (H id) as [H1 _]. destruct (H1 Hid) as (j & Hj).
  destruct (lval_inv p d s _ _ _ _ _ Hj) as (st & Hrun & Hpos & Et & Ec).
  eexists _, _, st. split_and!; [| | |exact Hrun|done| |].
  - apply (starts_ok p Hp d id).
  - by apply comps_ordered.
  - by apply comps_range.
  - intros v. rewrite Et, tab_map_find by apply om_nil_wf. done.
  - intros v. rewrite Ec, tab_map_find by apply om_nil_wf. done.
Qed.

Lemma diagnose_global d ev sets sol : diagnose d ev g p f sets = Ok (OSol sol) →
  ∃ comps (st : fstate), ordered (flow d p) (λ v, 0 ≤ v < n) comps ∧
    run n (flow d p) (pb_pv p) (src d) (ginj (src d)) (e_fuel ev) comps = Ok st ∧
    sol_global_tof sol = tab n (λ v, nmin (st.1 v) max_tof).
Proof.
  destruct (diagnose_eq p g f Hp HP d) as (s & HS & E). rewrite E. destruct (start_sets_ok _ _ sets); [|done].
  intros Hv. destruct (val_inv p d s ev sets sol Hv) as [Hg _].
  destruct (gval_inv p d s _ _ _ Hg) as (st & Hrun & Et). exists (gcomps n s), st. split_and!; try done.
  by eapply gcomps_ordered.
Qed.

Lemma diagnose_other d ev sets sol id : diagnose d ev g p f sets = Ok (OSol sol) → id ∉ map cs_id sets →
  sol_tof sol id = [] ∧ sol_concentration sol id = [].
Proof.
  destruct (diagnose_eq p g f Hp HP d) as (s & HS & E). rewrite E. destruct (start_sets_ok _ _ sets); [|done].
  intros Hv Hid. destruct (val_inv p d s ev sets sol Hv) as [_ H]. by apply (H id).
Qed.

(** Independence of the other start sets, of the cells listed, of memory and of
    the sweep budget. *)
Lemma diagnose_det d ev ev' sets sets' sol sol' : diagnose d ev g p f sets = Ok (OSol sol) →
  diagnose d ev' g p f sets' = Ok (OSol sol') →
  sol_global_tof sol = sol_global_tof sol' ∧ ∀ id, id ∈ map cs_id sets → id ∈ map cs_id sets' →
    sol_tof sol id = sol_tof sol' id ∧ sol_concentration sol id = sol_concentration sol' id.
Proof.
  destruct (diagnose_eq p g f Hp HP d) as (s & HS & E). rewrite !E.
  destruct (start_sets_ok _ _ sets); [|done]. destruct (start_sets_ok _ _ sets'); [|done].
  intros H1 H2. destruct (val_inv p d s ev sets sol H1) as [G1 L1]. destruct (val_inv p d s ev' sets' sol' H2) as [G2 L2].
  split; [by eapply gval_det|]. intros id Hi1 Hi2. destruct (L1 id) as [La _]. destruct (L2 id) as [Lb _].
  destruct (La Hi1) as (j & Ha). destruct (Lb Hi2) as (j' & Hb).
  pose proof (lval_det p d s _ _ _ _ _ _ _ Ha Hb) as Heq. by injection Heq.
Qed.

(** A computation succeeds when all runs do. *)
Lemma diagnose_ok d ev sets : alloc_ok ev →
  (∀ st, st ∈ sets → is_well d m (cs_id st) ∧ ∀ c, c ∈ cs_cells st → ∃ id x, well_rate d m id c = Some x) →
  (∀ id c x, well_rate d m id c = Some x → nltb x n0 = false) →
  (∀ comps, ordered (flow d p) (λ v, 0 ≤ v < n) comps →
    ∃ st, run n (flow d p) (pb_pv p) (src d) (ginj (src d)) (e_fuel ev) comps = Ok st) →
  (∀ id inj comps, (∀ v, inj v = well_rate d m id v) →
    ordered (flow d p) (λ v, ∃ r, is_Some (well_rate d m id r) ∧ leads (flow d p) r v) comps →
    (∀ v, v ∈ concat comps → 0 ≤ v < n) →
    ∃ st, run n (flow d p) (pb_pv p) (src d) inj (e_fuel ev) comps = Ok st ∧
      ∀ v, v ∈ concat comps → nleb (st.2 v) n0 = false) →
  ∃ sol, diagnose d ev g p f sets = Ok (OSol sol).
Proof.
  intros Ha Hst Hpos Hgl Hloc.
  destruct (diagnose_eq p g f Hp HP d) as (s & HS & E). rewrite E.
  rewrite (proj2 (start_sets_iff d m sets (va_rates _ Hp)) Hst).
  destruct (Hgl (gcomps n s)) as [st Hrun]; [by eapply gcomps_ordered|].
  eapply val_ok; [eapply gval_ok; [apply Ha|done]|].
  intros j id Hid. destruct (Hloc id _ _ (proj1 (proj2 (starts_ok p Hp d id))) (comps_ordered p Hp d s HS id) (comps_range p Hp d s HS id))
    as (st' & Hrun' & Hc).
  eexists. apply lval_ok; try done. apply Hpos.
Qed.
End summary.
