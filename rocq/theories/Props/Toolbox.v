(** Properties C23, C25-C31, C33-C37, C40 and C41: opm/flowdiagnostics/Toolbox.cpp
    and TracerTofSolver.cpp. *)
From Coq Require Import String QArith Qcanon.
From Coq.Floats Require Import SpecFloat.
From Verif.Model Require Import Base Num OMap Containers Solution AssembledConnections Tarjan TracerTofSolver Toolbox.
From Verif.Spec Require Import ContainerSpec ToolboxSpec.
From Verif.Proofs Require Import Util OMapFacts ContainerProps ExactNum OrdLaws B64Laws SolverBase SolverOrd TofRange TofLaws ToolboxState ToolboxVal ToolboxSane OppLaws ToolboxThms ToolboxPose ToolboxExact.
Open Scope Z_scope.

(** Every valid problem can be posed through the API. *)
Theorem problems_posable {N : Num} p np : valid p → Forall (λ x : Z * Z * list num, zlen x.2 = np) (pb_conns p) →
  zlen (pb_conns p) * np < 2 ^ 64 →
  ∃ g f, cg_make (pb_cells p) (flatten_pairs (map fst (pb_conns p))) = Ok g ∧
    cv_writes (cv_make (zlen (pb_conns p)) np) (writes_of p) = Ok f ∧ poses p g f.
Proof. exact (posable p np). Qed.

(** ** C23, C30: diagnostics succeed in exact arithmetic *)
(** For every problem there is a number of sweeps that suffices for all its
    components, and then start sets that name wells give a solution, any others
    std::runtime_error. *)
Theorem C23_total (p : @problem exact) g f d : valid p → poses p g f → data finite p → pores_ok p →
  ∃ sweeps, ∀ ev sets, (sweeps ≤ e_fuel ev)%nat → alloc_ok ev →
    (sets_ok d p sets → ∃ sol, diagnose d ev g p f sets = Ok (OSol sol)) ∧
    (¬ sets_ok d p sets → diagnose d ev g p f sets = Ok (OExn RuntimeError)).
Proof.
  intros Hp HP HD HV. destruct (always_ok p g f Hp HP HD HV d) as (k & H). exists k. intros ev sets Hk Ha. split.
  - by apply H.
  - by apply accepted_iff.
Qed.
(** Also when memory runs out the loops end, and the number of sweeps allowed
    does not affect the result. *)
Theorem C30_terminates (p : @problem exact) g f d : valid p → poses p g f → data finite p → pores_ok p →
  ∃ sweeps, ∀ ev sets, (sweeps ≤ e_fuel ev)%nat → diagnose d ev g p f sets ≠ NoFuel.
Proof.
  intros Hp HP HD HV. destruct (always_ok p g f Hp HP HD HV d) as (k & H). exists k. intros ev sets Hk. by apply H.
Qed.

(** ** C31: tracer values solve their equations up to the tolerance *)
(** No hypothesis on cycles.  [regular] leaves out cells that are connected to
    themselves but on no longer cycle; see C31_self_connection_refuted. *)
Theorem C31_near_solution (p : @problem exact) g f d ev sets sol id : valid p → poses p g f → data finite p → pores_ok p →
  diagnose d ev g p f sets = Ok (OSol sol) → id ∈ map cs_id sets →
  ∀ v c, om_find v (sol_concentration sol id) = Some c →
  nltb n0 c = true ∧
  (regular (flow d p) v → ∃ r,
    own p d id v (mix (pb_cells p) (flow d p) (value_at (sol_concentration sol id)) v) = nadd (nmul (total_in p d v) c) (Fin r) ∧
    (0 <= r)%Qc ∧ nleb (Fin r : @num exact) (nmul (ndiv n1 (nofZ 1000000000)) (influx (pb_cells p) (flow d p) v)) = true).
Proof.
  intros Hp HP HD HV H Hid v c Hc. split.
  - by apply (proj1 (value_ranges p g f Hp HP exact_laws exact_opp_laws (exact_data p HD) exact_tof_laws HV d ev sets sol id
      (exact_no_overflow p Hp HD HV d) H) v c).
  - exact (near_solution p g f Hp HP HD HV d ev sets sol id H Hid v c Hc).
Qed.

(** The times-of-flight [τ], cut off at [cutoff] in the result, solve theirs:
    what is missing to the balance is at most 1e-12 of [cutoff] times the influx
    and 1e-9 of the inflow of [τ]. *)
Theorem C31_tof_near_solution (p : @problem exact) g f d ev sets sol id : valid p → poses p g f → data finite p → pores_ok p →
  diagnose d ev g p f sets = Ok (OSol sol) → id ∈ map cs_id sets →
  ∃ τ : Z → Qc, ∀ v, (0 <= τ v)%Qc ∧
    match om_find v (sol_tof sol id), om_find v (sol_concentration sol id) with
    | Some t, Some c => t = nmin (Fin (τ v) : @num exact) cutoff ∧ (regular (flow d p) v →
        (nltb (total_in p d v) (ndiv (pore p v) cutoff) = true → Fin (τ v) = @cutoff exact) ∧
        (nltb (total_in p d v) (ndiv (pore p v) cutoff) = false → ∃ r,
          nadd (nmul (pore p v) c) (mix (pb_cells p) (flow d p) (λ u, nmul (Fin (τ u) : @num exact) (value_at (sol_concentration sol id) u)) v) =
            nadd (nmul (Fin (τ v) : @num exact) (nmul c (total_in p d v))) (Fin r) ∧ (0 <= r)%Qc ∧
          nleb (Fin r : @num exact) (nadd (nmul (ndiv cutoff (nofZ (10 ^ 12))) (influx (pb_cells p) (flow d p) v))
            (nmul (ndiv n1 (nofZ 1000000000)) (mix (pb_cells p) (flow d p) (λ u, Fin (τ u) : @num exact) v))) = true))
    | None, None => True
    | _, _ => False
    end.
Proof. intros Hp HP HD HV. exact (near_times p g f Hp HP HD HV d ev sets sol id). Qed.
(** The same for the global time-of-flight and the tracer of all wells together,
    which is not returned. *)
Theorem C31_global_near_solution (p : @problem exact) g f d ev sets sol : valid p → poses p g f → data finite p → pores_ok p →
  diagnose d ev g p f sets = Ok (OSol sol) → zlen (sol_global_tof sol) = pb_cells p ∧
  ∃ τ c : Z → Qc, (∀ v, 0 <= τ v ∧ 0 <= c v)%Qc ∧ ∀ v, 0 ≤ v < pb_cells p →
    sol_global_tof sol !! Z.to_nat v = Some (nmin (Fin (τ v) : @num exact) cutoff) ∧ (regular (flow d p) v →
      (∃ r, nadd (mix (pb_cells p) (flow d p) (λ u, Fin (c u) : @num exact) v) (cell_total d (pb_rates p) v) =
          nadd (nmul (total_in p d v) (Fin (c v))) (Fin r) ∧
        (0 <= r)%Qc ∧ nleb (Fin r : @num exact) (nmul (ndiv n1 (nofZ 1000000000)) (influx (pb_cells p) (flow d p) v)) = true) ∧
      ((0 < c v)%Qc →
        (nltb (total_in p d v) (ndiv (pore p v) cutoff) = true → Fin (τ v) = @cutoff exact) ∧
        (nltb (total_in p d v) (ndiv (pore p v) cutoff) = false → ∃ r,
          nadd (nmul (pore p v) (Fin (c v) : @num exact)) (mix (pb_cells p) (flow d p) (λ u, nmul (Fin (τ u) : @num exact) (Fin (c u))) v) =
            nadd (nmul (Fin (τ v) : @num exact) (nmul (Fin (c v) : @num exact) (total_in p d v))) (Fin r) ∧ (0 <= r)%Qc ∧
          nleb (Fin r : @num exact) (nadd (nmul (ndiv cutoff (nofZ (10 ^ 12))) (influx (pb_cells p) (flow d p) v))
            (nmul (ndiv n1 (nofZ 1000000000)) (mix (pb_cells p) (flow d p) (λ u, Fin (τ u) : @num exact) v))) = true))).
Proof. intros Hp HP HD HV. exact (near_global p g f Hp HP HD HV d ev sets sol). Qed.

(** ** C25: support *)
Theorem C25_support {N : Num} p g f d ev sets sol id : valid p → poses p g f →
  diagnose d ev g p f sets = Ok (OSol sol) → id ∈ map cs_id sets → ∀ v,
  (v ∈ map fst (sol_concentration sol id) ↔ ∃ r, is_Some (well_rate d (pb_rates p) id r) ∧ leads (flow d p) r v) ∧
  (v ∈ map fst (sol_tof sol id) ↔ ∃ r, is_Some (well_rate d (pb_rates p) id r) ∧ leads (flow d p) r v).
Proof. intros Hp HP. exact (support_keys p g f Hp HP d ev sets sol id). Qed.

(** ** C26: the tracer equation, bit for bit *)
Theorem C26_tracer_equation (p : @problem exact) g f d ev sets sol id : valid p → poses p g f → acyclic (net_arcs p) →
  diagnose d ev g p f sets = Ok (OSol sol) → id ∈ map cs_id sets →
  ∀ v c, om_find v (sol_concentration sol id) = Some c →
  c = ndiv (own p d id v (mix (pb_cells p) (flow d p) (value_at (sol_concentration sol id)) v)) (total_in p d v).
Proof.
  intros Hp HP. apply (tracer_equation p g f Hp HP exact_laws exact_opp_laws). by split.
Qed.
Theorem C26_tracer_equation_b64 (p : @problem b64) g f d ev sets sol id : valid p → poses p g f → @data b64 b64_ok p →
  acyclic (net_arcs p) → diagnose d ev g p f sets = Ok (OSol sol) → id ∈ map cs_id sets →
  ∀ v c, om_find v (sol_concentration sol id) = Some c →
  c = ndiv (own p d id v (mix (pb_cells p) (flow d p) (value_at (sol_concentration sol id)) v)) (total_in p d v).
Proof. intros Hp HP HD. exact (tracer_equation p g f Hp HP b64_laws b64_opp_laws HD d ev sets sol id). Qed.

(** ** C27: the time-of-flight equation *)
Theorem C27_tof_equation (p : @problem exact) g f d ev sets sol id : valid p → poses p g f → acyclic (net_arcs p) →
  diagnose d ev g p f sets = Ok (OSol sol) → id ∈ map cs_id sets →
  ∃ τ : Z → @num exact, ∀ v,
    match om_find v (sol_tof sol id), om_find v (sol_concentration sol id) with
    | Some t, Some c => t = nmin (τ v) cutoff ∧
        τ v = travel (pore p v) (total_in p d v) c
                (mix (pb_cells p) (flow d p) (λ u, nmul (τ u) (value_at (sol_concentration sol id) u)) v)
    | None, None => τ v = n0
    | _, _ => False
    end.
Proof. intros Hp HP. apply (tof_equation p g f Hp HP exact_laws exact_opp_laws). by split. Qed.
Theorem C27_tof_equation_b64 (p : @problem b64) g f d ev sets sol id : valid p → poses p g f → @data b64 b64_ok p →
  acyclic (net_arcs p) → diagnose d ev g p f sets = Ok (OSol sol) → id ∈ map cs_id sets →
  ∃ τ : Z → @num b64, ∀ v,
    match om_find v (sol_tof sol id), om_find v (sol_concentration sol id) with
    | Some t, Some c => t = nmin (τ v) cutoff ∧
        τ v = travel (pore p v) (total_in p d v) c
                (mix (pb_cells p) (flow d p) (λ u, nmul (τ u) (value_at (sol_concentration sol id) u)) v)
    | None, None => τ v = n0
    | _, _ => False
    end.
Proof. intros Hp HP HD. exact (tof_equation p g f Hp HP b64_laws b64_opp_laws HD d ev sets sol id). Qed.
(** The balance in cells that are not cut off. *)
Theorem C27_balance (p : @problem exact) g f d ev sets sol id : valid p → poses p g f → data finite p → pores_ok p →
  acyclic (net_arcs p) → diagnose d ev g p f sets = Ok (OSol sol) → id ∈ map cs_id sets →
  ∃ τ : Z → Qc, ∀ v,
    match om_find v (sol_tof sol id), om_find v (sol_concentration sol id) with
    | Some t, Some c => t = nmin (Fin (τ v) : @num exact) cutoff ∧
        (nltb (total_in p d v) (ndiv (pore p v) cutoff) = true → (Fin (τ v) : @num exact) = cutoff) ∧
        (nltb (total_in p d v) (ndiv (pore p v) cutoff) = false →
         nmul (Fin (τ v) : @num exact) (nmul c (total_in p d v)) =
         nadd (nmul (pore p v) c)
              (mix (pb_cells p) (flow d p) (λ u, nmul (Fin (τ u) : @num exact) (value_at (sol_concentration sol id) u)) v))
    | None, None => τ v = 0%Qc
    | _, _ => False
    end.
Proof. intros Hp HP HD HV. exact (balance p g f Hp HP HD HV d ev sets sol id). Qed.
(** The global time-of-flight solves the same equations for all wells together. *)
Theorem C27_global_equation (p : @problem exact) g f d ev sets sol : valid p → poses p g f → acyclic (net_arcs p) →
  diagnose d ev g p f sets = Ok (OSol sol) →
  zlen (sol_global_tof sol) = pb_cells p ∧ ∃ τ c : Z → @num exact, ∀ v, 0 ≤ v < pb_cells p →
    let T := total_in p d v in
    let q := cell_total d (pb_rates p) v in
    let n := pb_cells p in
    sol_global_tof sol !! Z.to_nat v = Some (nmin (τ v) cutoff) ∧
    c v = (if neqb T n0 then n0 else ndiv (if nltb n0 q then nadd (mix n (flow d p) c v) q else mix n (flow d p) c v) T) ∧
    τ v = travel (pore p v) T (c v) (mix n (flow d p) (λ u, nmul (τ u) (c u)) v).
Proof. intros Hp HP. apply (global_equation p g f Hp HP exact_laws exact_opp_laws). by split. Qed.
Theorem C27_global_equation_b64 (p : @problem b64) g f d ev sets sol : valid p → poses p g f → @data b64 b64_ok p →
  acyclic (net_arcs p) → diagnose d ev g p f sets = Ok (OSol sol) →
  zlen (sol_global_tof sol) = pb_cells p ∧ ∃ τ c : Z → @num b64, ∀ v, 0 ≤ v < pb_cells p →
    let T := total_in p d v in
    let q := cell_total d (pb_rates p) v in
    let n := pb_cells p in
    sol_global_tof sol !! Z.to_nat v = Some (nmin (τ v) cutoff) ∧
    c v = (if neqb T n0 then n0 else ndiv (if nltb n0 q then nadd (mix n (flow d p) c v) q else mix n (flow d p) c v) T) ∧
    τ v = travel (pore p v) T (c v) (mix n (flow d p) (λ u, nmul (τ u) (c u)) v).
Proof. intros Hp HP HD. exact (global_equation p g f Hp HP b64_laws b64_opp_laws HD d ev sets sol). Qed.

(** ** C28: concentrations are positive and at most one *)
Theorem C28_unit_interval (p : @problem exact) g f d ev sets sol id : valid p → poses p g f → data finite p → pores_ok p →
  diagnose d ev g p f sets = Ok (OSol sol) → id ∈ map cs_id sets →
  ∀ v c, om_find v (sol_concentration sol id) = Some c → nltb n0 c = true ∧ nleb c n1 = true.
Proof.
  intros Hp HP HD HV H Hid v c Hc.
  by apply (proj1 (value_ranges p g f Hp HP exact_laws exact_opp_laws (exact_data p HD) exact_tof_laws HV d ev sets sol id
    (exact_no_overflow p Hp HD HV d) H) v c).
Qed.
Theorem C28_unit_interval_b64 (p : @problem b64) g f d ev sets sol id : valid p → poses p g f → @data b64 b64_ok p → pores_ok p →
  no_overflow d p → diagnose d ev g p f sets = Ok (OSol sol) → id ∈ map cs_id sets →
  ∀ v c, om_find v (sol_concentration sol id) = Some c → nltb n0 c = true ∧ nleb c n1 = true.
Proof.
  intros Hp HP HD HV Hno H Hid v c Hc.
  by apply (proj1 (value_ranges p g f Hp HP b64_laws b64_opp_laws HD b64_tof_laws HV d ev sets sol id Hno H) v c).
Qed.

(** ** C29: time-of-flight is between 0 and 200 years *)
Theorem C29_tof_range (p : @problem exact) g f d ev sets sol id : valid p → poses p g f → data finite p → pores_ok p →
  diagnose d ev g p f sets = Ok (OSol sol) →
  (∀ v t, om_find v (sol_tof sol id) = Some t → ∃ x, t = Fin x ∧ (0 <= x)%Qc ∧ nleb t cutoff = true) ∧
  Forall (λ t : @num exact, ∃ x, t = Fin x ∧ (0 <= x)%Qc ∧ nleb t cutoff = true) (sol_global_tof sol).
Proof. intros Hp HP HD HV. exact (tof_range p g f Hp HP HD HV d ev sets sol id). Qed.
Theorem C29_tof_range_b64 (p : @problem b64) g f d ev sets sol id : valid p → poses p g f → @data b64 b64_ok p → pores_ok p →
  no_overflow d p → diagnose d ev g p f sets = Ok (OSol sol) →
  (∀ v t, om_find v (sol_tof sol id) = Some t → nleb n0 t = true ∧ nleb t cutoff = true) ∧
  Forall (λ t : @num b64, nleb n0 t = true ∧ nleb t cutoff = true) (sol_global_tof sol).
Proof.
  intros Hp HP HD HV Hno H. split.
  - exact (proj2 (value_ranges p g f Hp HP b64_laws b64_opp_laws HD b64_tof_laws HV d ev sets sol id Hno H)).
  - exact (global_ranges p g f Hp HP b64_laws b64_opp_laws HD b64_tof_laws HV d ev sets sol Hno H).
Qed.

(** ** C33: only the last accepted inputs matter *)
Theorem C33_last_inputs {N : Num} g cs t os d ev sets : tb_run (tb_new g) cs = Ok (t, os) →
  returns g cs (compute d ev sets) = returns g (essential g cs) (compute d ev sets).
Proof. exact (returns_essential g cs t os d ev sets). Qed.

(** ** C34: wrongly sized inputs *)
Theorem C34_rejects {N : Num} g cs t os : tb_run (tb_new g) cs = Ok (t, os) →
  (∀ pv, ∃ t', tb_step t (CPoreVolume pv) = Ok (t', if decide (zlen pv = cg_num_cells g) then ODone else OExn LogicError) ∧
     (zlen pv ≠ cg_num_cells g → t' = t)) ∧
  (∀ f, ∃ t', tb_step t (CFlux f) = Ok (t', if decide (cv_num_connections f = cg_num_connections g) then ODone else OExn LogicError) ∧
     (cv_num_connections f ≠ cg_num_connections g → t' = t)).
Proof. exact (rejects g cs t os). Qed.

(** ** C35: start sets are validated first *)
Theorem C35_unset {N : Num} g cs t os d ev sets : tb_run (tb_new g) cs = Ok (t, os) →
  default [] (last (omap (accepted_pv g) cs)) = [] ∨
  match last (omap (accepted_flux g) cs) with Some f => cv_num_connections f = 0 | None => True end →
  tb_step t (compute d ev sets) = Ok (t, OExn LogicError).
Proof. exact (unset_error g cs t os d ev sets). Qed.
Theorem C35_start_sets {N : Num} g cs t os d ev sets pv f (m : flux_map) st : tb_run (tb_new g) cs = Ok (t, os) →
  last (omap (accepted_pv g) cs) = Some pv → pv ≠ [] →
  last (omap (accepted_flux g) cs) = Some f → cv_num_connections f ≠ 0 →
  default [] (last (omap accepted_rates cs)) = m → rates_ok m →
  st ∈ sets → (¬ is_well d m (cs_id st) ∨ ∃ c, c ∈ cs_cells st ∧ ∀ id, well_rate d m id c = None) →
  tb_step t (compute d ev sets) = Ok (t, OExn RuntimeError).
Proof. exact (start_error g cs t os d ev sets pv f m st). Qed.

(** ** C36: the flow graph *)
(** After a computation both graphs are built, and as long as they are kept they
    are those of the last accepted fluxes: row [u] of the downstream graph lists
    the cells that [u] flows to, in increasing order, with the sum of the net
    fluxes; row [v] of the upstream graph the cells that flow to [v]. *)
Theorem C36_flow_graph {N : Num} p g f cs t os : valid p → poses p g f → tb_run (tb_new g) cs = Ok (t, os) →
  last (omap (accepted_flux g) cs) = Some f → tb_built t = true → ∀ u, 0 ≤ u < pb_cells p →
  ac_cell_neighbourhood (tb_down t) u =
    Ok (map (λ v, (v, arc_flux (net_arcs p) u v)) (downstream (pb_cells p) (net_arcs p) u)) ∧
  ac_cell_neighbourhood (tb_up t) u =
    Ok (map (λ v, (v, arc_flux (net_arcs p) v u)) (upstream (pb_cells p) (net_arcs p) u)).
Proof.
  intros Hp HP Hrun Hf Hb u Hu. destruct (cached_graph p g f cs t os Hp HP Hrun Hf Hb) as [Hd Hup].
  split; [exact (go_nb _ _ _ Hd u Hu)|]. rewrite (go_nb _ _ _ Hup u Hu), turn_down. f_equal.
  apply map_ext. intros v. by rewrite turn_flux.
Qed.
Theorem C36_built {N : Num} t d ev sets t' sol : tb_step t (compute d ev sets) = Ok (t', OSol sol) → tb_built t' = true.
Proof. exact (built_after t d ev sets t' sol). Qed.

(** ** C37: independence of the other start sets *)
Theorem C37_independent {N : Num} p g f d ev ev' sets sets' sol sol' : valid p → poses p g f →
  diagnose d ev g p f sets = Ok (OSol sol) → diagnose d ev' g p f sets' = Ok (OSol sol') →
  sol_global_tof sol = sol_global_tof sol' ∧ ∀ id, id ∈ map cs_id sets → id ∈ map cs_id sets' →
    sol_tof sol id = sol_tof sol' id ∧ sol_concentration sol id = sol_concentration sol' id.
Proof. intros Hp HP. exact (diagnose_det p g f Hp HP d ev ev' sets sets' sol sol'). Qed.
(** Nothing is stored for other ids. *)
Theorem C37_others {N : Num} p g f d ev sets sol id : valid p → poses p g f →
  diagnose d ev g p f sets = Ok (OSol sol) → id ∉ map cs_id sets →
  sol_tof sol id = [] ∧ sol_concentration sol id = [].
Proof. intros Hp HP. exact (diagnose_other p g f Hp HP d ev sets sol id). Qed.
(** Asking for fewer ids, or for the same with other cells, succeeds as well. *)
Theorem C37_fewer {N : Num} p g f d ev ev' sets sets' sol : valid p → poses p g f →
  diagnose d ev g p f sets = Ok (OSol sol) → alloc_ok ev' →
  (e_fuel ev ≤ e_fuel ev')%nat → sets_ok d p sets' → (∀ id, id ∈ map cs_id sets' → id ∈ map cs_id sets) →
  ∃ sol', diagnose d ev' g p f sets' = Ok (OSol sol').
Proof. intros Hp HP. exact (more_sets p g f Hp HP d ev ev' sets sets' sol). Qed.

(** ** C40: well rates *)
Theorem C40_rates {N : Num} t m : rates_ok m → ∃ t', tb_step t (CInflow m) = Ok (t', ODone) ∧
  (∀ c, om_find c (tb_in t') = match cell_rates Injection m c with [] => None | l => Some (sum_left l) end) ∧
  (∀ c, om_find c (tb_out t') = match cell_rates Production m c with [] => None | l => Some (sum_left l) end) ∧
  (∀ id, match om_find id (tb_inj t') with
    | Some vals => is_well Injection m id ∧ map_ok vals ∧ ∀ c, om_find c vals = well_rate Injection m id c
    | None => ¬ is_well Injection m id end) ∧
  (∀ id, match om_find id (tb_prod t') with
    | Some vals => is_well Production m id ∧ map_ok vals ∧ ∀ c, om_find c vals = well_rate Production m id c
    | None => ¬ is_well Production m id end).
Proof. exact (inflow_state t m). Qed.

(** ** C41: who is accepted *)
(** With memory available, std::runtime_error means that a set does not name a
    well of the right kind, or lists a cell without a rate of the right sign. *)
Theorem C41_accepted {N : Num} p g f d ev sets : valid p → poses p g f → alloc_ok ev →
  diagnose d ev g p f sets = Ok (OExn RuntimeError) ↔ ¬ sets_ok d p sets.
Proof. intros Hp HP. exact (accepted_iff p g f Hp HP d ev sets). Qed.
Theorem C41_rates_kept {N : Num} g cs t os d ev sets t' o : tb_run (tb_new g) cs = Ok (t, os) →
  tb_step t (compute d ev sets) = Ok (t', o) →
  tb_inj t' = tb_inj t ∧ tb_prod t' = tb_prod t ∧ tb_in t' = tb_in t ∧ tb_out t' = tb_out t.
Proof. exact (rates_kept g cs t os d ev sets t' o). Qed.

(** ** Examples *)
Lemma cells_in {N : Num} n (m : flux_map) : rates_ok m → Forall (λ e : cellset_id * cellset_values, Forall (λ c, 0 ≤ c < n) (map fst e.2)) m →
  ∀ d id c x, well_rate d m id c = Some x → 0 ≤ c < n.
Proof.
  intros [Hm Hv] H d id c x. unfold well_rate. destruct (om_find id m) as [vals|] eqn:E; [|done].
  apply om_find_elem in E; [|done]. destruct (om_find c vals) as [y|] eqn:E'; [|done]. intros _.
  apply om_find_elem in E'; [|exact (proj1 (Forall_forall _ _) Hv _ E)].
  apply (proj1 (Forall_forall _ _) (proj1 (Forall_forall _ _) H _ E)). cbn. by apply (elem_of_list_fmap_1 fst) in E'.
Qed.
Lemma acyclic_rank {N : Num} (r : Z → Z) A : Forall (λ e : Z * Z, r e.1 < r e.2) (map fst A) → acyclic A.
Proof.
  intros H v Hv. assert (∀ u w, tc (flows A) u w → r u < r w) as Hr; [|specialize (Hr v v Hv); lia].
  assert (∀ u w, flows A u w → r u < r w) as Hf by (intros u w Huw; exact (proj1 (Forall_forall _ _) H _ Huw)).
  induction 1 as [u w Huw|u w z Huw _ IH]; [by apply Hf|]. specialize (Hf _ _ Huw). lia.
Qed.
Definition ex_ev : env := mkEnv (λ _, mkHeap (λ _ i, 7 * Z.of_nat i) (λ _ , true)) 200.
Lemma ex_alloc : alloc_ok ex_ev. Proof. done. Qed.
Definition graph_for {N : Num} (p : problem) : cgraph :=
  match cg_make (pb_cells p) (flatten_pairs (map fst (pb_conns p))) with Ok g => g | _ => mkCgraph 0 [] end.
Definition values_for {N : Num} (p : problem) (np : Z) : cvalues :=
  match cv_writes (cv_make (zlen (pb_conns p)) np) (writes_of p) with Ok f => f | _ => cv_make 0 0 end.
Lemma posed {N : Num} p np : valid p → Forall (λ x : Z * Z * list num, zlen x.2 = np) (pb_conns p) →
  zlen (pb_conns p) * np < 2 ^ 64 → poses p (graph_for p) (values_for p np).
Proof.
  intros Hp Hn Hs. destruct (posable p np Hp Hn Hs) as (g & f & Hg & Hf & HP). unfold graph_for, values_for. by rewrite Hg, Hf.
Qed.

(** Five cells.  0 flows to 2 with flux 4 from two phases, 1 flows to 2 although
    the connection is given the other way round, 2 flows to 3; the phase fluxes
    between 3 and 4 cancel, so that 4 is isolated. *)
Definition ex_conns {N : Num} : list (Z * Z * list num) :=
  [(0, 2, [nofZ 3; nofZ 1]); (2, 1, [nofZ (-1); nofZ (-1)]); (2, 3, [nofZ 2; nofZ 4]); (3, 4, [nofZ 1; nofZ (-1)])].
Definition ex_rates {N : Num} : flux_map :=
  [("I1"%string, [(0, nofZ 4)]); ("I2"%string, [(1, nofZ 2)]); ("P"%string, [(3, nofZ (-6))])].
Definition ex_p {N : Num} : problem := mkProblem 5 ex_conns (map nofZ [1; 2; 3; 4; 5]) ex_rates.
(** Four cells, 1 and 2 on a cycle. *)
Definition cy_conns {N : Num} : list (Z * Z * list num) :=
  [(0, 1, [nofZ 2]); (1, 2, [nofZ 3]); (1, 2, [nofZ (-1)]); (2, 3, [nofZ 2])].
Definition cy_p {N : Num} : problem :=
  mkProblem 4 cy_conns (map nofZ [1; 2; 3; 4]) [("I"%string, [(0, nofZ 2)]); ("P"%string, [(3, nofZ (-2))])].
(** One cell, connected to itself. *)
Definition self_p {N : Num} : problem := mkProblem 1 [(0, 0, [nofZ 1])] [nofZ 1] [("I"%string, [(0, nofZ 1)])].

Ltac forall_tac := repeat (apply Forall_cons; split); try apply Forall_nil_2; cbn; try lia; try done.
Ltac valid_tac := split; [cbn; lia|done|forall_tac|eexists; forall_tac|split; [repeat constructor|forall_tac; repeat constructor]|done|
  apply cells_in; [split; [repeat constructor|forall_tac; repeat constructor]|forall_tac; forall_tac]].
Lemma ex_valid {N : Num} : valid ex_p. Proof. valid_tac. Qed.
Lemma cy_valid {N : Num} : valid cy_p. Proof. valid_tac. Qed.
Lemma self_valid {N : Num} : valid self_p. Proof. valid_tac. Qed.
Lemma ex_poses {N : Num} : poses ex_p (graph_for ex_p) (values_for ex_p 2).
Proof. apply posed; [apply ex_valid|forall_tac|reflexivity]. Qed.
Lemma cy_poses {N : Num} : poses cy_p (graph_for cy_p) (values_for cy_p 1).
Proof. apply posed; [apply cy_valid|forall_tac|reflexivity]. Qed.
Lemma self_poses {N : Num} : poses self_p (graph_for self_p) (values_for self_p 1).
Proof. apply posed; [apply self_valid|forall_tac|reflexivity]. Qed.

(** Numbers written as integers are fine for both arithmetics. *)
Definition is_int {N : Num} (x : num) : Prop := ∃ z, x = nofZ z.
Ltac int_tac := repeat match goal with
  | H : _ ∈ [] |- _ => by apply elem_of_nil in H
  | H : _ ∈ _ :: _ |- _ => apply elem_of_cons in H as [->|H]
  | H : _ ∈ _ |- _ => progress cbv [ex_p cy_p self_p ex_conns cy_conns ex_rates pb_conns pb_rates pb_pv map fst snd] in H
  end; by eexists.
Lemma ex_int {N : Num} : data is_int ex_p. Proof. split; intros; int_tac. Qed.
Lemma cy_int {N : Num} : data is_int cy_p. Proof. split; intros; int_tac. Qed.
Lemma self_int {N : Num} : data is_int self_p. Proof. split; intros; int_tac. Qed.
Lemma data_impl {N : Num} (W W' : num → Prop) p : (∀ x, W x → W' x) → data W p → data W' p.
Proof. intros H [H1 H2 H3]. split; eauto. Qed.
Lemma int_finite (x : @num exact) : is_int x → finite x.
Proof. intros [z ->]. by eexists. Qed.
Lemma int_b64 (x : @num b64) : is_int x → b64_ok x.
Proof. intros [z ->]. apply (o_ok_ofZ _ b64_laws). Qed.

Ltac pores_tac := intros x Hx; cbv [pb_pv ex_p cy_p self_p map] in Hx;
  repeat (apply elem_of_cons in Hx as [->|Hx]; [vm_compute; reflexivity|]); by apply elem_of_nil in Hx.
Lemma ex_pores : pores_ok (@ex_p exact). Proof. pores_tac. Qed.
Lemma ex_pores_b64 : pores_ok (@ex_p b64). Proof. pores_tac. Qed.
Lemma cy_pores : pores_ok (@cy_p exact). Proof. pores_tac. Qed.
Lemma cy_pores_b64 : pores_ok (@cy_p b64). Proof. pores_tac. Qed.
Lemma self_pores : pores_ok (@self_p exact). Proof. pores_tac. Qed.

(** The first problem has no cycle in either arithmetic, the second has. *)
Lemma ex_acyclic : acyclic (net_arcs (@ex_p exact)).
Proof.
  apply (acyclic_rank id). assert (map fst (net_arcs (@ex_p exact)) = [(0, 2); (1, 2); (2, 3)]) as -> by (vm_compute; reflexivity). forall_tac.
Qed.
Lemma ex_acyclic_b64 : acyclic (net_arcs (@ex_p b64)).
Proof.
  apply (acyclic_rank id). assert (map fst (net_arcs (@ex_p b64)) = [(0, 2); (1, 2); (2, 3)]) as -> by (vm_compute; reflexivity). forall_tac.
Qed.
Example cy_cyclic : tc (flows (net_arcs (@cy_p exact))) 1 1.
Proof.
  assert (map fst (net_arcs (@cy_p exact)) = [(0, 1); (1, 2); (2, 1); (2, 3)]) as E by (vm_compute; reflexivity).
  apply tc_l with 2; [|apply tc_once]; unfold flows; rewrite E; set_solver.
Qed.

(** Fractions, and comparison of a map with a list of values. *)
Definition frac {N : Num} (a b : Z) : num := ndiv (nofZ a) (nofZ b).
Fixpoint holds {N : Num} (m : cellset_values) (l : list (Z * num)) : bool :=
  match m, l with
  | [], [] => true
  | (c, x) :: m, (c', y) :: l => Z.eqb c c' && neqb x y && holds m l
  | _, _ => false
  end.
Definition solves {N : Num} (r : res tb_obs) (P : solution → bool) : bool :=
  match r with Ok (OSol sol) => P sol | _ => false end.
Lemma solves_inv {N : Num} r P : solves r P = true → ∃ sol, r = Ok (OSol sol) ∧ P sol = true.
Proof. destruct r as [[]| | | |]; try done. eauto. Qed.
Definition ex_sets := [cs_make "I1"%string [0]; cs_new "I2"%string].
Definition ex_run {N : Num} d sets := diagnose d ex_ev (graph_for ex_p) ex_p (values_for ex_p 2) sets.
Definition cy_run {N : Num} d sets := diagnose d ex_ev (graph_for cy_p) cy_p (values_for cy_p 1) sets.
Definition self_run {N : Num} sets := diagnose Injection ex_ev (graph_for self_p) self_p (values_for self_p 1) sets.

Example C25_ex : solves (@ex_run exact Injection ex_sets) (λ sol,
  holds (sol_concentration sol "I1"%string) [(0, n1); (2, frac 2 3); (3, frac 2 3)] &&
  holds (sol_concentration sol "I2"%string) [(1, n1); (2, frac 1 3); (3, frac 1 3)] &&
  holds (sol_tof sol "I1"%string) [(0, frac 1 4); (2, frac 3 4); (3, frac 17 12)] &&
  holds (sol_concentration sol "P"%string) []) = true.
Proof. vm_compute. reflexivity. Qed.
Example C25_ex_b64 : solves (@ex_run b64 Injection ex_sets) (λ sol,
  holds (sol_concentration sol "I1"%string) [(0, n1); (2, frac 2 3); (3, frac 2 3)] &&
  holds (sol_concentration sol "I2"%string) [(1, n1); (2, frac 1 3); (3, frac 1 3)] &&
  bool_decide (map fst (sol_tof sol "I1"%string) = [0; 2; 3])) = true.
Proof. vm_compute. reflexivity. Qed.
Example C25_ex_production : solves (@ex_run exact Production [cs_new "P"%string]) (λ sol,
  holds (sol_concentration sol "P"%string) [(0, n1); (1, n1); (2, n1); (3, n1)] &&
  holds (sol_tof sol "P"%string) [(0, frac 17 12); (1, frac 13 6); (2, frac 7 6); (3, frac 2 3)]) = true.
Proof. vm_compute. reflexivity. Qed.
(** Injector start sets name injectors only. *)
Example C41_ex : @ex_run exact Injection [cs_new "P"%string] = Ok (OExn RuntimeError) ∧
  @ex_run exact Injection [cs_make "I1"%string [3]] = Ok (OExn RuntimeError).
Proof. split; vm_compute; reflexivity. Qed.
Example C23_ex_sets : sets_ok Injection (@ex_p exact) ex_sets.
Proof.
  intros st Hst. unfold ex_sets in Hst. apply elem_of_cons in Hst as [->|Hst]; [|apply elem_of_list_singleton in Hst as ->].
  - split; [by exists 0; eexists; vm_compute|]. intros c Hc. apply elem_of_list_singleton in Hc as ->.
    exists "I1"%string. by eexists; vm_compute.
  - split; [by exists 1; eexists; vm_compute|]. intros c Hc. by apply elem_of_nil in Hc.
Qed.
(** On the cycle the values are near the solution 1; the iteration took several
    sweeps. *)
Example C31_ex : solves (@cy_run exact Injection [cs_new "I"%string]) (λ sol,
  bool_decide (map fst (sol_concentration sol "I"%string) = [0; 1; 2; 3]) &&
  forallb (λ e : Z * @num exact, nleb (frac 999999 1000000) e.2 && nleb e.2 n1) (sol_concentration sol "I"%string)) = true.
Proof. vm_compute. reflexivity. Qed.
Example C31_tof_ex : solves (@cy_run exact Injection [cs_new "I"%string]) (λ sol,
  match map snd (sol_tof sol "I"%string), sol_global_tof sol with
  | [a; b; c; e], [a'; b'; c'; e'] =>
      neqb a (frac 1 2) && forallb (λ x : @num exact * @num exact, nleb (nsub x.2 (frac 2 100)) x.1 && nleb x.1 x.2)
        [(b, nofZ 2); (c, nofZ 3); (e, nofZ 5); (b', nofZ 2); (c', nofZ 3); (e', nofZ 5)]
  | _, _ => false
  end) = true.
Proof. vm_compute. reflexivity. Qed.
Example C31_ex_b64 : solves (@cy_run b64 Injection [cs_new "I"%string]) (λ sol,
  bool_decide (map fst (sol_concentration sol "I"%string) = [0; 1; 2; 3]) &&
  forallb (λ e : Z * @num b64, nleb (frac 999999 1000000) e.2 && nleb e.2 n1) (sol_concentration sol "I"%string)) = true.
Proof. vm_compute. reflexivity. Qed.
(** Without further cycles a self-connection counts in the denominator only: the
    only cell of the only well gets concentration 1/2. *)
Theorem C31_self_connection_refuted : ∃ (p : @problem exact) g f ev sets sol id v c,
  valid p ∧ poses p g f ∧ data finite p ∧ pores_ok p ∧ alloc_ok ev ∧
  diagnose Injection ev g p f sets = Ok (OSol sol) ∧ id ∈ map cs_id sets ∧ om_find v (sol_concentration sol id) = Some c ∧
  nltb (nadd (nmul (total_in p Injection v) c) (nmul (ndiv n1 (nofZ 1000000000)) (influx (pb_cells p) (flow Injection p) v)))
    (own p Injection id v (mix (pb_cells p) (flow Injection p) (value_at (sol_concentration sol id)) v)) = true.
Proof.
  assert (solves (@self_run exact [cs_new "I"%string]) (λ sol, match om_find 0 (sol_concentration sol "I"%string) with
    | Some c => nltb (nadd (nmul (total_in self_p Injection 0) c) (nmul (ndiv n1 (nofZ 1000000000)) (influx 1 (flow Injection self_p) 0)))
        (own self_p Injection "I"%string 0 (mix 1 (flow Injection self_p) (value_at (sol_concentration sol "I"%string)) 0))
    | None => false end) = true) as (sol & H & E)%solves_inv by (vm_compute; reflexivity).
  destruct (om_find 0 (sol_concentration sol "I"%string)) as [c|] eqn:Ec; [|done].
  exists self_p, (graph_for (@self_p exact)), (values_for self_p 1), ex_ev, [cs_new "I"%string], sol, "I"%string, 0, c.
  split; [apply self_valid|]. split; [apply self_poses|]. split; [eapply data_impl; [apply int_finite|apply self_int]|].
  split; [apply self_pores|]. split; [apply ex_alloc|]. split; [exact H|]. split; [left|]. split; [exact Ec|exact E].
Qed.

(** In doubles C23 fails when a tracer underflows: a rate of 1e-200 meets one of
    1e200, and the computation ends with std::logic_error. *)
Definition tiny : @num b64 := ndiv n1 (nofZ (10 ^ 200)).
Definition two {N : Num} (w a b x y : num) : problem := mkProblem 2 [(0, 1, [w])] [x; y] [("I"%string, [(0, a)]); ("J"%string, [(1, b)])].
Lemma two_data {N : Num} (W : num → Prop) w a b x y : W w → W a → W b → W x → W y → data W (two w a b x y).
Proof.
  intros. split; cbv [two pb_conns pb_rates pb_pv]; intros; repeat match goal with
  | H : _ ∈ [] |- _ => by apply elem_of_nil in H
  | H : _ ∈ _ :: _ |- _ => apply elem_of_cons in H as [->|H]
  | H : _ ∈ _ |- _ => progress cbv [snd] in H
  end; done.
Qed.
Lemma two_valid {N : Num} w a b x y : valid (two w a b x y). Proof. valid_tac. Qed.
Definition under_p : @problem b64 := two tiny tiny (nofZ (10 ^ 200)) (nofZ 1) (nofZ 1).
Lemma under_valid : valid under_p. Proof. apply two_valid. Qed.
Theorem C23_b64_refuted : ∃ (p : @problem b64) g f ev sets, valid p ∧ poses p g f ∧ @data b64 b64_ok p ∧ pores_ok p ∧
  no_overflow Injection p ∧ alloc_ok ev ∧ sets_ok Injection p sets ∧
  diagnose Injection ev g p f sets = Ok (OExn LogicError).
Proof.
  exists under_p, (graph_for under_p), (values_for under_p 1), ex_ev, [cs_new "I"%string].
  assert (b64_ok tiny) as Ht by (unfold tiny, n1; apply (o_ok_div _ b64_laws); apply (o_ok_ofZ _ b64_laws)).
  split; [apply under_valid|]. split; [apply posed; [apply under_valid|forall_tac|reflexivity]|].
  split; [exact (@two_data b64 b64_ok _ _ _ _ _ Ht Ht (o_ok_ofZ _ b64_laws _) (o_ok_ofZ _ b64_laws _) (o_ok_ofZ _ b64_laws _))|]. clear Ht.
  split. { intros x Hx. cbv [pb_pv under_p two] in Hx. repeat (apply elem_of_cons in Hx as [->|Hx]; [vm_compute; reflexivity|]). by apply elem_of_nil in Hx. }
  split. { intros v Hv. cbn in Hv. assert (v = 0 ∨ v = 1) as [->| ->] by lia; vm_compute; reflexivity. }
  split; [apply ex_alloc|]. split.
  - intros st Hst. apply elem_of_list_singleton in Hst as ->. split.
    + exists 0, tiny. unfold well_rate. cbn [pb_rates under_p]. vm_compute. reflexivity.
    + intros c Hc. by apply elem_of_nil in Hc.
  - assert (match diagnose Injection ex_ev (graph_for under_p) under_p (values_for under_p 1) [cs_new "I"%string] with
      | Ok (OExn LogicError) => true | _ => false end = true) as H by (vm_compute; reflexivity).
    destruct (diagnose _ _ _ _ _ _) as [[| |[]]| | | |]; try discriminate H. reflexivity.
Qed.

(** The hypotheses of the theorems above are met by these problems. *)
Example ex_meets d : valid (@ex_p exact) ∧ poses (@ex_p exact) (graph_for (@ex_p exact)) (values_for (@ex_p exact) 2) ∧ data finite (@ex_p exact) ∧
  pores_ok (@ex_p exact) ∧ acyclic (net_arcs (@ex_p exact)) ∧ no_overflow d (@ex_p exact).
Proof.
  pose proof (data_impl _ _ _ int_finite ex_int) as HD.
  split; [apply ex_valid|]. split; [apply ex_poses|]. split; [exact HD|]. split; [exact ex_pores|]. split; [exact ex_acyclic|].
  exact (exact_no_overflow (@ex_p exact) ex_valid HD ex_pores d).
Qed.
Example ex_meets_b64 : valid (@ex_p b64) ∧ poses (@ex_p b64) (graph_for (@ex_p b64)) (values_for (@ex_p b64) 2) ∧ @data b64 b64_ok (@ex_p b64) ∧
  pores_ok (@ex_p b64) ∧ acyclic (net_arcs (@ex_p b64)) ∧ no_overflow Injection (@ex_p b64).
Proof.
  split; [apply ex_valid|]. split; [apply ex_poses|]. split; [exact (data_impl _ _ _ int_b64 ex_int)|].
  split; [exact ex_pores_b64|]. split; [exact ex_acyclic_b64|].
  intros v Hv. cbn in Hv. assert (v = 0 ∨ v = 1 ∨ v = 2 ∨ v = 3 ∨ v = 4) as [->|[->|[->|[->| ->]]]] by lia; vm_compute; reflexivity.
Qed.
Example cy_meets : valid (@cy_p exact) ∧ poses (@cy_p exact) (graph_for (@cy_p exact)) (values_for (@cy_p exact) 1) ∧ data finite (@cy_p exact) ∧ pores_ok (@cy_p exact) ∧
  regular (flow Injection (@cy_p exact)) 1.
Proof.
  split; [apply cy_valid|]. split; [apply cy_poses|]. split; [exact (data_impl _ _ _ int_finite cy_int)|]. split; [exact cy_pores|].
  left. intros Hf. assert (map fst (net_arcs (@cy_p exact)) = [(0, 1); (1, 2); (2, 1); (2, 3)]) as E by (vm_compute; reflexivity).
  unfold flows in Hf. cbn [flow] in Hf. rewrite E in Hf. repeat (apply elem_of_cons in Hf as [Hf|Hf]; [done|]). by apply elem_of_nil in Hf.
Qed.
(** A history with rejected calls and changed fluxes; the last computation gives
    what the accepted inputs alone give. *)
Definition ex_history : list (@tb_call exact) :=
  [CFlux (values_for ex_p 2); CPoreVolume [n1]; CInject ex_ev ex_sets; CPoreVolume (pb_pv ex_p); CInflow [];
   CInject ex_ev ex_sets; CInflow (pb_rates ex_p); CFlux (cv_make 3 2); CInject ex_ev ex_sets; CFlux (cv_make 4 1);
   CFlux (values_for ex_p 2)].
Definition tag (o : @tb_obs exact) : nat := match o with ODone => 0 | OSol _ => 1 | OExn RuntimeError => 2 | OExn LogicError => 3 | _ => 4 end%nat.
Example C33_ex : match tb_run (tb_new (graph_for (@ex_p exact))) ex_history with
  | Ok (_, os) => map tag os = [0; 3; 3; 0; 0; 2; 0; 3; 1; 0; 0]%nat | _ => False end.
Proof. vm_compute. reflexivity. Qed.
Example C33_ex_last : solves (returns (graph_for (@ex_p exact)) ex_history (CInject ex_ev ex_sets)) (λ sol,
  holds (sol_concentration sol "I1"%string) [(0, n1); (2, frac 2 3); (3, frac 2 3)]) = true.
Proof. vm_compute. reflexivity. Qed.
(** A well with rates of both signs, and a cell shared by two wells. *)
Example C40_ex : match @tb_step exact (tb_new (graph_for (@ex_p exact)))
    (CInflow [("A"%string, [(0, nofZ 1); (1, nofZ (-2)); (2, n0)]); ("B"%string, [(0, nofZ 3)])]) with
  | Ok (t, _) => holds (tb_in t) [(0, @nofZ exact 4)] && holds (tb_out t) [(1, nofZ 2)] &&
      bool_decide (map fst (tb_inj t) = ["A"%string; "B"%string] ∧ map fst (tb_prod t) = ["A"%string])
  | _ => false end = true.
Proof. vm_compute. reflexivity. Qed.

Print Assumptions problems_posable.
Print Assumptions C23_total.
Print Assumptions C30_terminates.
Print Assumptions C31_near_solution.
Print Assumptions C31_tof_near_solution.
Print Assumptions C31_global_near_solution.
Print Assumptions C25_support.
Print Assumptions C26_tracer_equation.
Print Assumptions C26_tracer_equation_b64.
Print Assumptions C27_tof_equation.
Print Assumptions C27_tof_equation_b64.
Print Assumptions C27_balance.
Print Assumptions C27_global_equation.
Print Assumptions C27_global_equation_b64.
Print Assumptions C28_unit_interval.
Print Assumptions C28_unit_interval_b64.
Print Assumptions C29_tof_range.
Print Assumptions C29_tof_range_b64.
Print Assumptions C33_last_inputs.
Print Assumptions C34_rejects.
Print Assumptions C35_unset.
Print Assumptions C35_start_sets.
Print Assumptions C36_flow_graph.
Print Assumptions C36_built.
Print Assumptions C37_independent.
Print Assumptions C37_others.
Print Assumptions C37_fewer.
Print Assumptions C40_rates.
Print Assumptions C41_accepted.
Print Assumptions C41_rates_kept.
Print Assumptions C31_self_connection_refuted.
Print Assumptions C23_b64_refuted.
