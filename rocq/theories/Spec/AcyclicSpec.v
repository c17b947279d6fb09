(** The equations behind the diagnostics of a flow without cycles, and problems
    that look alike. *)
From Verif.Model Require Import Num OMap Containers Toolbox.
From Verif.Spec Require Export ToolboxSpec.
Open Scope Z_scope.

Section spec.
Context {N : Num}.

(** Cells downstream of a rate of well [id]. *)
Definition served (p : problem) (d : direction) (id : cellset_id) (v : Z) : Prop :=
  ∃ r, is_Some (well_rate d (pb_rates p) id r) ∧ leads (flow d p) r v.

(** The upwind equations of well [id] in cell [v], for concentrations [c] and
    times-of-flight [τ] before they are cut off. *)
Definition well_eqs (p : problem) (d : direction) (id : cellset_id) (c τ : Z → num) (v : Z) : Prop :=
  c v = ndiv (own p d id v (mix (pb_cells p) (flow d p) c v)) (total_in p d v) ∧
  τ v = travel (pore p v) (total_in p d v) (c v) (mix (pb_cells p) (flow d p) (λ u, nmul (τ u) (c u)) v).

(** The equations of all wells together. *)
Definition all_eqs (p : problem) (d : direction) (c τ : Z → num) (v : Z) : Prop :=
  c v = (if neqb (total_in p d v) n0 then n0 else
    ndiv (if nltb n0 (cell_total d (pb_rates p) v) then nadd (mix (pb_cells p) (flow d p) c v) (cell_total d (pb_rates p) v)
          else mix (pb_cells p) (flow d p) c v) (total_in p d v)) ∧
  τ v = travel (pore p v) (total_in p d v) (c v) (mix (pb_cells p) (flow d p) (λ u, nmul (τ u) (c u)) v).

(** Two problems that agree on a set of cells, into which nothing flows from
    outside. *)
Record agree_on (d : direction) (p p' : problem) (U : Z → Prop) : Prop := {
  ag_cells : ∀ v, U v → 0 ≤ v < pb_cells p ∧ 0 ≤ v < pb_cells p';
  ag_closed : ∀ u v, flows (flow d p) u v → U v → U u;
  ag_closed' : ∀ u v, flows (flow d p') u v → U v → U u;
  ag_flows : ∀ u v, U u → U v → (flows (flow d p) u v ↔ flows (flow d p') u v) ∧ arc_flux (flow d p) u v = arc_flux (flow d p') u v;
  ag_pore : ∀ v, U v → pore p v = pore p' v;
  ag_rates : ∀ v, U v → cell_rates d (pb_rates p) v = cell_rates d (pb_rates p') v;
  ag_well : ∀ id v, U v → well_rate d (pb_rates p) id v = well_rate d (pb_rates p') id v
}.

(** The same problem with the cells numbered by [π]. *)
Record renumbered (π : Z → Z) (p p' : problem) : Prop := {
  rn_cells : pb_cells p' = pb_cells p;
  rn_range : ∀ v, 0 ≤ v < pb_cells p → 0 ≤ π v < pb_cells p;
  rn_inj : ∀ u v, 0 ≤ u < pb_cells p → 0 ≤ v < pb_cells p → π u = π v → u = v;
  rn_conns : pb_conns p' = map (λ x : Z * Z * list num, (π x.1.1, π x.1.2, x.2)) (pb_conns p);
  rn_pore : ∀ v, 0 ≤ v < pb_cells p → pore p' (π v) = pore p v;
  rn_ids : map fst (pb_rates p') = map fst (pb_rates p);
  rn_rates : ∀ d id v, 0 ≤ v < pb_cells p → well_rate d (pb_rates p') id (π v) = well_rate d (pb_rates p) id v
}.
End spec.
