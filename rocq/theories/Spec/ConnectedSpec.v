(** Which wells the flow connects: no reference to the code. *)
From Verif.Model Require Import Base Num OMap Containers Toolbox.
From Verif.Spec Require Import FlowSpec ToolboxSpec.
Open Scope Z_scope.

Section connected.
Context {N : Num}.

(** The net fluxes lead from a cell where [i] injects to a cell where [j]
    produces. *)
Definition connected (p : problem) (i j : cellset_id) : Prop :=
  ∃ u v, is_Some (well_rate Injection (pb_rates p) i u) ∧ is_Some (well_rate Production (pb_rates p) j v) ∧
    leads (net_arcs p) u v.
(** They do so by way of cell [c]. *)
Definition by_way_of (p : problem) (i j : cellset_id) (c : Z) : Prop :=
  ∃ u v, is_Some (well_rate Injection (pb_rates p) i u) ∧ is_Some (well_rate Production (pb_rates p) j v) ∧
    leads (net_arcs p) u c ∧ leads (net_arcs p) c v.

End connected.
