(** Problems that agree in one direction. *)
From Verif.Model Require Import Num OMap Containers Toolbox.
From Verif.Spec Require Export ToolboxSpec SameFlowSpec.
Open Scope Z_scope.

(** The same cells, pore volumes and net fluxes, and the same rates in the
    direction [d]; those of the opposite sign may differ. *)
Record same_side {N : Num} (d : direction) (p p' : problem) : Prop := {
  ss_cells : pb_cells p' = pb_cells p;
  ss_pv : pb_pv p' = pb_pv p;
  ss_flow : same_flow p p';
  ss_rates : ∀ id c, well_rate d (pb_rates p') id c = well_rate d (pb_rates p) id c
}.
(** The problem without the rates that do not count in the direction [d]. *)
Definition stripped {N : Num} (d : direction) (p : problem) : problem :=
  mkProblem (pb_cells p) (pb_conns p) (pb_pv p)
    (map (λ e : cellset_id * cellset_values, (e.1, filter (λ k : Z * num, is_Some (rate_part d k.2)) e.2)) (pb_rates p)).
