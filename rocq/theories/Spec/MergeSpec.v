(** Problems that differ in how their rates are grouped into wells. *)
From Verif.Model Require Import Num OMap Containers Toolbox.
From Verif.Spec Require Import ToolboxSpec CyclicSpec.
Open Scope Z_scope.

Section spec.
Context {N : Num}.
(** Same network, same pore volumes, same rate of all wells together in each cell. *)
Record regrouped (d : direction) (p p' : problem) : Prop := {
  rg_cells : pb_cells p' = pb_cells p;
  rg_conns : pb_conns p' = pb_conns p;
  rg_pv : pb_pv p' = pb_pv p;
  rg_total : ∀ v, 0 ≤ v < pb_cells p → cell_total d (pb_rates p') v = cell_total d (pb_rates p) v
}.
(** The wells [G'] of the second problem have, together, the rates of the wells [G] of the first. *)
Definition same_rates (d : direction) (p p' : problem) (G G' : list cellset_id) : Prop :=
  ∀ v, 0 ≤ v < pb_cells p → joint_rate p' d G' v = joint_rate p d G v.
End spec.
