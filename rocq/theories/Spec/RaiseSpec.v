(** Problems in which one well has a higher rate. *)
From Verif.Model Require Import Num OMap Containers Toolbox.
From Verif.Spec Require Export ToolboxSpec.
Open Scope Z_scope.

(** The same problem with a higher rate of well [id] in some cells, possibly with
    a rate where it had none. *)
Record raised {N : Num} (d : direction) (id : cellset_id) (p p' : problem) : Prop := {
  ra_cells : pb_cells p' = pb_cells p;
  ra_conns : pb_conns p' = pb_conns p;
  ra_pv : pb_pv p' = pb_pv p;
  ra_wells : map fst (pb_rates p') = map fst (pb_rates p);
  ra_others : ∀ i c, i ≠ id → well_rate d (pb_rates p') i c = well_rate d (pb_rates p) i c;
  ra_well : ∀ c x, well_rate d (pb_rates p) id c = Some x → ∃ x', well_rate d (pb_rates p') id c = Some x' ∧ nleb x x' = true
}.
