(** Problems that differ in their pore volumes. *)
From Verif.Model Require Import Num OMap Containers Toolbox.
From Verif.Spec Require Export ToolboxSpec.
Open Scope Z_scope.

Section spec.
Context {N : Num}.

(** The flow would need more than 200 years to fill the pores of [v]. *)
Definition slow_cell (d : direction) (p : problem) (v : Z) : bool :=
  nltb (total_in p d v) (ndiv (pore p v) cutoff).

(** The same problem with larger pore volumes. *)
Definition grown (p p' : problem) : Prop :=
  (pb_cells p' = pb_cells p ∧ pb_conns p' = pb_conns p ∧ pb_rates p' = pb_rates p) ∧
  Forall2 (λ x y, nleb x y = true) (pb_pv p) (pb_pv p').
End spec.
