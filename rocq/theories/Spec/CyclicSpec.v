(** Upper bounds of the diagnostics: functions that satisfy the upwind equations
    of a set of wells as inequalities. *)
From Verif.Model Require Import Num OMap Containers Toolbox.
From Verif.Spec Require Export ToolboxSpec.
Open Scope Z_scope.

Section spec.
Context {N : Num}.

(** Rate of the wells [W] in cell [v]. *)
Definition joint_rate (p : problem) (d : direction) (W : list cellset_id) (v : Z) : num :=
  sum_left (omap (λ id, well_rate d (pb_rates p) id v) W).

(** In every cell, [c] takes away at least as much as comes in. *)
Definition tracer_bound (p : problem) (d : direction) (W : list cellset_id) (c : Z → num) : Prop :=
  (∀ v, nleb n0 (c v) = true) ∧
  ∀ v, 0 ≤ v < pb_cells p →
    nleb (nadd (mix (pb_cells p) (flow d p) c v) (joint_rate p d W v)) (nmul (total_in p d v) (c v)) = true.

(** The same of [y], concentration times time-of-flight. *)
Definition time_bound (p : problem) (d : direction) (c y : Z → num) : Prop :=
  (∀ v, nleb n0 (y v) = true) ∧
  ∀ v, 0 ≤ v < pb_cells p →
    if nltb (total_in p d v) (ndiv (pore p v) cutoff) then nleb (nmul cutoff (c v)) (y v) = true
    else nleb (nadd (nmul (pore p v) (c v)) (mix (pb_cells p) (flow d p) y v)) (nmul (total_in p d v) (y v)) = true.

(** [c] solves the equations of the wells [W]. *)
Definition tracer_solution (p : problem) (d : direction) (W : list cellset_id) (c : Z → num) : Prop :=
  (∀ v, nleb n0 (c v) = true) ∧
  ∀ v, 0 ≤ v < pb_cells p →
    nadd (mix (pb_cells p) (flow d p) c v) (joint_rate p d W v) = nmul (total_in p d v) (c v).
End spec.
