(** Turning a flow around: all fluxes and rates negated, injection and production
    exchanged. *)
From Verif.Model Require Import Num OMap Containers Toolbox.
From Verif.Spec Require Export ToolboxSpec.
Open Scope Z_scope.

Section spec.
Context {N : Num}.

Definition opposite (d : direction) : direction :=
  match d with Injection => Production | Production => Injection end.

(** ConnectionValues and rates with every entry negated. *)
Definition neg_values (f : cvalues) : cvalues :=
  mkCvalues (cv_nconn f) (cv_nphase f) (map nopp (cv_data f)).
Definition neg_rates (m : flux_map) : flux_map :=
  map (λ e : cellset_id * cellset_values, (e.1, map (λ k : Z * num, (k.1, nopp k.2)) e.2)) m.
Definition neg_problem (p : problem) : problem :=
  mkProblem (pb_cells p) (map (λ x : Z * Z * list num, (x.1, map nopp x.2)) (pb_conns p)) (pb_pv p) (neg_rates (pb_rates p)).

Definition mirror (c : tb_call) : tb_call :=
  match c with
  | CPoreVolume pv => CPoreVolume pv
  | CFlux f => CFlux (neg_values f)
  | CInflow m => CInflow (neg_rates m)
  | CInject ev sets => CProduce ev sets
  | CProduce ev sets => CInject ev sets
  end.

(** What a client program observes. *)
Definition observed (g : cgraph) (cs : list tb_call) : res (list tb_obs) :=
  r ← tb_run (tb_new g) cs; Ok r.2.

(** Connections of a grid with cells 0..n-1. *)
Definition grid_ok (g : cgraph) : Prop :=
  0 ≤ cg_num_cells g < 2 ^ 31 ∧ ∀ k, 0 ≤ k < cg_num_connections g →
    ∃ a b, cg_connection g k = Ok (a, b) ∧ 0 ≤ a < cg_num_cells g ∧ 0 ≤ b < cg_num_cells g.

(** As much flows out of every cell as flows into it, wells included. *)
Definition conserves (p : problem) : Prop :=
  ∀ v, 0 ≤ v < pb_cells p → total_in p Injection v = total_in p Production v.

End spec.
