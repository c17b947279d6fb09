(** Runs of the library with and without its statistics counters. *)
From Verif.Model Require Import Base Num OMap Containers Solution TracerTofSolver Toolbox SolverStats.
From Verif.Spec Require Export FlowSpec ToolboxSpec SolverSpec.
Open Scope Z_scope.

(** The largest number of sweeps an int can count. *)
Definition int_sweeps : nat := Z.to_nat (2 ^ 31 - 1).
(** The same calls with at most that budget of sweeps. *)
Definition counted_env {N : Num} (ev : env) : env := mkEnv (e_heap ev) (Nat.min (e_fuel ev) int_sweeps).
Definition counted_call {N : Num} (c : tb_call) : tb_call :=
  match c with
  | CInject ev sets => CInject (counted_env ev) sets
  | CProduce ev sets => CProduce (counted_env ev) sets
  | _ => c
  end.
(** What a fresh toolbox returns for a problem, counters included. *)
Definition diagnose_c {N : Num} (d : direction) (ev : env) (g : cgraph) (p : problem) (f : cvalues)
    (sets : list cellset) : res tb_obs :=
  r ← tb_run_c (tb_new g) [CPoreVolume (pb_pv p); CFlux f; CInflow (pb_rates p)];
  r' ← tb_step_c r.1 (compute d ev sets); Ok r'.2.
