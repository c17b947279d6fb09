(** Release builds: what is asked of them. *)
From Verif.Model Require Import Base Num OMap Containers Toolbox Release.
From Verif.Spec Require Import ToolboxSpec.
Open Scope Z_scope.

(** What the release build returns for a problem. *)
Definition diagnose_r {N : Num} (d : direction) (ev : env) (g : cgraph) (p : problem) (f : cvalues)
    (sets : list cellset) : res tb_obs :=
  r ← tb_run_r (tb_new g) [CPoreVolume (pb_pv p); CFlux f; CInflow (pb_rates p)];
  r' ← tb_step_r r.1 (compute d ev sets); Ok r'.2.

(** Outcomes of a build without assertions that have defined behaviour: a result, or a loop
    that goes on for longer than allowed. *)
Definition carries_on {A} (r : res A) : Prop :=
  match r with Ok _ | NoFuel => True | Throw _ | UB | AssertFail => False end.
