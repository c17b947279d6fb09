(** When a client of the toolbox stays within defined behaviour. *)
From Verif.Model Require Import Base Num OMap Containers Toolbox.
From Verif.Spec Require Import ToolboxSpec.
Open Scope Z_scope.

(** A graph that joins cells it has, with fewer than 2^31 of them. *)
Record graph_ok (g : cgraph) : Prop := {
  gr_cells : 0 ≤ cg_num_cells g < 2 ^ 31;
  gr_conns : 0 ≤ cg_num_connections g;
  gr_ends : ∀ k, 0 ≤ k < cg_num_connections g → ∃ a b, cg_connection g k = Ok (a, b) ∧
    0 ≤ a < cg_num_cells g ∧ 0 ≤ b < cg_num_cells g
}.

Section spec.
Context {N : Num}.

(** Fluxes that can be read wherever there should be one. *)
Record flux_ok (f : cvalues) : Prop := {
  fx_phases : 0 ≤ cv_num_phases f;
  fx_get : ∀ k j, 0 ≤ k < cv_num_connections f → 0 ≤ j < cv_num_phases f → ∃ w, cv_get f k j = Ok w
}.

(** The arguments of a call are objects of this kind, and memory does not run out
    during it.  Nothing is said about the numbers. *)
Definition call_ok (c : tb_call) : Prop :=
  match c with
  | CPoreVolume _ => True
  | CFlux f => flux_ok f
  | CInflow m => rates_ok m
  | CInject ev _ | CProduce ev _ => alloc_ok ev
  end.

(** The rates in force after some calls. *)
Definition rates_after (cs : list tb_call) : flux_map := default [] (last (omap accepted_rates cs)).
(** Every rate that counts in a direction belongs to a cell of the graph. *)
Definition wells_within (d : direction) (g : cgraph) (m : flux_map) : Prop :=
  ∀ id c x, well_rate d m id c = Some x → 0 ≤ c < cg_num_cells g.
(** Whenever something is computed, this holds for the rates in force. *)
Definition wells_within_always (g : cgraph) (cs : list tb_call) : Prop :=
  ∀ cs1 d ev sets cs2, cs = cs1 ++ compute d ev sets :: cs2 → wells_within d g (rates_after cs1).

(** A computation gets past its checks: pore volumes and fluxes have been accepted,
    and the start sets name wells and cells with rates. *)
Definition passes_checks (d : direction) (g : cgraph) (cs : list tb_call) (sets : list cellset) : Prop :=
  (∃ pv, last (omap (accepted_pv g) cs) = Some pv ∧ pv ≠ []) ∧
  (∃ f, last (omap (accepted_flux g) cs) = Some f ∧ cv_num_connections f ≠ 0) ∧
  ∀ st, st ∈ sets → is_well d (rates_after cs) (cs_id st) ∧
    ∀ c, c ∈ cs_cells st → ∃ id x, well_rate d (rates_after cs) id c = Some x.
End spec.

(** Outcomes with defined behaviour: a result, an assertion that does not hold, or
    a loop that goes on for longer than allowed. *)
Definition defined {A} (r : res A) : Prop :=
  match r with Ok _ | AssertFail | NoFuel => True | Throw _ | UB => False end.
