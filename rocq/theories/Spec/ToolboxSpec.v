(** What a flow diagnostics problem is, and which calls pose it, without
    reference to the code of Toolbox.cpp. *)
From Verif.Model Require Import Num OMap Containers Toolbox.
From Verif.Spec Require Export FlowSpec.
Open Scope Z_scope.

(** ** Problems *)
Inductive direction := Injection | Production.

Section spec.
Context {N : Num}.

Record problem := mkProblem {
  pb_cells : Z;                              (* number of cells *)
  pb_conns : list (Z * Z * list num);        (* connected cells and phase fluxes *)
  pb_pv : list num;                          (* pore volumes *)
  pb_rates : flux_map  (* well rates by id and cell *)
}.

(** The net flow through a connection: the phase fluxes added up, directed by
    their sign. *)
Definition net_arc (x : Z * Z * list num) : option arc :=
  let w := sum_left x.2 in
  if nltb n0 w then Some (x.1.1, x.1.2, w)
  else if nltb w n0 then Some (x.1.2, x.1.1, nopp w)
  else None.
Definition net_arcs (p : problem) : list arc := omap net_arc (pb_conns p).

(** Injection follows the flow, production goes against it. *)
Definition flow (d : direction) (p : problem) : list arc :=
  match d with Injection => net_arcs p | Production => turn (net_arcs p) end.

(** The part of a rate that counts in a direction: positive rates for injection,
    the magnitude of negative ones for production. *)
Definition rate_part (d : direction) (x : num) : option num :=
  match d with
  | Injection => if nltb n0 x then Some x else None
  | Production => if nltb n0 x then None else if nltb x n0 then Some (nopp x) else None
  end.
(** The rate of well [id] in cell [c], if it has one in this direction. *)
Definition well_rate (d : direction) (m : flux_map) (id : cellset_id) (c : Z) : option num :=
  match om_find id m with
  | Some vals => match om_find c vals with Some x => rate_part d x | None => None end
  | None => None
  end.
(** All rates in cell [c], in the order of the wells. *)
Definition cell_rates (d : direction) (m : flux_map) (c : Z) : list num :=
  omap (λ id, well_rate d m id c) (map fst m).
Definition cell_total (d : direction) (m : flux_map) (c : Z) : num :=
  sum_left (cell_rates d m c).
(** [id] is an injector, respectively a producer. *)
Definition is_well (d : direction) (m : flux_map) (id : cellset_id) : Prop :=
  ∃ c x, well_rate d m id c = Some x.

(** The representation invariant of std::map: strictly increasing keys. *)
Definition map_ok {K V} `{OrdKey K} (m : smap K V) : Prop :=
  StronglySorted (λ a b, kcmp a b = Lt) (map fst m).
Definition rates_ok (m : flux_map) : Prop :=
  map_ok m ∧ Forall (λ e, map_ok e.2) m.

(** Indices in range, sizes matching, at least one cell and one connection. *)
Record valid (p : problem) : Prop := {
  va_cells : 0 < pb_cells p < 2 ^ 31;
  va_conns : pb_conns p ≠ [];
  va_ends : Forall (λ x : Z * Z * list num, 0 ≤ x.1.1 < pb_cells p ∧ 0 ≤ x.1.2 < pb_cells p) (pb_conns p);
  va_phases : ∃ np, Forall (λ x : Z * Z * list num, zlen x.2 = np) (pb_conns p);
  va_rates : rates_ok (pb_rates p);
  va_pv : zlen (pb_pv p) = pb_cells p;
  va_cellrates : ∀ d id c x, well_rate d (pb_rates p) id c = Some x → 0 ≤ c < pb_cells p
}.

(** The objects handed to the toolbox hold the data of the problem. *)
Record poses (p : problem) (g : cgraph) (f : cvalues) : Prop := {
  po_cells : cg_num_cells g = pb_cells p;
  po_conns : cg_num_connections g = zlen (pb_conns p);
  po_fconns : cv_num_connections f = zlen (pb_conns p);
  po_ends : ∀ k x, pb_conns p !! k = Some x → cg_connection g (Z.of_nat k) = Ok x.1;
  po_phases : ∀ k x, pb_conns p !! k = Some x → cv_num_phases f = zlen x.2;
  po_flux : ∀ k x j w, pb_conns p !! k = Some x → x.2 !! j = Some w →
    cv_get f (Z.of_nat k) (Z.of_nat j) = Ok w
}.

(** All numbers of a problem are of a given kind. *)
Record data (W : num → Prop) (p : problem) : Prop := {
  da_flux : ∀ x w, x ∈ pb_conns p → w ∈ x.2 → W w;
  da_rates : ∀ e k, e ∈ pb_rates p → k ∈ e.2 → W k.2;
  da_pv : ∀ x, x ∈ pb_pv p → W x
}.
Definition pores_ok (p : problem) : Prop := ∀ x, x ∈ pb_pv p → nleb n0 x = true.
(** The call that computes diagnostics in a direction. *)
Definition compute (d : direction) (ev : env) (sets : list cellset) : tb_call :=
  match d with Injection => CInject ev sets | Production => CProduce ev sets end.

(** ** Histories of calls *)
(** The last accepted value of each input. *)
Definition accepted_pv (g : cgraph) (c : tb_call) : option (list num) :=
  match c with CPoreVolume pv => if decide (zlen pv = cg_num_cells g) then Some pv else None | _ => None end.
Definition accepted_flux (g : cgraph) (c : tb_call) : option cvalues :=
  match c with CFlux f => if decide (cv_num_connections f = cg_num_connections g) then Some f else None | _ => None end.
Definition accepted_rates (c : tb_call) : option (flux_map) :=
  match c with CInflow m => Some m | _ => None end.
(** The shortest history with the same inputs. *)
Definition essential (g : cgraph) (cs : list tb_call) : list tb_call :=
  (match last (omap (accepted_pv g) cs) with Some pv => [CPoreVolume pv] | None => [] end) ++
  (match last (omap (accepted_flux g) cs) with Some f => [CFlux f] | None => [] end) ++
  (match last (omap accepted_rates cs) with Some m => [CInflow m] | None => [] end).

(** What the last of a sequence of calls returns. *)
Definition returns (g : cgraph) (cs : list tb_call) (c : tb_call) : res tb_obs :=
  r ← tb_run (tb_new g) cs; r' ← tb_step r.1 c; Ok r'.2.

(** The result of a fresh toolbox for a problem. *)
Definition diagnose (d : direction) (ev : env) (g : cgraph) (p : problem) (f : cvalues) (sets : list cellset) : res tb_obs :=
  returns g [CPoreVolume (pb_pv p); CFlux f; CInflow (pb_rates p)] (compute d ev sets).

(** Start sets name wells with a rate in the direction, and cells with one. *)
Definition sets_ok (d : direction) (p : problem) (sets : list cellset) : Prop :=
  ∀ st, st ∈ sets → is_well d (pb_rates p) (cs_id st) ∧
    ∀ c, c ∈ cs_cells st → ∃ id x, well_rate d (pb_rates p) id c = Some x.

(** Writing the fluxes of a problem into a ConnectionValues object. *)
Definition writes_of (p : problem) : list (Z * Z * num) :=
  imap (λ k x, imap (λ j w, (Z.of_nat k, Z.of_nat j, w)) x.2) (pb_conns p) ≫= id.

(** ** The equations of tracer and time-of-flight *)
(** The rate of well [id] in cell [v] added to [x]. *)
Definition own (p : problem) (d : direction) (id : cellset_id) (v : Z) (x : num) : num :=
  match well_rate d (pb_rates p) id v with Some r => nadd x r | None => x end.
(** Total flux into [v], wells included. *)
Definition total_in (p : problem) (d : direction) (v : Z) : num :=
  nadd (influx (pb_cells p) (flow d p) v) (cell_total d (pb_rates p) v).
Definition pore (p : problem) (v : Z) : num := default n0 (pb_pv p !! Z.to_nat v).
(** Times-of-flight end at 200 years, in seconds. *)
Definition cutoff : num := nofZ (200 * 365 * 24 * 60 * 60).
(** The upwind formula for a cell with pore volume [V], total influx [T],
    concentration [c] and inflow [s] of time-of-flight times concentration. *)
Definition travel (V T c s : num) : num :=
  if nltb T (ndiv V cutoff) then cutoff
  else if nltb n0 c then ndiv (nadd (nmul V c) s) (nmul T c) else cutoff.

(** The totals of the equations do not overflow. *)
Definition no_overflow (d : direction) (p : problem) : Prop :=
  ∀ v, 0 ≤ v < pb_cells p → nltb (total_in p d v) ninf = true.

(** Every allocation succeeds. *)
Definition alloc_ok (ev : env) : Prop := ∀ k i, h_ok (e_heap ev k) i = true.

End spec.

(** Exact numbers that are neither infinite nor NaN. *)
Definition finite (x : @num exact) : Prop := ∃ q, x = Fin q.
