(** Property C83: what is left of a toolbox, and of a graph under assembly, when a call
    runs out of memory; Toolbox.cpp and AssembledConnections.cpp. *)
From Coq Require Import String.
From Verif.Model Require Import Base Num OMap Containers Solution AssembledConnections Toolbox OutOfMemory.
From Verif.Spec Require Import GraphSpec ContainerSpec ToolboxSpec DefinedSpec OutOfMemorySpec.
From Verif.Proofs Require Import Util OMapFacts AConn ContainerProps OutOfMemory.
From Verif.Props Require Import Toolbox Defined.
Open Scope Z_scope.

(** ** C83: std::bad_alloc *)
(** A client that, after an assignment has failed, repeats it until it succeeds before
    computing anything: everything it observes is as if the failed calls had not been
    made.  Computations may fail at any point, and need no repair. *)
Theorem C83_recovers {N : Num} g cs t os : repaired g cs → m_run (tb_new g) cs = Ok (t, os) →
  (∃ t', tb_run (tb_new g) (enough cs) = Ok (t', enough_obs cs os)) ∧
  (intact g cs → ∀ d ev sets, m_returns g cs (compute d ev sets) = returns g (enough cs) (compute d ev sets)).
Proof. exact (repaired_run g cs t os). Qed.

(** Nor does it meet undefined behaviour. *)
Theorem C83_defined {N : Num} g cs : graph_ok g → Forall mcall_ok cs → repaired g cs → wells_within_enough g cs →
  defined (m_run (tb_new g) cs).
Proof. exact (m_program_defined g cs). Qed.

(** Without the repair it depends on the input.  Pore volumes: the old ones remain, or
    the next computation reports that there are none. *)
Theorem C83_pore_volumes {N : Num} g cs t os pv b d ev sets : tb_run (tb_new g) cs = Ok (t, os) → zlen pv = cg_num_cells g →
  m_returns g (map Enough cs ++ [FailPoreVolume pv b]) (compute d ev sets) =
  (if b then Ok (OExn LogicError) else returns g cs (compute d ev sets)).
Proof. exact (pv_fail g cs t os pv b d ev sets). Qed.

(** Fluxes, when those in force have been used: nobody notices, whatever is called
    later. *)
Theorem C83_flux_cached {N : Num} g cs t os s f b cs2 : tb_run (tb_new g) cs = Ok (t, os) → last os = Some (OSol s) →
  cv_num_connections f = cg_num_connections g →
  (r ← m_run t (FailFlux f b :: map Enough cs2); Ok r.2) = (r ← tb_run t cs2; Ok (BadAlloc :: map Seen r.2)).
Proof. exact (flux_fail_cached g cs t os s f b cs2). Qed.

(** Fluxes, when there have been none: the toolbox takes itself for complete, and the
    next computation reads from an empty array. *)
Theorem C83_flux_UB {N : Num} g cs t os f b d ev sets pv : graph_ok g → Forall call_ok cs → tb_run (tb_new g) cs = Ok (t, os) →
  last (omap (accepted_flux g) cs) = None → last (omap (accepted_pv g) cs) = Some pv → pv ≠ [] →
  cv_num_connections f = cg_num_connections g → 0 < cv_num_connections f → 0 < cv_num_phases f →
  (∀ st, st ∈ sets → is_well d (rates_after cs) (cs_id st) ∧ ∀ c, c ∈ cs_cells st → ∃ id x, well_rate d (rates_after cs) id c = Some x) →
  m_returns g (map Enough cs ++ [FailFlux f b]) (compute d ev sets) = UB.
Proof. exact (flux_fail_UB g cs t os f b d ev sets pv). Qed.

(** Three cells in a row, the flow given for two phases and for one. *)
Definition om_p {N : Num} (np : nat) : problem :=
  mkProblem 3 [(0, 1, take np [nofZ 1; nofZ 0]); (1, 2, take np [nofZ 1; nofZ 0])] (map nofZ [1; 1; 1])
    [("I"%string, [(0, nofZ 1)]); ("P"%string, [(2, nofZ (-1))])].
Definition om_g : cgraph := @graph_for exact (om_p 1).
Definition om_f {N : Num} (np : nat) : cvalues := values_for (om_p np) (Z.of_nat np).
Definition om_cs {N : Num} (np : nat) : list tb_call := [CPoreVolume (pb_pv (om_p np)); CFlux (om_f np); CInflow (pb_rates (om_p np))].
Definition om_sets := [cs_new "I"%string].
(** The tracer of [id] is found in [c]. *)
Definition traced {N : Num} (id : cellset_id) (c : Z) (sol : solution) : bool :=
  match om_find c (sol_concentration sol id) with Some _ => true | None => false end.

(** Fluxes, when those in force have not been used: the old numbers may be read with
    the new number of phases.  Here the old and the new fluxes even describe the same
    flow, and yet the tracer gets lost. *)
Theorem C83_flux_refuted : ∃ (g : cgraph) (pv : list (@num exact)) f1 f2 m ev sets id c sol1 sol2 sol,
  returns g [CPoreVolume pv; CFlux f1; CInflow m] (compute Injection ev sets) = Ok (OSol sol1) ∧
  returns g [CPoreVolume pv; CFlux f2; CInflow m] (compute Injection ev sets) = Ok (OSol sol2) ∧
  m_returns g (map Enough [CPoreVolume pv; CFlux f1; CInflow m] ++ [FailFlux f2 false]) (compute Injection ev sets) = Ok (OSol sol) ∧
  is_Some (om_find c (sol_concentration sol1 id)) ∧ is_Some (om_find c (sol_concentration sol2 id)) ∧
  om_find c (sol_concentration sol id) = None.
Proof.
  assert (solves (returns om_g (@om_cs exact 2) (compute Injection ex_ev om_sets)) (traced "I"%string 2) = true)
    as (sol1 & H1 & E1)%solves_inv by (vm_compute; reflexivity).
  assert (solves (returns om_g (@om_cs exact 1) (compute Injection ex_ev om_sets)) (traced "I"%string 2) = true)
    as (sol2 & H2 & E2)%solves_inv by (vm_compute; reflexivity).
  assert (solves (m_returns om_g (map Enough (@om_cs exact 2) ++ [FailFlux (om_f 1) false]) (compute Injection ex_ev om_sets))
    (λ sol, negb (traced "I"%string 2 sol)) = true) as (sol & H & E)%solves_inv by (vm_compute; reflexivity).
  exists om_g, (pb_pv (om_p 1)), (om_f 2), (om_f 1), (pb_rates (om_p 1)), ex_ev, om_sets, "I"%string, 2, sol1, sol2, sol.
  unfold traced in *. split; [exact H1|]. split; [exact H2|]. split; [exact H|].
  destruct (om_find 2 (sol_concentration sol1 _)); [|discriminate E1]. destruct (om_find 2 (sol_concentration sol2 _)); [|discriminate E2].
  destruct (om_find 2 (sol_concentration sol _)); [discriminate E|]. eauto.
Qed.

(** Rates: those inserted before the failure are in force.  Two cells filled by one
    well: even when the rates given are those already in force, the tracer gets lost. *)
Definition om_q {N : Num} : problem :=
  mkProblem 3 [(0, 2, [nofZ 1]); (1, 2, [nofZ 1])] (map nofZ [1; 1; 1])
    [("I"%string, [(0, nofZ 1); (1, nofZ 1)]); ("P"%string, [(2, nofZ (-2))])].
Theorem C83_rates_refuted : ∃ (g : cgraph) (pv : list (@num exact)) f m k ev sets id c sol1 sol,
  returns g [CPoreVolume pv; CFlux f; CInflow m] (compute Injection ev sets) = Ok (OSol sol1) ∧
  m_returns g (map Enough [CPoreVolume pv; CFlux f; CInflow m] ++ [FailInflow m k]) (compute Injection ev sets) = Ok (OSol sol) ∧
  (∃ t os, m_run (tb_new g) (map Enough [CPoreVolume pv; CFlux f; CInflow m] ++ [FailInflow m k]) = Ok (t, os) ∧ last os = Some BadAlloc) ∧
  is_Some (om_find c (sol_concentration sol1 id)) ∧ om_find c (sol_concentration sol id) = None.
Proof.
  set (cs := [CPoreVolume (pb_pv (@om_q exact)); CFlux (values_for om_q 1); CInflow (pb_rates om_q)]).
  assert (solves (returns (graph_for (@om_q exact)) cs (compute Injection ex_ev om_sets)) (traced "I"%string 1) = true)
    as (sol1 & H1 & E1)%solves_inv by (vm_compute; reflexivity).
  assert (solves (m_returns (graph_for (@om_q exact)) (map Enough cs ++ [FailInflow (pb_rates om_q) 4]) (compute Injection ex_ev om_sets))
    (λ sol, negb (traced "I"%string 1 sol)) = true) as (sol & H & E)%solves_inv by (vm_compute; reflexivity).
  assert (match m_run (tb_new (graph_for (@om_q exact))) (map Enough cs ++ [FailInflow (pb_rates om_q) 4]) with
    | Ok (_, os) => match last os with Some BadAlloc => true | _ => false end | _ => false end = true) as Hb by (vm_compute; reflexivity).
  exists (graph_for (@om_q exact)), (pb_pv om_q), (values_for om_q 1), (pb_rates om_q), 4%nat, ex_ev, om_sets, "I"%string, 1, sol1, sol.
  unfold traced in *. split; [exact H1|]. split; [exact H|]. split.
  - fold cs. destruct (m_run _ _) as [[t os]| | | |]; try discriminate Hb. exists t, os. split; [reflexivity|].
    destruct (last os) as [[]|]; try discriminate Hb. reflexivity.
  - destruct (om_find 1 (sol_concentration sol1 _)); [|discriminate E1]. destruct (om_find 1 (sol_concentration sol _)); [discriminate E|]. eauto.
Qed.
(** With memory for all insertions the rates are the usual ones. *)
Theorem C83_rates_complete {N : Num} m k : (length (inflow_ops m) ≤ k)%nat → partial_rates m k = split_rates m.
Proof. exact (inflow_ops_all m k). Qed.

(** ** Graphs under assembly *)
(** A connection of which only the first end was stored, or whose weight was not while
    others were: from then on compress() always refuses, whatever is added. *)
Theorem C83_add_detected {N : Num} l n : Exists torn l ∨ Exists has_weight l ∧ Exists has_none l →
  ac_compress (attempts ac_new l) n = Ok (attempts ac_new l, Some LogicError).
Proof. exact (attempts_rejected l n). Qed.
(** But if no weight was stored, the connection stays, without one. *)
Theorem C83_add_refuted : ∃ (i j n : Z) (g : @aconn exact),
  ac_compress (ac_add_w_fail ac_new i j AtV) n = Ok (g, None) ∧ ac_neigh g = [j] ∧ ac_weight g = [].
Proof. exists 0, 1, 2. eexists. split; [vm_compute; reflexivity|]. split; reflexivity. Qed.
(** A compress() that ran out of memory can be repeated, whatever it left behind. *)
Theorem C83_compress_again {N : Num} l n m : weighted l → l ≠ [] → indices_ok l → Forall (λ x : connection, x.1.1 < n) l →
  ∃ g1 g2, ac_compress (add_all ac_new l) n = Ok (g1, None) ∧
    ac_compress (ac_compress_fail (add_all ac_new l) m).1 n = Ok (g2, None) ∧
    ac_start g1 = ac_start g2 ∧ ac_neigh g1 = ac_neigh g2 ∧ ac_weight g1 = ac_weight g2.
Proof. exact (compress_again l n m). Qed.

(** ** Examples *)
Lemma repaired_take {N : Num} g cs : (∀ k c d, cs !! k = Some c → computes d c → intact g (take k cs)) → repaired g cs.
Proof.
  intros H cs1 d c cs2 -> Hc. specialize (H (length cs1) c d). rewrite take_app in H. apply H; [|done].
  by rewrite list_lookup_middle.
Qed.
(** Every call fails once, the assignments before anything has been assigned, the
    computations while building and while solving. *)
Definition om_prog : list (@mcall exact) :=
  [FailPoreVolume (pb_pv (om_p 2)) false; Enough (CPoreVolume (pb_pv (om_p 2)));
   FailFlux (om_f 2) true; FailInflow (pb_rates (om_p 2)) 2; Enough (CFlux (om_f 2)); Enough (CInflow (pb_rates (om_p 2)));
   FailInject (AtBuild 1 (ac_add ac_new 5 5) ac_new) om_sets; FailProduce (AtSolve ex_ev) [cs_new "P"%string];
   Enough (CInject ex_ev om_sets); FailFlux (om_f 1) false; Enough (CFlux (om_f 1)); Enough (CInject ex_ev om_sets)].
Example C83_ex_repaired : repaired om_g om_prog ∧ intact om_g om_prog.
Proof.
  split; [|by vm_compute]. apply repaired_take. intros k c d Hk Hc.
  do 6 (destruct k as [|k]; [injection Hk as <-; by destruct d|]).
  do 6 (destruct k as [|k]; [injection Hk as <-; first [by destruct d|by vm_compute]|]). done.
Qed.
Example C83_ex_run : match m_run (tb_new om_g) om_prog with
  | Ok (_, [BadAlloc; Seen ODone; BadAlloc; BadAlloc; Seen ODone; Seen ODone; BadAlloc; BadAlloc; Seen (OSol s1); BadAlloc; Seen ODone; Seen (OSol s2)]) =>
      traced "I"%string 2 s1 && traced "I"%string 2 s2
  | _ => false end = true.
Proof. vm_compute. reflexivity. Qed.

Lemma om_graph : graph_ok om_g.
Proof. apply (C74_graphs 3 [0; 1; 1; 2]); [lia| |reflexivity]. forall_tac. Qed.
Lemma om_flux_ok : flux_ok (@om_f exact 2).
Proof. eapply (C74_fluxes 2 2 (writes_of (om_p 2))); [lia|lia|lia|repeat constructor; cbn; lia|reflexivity]. Qed.
Lemma om_flux_ok1 : flux_ok (@om_f exact 1).
Proof. eapply (C74_fluxes 2 1 (writes_of (om_p 1))); [lia|lia|lia|repeat constructor; cbn; lia|reflexivity]. Qed.
Lemma om_rates_ok : rates_ok (pb_rates (@om_p exact 2)).
Proof. split; [repeat constructor|forall_tac; repeat constructor]. Qed.
Lemma om_wells d : wells_within d om_g (pb_rates (@om_p exact 2)).
Proof.
  intros id c x Hx. change (0 ≤ c < 3). unfold well_rate in Hx. destruct (om_find id _) as [vals|] eqn:E; [|done].
  apply om_find_elem in E; [|repeat constructor]. apply elem_of_cons in E as [[= -> ->]|[[= -> ->]|E%elem_of_nil]%elem_of_cons]; [| |done].
  all: destruct (om_find c _) as [y|] eqn:Ey; [|done]; apply om_find_elem in Ey; [|repeat constructor].
  all: apply elem_of_cons in Ey as [[= -> ->]|Ey%elem_of_nil]; [lia|done].
Qed.
Example C83_ex_defined : graph_ok om_g ∧ Forall mcall_ok om_prog ∧ wells_within_enough om_g om_prog.
Proof.
  split; [apply om_graph|]. split.
  - repeat (apply Forall_cons; split); try apply Forall_nil_2; try done; [apply om_flux_ok|apply om_rates_ok|apply om_flux_ok1].
  - intros cs1 d c cs2 E Hc. unfold om_prog in E.
    do 6 (destruct cs1 as [|c1 cs1]; [injection E as <- _; by destruct d|]; injection E as <- E).
    do 6 (destruct cs1 as [|c1 cs1]; [injection E as <- _; first [by destruct d|exact (om_wells d)]|]; injection E as <- E). by destruct cs1.
Qed.

(** The first fluxes fail. *)
Example C83_ex_flux_UB : let cs := [CPoreVolume (pb_pv (@om_p exact 2)); CInflow (pb_rates (om_p 2))] in
  Forall call_ok cs ∧ (∃ t os, tb_run (tb_new om_g) cs = Ok (t, os)) ∧ last (omap (accepted_flux om_g) cs) = None ∧
  last (omap (accepted_pv om_g) cs) = Some (pb_pv (om_p 2)) ∧ cv_num_connections (@om_f exact 2) = cg_num_connections om_g ∧
  is_well Injection (rates_after cs) "I"%string ∧ ∀ b, m_returns om_g (map Enough cs ++ [FailFlux (om_f 2) b]) (compute Injection ex_ev om_sets) = UB.
Proof.
  cbn zeta. set (cs := [CPoreVolume (pb_pv (@om_p exact 2)); CInflow (pb_rates (om_p 2))]).
  assert (Forall call_ok cs) as HF. { repeat (apply Forall_cons; split); try apply Forall_nil_2; [done|apply om_rates_ok]. }
  assert (∃ t os, tb_run (tb_new om_g) cs = Ok (t, os)) as (t & os & Hrun) by (do 2 eexists; reflexivity).
  assert (is_well Injection (rates_after cs) "I"%string) as Hw by (by exists 0; eexists; vm_compute).
  split_and!; [exact HF|eauto|reflexivity|reflexivity|reflexivity|exact Hw|]. intros b.
  apply (C83_flux_UB om_g cs t os (om_f 2) b Injection ex_ev om_sets (pb_pv (om_p 2)) om_graph HF Hrun);
    [reflexivity|reflexivity|done|reflexivity|done|done|].
  intros st Hst. apply elem_of_list_singleton in Hst as ->. split; [exact Hw|]. intros c Hc. by apply elem_of_nil in Hc.
Qed.
(** Fluxes fail after a computation. *)
Example C83_ex_cached : match tb_run (tb_new om_g) (@om_cs exact 2 ++ [CInject ex_ev om_sets]) with
  | Ok (_, os) => match last os with Some (OSol _) => true | _ => false end | _ => false end = true.
Proof. vm_compute. reflexivity. Qed.
(** A connection that loses its second end, one that loses its weight. *)
Example C83_ex_attempts : let l := [Added (0, 1, Some (nofZ 2)); Lost 1 2 AtV; Added (2, 0, Some (nofZ 1))] in
  Exists has_weight l ∧ Exists (@has_none exact) l ∧ Exists (@torn exact) [Lost 0 1 AtJ; Added (0, 1, Some (nofZ 1))].
Proof. cbn. split; [by left|]. split; [right; by left|by left]. Qed.
Example C83_ex_compress : let l : list (@connection exact) := [(0, 1, Some (nofZ 2)); (2, 0, Some (nofZ 1)); (0, 1, Some (nofZ 3))] in
  weighted l ∧ indices_ok l ∧ Forall (λ x : connection, x.1.1 < 4) l.
Proof. cbn. split; [forall_tac; eauto|]. split; [unfold indices_ok, int_index; forall_tac; cbn; lia|forall_tac]. Qed.

Print Assumptions C83_recovers.
Print Assumptions C83_defined.
Print Assumptions C83_pore_volumes.
Print Assumptions C83_flux_cached.
Print Assumptions C83_flux_UB.
Print Assumptions C83_flux_refuted.
Print Assumptions C83_rates_refuted.
Print Assumptions C83_rates_complete.
Print Assumptions C83_add_detected.
Print Assumptions C83_add_refuted.
Print Assumptions C83_compress_again.
