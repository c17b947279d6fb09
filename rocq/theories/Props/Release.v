(** Property C81: builds without assertions (NDEBUG), all of opm/. *)
From Coq Require Import String.
From Coq.Floats Require Import SpecFloat.
From Verif.Model Require Import Base Num OMap Containers AssembledConnections Tarjan Solution Toolbox Release.
From Verif.Spec Require Import GraphSpec SccSpec TarjanSpec ContainerSpec ToolboxSpec DefinedSpec ReleaseSpec.
From Verif.Proofs Require Import Util OMapFacts AConn GraphProps OrdLaws B64Laws OppLaws ToolboxExact Defined ReleaseRef ReleaseDef.
From Verif.Props Require Import Graph Tarjan Toolbox Defined.
Open Scope Z_scope.

(** ** C81: assertions only ever stop a program *)
(** Whatever a client does, with whatever numbers and memory: if the debug build gets
    through without a failed assertion, the release build does the very same. *)
Theorem C81_same {N : Num} t cs : tb_run t cs ≠ AssertFail → tb_run_r t cs = tb_run t cs.
Proof. exact (ref_tb_run t cs). Qed.

(** The same for the two graph modules on their own; no assertion of theirs can fail
    on a proper graph. *)
Theorem C81_tarjan h nv ia ja : wf_graph nv ia ja → tarjan_r h nv ia ja = tarjan h nv ia ja.
Proof. intros Hw. apply ref_tarjan. destruct (C08_tarjan_safe h nv ia ja Hw) as [r ->]. done. Qed.
Theorem C81_reachable h nv ia ja nw w starts : wf_graph nv ia ja → ws_sized nw w → nv ≤ nw →
  (∀ r, r ∈ starts → 0 ≤ r < nv) →
  tarjan_reachable_sccs_r h nv ia ja starts w = tarjan_reachable_sccs h nv ia ja starts w.
Proof. intros H1 H2 H3 H4. apply ref_reachable. destruct (C08_reachable_safe h nv ia ja nw w starts H1 H2 H3 H4) as (w' & r & -> & _). done. Qed.
Theorem C81_component s comps k : result_is s comps → 0 ≤ k < tarjan_get_numcomponents s →
  tarjan_get_strongcomponent_r s k = tarjan_get_strongcomponent s k.
Proof.
  intros [H1 H2] Hk. apply ref_get. destruct (lookup_lt_is_Some_2 comps (Z.to_nat k)) as [C HC]; [lia|].
  apply H2 in HC. rewrite Z2Nat.id in HC by lia. by rewrite HC.
Qed.
Theorem C81_graph {N : Num} (h : list ac_op) : indices_ok (hist_conns h) → Forall op_ok h →
  ac_run_r ac_new h = ac_run ac_new h.
Proof. intros H1 H2. apply ref_ac_run. destruct (C04_rejection_changes_nothing N h H1 H2) as (g & -> & _). done. Qed.

(** Without assertions, looking at the neighbours of a cell of a graph without weights
    (C06: caught in a debug build) leaves the array of weights, unless neither that cell
    nor any cell before it has a connection. *)
Theorem C81_unweighted {N : Num} l n r : unweighted l → indices_ok l →
  Forall (λ x : connection, x.1.1 < n) l → 0 ≤ r < n →
  ∃ g, ac_compress_r (add_all ac_new l) n = Ok (g, None) ∧
    ac_cell_neighbourhood_r g r = if decide (Exists (λ x : connection, x.1.1 ≤ r) l) then UB else Ok [].
Proof. exact (unweighted_r l n r). Qed.

(** ** What a release build can do *)
(** It computes, throws, or goes on for longer than allowed, under the conditions of C74
    and whatever the numbers: no assertion is needed to keep it within its arrays. *)
Theorem C81_defined {N : Num} g cs : graph_ok g → Forall call_ok cs → wells_within_always g cs →
  carries_on (tb_run_r (tb_new g) cs).
Proof. exact (program_carries g cs). Qed.

(** And the condition on the rates is still the only one that matters. *)
Theorem C81_exactly {N : Num} g cs t os d ev sets : graph_ok g → Forall call_ok cs → alloc_ok ev →
  tb_run_r (tb_new g) cs = Ok (t, os) →
  tb_step_r t (compute d ev sets) = UB ↔ passes_checks d g cs sets ∧ ¬ wells_within d g (rates_after cs).
Proof. exact (compute_UB_r g cs t os d ev sets). Qed.

(** With exact numbers, and with doubles whose totals do not overflow, both builds agree
    outright: every theorem about [diagnose] is one about release builds. *)
Theorem C81_agrees (p : @problem exact) g f d ev sets : valid p → poses p g f → data finite p → pores_ok p → alloc_ok ev →
  diagnose_r d ev g p f sets = diagnose d ev g p f sets.
Proof.
  intros Hp HP HD HV Ha. apply ref_diagnose.
  exact (asserts_hold exact_laws exact_opp_laws p g f Hp HP (exact_data p HD) d ev sets (exact_no_overflow p Hp HD HV d) Ha).
Qed.
Theorem C81_agrees_b64 (p : @problem b64) g f d ev sets : valid p → poses p g f → @data b64 b64_ok p →
  no_overflow d p → alloc_ok ev → diagnose_r d ev g p f sets = diagnose d ev g p f sets.
Proof. intros Hp HP HD Hno Ha. apply ref_diagnose. by apply C74_asserts_b64. Qed.

(** When totals overflow they need not: the debug build aborts (C74), the release build
    returns a solution with NaN in it. *)
Definition over_run_r := diagnose_r Injection ex_ev (graph_for (over_p true)) (over_p true) (values_for (over_p true) 1) [cs_new "I"%string].
Theorem C81_overflow_refuted : ∃ (p : @problem b64) g f ev sets sol id v c, valid p ∧ poses p g f ∧ @data b64 finite64 p ∧
  pores_ok p ∧ alloc_ok ev ∧ sets_ok Injection p sets ∧ diagnose Injection ev g p f sets = AssertFail ∧
  diagnose_r Injection ev g p f sets = Ok (OSol sol) ∧ id ∈ map cs_id sets ∧
  om_find v (sol_concentration sol id) = Some c ∧ nleb c c = false.
Proof.
  assert (solves over_run_r (λ sol, match om_find 3 (sol_concentration sol "I"%string) with
    | Some c => negb (nleb c c) | None => false end) = true) as (sol & H & E)%solves_inv by (vm_compute; reflexivity).
  destruct (om_find 3 (sol_concentration sol "I"%string)) as [c|] eqn:Ec; [|done].
  exists (over_p true), (graph_for (over_p true)), (values_for (over_p true) 1), ex_ev, [cs_new "I"%string], sol, "I"%string, 3, c.
  split_and!; [apply over_valid|apply over_poses|apply over_data|apply over_pores|apply ex_alloc|apply over_sets| |exact H|left|exact Ec|by apply negb_true_iff].
  assert (match over_run true with AssertFail => true | _ => false end = true) as H' by (vm_compute; reflexivity).
  unfold over_run in H'. by destruct (diagnose _ _ _ _ _ _).
Qed.

(** ** Instances meeting the hypotheses *)
(** The program of C74 with NaN, infinities and a producer outside the graph. *)
Example C81_ex : graph_ok df_g ∧ Forall call_ok df_cs ∧ wells_within_always df_g df_cs.
Proof. exact C74_ex. Qed.
Example C81_ex_run : match tb_run_r (tb_new df_g) df_cs with
  | Ok (_, [OExn LogicError; OExn LogicError; ODone; ODone; ODone; OSol _; OExn RuntimeError]) => true
  | _ => false end = true.
Proof. vm_compute. reflexivity. Qed.
Example C81_ex_bad : match tb_run_r (tb_new df_g) (df_cs ++ [CProduce ex_ev []]) with UB => true | _ => false end = true.
Proof. vm_compute. reflexivity. Qed.
(** A graph without weights: the first row is empty, the second is not. *)
Definition bare : list (@connection exact) := [(1, 0, None); (2, 1, None)].
Example C81_ex_unweighted : unweighted bare ∧ indices_ok bare ∧ Forall (λ x : connection, x.1.1 < 4) bare ∧
  match ac_compress_r (add_all ac_new bare) 4 with
  | Ok (g, None) => match ac_cell_neighbourhood_r g 0, ac_cell_neighbourhood_r g 1, ac_cell_neighbourhood_r g 3 with
                    | Ok [], UB, UB => true | _, _, _ => false end
  | _ => false end = true.
Proof. split_and!; [by repeat constructor|repeat constructor; unfold int_index; cbn; lia|repeat constructor; cbn; lia|vm_compute; reflexivity]. Qed.
(** The example problem of C22, whose release run is its debug run. *)
Example C81_ex_agrees d ev sets : alloc_ok ev →
  diagnose_r d ev (graph_for (@ex_p exact)) (@ex_p exact) (values_for (@ex_p exact) 2) sets =
  diagnose d ev (graph_for (@ex_p exact)) (@ex_p exact) (values_for (@ex_p exact) 2) sets.
Proof. destruct (ex_meets d) as (H1 & H2 & H3 & H4 & _). by apply C81_agrees. Qed.
Example C81_ex_agrees_b64 ev sets : alloc_ok ev →
  diagnose_r Injection ev (graph_for (@ex_p b64)) (@ex_p b64) (values_for (@ex_p b64) 2) sets =
  diagnose Injection ev (graph_for (@ex_p b64)) (@ex_p b64) (values_for (@ex_p b64) 2) sets.
Proof. destruct ex_meets_b64 as (H1 & H2 & H3 & H4 & _ & H5). by apply C81_agrees_b64. Qed.

Print Assumptions C81_same.
Print Assumptions C81_tarjan.
Print Assumptions C81_reachable.
Print Assumptions C81_component.
Print Assumptions C81_graph.
Print Assumptions C81_unweighted.
Print Assumptions C81_defined.
Print Assumptions C81_exactly.
Print Assumptions C81_agrees.
Print Assumptions C81_agrees_b64.
Print Assumptions C81_overflow_refuted.
