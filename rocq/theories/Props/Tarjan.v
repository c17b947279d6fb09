(** Properties C08-C15: opm/utility/graph/tarjan.{h,c}. *)
From stdpp Require Import gmap.
From Verif.Model Require Import Base Tarjan TarjanAlloc.
From Verif.Spec Require Import SccSpec TarjanSpec TarjanMemSpec.
From Verif.Proofs Require Import Util TarjanAbs TarjanSim TarjanProps TarjanRev TarjanMem TarjanTop.
Open Scope Z_scope.

(** ** C08: no out-of-bounds access, no failed assertion *)
Theorem C08_tarjan_safe h nv ia ja : wf_graph nv ia ja → ∃ r, tarjan h nv ia ja = Ok r.
Proof. exact (tarjan_safe h nv ia ja). Qed.

Theorem C08_reachable_safe h nv ia ja nw w starts :
  wf_graph nv ia ja → ws_sized nw w → nv ≤ nw → (∀ r, r ∈ starts → 0 ≤ r < nv) →
  ∃ w' r, tarjan_reachable_sccs h nv ia ja starts w = Ok (w', r) ∧ ws_sized nw w'.
Proof. exact (reachable_safe h nv ia ja nw w starts). Qed.

(** ** C09: number of iterations of the main loop *)
(** [t_steps] counts them; the fuel is |V| + length of ja, the work-space and the
    result arrays are those allocated by tarjan(). *)
Theorem C09_tarjan_steps h nv ia ja : wf_graph nv ia ja →
  ∃ t, tarjan_global (tarjan_fuel nv ja) ia ja (new_ws h 0 nv) (new_scc h 3 nv) = Ok t ∧
    t_steps t = nv + num_edges ia ja (seqZ 0 nv).
Proof. exact (tarjan_steps h nv ia ja). Qed.

Theorem C09_reachable_steps h nv ia ja nw w starts :
  wf_graph nv ia ja → ws_sized nw w → nv ≤ nw → (∀ r, r ∈ starts → 0 ≤ r < nv) →
  ∃ t l, reachable_run (tarjan_fuel nw ja) ia ja starts w (new_scc h 6 nw) = Ok t ∧
    NoDup l ∧ (∀ v, v ∈ l ↔ ∃ r, r ∈ starts ∧ reach ia ja r v) ∧
    t_steps t = Z.of_nat (length l) + num_edges ia ja l ∧
    t_steps t ≤ nv + num_edges ia ja (seqZ 0 nv).
Proof. exact (reachable_steps h nv ia ja nw w starts). Qed.

(** ** C10, C11: tarjan() returns the SCCs in reverse topological order *)
Theorem C10_C11_tarjan_sccs h nv ia ja : wf_graph nv ia ja → ws_ok h 0 = true → scc_ok h 2 = true →
  ∃ s comps, tarjan h nv ia ja = Ok (Some s) ∧ result_is s comps ∧
    is_sccs ia ja (λ v, 0 ≤ v < nv) comps ∧ reverse_topological ia ja comps.
Proof. exact (tarjan_correct h nv ia ja). Qed.

(** ** C12: tarjan_reachable_sccs() covers the reachable set *)
Theorem C12_reachable_sccs h nv ia ja nw w starts :
  wf_graph nv ia ja → ws_sized nw w → nv ≤ nw → (∀ r, r ∈ starts → 0 ≤ r < nv) → scc_ok h 5 = true →
  ∃ w' s comps, tarjan_reachable_sccs h nv ia ja starts w = Ok (w', Some s) ∧ result_is s comps ∧
    is_sccs ia ja (λ v, ∃ r, r ∈ starts ∧ reach ia ja r v) comps ∧ reverse_topological ia ja comps.
Proof. exact (reachable_correct h nv ia ja nw w starts). Qed.

(** ** C13: the result is a function of graph and start points *)
Theorem C13_tarjan_deterministic nv ia ja : wf_graph nv ia ja →
  ∃ comps, ∀ h, ws_ok h 0 = true → scc_ok h 2 = true →
    ∃ s, tarjan h nv ia ja = Ok (Some s) ∧ result_is s comps.
Proof. exact (tarjan_deterministic nv ia ja). Qed.

(** [w] is any work-space of any sufficient size: new, or left by any calls. *)
Theorem C13_reachable_deterministic nv ia ja starts :
  wf_graph nv ia ja → (∀ r, r ∈ starts → 0 ≤ r < nv) →
  ∃ comps, ∀ h nw w, ws_sized nw w → nv ≤ nw → scc_ok h 5 = true →
    ∃ w' s, tarjan_reachable_sccs h nv ia ja starts w = Ok (w', Some s) ∧ result_is s comps ∧ ws_sized nw w'.
Proof. exact (reachable_deterministic nv ia ja starts). Qed.

(** tarjan_reachable_sccs() from all vertices in order is tarjan(). *)
Theorem C13_reachable_from_all nv ia ja : wf_graph nv ia ja →
  ∃ comps, ∀ h w, ws_sized nv w → ws_ok h 0 = true → scc_ok h 2 = true → scc_ok h 5 = true →
    ∃ s s' w', tarjan h nv ia ja = Ok (Some s) ∧ result_is s comps ∧
      tarjan_reachable_sccs h nv ia ja (seqZ 0 nv) w = Ok (w', Some s') ∧ result_is s' comps.
Proof. exact (reachable_from_all nv ia ja). Qed.

(** ** C14: tarjan_reverse_sccresult() *)
Theorem C14_reverse s : obtained s → ∃ comps, result_is s comps ∧ ∀ h,
  if scc_ok h 8
  then ∃ s', tarjan_reverse_sccresult h s = Ok (true, s') ∧ result_is s' (reverse comps)
  else tarjan_reverse_sccresult h s = Ok (false, s).
Proof. exact (reverse_correct s). Qed.

Theorem C14_reverse_twice s h h' : obtained s → scc_ok h 8 = true → scc_ok h' 8 = true →
  ∃ comps s1 s2, result_is s comps ∧ tarjan_reverse_sccresult h s = Ok (true, s1) ∧
    tarjan_reverse_sccresult h' s1 = Ok (true, s2) ∧ result_is s2 comps.
Proof. exact (reverse_twice s h h'). Qed.

(** ** C15: memory *)
(** [ok k]: outcome of the k-th malloc of the program. *)
Theorem C15_tarjan_memory ok m : fresh_mem m →
  ∃ r m', tarjan_mem ok m = Ok (r, m') ∧ fresh_mem m' ∧
  match r with
  | None => m_live m' = m_live m ∧ some_failed ok m m'
  | Some p => all_ok ok m m' ∧ ∃ L, owns_scc m' p L ∧ L ## m_live m ∧ m_live m' = L ∪ m_live m ∧
                ∃ m'', destroy_tarjan_sccresult (Some p) m' = Ok (tt, m'') ∧ m_live m'' = m_live m
  end.
Proof. exact (tarjan_memory ok m). Qed.

Theorem C15_reachable_memory ok m w Lw : fresh_mem m → owns_ws m w Lw →
  ∃ r m', tarjan_reachable_sccs_mem ok (Some w) m = Ok (r, m') ∧ fresh_mem m' ∧ owns_ws m' w Lw ∧
  match r with
  | None => m_live m' = m_live m ∧ some_failed ok m m'
  | Some p => all_ok ok m m' ∧ ∃ L, owns_scc m' p L ∧ L ## m_live m ∧ m_live m' = L ∪ m_live m
  end.
Proof. exact (reachable_memory ok m w Lw). Qed.

Theorem C15_workspace_memory ok m : fresh_mem m →
  ∃ r m', create_tarjan_workspace ok m = Ok (r, m') ∧ fresh_mem m' ∧
  match r with
  | None => m_live m' = m_live m ∧ some_failed ok m m'
  | Some p => all_ok ok m m' ∧ ∃ L, owns_ws m' p L ∧ L ## m_live m ∧ m_live m' = L ∪ m_live m ∧
                ∃ m'', destroy_tarjan_workspace (Some p) m' = Ok (tt, m'') ∧ m_live m'' = m_live m
  end.
Proof. exact (workspace_memory ok m). Qed.

Theorem C15_reverse_memory ok m p L : fresh_mem m → owns_scc m p L →
  ∃ b m', tarjan_reverse_sccresult_mem ok (Some p) m = Ok (b, m') ∧ fresh_mem m' ∧
  if b : bool
  then all_ok ok m m' ∧ ∃ L', owns_scc m' p L' ∧ m_live m' = (m_live m ∖ L) ∪ L' ∧ L' ## m_live m ∖ L
  else some_failed ok m m' ∧ owns_scc m' p L ∧ m_live m' = m_live m.
Proof. exact (reverse_memory ok m p L). Qed.

(** The callers in TracerTofSolver.cpp release everything, also when they throw
    ([b = false]); but they do not test for NULL. *)
Theorem C15_callers_memory ok m : fresh_mem m →
  ((∃ b m', computeOrdering_mem ok m = Ok (b, m') ∧ m_live m' = m_live m ∧ (b = true ↔ all_ok ok m m')) ∨
   (computeOrdering_mem ok m = UB ∧ ∃ m1, tarjan_mem ok m = Ok (None, m1))) ∧
  ((∃ b m', computeLocalOrdering_mem ok m = Ok (b, m') ∧ m_live m' = m_live m ∧ (b = true ↔ all_ok ok m m')) ∨
   (computeLocalOrdering_mem ok m = AssertFail ∧ ∃ m1, create_tarjan_workspace ok m = Ok (None, m1)) ∨
   (computeLocalOrdering_mem ok m = UB ∧
     ∃ w m1 m2, create_tarjan_workspace ok m = Ok (Some w, m1) ∧
                tarjan_reachable_sccs_mem ok (Some w) m1 = Ok (None, m2))).
Proof. exact (callers_memory ok m). Qed.

Theorem C15_null_unchecked_refuted : ∃ ok m, fresh_mem m ∧ computeOrdering_mem ok m = UB.
Proof. exact null_unchecked. Qed.

(** ** Concrete cases *)
(** Two 2-cycles 0<->1 and 2<->3, an edge 1->2 twice, a self-loop on 4. *)
Definition ex_ia : list Z := [0; 1; 4; 5; 6; 7].
Definition ex_ja : list Z := [1; 0; 2; 2; 3; 2; 4].
Definition ex_heap : heap := mkHeap (fun b k => Z.of_nat (7 * b + k) - 3) (fun _ => true).

Example ex_wf : wf_graph 5 ex_ia ex_ja.
Proof.
  constructor; [lia|done| |].
  - intros v b e Hv.
    assert (v = 0 ∨ v = 1 ∨ v = 2 ∨ v = 3 ∨ v = 4) as [->|[->|[->|[->| ->]]]] by lia;
      cbn; intros [= <-] [= <-]; lia.
  - intros v w Hv.
    assert (v = 0 ∨ v = 1 ∨ v = 2 ∨ v = 3 ∨ v = 4) as [->|[->|[->|[->| ->]]]] by lia;
      intros Hw; match type of Hw with _ ∈ ?r => let l := eval vm_compute in r in change (w ∈ l) in Hw end;
      repeat (apply elem_of_cons in Hw as [->|Hw]; [lia|]); by apply elem_of_nil in Hw.
Qed.

Definition read_all (s : scc) : list (option (list Z)) :=
  map (fun k => match tarjan_get_strongcomponent s k with Ok l => Some l | _ => None end)
      (seqZ 0 (tarjan_get_numcomponents s)).

Example C10_ex : match tarjan ex_heap 5 ex_ia ex_ja with
                 | Ok (Some s) => read_all s | _ => [] end = [Some [3; 2]; Some [1; 0]; Some [4]].
Proof. vm_compute. reflexivity. Qed.

Example C12_ex : match tarjan_reachable_sccs ex_heap 5 ex_ia ex_ja [3; 2; 3] (new_ws ex_heap 0 9) with
                 | Ok (_, Some s) => read_all s | _ => [] end = [Some [2; 3]].
Proof. vm_compute. reflexivity. Qed.

Example C09_ex : match tarjan_global (tarjan_fuel 5 ex_ja) ex_ia ex_ja (new_ws ex_heap 0 5) (new_scc ex_heap 3 5) with
                 | Ok t => t_steps t | _ => 0 end = 12.
Proof. vm_compute. reflexivity. Qed.

Example C14_ex : match tarjan ex_heap 5 ex_ia ex_ja with
  | Ok (Some s) => match tarjan_reverse_sccresult ex_heap s with Ok (true, s') => read_all s' | _ => [] end
  | _ => [] end = [Some [4]; Some [1; 0]; Some [3; 2]].
Proof. vm_compute. reflexivity. Qed.

Definition mem0 : mem := mkMem 0 ∅ ∅ ∅.
Example mem0_fresh : fresh_mem mem0.
Proof. intros p Hp. set_solver. Qed.
(** The fourth malloc (start[] of the result) fails. *)
Example C15_ex : match tarjan_mem (λ k, negb (k =? 3)%nat) mem0 with
                 | Ok (r, m) => Some (r, elements (m_live m), m_calls m) | _ => None end = Some (None, [], 5%nat).
Proof. vm_compute. reflexivity. Qed.
Example C15_ex_ok : match tarjan_mem (λ _, true) mem0 with
                 | Ok (r, m) => Some (r, elements (m_live m)) | _ => None end = Some (Some 2%nat, [3; 2; 4]%nat).
Proof. vm_compute. reflexivity. Qed.

Print Assumptions C08_tarjan_safe.
Print Assumptions C08_reachable_safe.
Print Assumptions C09_tarjan_steps.
Print Assumptions C09_reachable_steps.
Print Assumptions C10_C11_tarjan_sccs.
Print Assumptions C12_reachable_sccs.
Print Assumptions C13_tarjan_deterministic.
Print Assumptions C13_reachable_deterministic.
Print Assumptions C13_reachable_from_all.
Print Assumptions C14_reverse.
Print Assumptions C14_reverse_twice.
Print Assumptions C15_tarjan_memory.
Print Assumptions C15_reachable_memory.
Print Assumptions C15_workspace_memory.
Print Assumptions C15_reverse_memory.
Print Assumptions C15_callers_memory.
Print Assumptions C15_null_unchecked_refuted.
