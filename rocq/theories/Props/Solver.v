(** Properties C24, C32 and C58: opm/flowdiagnostics/TracerTofSolver.cpp. *)
From Coq Require Import String QArith Qcanon.
From Verif.Model Require Import Base Num OMap Containers AssembledConnections Tarjan TracerTofSolver.
From Verif.Spec Require Import SolverSpec.
From Verif.Proofs Require Import SolverProps SolverApi.
Open Scope Z_scope.

(** ** C24: a solve returns what it would return on a new solver *)
Theorem C24_history_independent {N : Num} n A pv src s d cs c d' : new_solver n A pv src s d →
  Forall (call_ok n) cs → call_ok n c → after s d cs = Ok d' → answers s d' c = answers s d c.
Proof. exact (solve_history n A pv src s d cs c d'). Qed.

(** ** C32: influx and outflux *)
Theorem C32_fluxes {N : Num} n A pv src s d v : new_solver n A pv src s d → 0 ≤ v < n →
  ts_influx s !! Z.to_nat v = Some (influx n A v) ∧ ts_outflux s !! Z.to_nat v = Some (outflux n A v).
Proof. exact (solver_fluxes n A pv src s d v). Qed.
Theorem C32_totals n (A : list (@arc exact)) :
  @sum_left exact (map (influx n A) (seqZ 0 n)) = sum_left (map (outflux n A) (seqZ 0 n)).
Proof. exact (total_influx_outflux n A). Qed.

(** Every network has a solver. *)
Theorem C24_solver_exists {N : Num} n A pv src : 0 ≤ n < 2 ^ 31 → arcs_ok n A → zlen pv = n → map_ok src →
  (∀ c, c ∈ map fst src → 0 ≤ c < n) → ∃ s d, new_solver n A pv src s d.
Proof. exact (new_solver_ex n A pv src). Qed.

(** ** C58: the contract of solveLocal() and solveGlobal() *)
(** Negative start rates are rejected. *)
Theorem C58_local_rejects {N : Num} n A pv src s d h fuel ss : new_solver n A pv src s d →
  call_ok n (SolveLocal h fuel ss) → memory_ok h → (∃ c x, (c, x) ∈ ss ∧ nltb x n0 = true) →
  answers s d (SolveLocal h fuel ss) = Ok (inr LogicError).
Proof. intros H. exact (local_rejects n A pv src s d H h fuel ss). Qed.
(** A local solution has a value exactly in the cells downstream of the start
    cells. *)
Theorem C58_local_support {N : Num} n A pv src s d h fuel ss tof conc : new_solver n A pv src s d →
  call_ok n (SolveLocal h fuel ss) → answers s d (SolveLocal h fuel ss) = Ok (inl (inr (tof, conc))) →
  map_ok tof ∧ map_ok conc ∧
  (∀ v, v ∈ map fst tof ↔ ∃ r, r ∈ map fst ss ∧ leads A r v) ∧ (∀ v, v ∈ map fst conc ↔ ∃ r, r ∈ map fst ss ∧ leads A r v) ∧
  (∀ v c, om_find v conc = Some c → nleb c n0 = false).
Proof. intros H. exact (local_support n A pv src s d H h fuel ss tof conc). Qed.
(** A global solve that ends returns a time for every cell. *)
Theorem C58_global_length {N : Num} n A pv src s d h fuel a : new_solver n A pv src s d →
  answers s d (SolveGlobal h fuel) = Ok a → memory_ok h → ∃ t, a = inl (inl t) ∧ zlen t = n.
Proof. intros H. exact (global_length n A pv src s d H h fuel a). Qed.
(** Positive start rates within the source terms give a solution. *)
Theorem C58_local_total n A pv src (s : @tts exact) d ss : new_solver n A pv src s d →
  map_ok ss → (∀ c, c ∈ map fst ss → 0 ≤ c < n) → solver_data A pv src ss →
  ∃ sweeps, ∀ h fuel, memory_ok h → (sweeps ≤ fuel)%nat → ∃ tof conc,
    answers s d (SolveLocal h fuel ss) = Ok (inl (inr (tof, conc))) ∧
    (∀ v t, om_find v tof = Some t → nleb n0 t = true ∧ nleb t cutoff = true) ∧
    (∀ v c, om_find v conc = Some c → nltb n0 c = true ∧ nleb c n1 = true).
Proof. intros H H1 H2. exact (solver_total n A pv src s d H ss (conj H1 H2)). Qed.
(** solveSingleCell() takes the source of a start cell without one as infinite,
    "Gives 0 tof in start cell".  No local solve with such a cell ever returns:
    the tracer of the cell is 0, which is an error. *)
Theorem C58_unsourced_start n A pv src (s : @tts exact) d h fuel ss r x a : new_solver n A pv src s d →
  call_ok n (SolveLocal h fuel ss) → (∀ b, b ∈ A → finite b.2) → (∀ c y, (c, y) ∈ src → finite y) →
  (∀ c y, (c, y) ∈ ss → finite y) → (r, x) ∈ ss → value_at src r = n0 → answers s d (SolveLocal h fuel ss) ≠ Ok (inl a).
Proof. intros H. exact (unsourced n A pv src s d H h fuel ss r x a). Qed.

(** ** Examples *)
(** Three cells, 0 and 1 on a cycle that drains into 2; a source of 2 in cell 0. *)
Definition ex_arcs {N : Num} : list arc :=
  [(0, 1, nofZ 3); (1, 0, nofZ 1); (1, 2, nofZ 2)].
Definition ex_pv {N : Num} : list num := [nofZ 10; nofZ 20; nofZ 30].
Definition ex_src {N : Num} : cellset_values := [(0, nofZ 2)].
Definition ex_graph {N : Num} (A : list arc) : aconn :=
  match ac_compress (foldl (λ g (x : arc), ac_add_w g x.1.1 x.1.2 x.2) ac_new A) 3 with
  | Ok (g, None) => g | _ => ac_new end.
Definition ex_heap (ok : bool) : heap := mkHeap (λ _ i, 7 * Z.of_nat i) (λ _, ok).
Definition ex_made {N : Num} := tts_make (ex_graph ex_arcs) (ex_graph (turn ex_arcs)) ex_pv ex_src.
Example C24_ex : ∃ s d, @new_solver b64 3 ex_arcs ex_pv ex_src s d ∧ ex_made = Ok (s, d).
Proof.
  assert (match @ex_made b64 with Ok _ => true | _ => false end = true) as H by (vm_compute; reflexivity).
  destruct (@ex_made b64) as [[s d]| | | |] eqn:E; try discriminate H.
  exists s, d. split; [|reflexivity]. split.
  - lia.
  - unfold arcs_ok, ex_arcs. repeat (apply Forall_cons; split; [cbn; lia|]). apply Forall_nil_2.
  - reflexivity.
  - split; [by repeat constructor|]. intros c Hc. assert (c ∈ [0]) as ->%elem_of_list_singleton by exact Hc. lia.
  - exists (ex_graph ex_arcs), (ex_graph (turn ex_arcs)). unfold ex_made in E. split_and!; [| |exact E].
    + exact (eq_refl (Ok (@ex_graph b64 ex_arcs, @None exn)) <: @assembled b64 3 ex_arcs (ex_graph ex_arcs)).
    + exact (eq_refl (Ok (@ex_graph b64 (turn ex_arcs), @None exn)) <: @assembled b64 3 (turn ex_arcs) (ex_graph (turn ex_arcs))).
Qed.
(** A solve for the tracer from cell 0 succeeds after one that ran out of
    memory, one with a negative rate, and one for the global time-of-flight;
    both maps have three entries. *)
Definition ex_calls {N : Num} : list solve_call :=
  [SolveLocal (mkHeap (λ _ _, 0) (λ k, Nat.ltb k 8)) 100 [(2, n1)]; SolveLocal (ex_heap true) 100 [(1, nofZ (-3))];
   SolveGlobal (ex_heap true) 100].
Example C24_ex_run : match @ex_made b64 with
  | Ok (s, d) => match after s d ex_calls with
    | Ok d' => match answers s d' (SolveLocal (ex_heap true) 100 [(0, nofZ 2)]) with
      | Ok (inl (inr (tof, conc))) => bool_decide (map fst tof = [0; 1; 2] ∧ map fst conc = [0; 1; 2])
      | _ => false end
    | _ => false end
  | _ => false end = true.
Proof. vm_compute. reflexivity. Qed.
(** The second of these calls threw std::logic_error. *)
Example C24_ex_throws : match @ex_made b64 with
  | Ok (s, d) => map (λ c, match answers s d c with Ok (inl _) => None | Ok (inr e) => Some e | _ => None end) ex_calls
  | _ => [] end = [Some RuntimeError; Some LogicError; None].
Proof. vm_compute. reflexivity. Qed.
Example C24_ex_calls : Forall (call_ok 3) (@ex_calls b64).
Proof.
  repeat (apply Forall_cons; split); try apply Forall_nil_2; try done;
    (split; [repeat constructor|]); intros c Hc; cbn in Hc; apply elem_of_list_singleton in Hc as ->; lia.
Qed.
(** A start cell without a source, and one with its source. *)
Example C58_ex : match @ex_made exact with
  | Ok (s, d) => map (λ c, match answers s d c with Ok (inl (inr (tof, _))) => inl (map fst tof) | Ok (inr e) => inr (Some e) | _ => inr None end)
      [SolveLocal (ex_heap true) 100 [(2, n1)]; SolveLocal (ex_heap true) 100 [(0, nofZ 2)]; SolveLocal (ex_heap true) 100 []]
  | _ => [] end = [inr (Some LogicError); inl [0; 1; 2]; inl []].
Proof. vm_compute. reflexivity. Qed.
Example C58_ex_b64 : match @ex_made b64 with
  | Ok (s, d) => map (λ c, match answers s d c with Ok (inl (inr (tof, _))) => inl (map fst tof) | Ok (inr e) => inr (Some e) | _ => inr None end)
      [SolveLocal (ex_heap true) 100 [(2, n1)]; SolveLocal (ex_heap true) 100 [(0, nofZ 2)]; SolveLocal (ex_heap true) 100 []]
  | _ => [] end = [inr (Some LogicError); inl [0; 1; 2]; inl []].
Proof. vm_compute. reflexivity. Qed.
Example C58_ex_data : solver_data (@ex_arcs exact) ex_pv ex_src [(0, nofZ 2)].
Proof.
  split; unfold ex_arcs, ex_pv, ex_src; intros *; rewrite ?elem_of_cons, ?elem_of_nil; intros H;
    repeat destruct H as [H|H]; try done; try (injection H as -> ->); subst; split_and!; try (by eexists); by vm_compute.
Qed.
Example C32_ex : map (influx 3 (@ex_arcs exact)) [0; 1; 2] = map (@nofZ exact) [1; 3; 2] ∧
  map (outflux 3 (@ex_arcs exact)) [0; 1; 2] = map (@nofZ exact) [3; 3; 0].
Proof. vm_compute. split; repeat f_equal; apply Qc_is_canon; reflexivity. Qed.

Print Assumptions C24_history_independent.
Print Assumptions C24_solver_exists.
Print Assumptions C32_fluxes.
Print Assumptions C32_totals.
Print Assumptions C58_local_rejects.
Print Assumptions C58_local_support.
Print Assumptions C58_global_length.
Print Assumptions C58_local_total.
Print Assumptions C58_unsourced_start.
