(** Properties C38, C39 and C48: the two directions of Toolbox.cpp, and the wells
    taken together. *)
From Coq Require Import String QArith Qcanon.
From Verif.Model Require Import Base Num OMap Containers Solution AssembledConnections Tarjan TracerTofSolver Toolbox DerivedQuantities.
From Verif.Spec Require Import ToolboxSpec MirrorSpec.
From Verif.Proofs Require Import ExactNum Mirror Duality.
From Verif.Props Require Import Toolbox.
Open Scope Z_scope.

(** ** C38: production is injection of the reversed flow *)
(** A client program that negates all fluxes and rates and exchanges the two
    computations observes the same, call by call, exceptions included. *)
Theorem C38_reversed g (cs : list (@tb_call exact)) : grid_ok g → observed g (map mirror cs) = observed g cs.
Proof. exact (observed_mirror exact_neg_laws g cs). Qed.
Theorem C38_reversed_b64 g (cs : list (@tb_call b64)) : grid_ok g → observed g (map mirror cs) = observed g cs.
Proof. exact (observed_mirror b64_neg_laws g cs). Qed.
(** The same for problems. *)
Theorem C38_problem d ev (p : @problem exact) g f sets : valid p → poses p g f →
  valid (neg_problem p) ∧ poses (neg_problem p) g (neg_values f) ∧
  diagnose (opposite d) ev g (neg_problem p) (neg_values f) sets = diagnose d ev g p f sets.
Proof.
  intros Hp HP. split; [exact (valid_mirror exact_neg_laws p Hp)|]. split; [exact (poses_mirror p g f HP)|].
  exact (diagnose_mirror exact_neg_laws d ev p g f sets Hp HP).
Qed.
Theorem C38_problem_b64 d ev (p : @problem b64) g f sets : valid p → poses p g f →
  valid (neg_problem p) ∧ poses (neg_problem p) g (neg_values f) ∧
  diagnose (opposite d) ev g (neg_problem p) (neg_values f) sets = diagnose d ev g p f sets.
Proof.
  intros Hp HP. split; [exact (valid_mirror b64_neg_laws p Hp)|]. split; [exact (poses_mirror p g f HP)|].
  exact (diagnose_mirror b64_neg_laws d ev p g f sets Hp HP).
Qed.

(** ** C39: the wells share every cell *)
Theorem C39_partition (p : @problem exact) g f d ev sets sol : valid p → poses p g f → data finite p → pores_ok p →
  acyclic (net_arcs p) → diagnose d ev g p f sets = Ok (OSol sol) →
  (∀ id, is_well d (pb_rates p) id → id ∈ map cs_id sets) →
  (∀ u v, flows (flow d p) u v → nltb n0 (total_in p d u) = true) →
  ∀ v, 0 ≤ v < pb_cells p → nltb n0 (total_in p d v) = true →
  sum_left (map (λ id, value_at (sol_concentration sol id) v) (map fst (pb_rates p))) = n1.
Proof. intros Hp HP HD HV. exact (partition p g f Hp HP HD HV d ev sets sol). Qed.

(** ** C48: the two fluxes of a pair of wells *)
Theorem C48_pair_flux (p : @problem exact) g f ev ev' sets sets' sol sol' i j : valid p → poses p g f → data finite p → pores_ok p →
  acyclic (net_arcs p) → conserves p →
  diagnose Injection ev g p f sets = Ok (OSol sol) → diagnose Production ev' g p f sets' = Ok (OSol sol') →
  i ∈ map cs_id sets → j ∈ map cs_id sets' →
  ∃ x, pair_flux sol sol' i j (pb_rates p) = Ok (Fin x : @num exact, Fin (- x)%Qc : @num exact).
Proof. intros Hp HP HD HV. exact (pair_acyclic p g f Hp HP HD HV ev ev' sets sets' sol sol' i j). Qed.
(** With cycles, up to the tolerance of the iteration times the total flux. *)
Theorem C48_pair_flux_cyclic (p : @problem exact) g f ev ev' sets sets' sol sol' i j : valid p → poses p g f → data finite p → pores_ok p →
  (∀ v, ¬ flows (net_arcs p) v v) → conserves p →
  diagnose Injection ev g p f sets = Ok (OSol sol) → diagnose Production ev' g p f sets' = Ok (OSol sol') →
  i ∈ map cs_id sets → j ∈ map cs_id sets' →
  ∃ x y, pair_flux sol sol' i j (pb_rates p) = Ok (x, y) ∧
    let e := nmul (ndiv n1 (nofZ 1000000000)) (sum_left (map (influx (pb_cells p) (net_arcs p)) (seqZ 0 (pb_cells p)))) in
    nleb (nadd x y) e = true ∧ nleb (nopp e) (nadd x y) = true.
Proof. intros Hp HP HD HV. exact (pair_near p g f Hp HP HD HV ev ev' sets sets' sol sol' i j). Qed.

(** ** Examples *)
(** The five-cell problem and the cyclic one conserve volume. *)
Example ex_conserves : conserves (@ex_p exact).
Proof. intros v Hv. cbn in Hv. assert (v = 0 ∨ v = 1 ∨ v = 2 ∨ v = 3 ∨ v = 4) as [->|[->|[->|[->| ->]]]] by lia; vm_compute; f_equal; apply Qc_is_canon; reflexivity. Qed.
Example cy_conserves : conserves (@cy_p exact).
Proof. intros v Hv. cbn in Hv. assert (v = 0 ∨ v = 1 ∨ v = 2 ∨ v = 3) as [->|[->|[->| ->]]] by lia; vm_compute; f_equal; apply Qc_is_canon; reflexivity. Qed.
Example ex_inflow d u v : flows (flow d (@ex_p exact)) u v → nltb n0 (total_in (@ex_p exact) d u) = true.
Proof.
  assert (map fst (flow d (@ex_p exact)) = match d with Injection => [(0, 2); (1, 2); (2, 3)] | Production => [(2, 0); (2, 1); (3, 2)] end) as E
    by (destruct d; vm_compute; reflexivity).
  unfold flows. rewrite E. intros H. destruct d; repeat (apply elem_of_cons in H as [[= -> ->]|H]; [vm_compute; reflexivity|]); by apply elem_of_nil in H.
Qed.
Example cy_no_self v : ¬ flows (net_arcs (@cy_p exact)) v v.
Proof.
  assert (map fst (net_arcs (@cy_p exact)) = [(0, 1); (1, 2); (2, 1); (2, 3)]) as E by (vm_compute; reflexivity).
  unfold flows. rewrite E. intros H. repeat (apply elem_of_cons in H as [[= H1 H2]|H]; [lia|]). by apply elem_of_nil in H.
Qed.
Example C39_ex_wells id : is_well Injection (pb_rates (@ex_p exact)) id → id ∈ map cs_id ex_sets.
Proof.
  intros (c & x & H). unfold well_rate in H.
  destruct (om_find id (pb_rates (@ex_p exact))) as [vals|] eqn:E; [|done].
  apply OMapFacts.om_find_elem in E; [|repeat constructor].
  repeat (apply elem_of_cons in E as [[= -> ->]|E]; [try (by set_solver)|]); [|by apply elem_of_nil in E].
  exfalso. destruct (om_find c _) as [y|] eqn:Ey in H; [|done].
  apply OMapFacts.om_find_elem in Ey; [|repeat constructor]. apply elem_of_list_singleton in Ey as [= -> ->]. by vm_compute in H.
Qed.
(** 2/3 + 1/3 + 0 in cell 2, where both injectors arrive. *)
Example C39_ex : solves (@ex_run exact Injection ex_sets) (λ sol,
  neqb (sum_left (map (λ id, value_at (sol_concentration sol id) 2) (map fst (@ex_rates exact)))) n1) = true.
Proof. vm_compute. reflexivity. Qed.
(** The pair fluxes of injector I1 and the producer are 4 and -4. *)
Example C48_ex : match @ex_run exact Injection ex_sets, ex_run Production [cs_new "P"%string] with
  | Ok (OSol sol), Ok (OSol sol') => match pair_flux sol sol' "I1"%string "P"%string ex_rates with
    | Ok (x, y) => neqb x (nofZ 4) && neqb y (nofZ (-4)) | _ => false end
  | _, _ => false end = true.
Proof. vm_compute. reflexivity. Qed.
(** On the cycle the flux of the pair is a little less than the rate 2. *)
Example C48_cyclic_ex : match @cy_run exact Injection [cs_new "I"%string], cy_run Production [cs_new "P"%string] with
  | Ok (OSol sol), Ok (OSol sol') => match pair_flux sol sol' "I"%string "P"%string (pb_rates cy_p) with
    | Ok (x, y) => nltb (frac 1999999 1000000) x && nltb x (nofZ 2) && nltb y (frac (-1999999) 1000000) | _ => false end
  | _, _ => false end = true.
Proof. vm_compute. reflexivity. Qed.
(** The reversed problem is another one, and both have a solution. *)
Example C38_ex : grid_ok (graph_for (@ex_p exact)).
Proof. exact (poses_grid _ _ _ ex_valid ex_poses). Qed.
Example C38_ex_run : match @observed exact (graph_for (@ex_p exact)) (map mirror (ex_history ++ [CInject ex_ev ex_sets])) with
  | Ok os => bool_decide (map tag os = [0; 3; 3; 0; 0; 2; 0; 3; 1; 0; 0; 1]%nat) | _ => false end = true.
Proof. vm_compute. reflexivity. Qed.

Print Assumptions C38_reversed.
Print Assumptions C38_reversed_b64.
Print Assumptions C38_problem.
Print Assumptions C38_problem_b64.
Print Assumptions C39_partition.
Print Assumptions C48_pair_flux.
Print Assumptions C48_pair_flux_cyclic.
