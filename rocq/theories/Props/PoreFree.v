(** Property C94: pore volumes have no influence on concentrations and pair fluxes,
    unless there are cycles. Toolbox.cpp, TracerTofSolver.cpp and
    DerivedQuantities.cpp. *)
From Coq Require Import String QArith Qcanon.
From Verif.Model Require Import Base Num OMap Containers Solution AssembledConnections Tarjan TracerTofSolver Toolbox DerivedQuantities.
From Verif.Spec Require Import ToolboxSpec SuperposeSpec.
From Verif.Proofs Require Import OMapFacts ExactNum OrdLaws B64Laws OppLaws ToolboxThms ToolboxExact PoreFree.
From Verif.Props Require Import Toolbox.
Open Scope Z_scope.

Theorem C94_concentrations (p p' : @problem exact) g f g' f' d ev ev' sets sets' sol sol' : valid p → poses p g f →
  valid p' → poses p' g' f' → acyclic (net_arcs p) → same_but_pores p p' →
  diagnose d ev g p f sets = Ok (OSol sol) → diagnose d ev' g' p' f' sets' = Ok (OSol sol') →
  ∀ id, id ∈ map cs_id sets → id ∈ map cs_id sets' → sol_concentration sol id = sol_concentration sol' id.
Proof. intros Hp HP Hp' HP'. apply (pores_map exact_laws exact_opp_laws p p' g f g' f'); try done; by split. Qed.
Theorem C94_concentrations_b64 (p p' : @problem b64) g f g' f' d ev ev' sets sets' sol sol' : valid p → poses p g f → @data b64 b64_ok p →
  valid p' → poses p' g' f' → @data b64 b64_ok p' → acyclic (net_arcs p) → same_but_pores p p' →
  diagnose d ev g p f sets = Ok (OSol sol) → diagnose d ev' g' p' f' sets' = Ok (OSol sol') →
  ∀ id, id ∈ map cs_id sets → id ∈ map cs_id sets' → sol_concentration sol id = sol_concentration sol' id.
Proof. exact (pores_map b64_laws b64_opp_laws p p' g f g' f' d ev ev' sets sets' sol sol'). Qed.
(** So the pair fluxes agree as well. *)
Theorem C94_pair_fluxes (p p' : @problem exact) g f g' f' ei ep ei' ep' si sp si' sp' inj prod inj' prod' : valid p → poses p g f →
  valid p' → poses p' g' f' → acyclic (net_arcs p) → same_but_pores p p' →
  diagnose Injection ei g p f si = Ok (OSol inj) → diagnose Production ep g p f sp = Ok (OSol prod) →
  diagnose Injection ei' g' p' f' si' = Ok (OSol inj') → diagnose Production ep' g' p' f' sp' = Ok (OSol prod') →
  ∀ i j m, i ∈ map cs_id si → i ∈ map cs_id si' → j ∈ map cs_id sp → j ∈ map cs_id sp' →
    pair_flux inj prod i j m = pair_flux inj' prod' i j m.
Proof. intros Hp HP Hp' HP'. apply (pores_flux exact_laws exact_opp_laws p p' g f g' f'); try done; by split. Qed.
Theorem C94_pair_fluxes_b64 (p p' : @problem b64) g f g' f' ei ep ei' ep' si sp si' sp' inj prod inj' prod' : valid p → poses p g f → @data b64 b64_ok p →
  valid p' → poses p' g' f' → @data b64 b64_ok p' → acyclic (net_arcs p) → same_but_pores p p' →
  diagnose Injection ei g p f si = Ok (OSol inj) → diagnose Production ep g p f sp = Ok (OSol prod) →
  diagnose Injection ei' g' p' f' si' = Ok (OSol inj') → diagnose Production ep' g' p' f' sp' = Ok (OSol prod') →
  ∀ i j m, i ∈ map cs_id si → i ∈ map cs_id si' → j ∈ map cs_id sp → j ∈ map cs_id sp' →
    pair_flux inj prod i j m = pair_flux inj' prod' i j m.
Proof. exact (pores_flux b64_laws b64_opp_laws p p' g f g' f' ei ep ei' ep' si sp si' sp' inj prod inj' prod'). Qed.

(** ** Example *)
(** Five cells with other pore volumes, one of them so large that its cell is cut
    off. *)
Definition pf_p {N : Num} (pv : list Z) : problem := mkProblem 5 ex_conns (map nofZ pv) ex_rates.
Definition pf_1 {N : Num} := pf_p [1; 2; 3; 4; 5].
Definition pf_2 {N : Num} := pf_p [70; 2; 0; 100000000000; 1].
Lemma pf_valid {N : Num} : valid pf_1 ∧ valid pf_2. Proof. split; valid_tac. Qed.
Lemma pf_poses {N : Num} : poses pf_1 (graph_for pf_1) (values_for pf_1 2) ∧ poses pf_2 (graph_for pf_2) (values_for pf_2 2).
Proof. split; (apply posed; [apply pf_valid|forall_tac|reflexivity]). Qed.
Lemma pf_int {N : Num} : data is_int pf_1 ∧ data is_int pf_2.
Proof. split; (split; intros; cbv [pf_1 pf_2 pf_p ex_conns ex_rates pb_conns pb_rates pb_pv map fst snd] in *; int_tac). Qed.
Lemma pf_acyclic : acyclic (net_arcs (@pf_1 b64)).
Proof.
  apply (acyclic_rank (λ z, z)). assert (map fst (net_arcs (@pf_1 b64)) = [(0, 2); (1, 2); (2, 3)]) as -> by (vm_compute; reflexivity). forall_tac.
Qed.
Definition pf_run {N : Num} p d id := diagnose d ex_ev (graph_for p) p (values_for p 2) [cs_new id].
Example C94_ex sol sol' : pf_run (@pf_1 b64) Injection "I1"%string = Ok (OSol sol) → pf_run pf_2 Injection "I1"%string = Ok (OSol sol') →
  sol_concentration sol "I1"%string = sol_concentration sol' "I1"%string.
Proof.
  intros H H'. refine (C94_concentrations_b64 _ _ _ _ _ _ _ _ _ _ _ sol sol' (proj1 pf_valid) (proj1 pf_poses) _ (proj2 pf_valid) (proj2 pf_poses) _ pf_acyclic _ H H' _ _ _).
  - exact (data_impl _ _ _ int_b64 (proj1 pf_int)).
  - exact (data_impl _ _ _ int_b64 (proj2 pf_int)).
  - split; [reflexivity|]. split; reflexivity.
  - left.
  - left.
Qed.
Example C94_runs : solves (pf_run (@pf_1 b64) Injection "I1"%string) (λ sol, solves (pf_run (@pf_2 b64) Injection "I1"%string) (λ sol',
  holds (sol_concentration sol "I1"%string) [(0, n1); (2, frac 2 3); (3, frac 2 3)] && holds (sol_concentration sol' "I1"%string) [(0, n1); (2, frac 2 3); (3, frac 2 3)] &&
  negb (holds (sol_tof sol "I1"%string) (sol_tof sol' "I1"%string)))) = true.
Proof. vm_compute. reflexivity. Qed.

(** ** With cycles *)
(** The iteration goes on until the times-of-flight have settled too, so that larger
    pore volumes give more sweeps and other concentrations. *)
Definition pc_p {N : Num} (a : Z) : problem := mkProblem 4 cy_conns (map nofZ [a; a; a; a]) [("I"%string, [(0, nofZ 2)]); ("P"%string, [(3, nofZ (-2))])].
Lemma pc_valid {N : Num} a : valid (pc_p a). Proof. valid_tac. Qed.
Lemma pc_poses {N : Num} a : poses (pc_p a) (graph_for (pc_p a)) (values_for (pc_p a) 1).
Proof. apply posed; [apply pc_valid|forall_tac|reflexivity]. Qed.
Lemma pc_int {N : Num} a : data is_int (pc_p a).
Proof. split; intros; cbv [pc_p cy_conns pb_conns pb_rates pb_pv map fst snd] in *; int_tac. Qed.
Local Notation pc_run a := (diagnose Injection ex_ev (graph_for (@pc_p b64 a)) (@pc_p b64 a) (values_for (@pc_p b64 a) 1) [cs_new "I"%string]).
Definition pc_more : bool := solves (pc_run 1) (λ sol, solves (pc_run 1000000000) (λ sol',
  match om_find 1 (sol_concentration sol "I"%string), om_find 1 (sol_concentration sol' "I"%string) with Some c, Some c' => nltb c c' | _, _ => false end)).
Lemma pc_differs : pc_more = true. Proof. vm_compute. reflexivity. Qed.
Theorem C94_cycles_refuted : ∃ (p p' : @problem b64) g f g' f' ev sets sol sol' id v c c', valid p ∧ poses p g f ∧ @data b64 b64_ok p ∧
  valid p' ∧ poses p' g' f' ∧ @data b64 b64_ok p' ∧ same_but_pores p p' ∧
  diagnose Injection ev g p f sets = Ok (OSol sol) ∧ diagnose Injection ev g' p' f' sets = Ok (OSol sol') ∧ id ∈ map cs_id sets ∧
  om_find v (sol_concentration sol id) = Some c ∧ om_find v (sol_concentration sol' id) = Some c' ∧ nltb c c' = true.
Proof.
  pose proof pc_differs as HP. unfold pc_more in HP. apply solves_inv in HP as (sol & H & H').
  apply solves_inv in H' as (sol' & H' & E).
  destruct (om_find 1 (sol_concentration sol "I"%string)) as [c|] eqn:Ec; [|discriminate E]. destruct (om_find 1 (sol_concentration sol' "I"%string)) as [c'|] eqn:Ec'; [|discriminate E].
  exists (pc_p 1), (pc_p 1000000000), (graph_for (@pc_p b64 1)), (values_for (pc_p 1) 1), (graph_for (@pc_p b64 1000000000)), (values_for (pc_p 1000000000) 1),
    ex_ev, [cs_new "I"%string], sol, sol', "I"%string, 1, c, c'.
  split; [apply pc_valid|]. split; [apply pc_poses|]. split; [exact (data_impl _ _ _ int_b64 (pc_int 1))|].
  split; [apply pc_valid|]. split; [apply pc_poses|]. split; [exact (data_impl _ _ _ int_b64 (pc_int 1000000000))|].
  split; [split; [reflexivity|]; split; reflexivity|]. split; [exact H|]. split; [exact H'|]. split; [left|]. split; [exact Ec|]. split; [exact Ec'|exact E].
Qed.

Print Assumptions C94_concentrations.
Print Assumptions C94_concentrations_b64.
Print Assumptions C94_pair_fluxes.
Print Assumptions C94_pair_fluxes_b64.
Print Assumptions C94_cycles_refuted.
