(** Properties C53 and C54: what of its input the toolbox uses, Toolbox.cpp and
    TracerTofSolver.cpp. *)
From Coq Require Import String QArith Qcanon.
From Verif.Model Require Import Base Num OMap Containers Solution AssembledConnections Tarjan TracerTofSolver Toolbox.
From Verif.Spec Require Import ToolboxSpec SameFlowSpec.
From Verif.Proofs Require Import ExactNum OrdLaws Mirror SameFlow Scaling.
From Verif.Props Require Import Toolbox.
Open Scope Z_scope.

(** ** C53: only the net fluxes between cells matter *)
Theorem C53_net_flow {N : Num} p p' g g' f f' d ev sets : valid p → poses p g f → valid p' → poses p' g' f' →
  pb_cells p' = pb_cells p → pb_pv p' = pb_pv p → pb_rates p' = pb_rates p → same_flow p p' →
  diagnose d ev g p f sets = diagnose d ev g' p' f' sets.
Proof. exact (diagnose_same_flow p p' g g' f f' d ev sets). Qed.
(** The split into phases does not matter. *)
Theorem C53_phases {N : Num} p p' g g' f f' d ev sets : valid p → poses p g f → valid p' → poses p' g' f' →
  pb_cells p' = pb_cells p → pb_pv p' = pb_pv p → pb_rates p' = pb_rates p →
  Forall2 rephased (pb_conns p) (pb_conns p') →
  diagnose d ev g p f sets = diagnose d ev g' p' f' sets.
Proof. intros ? ? ? ? ? ? ? H. apply diagnose_same_flow; try done. by apply same_arcs, rephased_arcs. Qed.
(** A connection without net flux might as well not be there. *)
Theorem C53_idle {N : Num} p p' g g' f f' d ev sets l1 l2 x : valid p → poses p g f → valid p' → poses p' g' f' →
  pb_cells p' = pb_cells p → pb_pv p' = pb_pv p → pb_rates p' = pb_rates p →
  pb_conns p = l1 ++ l2 → pb_conns p' = l1 ++ x :: l2 → idle x →
  diagnose d ev g p f sets = diagnose d ev g' p' f' sets.
Proof. intros ? ? ? ? ? ? ? E1 E2 I. apply diagnose_same_flow; try done. by apply same_arcs, (idle_arcs p p' l1 l2 x). Qed.
(** Nor does it matter from which end a connection is written. *)
Theorem C53_orientation (p p' : @problem exact) g g' f f' d ev sets : valid p → poses p g f → valid p' → poses p' g' f' →
  pb_cells p' = pb_cells p → pb_pv p' = pb_pv p → pb_rates p' = pb_rates p →
  Forall2 (λ x y, y = x ∨ y = flipped x) (pb_conns p) (pb_conns p') →
  diagnose d ev g p f sets = diagnose d ev g' p' f' sets.
Proof. intros ? ? ? ? ? ? ? H. apply diagnose_same_flow; try done. by apply same_arcs, (flipped_arcs exact_neg_laws). Qed.
Theorem C53_orientation_b64 (p p' : @problem b64) g g' f f' d ev sets : valid p → poses p g f → valid p' → poses p' g' f' →
  pb_cells p' = pb_cells p → pb_pv p' = pb_pv p → pb_rates p' = pb_rates p →
  Forall2 (λ x y, y = x ∨ y = flipped x) (pb_conns p) (pb_conns p') →
  diagnose d ev g p f sets = diagnose d ev g' p' f' sets.
Proof. intros ? ? ? ? ? ? ? H. apply diagnose_same_flow; try done. by apply same_arcs, (flipped_arcs b64_neg_laws). Qed.
(** In exact arithmetic, the order of the connections does not matter either. *)
Theorem C53_order (p p' : @problem exact) g g' f f' d ev sets : valid p → poses p g f → valid p' → poses p' g' f' →
  pb_cells p' = pb_cells p → pb_pv p' = pb_pv p → pb_rates p' = pb_rates p →
  pb_conns p ≡ₚ pb_conns p' →
  diagnose d ev g p f sets = diagnose d ev g' p' f' sets.
Proof. intros ? ? ? ? ? ? ? H. apply diagnose_same_flow; try done. by apply reordered_flow. Qed.

(** ** C54: the unit of volume does not matter *)
(** Volumes, fluxes and rates multiplied by the same number: the same
    diagnostics, for every problem, cyclic or not, and every outcome. *)
Theorem C54_scaled (a : Qc) (p : @problem exact) g f g' f' d ev sets : (0 < a)%Qc → valid p →
  poses p g f → poses (scaled (Fin a : @num exact) p) g' f' →
  valid (scaled (Fin a : @num exact) p) ∧
  diagnose d ev g' (scaled (Fin a : @num exact) p) f' sets = diagnose d ev g p f sets.
Proof. intros Ha Hp HP HP'. split; [by apply sc_valid|]. by apply diagnose_scaled. Qed.

(** ** Examples *)
(** The first example with its connections in another order, one of them written
    from the other end, one flux split otherwise, and without the idle one. *)
Definition rw_conns {N : Num} : list (Z * Z * list num) :=
  [(1, 2, [nofZ 1; nofZ 1]); (2, 3, [nofZ 6; nofZ 0]); (0, 2, [nofZ 3; nofZ 1])].
Definition with_conns {N : Num} (p : problem) cs : problem := mkProblem (pb_cells p) cs (pb_pv p) (pb_rates p).
Definition rw_p {N : Num} : problem := with_conns ex_p rw_conns.
Lemma rw_valid {N : Num} : valid rw_p. Proof. valid_tac. Qed.
Lemma rw_poses {N : Num} : poses rw_p (graph_for rw_p) (values_for rw_p 2).
Proof. apply posed; [apply rw_valid|forall_tac|reflexivity]. Qed.
(** One change at a time. *)
Definition ex_rest {N : Num} : list (Z * Z * list num) := [(2, 3, [nofZ 2; nofZ 4]); (3, 4, [nofZ 1; nofZ (-1)])].
Definition fl_p {N : Num} : problem :=
  with_conns ex_p ((0, 2, [nofZ 3; nofZ 1]) :: flipped (2, 1, [nofZ (-1); nofZ (-1)]) :: ex_rest).
Definition ph_p : @problem exact :=
  with_conns ex_p ((0, 2, [nofZ 4; nofZ 0]) :: (2, 1, [nofZ (-3); nofZ 1]) :: ex_rest).
Definition id_p {N : Num} : problem :=
  with_conns ex_p [(0, 2, [nofZ 3; nofZ 1]); (2, 1, [nofZ (-1); nofZ (-1)]); (2, 3, [nofZ 2; nofZ 4])].
Definition or_p {N : Num} : problem :=
  with_conns ex_p [(3, 4, [nofZ 1; nofZ (-1)]); (2, 3, [nofZ 2; nofZ 4]); (2, 1, [nofZ (-1); nofZ (-1)]); (0, 2, [nofZ 3; nofZ 1])].
Ltac posed_tac := apply posed; [valid_tac|forall_tac|reflexivity].
Lemma fl_poses {N : Num} : poses fl_p (graph_for fl_p) (values_for fl_p 2). Proof. posed_tac. Qed.
Lemma ph_poses : poses ph_p (graph_for ph_p) (values_for ph_p 2). Proof. posed_tac. Qed.
Lemma id_poses {N : Num} : poses id_p (graph_for id_p) (values_for id_p 2). Proof. posed_tac. Qed.
Lemma or_poses {N : Num} : poses or_p (graph_for or_p) (values_for or_p 2). Proof. posed_tac. Qed.
Definition p_run {N : Num} (p : problem) d sets := diagnose d ex_ev (graph_for p) p (values_for p 2) sets.

Lemma xeqb_eq x y : xeqb x y = true → x = y.
Proof. destruct x, y; try done. intros H%xeqb_Fin. by rewrite H. Qed.
Example C53_ex_orientation d sets : p_run ex_p d sets = p_run (@fl_p exact) d sets.
Proof.
  apply C53_orientation; [apply ex_valid|apply ex_poses|valid_tac|apply fl_poses|done..|].
  repeat (apply Forall2_cons; split); try (by left); try (by right); by apply Forall2_nil.
Qed.
Example C53_ex_orientation_b64 d sets : p_run ex_p d sets = p_run (@fl_p b64) d sets.
Proof.
  apply C53_orientation_b64; [apply ex_valid|apply ex_poses|valid_tac|apply fl_poses|done..|].
  repeat (apply Forall2_cons; split); try (by left); try (by right); by apply Forall2_nil.
Qed.
Example C53_ex_phases d sets : p_run ex_p d sets = p_run ph_p d sets.
Proof.
  apply C53_phases; [apply ex_valid|apply ex_poses|valid_tac|apply ph_poses|done..|].
  repeat (apply Forall2_cons; split); try (by apply Forall2_nil); (split; [done|]); apply xeqb_eq; vm_compute; reflexivity.
Qed.
Example C53_ex_idle d sets : p_run (@id_p exact) d sets = p_run ex_p d sets.
Proof.
  apply (C53_idle id_p ex_p _ _ _ _ _ _ _ (pb_conns id_p) [] (3, 4, [nofZ 1; nofZ (-1)])); [valid_tac|apply id_poses|apply ex_valid|apply ex_poses|done..|].
  split; vm_compute; reflexivity.
Qed.
Example C53_ex_order d sets : p_run ex_p d sets = p_run (@or_p exact) d sets.
Proof.
  apply C53_order; [apply ex_valid|apply ex_poses|valid_tac|apply or_poses|done..|].
  apply (Permutation_rev (pb_conns (@ex_p exact))).
Qed.
(** The results are those of C25_ex, also for all changes together. *)
Example C53_ex_values : solves (p_run (@rw_p exact) Injection ex_sets) (λ sol,
  holds (sol_concentration sol "I1"%string) [(0, n1); (2, frac 2 3); (3, frac 2 3)] &&
  holds (sol_tof sol "I1"%string) [(0, frac 1 4); (2, frac 3 4); (3, frac 17 12)]) = true.
Proof. vm_compute. reflexivity. Qed.

(** In doubles the order does matter: parallel fluxes 2^53, 1 and 1 add up to
    2^53 in this order, and to 2^53 + 2 in the other. *)
Definition par {N : Num} (l : list Z) : problem :=
  mkProblem 2 (map (λ z, (0, 1, [nofZ z])) l) [nofZ 0; nofZ 1] [("I"%string, [(0, nofZ 1)])].
Definition par_run {N : Num} l := diagnose Injection ex_ev (graph_for (par l)) (par l) (values_for (par l) 1) [cs_new "I"%string].
Lemma par_valid {N : Num} a b c : valid (par [a; b; c]). Proof. valid_tac. Qed.
Lemma par_poses {N : Num} a b c : poses (par [a; b; c]) (graph_for (par [a; b; c])) (values_for (par [a; b; c]) 1). Proof. posed_tac. Qed.
Theorem C53_order_b64_refuted : ∃ (p p' : @problem b64) g g' f f' ev sets sol sol' id,
  valid p ∧ poses p g f ∧ valid p' ∧ poses p' g' f' ∧
  pb_cells p' = pb_cells p ∧ pb_pv p' = pb_pv p ∧ pb_rates p' = pb_rates p ∧ pb_conns p ≡ₚ pb_conns p' ∧
  diagnose Injection ev g p f sets = Ok (OSol sol) ∧ diagnose Injection ev g' p' f' sets = Ok (OSol sol') ∧
  id ∈ map cs_id sets ∧ nltb (value_at (sol_tof sol' id) 1) (value_at (sol_tof sol id) 1) = true.
Proof.
  set (l := [2 ^ 53; 1; 1]). set (l' := [1; 1; 2 ^ 53]).
  assert (solves (@par_run b64 l) (λ sol, solves (@par_run b64 l') (λ sol',
    nltb (value_at (sol_tof sol' "I"%string) 1) (value_at (sol_tof sol "I"%string) 1))) = true) as (sol & H & H')%solves_inv
    by (vm_compute; reflexivity).
  apply solves_inv in H' as (sol' & H' & E).
  exists (par l), (par l'), (graph_for (@par b64 l)), (graph_for (@par b64 l')), (values_for (par l) 1), (values_for (par l') 1),
    ex_ev, [cs_new "I"%string], sol, sol', "I"%string.
  split; [apply par_valid|]. split; [apply par_poses|]. split; [apply par_valid|]. split; [apply par_poses|]. do 3 (split; [reflexivity|]).
  split; [apply (Permutation_rev (pb_conns (par l)))|]. split; [exact H|]. split; [exact H'|]. split; [left|exact E].
Qed.

(** Both examples in other units; in the second, the flow has a cycle. *)
Definition third : Qc := Q2Qc (1 # 3).
Definition sc_ex : @problem exact := scaled (Fin third : @num exact) ex_p.
Definition sc_cy : @problem exact := scaled (Fin third : @num exact) cy_p.
Lemma third_pos : (0 < third)%Qc. Proof. reflexivity. Qed.
Example C54_ex d ev sets : diagnose d ev (graph_for sc_ex) sc_ex (values_for sc_ex 2) sets =
  diagnose d ev (graph_for (@ex_p exact)) ex_p (values_for ex_p 2) sets.
Proof.
  apply C54_scaled; [apply third_pos|apply ex_valid|apply ex_poses|].
  apply (posed sc_ex 2); [apply sc_valid; [apply third_pos|apply ex_valid]|forall_tac|reflexivity].
Qed.
Example C54_ex_cyclic d ev sets : diagnose d ev (graph_for sc_cy) sc_cy (values_for sc_cy 1) sets =
  diagnose d ev (graph_for (@cy_p exact)) cy_p (values_for cy_p 1) sets.
Proof.
  apply C54_scaled; [apply third_pos|apply cy_valid|apply cy_poses|].
  apply (posed sc_cy 1); [apply sc_valid; [apply third_pos|apply cy_valid]|forall_tac|reflexivity].
Qed.
(** Scaling the fluxes alone is not without effect. *)
Example C54_ex_fluxes : solves (p_run (with_conns ex_p (pb_conns sc_ex)) Injection ex_sets) (λ sol,
  holds (sol_concentration sol "I1"%string) [(0, n1); (2, frac 2 3); (3, frac 2 3)] &&
  negb (holds (sol_tof sol "I1"%string) [(0, frac 1 4); (2, frac 3 4); (3, frac 17 12)])) = true.
Proof. vm_compute. reflexivity. Qed.

Print Assumptions C53_net_flow.
Print Assumptions C53_phases.
Print Assumptions C53_idle.
Print Assumptions C53_orientation.
Print Assumptions C53_orientation_b64.
Print Assumptions C53_order.
Print Assumptions C53_order_b64_refuted.
Print Assumptions C54_scaled.
