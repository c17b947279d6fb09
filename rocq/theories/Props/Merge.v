(** * Grouping rates into wells: property C75 *)
From Coq Require Import String QArith Qcanon.
From Verif.Model Require Import Base Num OMap Containers Solution TracerTofSolver Toolbox.
From Verif.Spec Require Import ToolboxSpec CyclicSpec MergeSpec.
From Verif.Proofs Require Import ExactNum OMapFacts ToolboxThms Merge.
From Verif.Props Require Import Toolbox Duality Balance SameFlow.
Open Scope Z_scope.

(** ** C75: what the diagnostics say of a group of wells depends only on their joint rates *)
(** Two problems have the same network and the same rate of all wells in each cell,
    and the wells [G] of one have together the rates of the wells [G'] of the other.
    Then their concentrations have the same sum. *)
Theorem C75_concentrations (p p' : @problem exact) g f g' f' d ev ev' sets sets' sol sol' G G' :
  valid p → poses p g f → data finite p → pores_ok p →
  valid p' → poses p' g' f' → data finite p' → pores_ok p' →
  acyclic (net_arcs p) → regrouped d p p' → same_rates d p p' G G' →
  diagnose d ev g p f sets = Ok (OSol sol) → diagnose d ev' g' p' f' sets' = Ok (OSol sol') →
  (∀ i, i ∈ G → is_well d (pb_rates p) i → i ∈ map cs_id sets) →
  (∀ i, i ∈ G' → is_well d (pb_rates p') i → i ∈ map cs_id sets') →
  ∀ v, 0 ≤ v < pb_cells p →
    sum_left (map (λ i, value_at (sol_concentration sol' i) v) G') = sum_left (map (λ i, value_at (sol_concentration sol i) v) G).
Proof.
  intros Hp HP HD HV Hp' HP' HD' HV' Hac HR HJ H H' HG HG'.
  exact (regroup_conc p g f Hp HP HD HV p' g' f' Hp' HP' HD' HV' Hac d HR ev ev' sets sets' sol sol' H H' G G' HG HG' HJ).
Qed.

(** And their times-of-flight, weighted by concentration, have the same sum where no time is at the cut-off. *)
Theorem C75_times (p p' : @problem exact) g f g' f' d ev ev' sets sets' sol sol' G G' :
  valid p → poses p g f → data finite p → pores_ok p →
  valid p' → poses p' g' f' → data finite p' → pores_ok p' →
  acyclic (net_arcs p) → regrouped d p p' → same_rates d p p' G G' →
  diagnose d ev g p f sets = Ok (OSol sol) → diagnose d ev' g' p' f' sets' = Ok (OSol sol') →
  (∀ i, i ∈ G → is_well d (pb_rates p) i → i ∈ map cs_id sets) →
  (∀ i, i ∈ G' → is_well d (pb_rates p') i → i ∈ map cs_id sets') →
  ∀ v, 0 ≤ v < pb_cells p →
    (∀ i t, i ∈ G → om_find v (sol_tof sol i) = Some t → nltb t cutoff = true) →
    (∀ i t, i ∈ G' → om_find v (sol_tof sol' i) = Some t → nltb t cutoff = true) →
    sum_left (map (λ i, nmul (value_at (sol_concentration sol' i) v) (value_at (sol_tof sol' i) v)) G') =
    sum_left (map (λ i, nmul (value_at (sol_concentration sol i) v) (value_at (sol_tof sol i) v)) G).
Proof.
  intros Hp HP HD HV Hp' HP' HD' HV' Hac HR HJ H H' HG HG'.
  exact (regroup_times p g f Hp HP HD HV p' g' f' Hp' HP' HD' HV' Hac d HR ev ev' sets sets' sol sol' H H' G G' HG HG' HJ).
Qed.

(** A well made of several: its concentration is the sum of theirs.  Its time-of-flight
    is at least the mean of theirs, and equal to it if none is at the cut-off. *)
Theorem C75_merged (p p' : @problem exact) g f g' f' d ev ev' sets sets' sol sol' G j :
  valid p → poses p g f → data finite p → pores_ok p →
  valid p' → poses p' g' f' → data finite p' → pores_ok p' →
  acyclic (net_arcs p) → regrouped d p p' → same_rates d p p' G [j] →
  diagnose d ev g p f sets = Ok (OSol sol) → diagnose d ev' g' p' f' sets' = Ok (OSol sol') →
  (∀ i, i ∈ G → is_well d (pb_rates p) i → i ∈ map cs_id sets) → (is_well d (pb_rates p') j → j ∈ map cs_id sets') →
  ∀ v, 0 ≤ v < pb_cells p →
    let Y := sum_left (map (λ i, nmul (value_at (sol_concentration sol i) v) (value_at (sol_tof sol i) v)) G) in
    let Y' := nmul (value_at (sol_concentration sol' j) v) (value_at (sol_tof sol' j) v) in
    nleb Y Y' = true ∧ ((∀ i t, i ∈ G → om_find v (sol_tof sol i) = Some t → nltb t cutoff = true) → Y = Y').
Proof.
  intros Hp HP HD HV Hp' HP' HD' HV' Hac HR HJ H H' HG HG' v.
  apply (merge_times p g f Hp HP HD HV p' g' f' Hp' HP' HD' HV' Hac d HR ev ev' sets sets' sol sol' H H' G [j] HG); [|exact HJ|done].
  intros i ->%elem_of_list_singleton. done.
Qed.

(** ** Non-vacuity *)
(** The injectors of the example made into one. *)
Definition mg_p {N : Num} : problem :=
  mkProblem 5 ex_conns (map nofZ [1; 2; 3; 4; 5]) [("I"%string, [(0, nofZ 4); (1, nofZ 2)]); ("P"%string, [(3, nofZ (-6))])].
Lemma mg_valid {N : Num} : valid mg_p. Proof. valid_tac. Qed.
Lemma mg_poses {N : Num} : poses mg_p (graph_for mg_p) (values_for mg_p 2).
Proof. apply posed; [apply mg_valid|forall_tac|reflexivity]. Qed.
Lemma mg_finite : data finite (@mg_p exact).
Proof. apply (data_impl _ _ _ int_finite). split; intros; unfold mg_p in *; int_tac. Qed.
Lemma mg_pores : pores_ok (@mg_p exact). Proof. unfold mg_p. pores_tac. Qed.
Lemma below5 (P : Z → bool) : forallb P (seqZ 0 5) = true → ∀ v, 0 ≤ v < 5 → P v = true.
Proof. intros H v Hv. rewrite forallb_forall in H. apply H, elem_of_list_In, elem_of_seqZ. lia. Qed.
Lemma mg_regrouped : regrouped Injection (@ex_p exact) mg_p.
Proof.
  split; [done|done|done|]. intros v Hv. apply xeqb_eq. revert v Hv.
  apply (below5 (λ v, xeqb (cell_total Injection (pb_rates (@mg_p exact)) v) (cell_total Injection (pb_rates (@ex_p exact)) v))). vm_compute. reflexivity.
Qed.
Lemma mg_same : same_rates Injection (@ex_p exact) mg_p ["I1"; "I2"]%string ["I"]%string.
Proof.
  intros v Hv. apply xeqb_eq. revert v Hv.
  apply (below5 (λ v, xeqb (@joint_rate exact mg_p Injection ["I"%string] v) (@joint_rate exact ex_p Injection ["I1"; "I2"]%string v))). vm_compute. reflexivity.
Qed.
(** In cell 2, where 2/3 took 3/4 and 1/3 took 3/2, the one well has concentration 1 and time 1. *)
Definition mg_run {N : Num} := diagnose Injection ex_ev (graph_for mg_p) mg_p (values_for mg_p 2) [cs_new "I"%string].
Example C75_run : solves (@mg_run exact) (λ sol,
  neqb (value_at (sol_concentration sol "I"%string) 2) n1 && neqb (value_at (sol_tof sol "I"%string) 2) n1) = true.
Proof. vm_compute. reflexivity. Qed.
Example C75_ex : ∃ sol sol', @ex_run exact Injection ex_sets = Ok (OSol sol) ∧ @mg_run exact = Ok (OSol sol') ∧
  ∀ v, 0 ≤ v < 5 →
    sum_left (map (λ i, value_at (sol_concentration sol' i) v) ["I"]%string) = sum_left (map (λ i, value_at (sol_concentration sol i) v) ["I1"; "I2"]%string) ∧
    nleb (sum_left (map (λ i, nmul (value_at (sol_concentration sol i) v) (value_at (sol_tof sol i) v)) ["I1"; "I2"]%string))
      (nmul (value_at (sol_concentration sol' "I"%string) v) (value_at (sol_tof sol' "I"%string) v)) = true.
Proof.
  destruct (ex_solved _ _ _ C39_ex) as [sol H]. destruct (solves_inv _ _ C75_run) as (sol' & H' & _).
  exists sol, sol'. split; [exact H|]. split; [exact H'|]. intros v Hv.
  assert (∀ i, i ∈ ["I1"; "I2"]%string → is_well Injection (pb_rates (@ex_p exact)) i → i ∈ map cs_id ex_sets) as HG by (intros i _; apply C39_ex_wells).
  split.
  - apply (C75_concentrations ex_p mg_p _ _ _ _ _ _ _ _ _ _ _ _ _ ex_valid ex_poses ex_finite ex_pores mg_valid mg_poses mg_finite mg_pores
      ex_acyclic mg_regrouped mg_same H H' HG); [|exact Hv]. intros i Hi _. exact Hi.
  - apply (C75_merged ex_p mg_p _ _ _ _ _ _ _ _ _ _ _ _ _ ex_valid ex_poses ex_finite ex_pores mg_valid mg_poses mg_finite mg_pores
      ex_acyclic mg_regrouped mg_same H H' HG); [|exact Hv]. intros _. left.
Qed.
(** In cell 2 no time is at the cut-off. *)
Example C75_early : solves (@ex_run exact Injection ex_sets) (λ sol,
  nltb (value_at (sol_tof sol "I1"%string) 2) cutoff && nltb (value_at (sol_tof sol "I2"%string) 2) cutoff) = true.
Proof. vm_compute. reflexivity. Qed.

Print Assumptions C75_concentrations.
Print Assumptions C75_times.
Print Assumptions C75_merged.
