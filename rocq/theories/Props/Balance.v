(** Properties C59-C61: balances of the diagnostics over wells and over cells,
    Toolbox.cpp, TracerTofSolver.cpp and DerivedQuantities.cpp, for flows without
    cycles in exact arithmetic. *)
From Coq Require Import String QArith Qcanon.
From Verif.Model Require Import Base Num OMap Containers Solution AssembledConnections Tarjan TracerTofSolver Toolbox DerivedQuantities.
From Verif.Spec Require Import ToolboxSpec MirrorSpec.
From Verif.Proofs Require Import OMapFacts ExactNum Balance.
From Verif.Props Require Import Toolbox Duality SameFlow.
Open Scope Z_scope.

(** ** C59: the fluxes of a well with all wells of the other kind add up to its rate *)
Theorem C59_pair_rates (p : @problem exact) g f ev ev' sets sets' sol sol' : valid p → poses p g f → data finite p → pores_ok p →
  acyclic (net_arcs p) → conserves p →
  diagnose Injection ev g p f sets = Ok (OSol sol) → diagnose Production ev' g p f sets' = Ok (OSol sol') →
  (∀ id, is_well Injection (pb_rates p) id → id ∈ map cs_id sets) → (∀ id, is_well Production (pb_rates p) id → id ∈ map cs_id sets') →
  let wells := map fst (pb_rates p) in let all := seqZ 0 (pb_cells p) in
  ∃ F : cellset_id → cellset_id → @num exact * @num exact,
    (∀ i j, i ∈ wells → j ∈ wells → pair_flux sol sol' i j (pb_rates p) = Ok (F i j)) ∧
    (∀ i, i ∈ wells → sum_left (map (λ j, (F i j).1) wells) = sum_left (omap (well_rate Injection (pb_rates p) i) all)) ∧
    (∀ j, j ∈ wells → sum_left (map (λ i, (F i j).2) wells) = nopp (sum_left (omap (well_rate Production (pb_rates p) j) all))).
Proof. intros Hp HP HD HV Hac. exact (pair_rates p g f Hp HP HD HV Hac ev ev' sets sets' sol sol'). Qed.

(** ** C60: the global time-of-flight is the mean of the wells' times *)
(** Weighted by the concentrations, the mean of the times-of-flight of all wells is
    at most the global time-of-flight, and equal to it wherever no well's time is
    at the cut-off. *)
Theorem C60_mean (p : @problem exact) g f d ev sets sol : valid p → poses p g f → data finite p → pores_ok p →
  acyclic (net_arcs p) → diagnose d ev g p f sets = Ok (OSol sol) →
  (∀ id, is_well d (pb_rates p) id → id ∈ map cs_id sets) →
  ∀ v, 0 ≤ v < pb_cells p → ∃ t, sol_global_tof sol !! Z.to_nat v = Some t ∧
    let S := sum_left (map (λ id, value_at (sol_concentration sol id) v) (map fst (pb_rates p))) in
    let Y := sum_left (map (λ id, nmul (value_at (sol_concentration sol id) v) (value_at (sol_tof sol id) v)) (map fst (pb_rates p))) in
    nleb Y (nmul S t) = true ∧
    ((∀ id x, om_find v (sol_tof sol id) = Some x → nltb x cutoff = true) → Y = nmul S t).
Proof. intros Hp HP HD HV Hac. exact (mean_times p g f Hp HP HD HV Hac d ev sets sol). Qed.

(** ** C61: volume is rate times time *)
(** The pore volume swept by a well is the sum, over the cells where fluid leaves,
    of the well's share of the rate times its time-of-flight there. *)
Theorem C61_swept_volume (p : @problem exact) g f d ev sets sol id : valid p → poses p g f → data finite p → pores_ok p →
  acyclic (net_arcs p) → conserves p → diagnose d ev g p f sets = Ok (OSol sol) →
  (is_well d (pb_rates p) id → id ∈ map cs_id sets) →
  (∀ v t, om_find v (sol_tof sol id) = Some t → nltb t cutoff = true) →
  let all := seqZ 0 (pb_cells p) in
  sum_left (map (λ v, nmul (cell_total (opposite d) (pb_rates p) v)
                  (nmul (value_at (sol_concentration sol id) v) (value_at (sol_tof sol id) v))) all) =
  sum_left (map (λ v, nmul (pore p v) (value_at (sol_concentration sol id) v)) all).
Proof. intros Hp HP HD HV Hac. exact (swept p g f Hp HP HD HV Hac d ev sets sol id). Qed.
(** For the global time-of-flight it is the volume of all cells with inflow. *)
Theorem C61_total_volume (p : @problem exact) g f d ev sets sol : valid p → poses p g f → data finite p → pores_ok p →
  acyclic (net_arcs p) → conserves p → diagnose d ev g p f sets = Ok (OSol sol) →
  (∀ v t, 0 ≤ v < pb_cells p → sol_global_tof sol !! Z.to_nat v = Some t → nltb n0 (total_in p d v) = true → nltb t cutoff = true) →
  let all := seqZ 0 (pb_cells p) in
  sum_left (map (λ v, nmul (cell_total (opposite d) (pb_rates p) v) (default n0 (sol_global_tof sol !! Z.to_nat v))) all) =
  sum_left (map (pore p) (filter (λ v, nltb n0 (total_in p d v) = true) all)).
Proof. intros Hp HP HD HV Hac. exact (swept_all p g f Hp HP HD HV Hac d ev sets sol). Qed.

(** ** Examples *)
Lemma ex_finite : data finite (@ex_p exact).
Proof. exact (data_impl _ _ _ int_finite ex_int). Qed.
Lemma ex_producers id : is_well Production (pb_rates (@ex_p exact)) id → id ∈ map cs_id [cs_new "P"%string].
Proof.
  intros (c & x & H). unfold well_rate in H.
  destruct (om_find id (pb_rates (@ex_p exact))) as [vals|] eqn:E; [|done].
  apply om_find_elem in E; [|repeat constructor].
  repeat (apply elem_of_cons in E as [[= -> ->]|E]); [..|by apply elem_of_nil in E]; [| |left].
  all: exfalso; destruct (om_find c _) as [y|] eqn:Ey in H; [|done].
  all: apply om_find_elem in Ey; [|repeat constructor]; apply elem_of_list_singleton in Ey as [= -> ->]; by vm_compute in H.
Qed.
Lemma ex_solved d sets P : solves (@ex_run exact d sets) P = true → ∃ sol, @ex_run exact d sets = Ok (OSol sol).
Proof. intros (sol & H & _)%solves_inv. by exists sol. Qed.
(** The rates of I1, I2 and P are 4, 2 and 6. *)
Example C59_ex : ∃ sol sol', @ex_run exact Injection ex_sets = Ok (OSol sol) ∧ ex_run Production [cs_new "P"%string] = Ok (OSol sol') ∧
  ∃ F : cellset_id → cellset_id → @num exact * @num exact,
    (∀ i j, i ∈ ["I1"; "I2"; "P"]%string → j ∈ ["I1"; "I2"; "P"]%string → pair_flux sol sol' i j ex_rates = Ok (F i j)) ∧
    sum_left (map (λ j, (F "I1"%string j).1) ["I1"; "I2"; "P"]%string) = nofZ 4 ∧
    sum_left (map (λ i, (F i "P"%string).2) ["I1"; "I2"; "P"]%string) = nofZ (-6).
Proof.
  destruct (ex_solved _ _ _ C39_ex) as [sol H].
  destruct (ex_solved _ _ _ C25_ex_production) as [sol' H']. exists sol, sol'. split; [exact H|]. split; [exact H'|].
  destruct (C59_pair_rates ex_p _ _ _ _ _ _ _ _ ex_valid ex_poses ex_finite ex_pores ex_acyclic ex_conserves H H' C39_ex_wells ex_producers) as (F & H1 & H2 & H3).
  exists F. split; [exact H1|]. split.
  - transitivity (sum_left (omap (well_rate Injection (pb_rates (@ex_p exact)) "I1"%string) (seqZ 0 5))); [exact (H2 _ ltac:(left))|].
    apply xeqb_eq. vm_compute. reflexivity.
  - transitivity (nopp (sum_left (omap (well_rate Production (pb_rates (@ex_p exact)) "P"%string) (seqZ 0 5)))); [exact (H3 _ ltac:(right; right; left))|].
    apply xeqb_eq. vm_compute. reflexivity.
Qed.
(** In cell 2, 2/3 of the fluid took 3/4 and 1/3 took 3/2: on average 1. *)
Example C60_ex : solves (@ex_run exact Injection ex_sets) (λ sol,
  neqb (value_at (sol_tof sol "I1"%string) 2) (frac 3 4) && neqb (value_at (sol_tof sol "I2"%string) 2) (frac 3 2) &&
  match sol_global_tof sol !! 2%nat with Some t => neqb t n1 | None => false end) = true.
Proof. vm_compute. reflexivity. Qed.
Example C60_ex_mean : ∃ sol t, @ex_run exact Injection ex_sets = Ok (OSol sol) ∧ sol_global_tof sol !! 2%nat = Some t ∧
  nleb (sum_left (map (λ id, nmul (value_at (sol_concentration sol id) 2) (value_at (sol_tof sol id) 2)) (map fst (@ex_rates exact))))
    (nmul (sum_left (map (λ id, value_at (sol_concentration sol id) 2) (map fst (@ex_rates exact)))) t) = true.
Proof.
  destruct (ex_solved _ _ _ C39_ex) as [sol H].
  destruct (C60_mean ex_p _ _ _ _ _ _ ex_valid ex_poses ex_finite ex_pores ex_acyclic H C39_ex_wells 2) as (t & Ht & Hle & _); [split; [done|reflexivity]|].
  exists sol, t. split; [exact H|]. split; [exact Ht|exact Hle].
Qed.
(** Injector I1 sweeps 17/3, of which the producer sees 6 (the rate) times 2/3 times 17/12. *)
Definition all_early (m : @cellset_values exact) : bool := forallb (λ kv, nltb kv.2 cutoff) m.
Lemma all_early_inv m v t : om_wf m → all_early m = true → om_find v m = Some t → nltb t cutoff = true.
Proof.
  intros Hm H E. apply om_find_elem in E; [|done]. unfold all_early in H. rewrite forallb_forall in H. exact (H _ (proj1 (elem_of_list_In _ _) E)).
Qed.
Example C61_ex : solves (@ex_run exact Injection ex_sets) (λ sol,
  all_early (sol_tof sol "I1"%string) &&
  neqb (sum_left (map (λ v, nmul (cell_total Production ex_rates v)
      (nmul (value_at (sol_concentration sol "I1"%string) v) (value_at (sol_tof sol "I1"%string) v))) (seqZ 0 5))) (frac 17 3) &&
  neqb (sum_left (map (λ v, nmul (pore ex_p v) (value_at (sol_concentration sol "I1"%string) v)) (seqZ 0 5))) (frac 17 3)) = true.
Proof. vm_compute. reflexivity. Qed.
Example C61_ex_volume : ∃ sol, @ex_run exact Injection ex_sets = Ok (OSol sol) ∧
  sum_left (map (λ v, nmul (cell_total Production (@ex_rates exact) v)
    (nmul (value_at (sol_concentration sol "I1"%string) v) (value_at (sol_tof sol "I1"%string) v))) (seqZ 0 5)) =
  sum_left (map (λ v, nmul (pore (@ex_p exact) v) (value_at (sol_concentration sol "I1"%string) v)) (seqZ 0 5)).
Proof.
  assert (solves (@ex_run exact Injection ex_sets) (λ sol, all_early (sol_tof sol "I1"%string) && bool_decide (map fst (sol_tof sol "I1"%string) = [0; 2; 3])) = true) as HS
    by (vm_compute; reflexivity).
  apply solves_inv in HS as (sol & H & [H1 H2]%andb_true_iff). exists sol. split; [exact H|]. apply bool_decide_eq_true in H2.
  apply (C61_swept_volume ex_p _ _ Injection ex_ev ex_sets sol "I1"%string ex_valid ex_poses ex_finite ex_pores ex_acyclic ex_conserves H (C39_ex_wells _)).
  intros v t. apply all_early_inv; [|exact H1]. unfold om_wf. rewrite H2. repeat constructor.
Qed.
(** All cells but the last, without inflow, have times below the cut-off. *)
Example C61_ex_total : solves (@ex_run exact Injection ex_sets) (λ sol,
  bool_decide (filter (λ v, nltb n0 (total_in (@ex_p exact) Injection v) = true) (seqZ 0 5) = [0; 1; 2; 3]) &&
  forallb (λ t, nltb t cutoff) (take 4 (sol_global_tof sol)) &&
  neqb (sum_left (map (λ v, nmul (cell_total Production (@ex_rates exact) v) (default n0 (sol_global_tof sol !! Z.to_nat v))) (seqZ 0 5))) (nofZ 10)) = true.
Proof. vm_compute. reflexivity. Qed.

Print Assumptions C59_pair_rates.
Print Assumptions C60_mean.
Print Assumptions C61_swept_volume.
Print Assumptions C61_total_volume.
