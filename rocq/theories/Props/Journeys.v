(** Property C79: concentrations are chances and times-of-flight mean durations of
    journeys through the cells, Toolbox.cpp and TracerTofSolver.cpp, in exact
    arithmetic. *)
From Coq Require Import String QArith Qcanon.
From Verif.Model Require Import Base Num OMap Containers Solution AssembledConnections Tarjan TracerTofSolver Toolbox.
From Verif.Spec Require Import ToolboxSpec JourneySpec.
From Verif.Proofs Require Import OMapFacts ExactNum ToolboxFlow ToolboxThms Journeys.
From Verif.Props Require Import Toolbox SameFlow Balance Cyclic.
Open Scope Z_scope.

(** ** C79 *)
(** Without cycles the list of journeys to a cell contains every journey once. *)
Theorem C79_journeys {N : Num} (p : problem) d v : valid p → acyclic (net_arcs p) → 0 ≤ v < pb_cells p →
  NoDup (journeys p d v) ∧ ∀ l, l ∈ journeys p d v ↔ journey (flow d p) l ∧ head l = Some v.
Proof.
  intros Hp Hac Hv. split; [apply upto_nodup|]. intros l. apply upto_elem; [by apply flow_arcs|by apply acyclic_flow|done].
Qed.
(** A concentration is the chance of a journey from the well. *)
Theorem C79_concentration (p : @problem exact) g f d ev sets sol id v : valid p → poses p g f → data finite p → pores_ok p →
  acyclic (net_arcs p) → diagnose d ev g p f sets = Ok (OSol sol) → (is_well d (pb_rates p) id → id ∈ map cs_id sets) → 0 ≤ v < pb_cells p →
  value_at (sol_concentration sol id) v = chances p d (rate_of p d id) (journeys p d v).
Proof. intros Hp HP HD HV Hac H Hid Hv. by apply (well_journeys p g f Hp HP HD HV d ev sets sol id Hac H Hid v Hv). Qed.
(** A time-of-flight is the mean duration of the journeys from the well. *)
Theorem C79_time_of_flight (p : @problem exact) g f d ev sets sol id v t : valid p → poses p g f → data finite p → pores_ok p →
  acyclic (net_arcs p) → diagnose d ev g p f sets = Ok (OSol sol) → om_find v (sol_tof sol id) = Some t → 0 ≤ v < pb_cells p →
  brisk p d (served p d id) v → id ∈ map cs_id sets →
  let J := journeys p d v in
  t = nmin (ndiv (durations p d (rate_of p d id) J) (chances p d (rate_of p d id) J)) cutoff.
Proof. intros Hp HP HD HV Hac H Ht Hv Hb Hid. by apply (well_journeys p g f Hp HP HD HV d ev sets sol id Hac H (λ _, Hid) v Hv). Qed.
(** The global time-of-flight is the mean duration of the journeys from all wells. *)
Theorem C79_global (p : @problem exact) g f d ev sets sol v : valid p → poses p g f → data finite p → pores_ok p →
  acyclic (net_arcs p) → diagnose d ev g p f sets = Ok (OSol sol) → 0 ≤ v < pb_cells p →
  brisk p d (λ u, ∃ id, served p d id u) v →
  let J := journeys p d v in let q := cell_total d (pb_rates p) in
  sol_global_tof sol !! Z.to_nat v =
    Some (if nltb n0 (chances p d q J) then nmin (ndiv (durations p d q J) (chances p d q J)) cutoff else cutoff).
Proof. intros Hp HP HD HV Hac H. exact (global_journeys p g f Hp HP HD HV d ev sets sol Hac H v). Qed.
Corollary C79_global_mean (p : @problem exact) g f d ev sets sol v : valid p → poses p g f → data finite p → pores_ok p →
  acyclic (net_arcs p) → diagnose d ev g p f sets = Ok (OSol sol) → 0 ≤ v < pb_cells p →
  brisk p d (λ u, ∃ id, served p d id u) v →
  nltb n0 (chances p d (cell_total d (pb_rates p)) (journeys p d v)) = true →
  sol_global_tof sol !! Z.to_nat v = Some (nmin (ndiv (durations p d (cell_total d (pb_rates p)) (journeys p d v))
    (chances p d (cell_total d (pb_rates p)) (journeys p d v))) cutoff).
Proof.
  intros Hp HP HD HV Hac H Hv Hb Hc. pose proof (C79_global p g f d ev sets sol v Hp HP HD HV Hac H Hv Hb) as E. cbn zeta in E. by rewrite Hc in E.
Qed.
(** With cycles, the computed concentrations and the times-of-flight weighted by
    them are at most the sums over journeys of some number of steps. *)
Theorem C79_below (p : @problem exact) g f d ev sets sol id : valid p → poses p g f → data finite p → pores_ok p →
  diagnose d ev g p f sets = Ok (OSol sol) → ∃ K, ∀ v,
  let J := arrivals_upto (pb_cells p) (flow d p) K v in
  nleb (value_at (sol_concentration sol id) v) (chances p d (rate_of p d id) J) = true ∧
  nleb (nmul (value_at (sol_concentration sol id) v) (value_at (sol_tof sol id) v)) (durations p d (rate_of p d id) J) = true.
Proof. intros Hp HP HD HV. exact (cyclic_journeys p g f Hp HP HD HV d ev sets sol id). Qed.

(** ** Examples *)
(** Two ways from cell 0 to cell 3, where another injector joins. *)
Definition dm_conns {N : Num} : list (Z * Z * list num) := [(0, 1, [nofZ 1]); (2, 0, [nofZ (-3)]); (1, 3, [nofZ 1]); (2, 3, [nofZ 3])].
Definition dm_rates {N : Num} : flux_map := [("I1"%string, [(0, nofZ 4)]); ("I2"%string, [(3, nofZ 4)]); ("P"%string, [(3, nofZ (-8))])].
Definition dm_p {N : Num} : problem := mkProblem 4 dm_conns (map nofZ [4; 1; 6; 8]) dm_rates.
Lemma dm_valid {N : Num} : valid dm_p. Proof. valid_tac. Qed.
Lemma dm_poses {N : Num} : poses dm_p (graph_for dm_p) (values_for dm_p 1).
Proof. apply posed; [apply dm_valid|forall_tac|reflexivity]. Qed.
Lemma dm_finite : data finite (@dm_p exact).
Proof. apply (data_impl is_int); [apply int_finite|]. split; intros; unfold dm_p, dm_conns, dm_rates in *; int_tac. Qed.
Lemma dm_pores : pores_ok (@dm_p exact).
Proof. intros x Hx. unfold dm_p in Hx. cbv [pb_pv map] in Hx. repeat (apply elem_of_cons in Hx as [->|Hx]; [vm_compute; reflexivity|]). by apply elem_of_nil in Hx. Qed.
Lemma dm_acyclic : acyclic (net_arcs (@dm_p exact)).
Proof.
  apply (acyclic_rank id). assert (map fst (net_arcs (@dm_p exact)) = [(0, 1); (0, 2); (1, 3); (2, 3)]) as -> by (vm_compute; reflexivity). forall_tac.
Qed.
Lemma dm_brisk S v : 0 ≤ v < 4 → brisk (@dm_p exact) Injection S v.
Proof.
  intros Hv u Hl _. assert (0 ≤ u < 4) as Hu.
  { apply rtc_inv in Hl as [->|(x & Hf & _)]; [done|]. unfold flows in Hf. cbn [flow] in Hf.
    assert (map fst (net_arcs (@dm_p exact)) = [(0, 1); (0, 2); (1, 3); (2, 3)]) as E by (vm_compute; reflexivity). rewrite E in Hf.
    repeat (apply elem_of_cons in Hf as [[= -> ->]|Hf]; [lia|]). by apply elem_of_nil in Hf. }
  assert (u = 0 ∨ u = 1 ∨ u = 2 ∨ u = 3) as [->|[->|[->| ->]]] by lia; vm_compute; reflexivity.
Qed.
Definition dm_run d sets := @diagnose exact d ex_ev (graph_for (@dm_p exact)) dm_p (values_for dm_p 1) sets.
(** Five journeys to cell 3.  From I1 one has the chance 1/8 and takes 3, another
    3/8 and 4: together 1/2, on average 15/4.  From both wells the mean is 19/8. *)
Example C79_ex_list : journeys (@dm_p exact) Injection 3 = [[3]; [3; 1]; [3; 2]; [3; 1; 0]; [3; 2; 0]].
Proof. vm_compute. reflexivity. Qed.
Example C79_ex_chance :
  map (λ l, bool_decide (neqb (chance (@dm_p exact) Injection (rate_of dm_p Injection "I1"%string) l)
    (frac (match l with [3; 1; 0] => 1 | [3; 2; 0] => 3 | _ => 0 end) 8) = true)) (journeys (@dm_p exact) Injection 3) = [true; true; true; true; true] ∧
  neqb (duration (@dm_p exact) Injection [3; 1; 0]) (nofZ 3) && neqb (duration (@dm_p exact) Injection [3; 2; 0]) (nofZ 4) = true.
Proof. split; vm_compute; reflexivity. Qed.
Example C79_ex : solves (dm_run Injection [cs_new "I1"%string]) (λ sol,
  neqb (value_at (sol_concentration sol "I1"%string) 3) (frac 1 2) && neqb (value_at (sol_tof sol "I1"%string) 3) (frac 15 4) &&
  match sol_global_tof sol !! 3%nat with Some t => neqb t (frac 19 8) | None => false end) = true.
Proof. vm_compute. reflexivity. Qed.
Lemma dm_chance : nltb n0 (chances (@dm_p exact) Injection (cell_total Injection (pb_rates (@dm_p exact))) (journeys (@dm_p exact) Injection 3)) = true.
Proof. vm_compute. reflexivity. Qed.
Lemma in_dm : 0 ≤ 3 < 4. Proof. split; [done|reflexivity]. Qed.
Example C79_ex_meets : ∃ sol, dm_run Injection [cs_new "I1"%string] = Ok (OSol sol) ∧
  value_at (sol_concentration sol "I1"%string) 3 =
    chances (@dm_p exact) Injection (rate_of (@dm_p exact) Injection "I1"%string) (journeys (@dm_p exact) Injection 3) ∧
  sol_global_tof sol !! 3%nat = (Some (nmin
    (ndiv (durations (@dm_p exact) Injection (cell_total Injection (pb_rates (@dm_p exact))) (journeys (@dm_p exact) Injection 3))
      (chances (@dm_p exact) Injection (cell_total Injection (pb_rates (@dm_p exact))) (journeys (@dm_p exact) Injection 3))) cutoff)).
Proof.
  pose proof C79_ex as (sol & H & _)%solves_inv. exists sol. split; [exact H|]. split.
  - exact (C79_concentration dm_p _ _ Injection ex_ev [cs_new "I1"%string] sol "I1"%string 3 dm_valid dm_poses dm_finite dm_pores dm_acyclic H
      (λ _, elem_of_list_here _ _) in_dm).
  - exact (C79_global_mean dm_p _ _ Injection ex_ev [cs_new "I1"%string] sol 3 dm_valid dm_poses dm_finite dm_pores dm_acyclic H in_dm
      (dm_brisk _ 3 in_dm) dm_chance).
Qed.
(** On the cycle of [mx_p], I1's 3/4 of cell 2 is approached from below. *)
Example C79_ex_below : ∃ sol K, @mx_run exact Injection mx_sets = Ok (OSol sol) ∧
  nleb (value_at (sol_concentration sol "I1"%string) 2) (chances (@mx_p exact) Injection (rate_of (@mx_p exact) Injection "I1"%string) (arrivals_upto 5 (flow Injection (@mx_p exact)) K 2)) = true.
Proof.
  destruct mx_inject as [sol H]. exists sol.
  destruct (C79_below mx_p _ _ Injection _ _ sol "I1"%string mx_valid mx_poses mx_finite mx_pores H) as [K HK].
  exists K. split; [exact H|]. exact (proj1 (HK 2)).
Qed.
Example C79_ex_steps : forallb (λ k, nltb (chances (@mx_p exact) Injection (rate_of (@mx_p exact) Injection "I1"%string) (arrivals_upto 5 (flow Injection (@mx_p exact)) k 2)) (frac 3 4))
  (seq 0 10) = true ∧
  nltb (frac 74 100) (chances (@mx_p exact) Injection (rate_of (@mx_p exact) Injection "I1"%string) (arrivals_upto 5 (flow Injection (@mx_p exact)) 10 2)) = true.
Proof. split; vm_compute; reflexivity. Qed.

Print Assumptions C79_journeys.
Print Assumptions C79_concentration.
Print Assumptions C79_time_of_flight.
Print Assumptions C79_global.
Print Assumptions C79_below.
