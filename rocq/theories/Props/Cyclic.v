(** Properties C70-C71: networks with cycles in exact arithmetic, Toolbox.cpp,
    TracerTofSolver.cpp and DerivedQuantities.cpp. *)
From Coq Require Import String QArith Qcanon.
From Verif.Model Require Import Base Num OMap Containers Solution AssembledConnections Tarjan TracerTofSolver Toolbox DerivedQuantities.
From Verif.Spec Require Import ToolboxSpec MirrorSpec CyclicSpec.
From Verif.Proofs Require Import OMapFacts ExactNum Cyclic.
From Verif.Props Require Import Toolbox Duality SameFlow.
Open Scope Z_scope.

(** ** C70: computed values stay below every solution *)
(** For any wells [W] and any [c] that in every cell takes away at least as much
    as comes in, the concentrations of the wells add up to at most [c], whatever
    cycles there are.  With [y] bounding concentration times time-of-flight in the
    same way, so do the products of both. *)
Theorem C70_bound (p : @problem exact) g f d ev sets sol W (c : Z → Qc) : valid p → poses p g f → data finite p → pores_ok p →
  diagnose d ev g p f sets = Ok (OSol sol) → tracer_bound p d W (λ v, Fin (c v) : @num exact) →
  (∀ v, nleb (sum_left (map (λ id, value_at (sol_concentration sol id) v) W)) (Fin (c v) : @num exact) = true) ∧
  ∀ y : Z → Qc, time_bound p d (λ v, Fin (c v) : @num exact) (λ v, Fin (y v) : @num exact) →
    ∀ v, nleb (sum_left (map (λ id, nmul (value_at (sol_concentration sol id) v) (value_at (sol_tof sol id) v)) W)) (Fin (y v) : @num exact) = true.
Proof. intros Hp HP HD HV. exact (bounded p g f Hp HP HD HV d ev sets sol W c). Qed.

(** The concentrations of all wells add up to at most one. *)
Theorem C70_at_most_one (p : @problem exact) g f d ev sets sol : valid p → poses p g f → data finite p → pores_ok p →
  diagnose d ev g p f sets = Ok (OSol sol) →
  ∀ v, nleb (sum_left (map (λ id, value_at (sol_concentration sol id) v) (map fst (pb_rates p)))) n1 = true.
Proof. intros Hp HP HD HV. exact (at_most_one p g f Hp HP HD HV d ev sets sol). Qed.

(** ** C71: what the iteration leaves out *)
(** A part in 1e9 of the sum of all fluxes. *)
Definition slack (p : @problem exact) : @num exact :=
  nmul (ndiv n1 (nofZ 1000000000)) (sum_left (map (influx (pb_cells p) (net_arcs p)) (seqZ 0 (pb_cells p)))).

(** What the wells of the other kind recover of a well is its rate, up to the slack. *)
Theorem C71_recovered (p : @problem exact) g f d ev sets sol id : valid p → poses p g f → data finite p → pores_ok p →
  (∀ v, ¬ flows (net_arcs p) v v) → conserves p →
  diagnose d ev g p f sets = Ok (OSol sol) → (is_well d (pb_rates p) id → id ∈ map cs_id sets) →
  let all := seqZ 0 (pb_cells p) in
  let rate := sum_left (omap (well_rate d (pb_rates p) id) all) in
  let back := sum_left (map (λ v, nmul (cell_total (opposite d) (pb_rates p) v) (value_at (sol_concentration sol id) v)) all) in
  nleb back rate = true ∧ nleb rate (nadd back (slack p)) = true.
Proof. intros Hp HP HD HV Hs. exact (recovered p g f Hp HP HD HV Hs d ev sets sol id). Qed.

(** Compared with any solution of the equations, the concentration in a cell falls
    short by at most the slack over the rate at which fluid leaves there. *)
Theorem C71_error (p : @problem exact) g f d ev sets sol id (c : Z → Qc) : valid p → poses p g f → data finite p → pores_ok p →
  (∀ v, ¬ flows (net_arcs p) v v) → conserves p →
  diagnose d ev g p f sets = Ok (OSol sol) → (is_well d (pb_rates p) id → id ∈ map cs_id sets) →
  tracer_solution p d [id] (λ v, Fin (c v) : @num exact) → ∀ v, 0 ≤ v < pb_cells p →
  let q := cell_total (opposite d) (pb_rates p) v in let x := value_at (sol_concentration sol id) v in
  nleb x (Fin (c v) : @num exact) = true ∧ nleb (nmul q (nsub (Fin (c v) : @num exact) x)) (slack p) = true.
Proof. intros Hp HP HD HV Hs. exact (producer_error p g f Hp HP HD HV Hs d ev sets sol id c). Qed.

(** The pair fluxes of a well add up to no more than its rate, and to all of it but
    the slack times one more than the number of wells. *)
Theorem C71_pair_rates (p : @problem exact) g f ev ev' sets sets' sol sol' : valid p → poses p g f → data finite p → pores_ok p →
  (∀ v, ¬ flows (net_arcs p) v v) → conserves p →
  diagnose Injection ev g p f sets = Ok (OSol sol) → diagnose Production ev' g p f sets' = Ok (OSol sol') →
  (∀ id, is_well Injection (pb_rates p) id → id ∈ map cs_id sets) → (∀ id, is_well Production (pb_rates p) id → id ∈ map cs_id sets') →
  let wells := map fst (pb_rates p) in let all := seqZ 0 (pb_cells p) in
  ∃ F : cellset_id → cellset_id → @num exact * @num exact,
    (∀ i j, i ∈ wells → j ∈ wells → pair_flux sol sol' i j (pb_rates p) = Ok (F i j)) ∧
    let e := nmul (nofZ (1 + zlen (pb_rates p))) (slack p) in
    (∀ i, i ∈ wells → let x := sum_left (map (λ j, (F i j).1) wells) in let r := sum_left (omap (well_rate Injection (pb_rates p) i) all) in
      nleb x r = true ∧ nleb r (nadd x e) = true) ∧
    (∀ j, j ∈ wells → let x := nopp (sum_left (map (λ i, (F i j).2) wells)) in let r := sum_left (omap (well_rate Production (pb_rates p) j) all) in
      nleb x r = true ∧ nleb r (nadd x e) = true).
Proof. intros Hp HP HD HV Hs. exact (pair_rates_near p g f Hp HP HD HV Hs ev ev' sets sets' sol sol'). Qed.

(** ** Examples *)
(** Five cells, 2 and 3 on a cycle that is fed by one injector in each. *)
Definition mx_conns {N : Num} : list (Z * Z * list num) :=
  [(0, 2, [nofZ 1]); (1, 3, [nofZ 1]); (2, 3, [nofZ 2]); (2, 3, [nofZ (-1)]); (3, 4, [nofZ 2])].
Definition mx_rates {N : Num} : flux_map := [("I1"%string, [(0, nofZ 1)]); ("I2"%string, [(1, nofZ 1)]); ("P"%string, [(4, nofZ (-2))])].
Definition mx_p {N : Num} : problem := mkProblem 5 mx_conns (map nofZ [1; 2; 3; 4; 5]) mx_rates.
Lemma mx_valid {N : Num} : valid mx_p. Proof. valid_tac. Qed.
Lemma mx_poses {N : Num} : poses mx_p (graph_for mx_p) (values_for mx_p 1).
Proof. apply posed; [apply mx_valid|forall_tac|reflexivity]. Qed.
Lemma mx_finite : data finite (@mx_p exact).
Proof. apply (data_impl is_int); [apply int_finite|]. split; intros; unfold mx_p, mx_conns, mx_rates in *; int_tac. Qed.
Lemma mx_pores : pores_ok (@mx_p exact).
Proof. intros x Hx. unfold mx_p in Hx. cbv [pb_pv map] in Hx. repeat (apply elem_of_cons in Hx as [->|Hx]; [vm_compute; reflexivity|]). by apply elem_of_nil in Hx. Qed.
Lemma mx_arcs : map fst (net_arcs (@mx_p exact)) = [(0, 2); (1, 3); (2, 3); (3, 2); (3, 4)].
Proof. vm_compute. reflexivity. Qed.
Lemma mx_no_self v : ¬ flows (net_arcs (@mx_p exact)) v v.
Proof. unfold flows. rewrite mx_arcs. intros H. repeat (apply elem_of_cons in H as [[= H1 H2]|H]; [lia|]). by apply elem_of_nil in H. Qed.
Example mx_cyclic : tc (flows (net_arcs (@mx_p exact))) 2 2.
Proof. apply tc_l with 3; [|apply tc_once]; unfold flows; rewrite mx_arcs; [right; right; left|right; right; right; left]. Qed.
Lemma mx_conserves : conserves (@mx_p exact).
Proof.
  intros v Hv. cbn in Hv. assert (v = 0 ∨ v = 1 ∨ v = 2 ∨ v = 3 ∨ v = 4) as [->|[->|[->|[->| ->]]]] by lia; apply xeqb_eq; vm_compute; reflexivity.
Qed.
Definition mx_run {N : Num} d sets := diagnose d ex_ev (graph_for mx_p) mx_p (values_for mx_p 1) sets.
Definition mx_sets := [cs_new "I1"%string; cs_new "I2"%string].
Lemma mx_wells d id : is_well d (pb_rates (@mx_p exact)) id → id ∈ map cs_id (match d with Injection => mx_sets | Production => [cs_new "P"%string] end).
Proof.
  intros (c & x & H). unfold well_rate in H.
  destruct (om_find id (pb_rates (@mx_p exact))) as [vals|] eqn:E; [|done].
  apply om_find_elem in E; [|repeat constructor].
  repeat (apply elem_of_cons in E as [[= -> ->]|E]; [destruct d; cbn [map cs_id mx_sets cs_new cs_make]; try (by set_solver); exfalso;
    destruct (om_find c _) as [y|] eqn:Ey in H; [|done]; apply om_find_elem in Ey; [|repeat constructor];
    apply elem_of_list_singleton in Ey as [= -> ->]; by vm_compute in H|]). by apply elem_of_nil in E.
Qed.
Lemma mx_solved d sets : solves (@mx_run exact d sets) (λ _, true) = true → ∃ sol, @mx_run exact d sets = Ok (OSol sol).
Proof. intros (sol & H & _)%solves_inv. by exists sol. Qed.

(** Exactly, I1 makes up 1, 0, 3/4, 1/2 and 1/2 of the five cells. *)
Definition mx_c (v : Z) : Qc := match v with 0 => 1 | 2 => Q2Qc (3 # 4) | 3 => Q2Qc (1 # 2) | 4 => Q2Qc (1 # 2) | _ => 0 end%Qc.
Lemma mx_solution : tracer_solution (@mx_p exact) Injection ["I1"%string] (λ v, Fin (mx_c v) : @num exact).
Proof.
  split.
  - intros v. destruct v as [|[[]|[[]|[]|]|]|]; vm_compute; reflexivity.
  - intros v Hv. cbn in Hv. assert (v = 0 ∨ v = 1 ∨ v = 2 ∨ v = 3 ∨ v = 4) as [->|[->|[->|[->| ->]]]] by lia; apply xeqb_eq; vm_compute; reflexivity.
Qed.
(** The computed values are below, in cell 4 by less than 5e-9; the slack is 7e-9
    and the producer's rate 2. *)
Example C70_ex : solves (@mx_run exact Injection mx_sets) (λ sol,
  nltb (value_at (sol_concentration sol "I1"%string) 2) (frac 3 4) && nltb (value_at (sol_concentration sol "I1"%string) 4) (frac 1 2) &&
  nltb (nsub (frac 1 2) (frac 5 1000000000)) (value_at (sol_concentration sol "I1"%string) 4) &&
  nltb (sum_left (map (λ id, value_at (sol_concentration sol id) 3) ["I1"; "I2"; "P"]%string)) n1 &&
  neqb (slack mx_p) (frac 7 1000000000)) = true.
Proof. vm_compute. reflexivity. Qed.
Lemma mx_inject : ∃ sol, @mx_run exact Injection mx_sets = Ok (OSol sol).
Proof. apply mx_solved. vm_compute. reflexivity. Qed.
Lemma mx_produce : ∃ sol, @mx_run exact Production [cs_new "P"%string] = Ok (OSol sol).
Proof. apply mx_solved. vm_compute. reflexivity. Qed.
Example C71_ex : ∃ sol, @mx_run exact Injection mx_sets = Ok (OSol sol) ∧
  nleb (nmul (nofZ 2) (nsub (frac 1 2) (value_at (sol_concentration sol "I1"%string) 4))) (slack mx_p) = true.
Proof.
  destruct mx_inject as [sol H]. exists sol. split; [exact H|].
  pose proof (proj2 (C71_error mx_p _ _ _ _ _ _ "I1"%string mx_c mx_valid mx_poses mx_finite mx_pores mx_no_self mx_conserves H
    (mx_wells Injection _) mx_solution 4 ltac:(split; [done|reflexivity]))) as E. cbn zeta in E.
  assert (cell_total (opposite Injection) (pb_rates (@mx_p exact)) 4 = nofZ 2) as E1 by (apply xeqb_eq; vm_compute; reflexivity). rewrite E1 in E.
  assert ((Fin (mx_c 4) : @num exact) = frac 1 2) as E2 by (apply xeqb_eq; vm_compute; reflexivity). rewrite E2 in E. exact E.
Qed.
(** I1 and the producer exchange at most 1, at least 1 less 28e-9. *)
Example C71_pair_ex : ∃ sol sol', @mx_run exact Injection mx_sets = Ok (OSol sol) ∧ @mx_run exact Production [cs_new "P"%string] = Ok (OSol sol') ∧
  ∃ F : cellset_id → cellset_id → @num exact * @num exact,
    (∀ i j, i ∈ ["I1"; "I2"; "P"]%string → j ∈ ["I1"; "I2"; "P"]%string → pair_flux sol sol' i j mx_rates = Ok (F i j)) ∧
    let x := sum_left (map (λ j, (F "I1"%string j).1) ["I1"; "I2"; "P"]%string) in
    nleb x n1 = true ∧ nleb n1 (nadd x (frac 28 1000000000)) = true.
Proof.
  destruct mx_inject as [sol H].
  destruct mx_produce as [sol' H'].
  exists sol, sol'. split; [exact H|]. split; [exact H'|].
  destruct (C71_pair_rates mx_p _ _ _ _ _ _ _ _ mx_valid mx_poses mx_finite mx_pores mx_no_self mx_conserves H H' (mx_wells Injection) (mx_wells Production)) as (F & H1 & H2 & _).
  exists F. split; [exact H1|]. specialize (H2 "I1"%string ltac:(left)). cbn zeta in H2 |- *.
  assert (sum_left (omap (well_rate Injection (pb_rates (@mx_p exact)) "I1"%string) (seqZ 0 (pb_cells (@mx_p exact)))) = n1) as E1 by (apply xeqb_eq; vm_compute; reflexivity).
  assert (nmul (nofZ (1 + zlen (pb_rates (@mx_p exact)))) (slack mx_p) = frac 28 1000000000) as E2 by (apply xeqb_eq; vm_compute; reflexivity).
  rewrite E1, E2 in H2. exact H2.
Qed.

(** *** Rounding *)
(** In double precision the shares of three injectors can add up to more than one. *)
Definition over_p {N : Num} : problem := mkProblem 2 [(0, 1, [nofZ 28])] [nofZ 1; nofZ 1]
  [("A"%string, [(0, nofZ 9)]); ("B"%string, [(0, nofZ 18)]); ("C"%string, [(0, nofZ 1)]); ("P"%string, [(1, nofZ (-28))])].
Lemma over_valid {N : Num} : valid over_p. Proof. valid_tac. Qed.
Lemma over_poses {N : Num} : poses over_p (graph_for over_p) (values_for over_p 1).
Proof. apply posed; [apply over_valid|forall_tac|reflexivity]. Qed.
Lemma over_int {N : Num} : data is_int over_p.
Proof. split; intros; unfold over_p in *; int_tac. Qed.
Lemma over_pores : pores_ok (@over_p b64).
Proof. intros x Hx. unfold over_p in Hx. cbv [pb_pv] in Hx. repeat (apply elem_of_cons in Hx as [->|Hx]; [vm_compute; reflexivity|]). by apply elem_of_nil in Hx. Qed.
Definition over_sets := [cs_new "A"%string; cs_new "B"%string; cs_new "C"%string].
Definition over_run {N : Num} := diagnose Injection ex_ev (graph_for over_p) over_p (values_for over_p 1) over_sets.
Lemma over_one : solves (@over_run b64)
  (λ sol, nltb n1 (sum_left (map (λ id, value_at (sol_concentration sol id) 0) ["A"; "B"; "C"; "P"]%string))) = true.
Proof. vm_compute. reflexivity. Qed.
Theorem C70_b64_refuted : ∃ (p : @problem b64) g f ev sets sol, valid p ∧ poses p g f ∧ data is_int p ∧ pores_ok p ∧
  diagnose Injection ev g p f sets = Ok (OSol sol) ∧
  nltb n1 (sum_left (map (λ id, value_at (sol_concentration sol id) 0) (map fst (pb_rates p)))) = true.
Proof.
  destruct (solves_inv _ _ over_one) as (sol & H & Hs).
  exists over_p, (graph_for (@over_p b64)), (values_for (@over_p b64) 1), ex_ev, over_sets, sol.
  split; [apply over_valid|]. split; [apply over_poses|]. split; [apply over_int|]. split; [apply over_pores|]. split; [exact H|exact Hs].
Qed.

Print Assumptions C70_bound.
Print Assumptions C70_at_most_one.
Print Assumptions C71_recovered.
Print Assumptions C71_error.
Print Assumptions C71_pair_rates.
Print Assumptions C70_b64_refuted.
