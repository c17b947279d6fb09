(** Property C90: what happens when one well gets a higher rate. Toolbox.cpp and
    TracerTofSolver.cpp. *)
From Coq Require Import String QArith Qcanon.
From Verif.Model Require Import Base Num OMap Containers Solution AssembledConnections Tarjan TracerTofSolver Toolbox.
From Verif.Spec Require Import ToolboxSpec MonotoneSpec RaiseSpec.
From Verif.Proofs Require Import OMapFacts ExactNum QcLra OrdLaws ToolboxThms ToolboxExact Raise.
From Verif.Props Require Import Toolbox Monotone.
Open Scope Z_scope.

(** Its concentration does not fall anywhere. *)
Theorem C90_well (p p' : @problem exact) g f g' f' d ev ev' sets sets' sol sol' id : raised d id p p' →
  valid p → poses p g f → data finite p → pores_ok p → valid p' → poses p' g' f' → data finite p' → acyclic (net_arcs p) →
  diagnose d ev g p f sets = Ok (OSol sol) → diagnose d ev' g' p' f' sets' = Ok (OSol sol') →
  id ∈ map cs_id sets → id ∈ map cs_id sets' →
  ∀ v c, om_find v (sol_concentration sol id) = Some c → ∃ c', om_find v (sol_concentration sol' id) = Some c' ∧ nleb c c' = true.
Proof. intros RA Hp HP HD HV Hp' HP' HD' Hac H H' Hid Hid' v c. exact (raised_well p p' d id RA Hp HD HV Hp' HD' g g' f f' HP HP' Hac ev ev' sets sets' sol sol' H H' v c Hid Hid'). Qed.
(** The other wells reach the same cells as before, and their concentrations do
    not rise. *)
Theorem C90_others (p p' : @problem exact) g f g' f' d ev ev' sets sets' sol sol' id : raised d id p p' →
  valid p → poses p g f → data finite p → pores_ok p → valid p' → poses p' g' f' → data finite p' → acyclic (net_arcs p) →
  diagnose d ev g p f sets = Ok (OSol sol) → diagnose d ev' g' p' f' sets' = Ok (OSol sol') →
  ∀ i, i ≠ id → i ∈ map cs_id sets → i ∈ map cs_id sets' → ∀ v,
    option_Forall2 (λ x y, nleb y x = true) (om_find v (sol_concentration sol i)) (om_find v (sol_concentration sol' i)).
Proof. intros RA Hp HP HD HV Hp' HP' HD' Hac H H'. exact (raised_others p p' d id RA Hp HD HV Hp' HD' g g' f f' HP HP' Hac ev ev' sets sets' sol sol' H H'). Qed.
(** The times-of-flight of all wells together do not grow, if nothing flows out of
    cells into which nothing flows and no cell passes the cut-off. *)
Theorem C90_times (p p' : @problem exact) g f g' f' d ev ev' sets sets' sol sol' id : raised d id p p' →
  valid p → poses p g f → data finite p → pores_ok p → valid p' → poses p' g' f' → data finite p' → acyclic (net_arcs p) →
  diagnose d ev g p f sets = Ok (OSol sol) → diagnose d ev' g' p' f' sets' = Ok (OSol sol') →
  (∀ u v, flows (flow d p) u v → nltb n0 (total_in p d u) = true) →
  (∀ v, 0 ≤ v < pb_cells p → slow_cell d p v = slow_cell d p' v) →
  ∀ v, 0 ≤ v < pb_cells p →
    ∃ t t', sol_global_tof sol !! Z.to_nat v = Some t ∧ sol_global_tof sol' !! Z.to_nat v = Some t' ∧ nleb t' t = true.
Proof. intros RA Hp HP HD HV Hp' HP' HD' Hac. exact (raised_global p p' d id RA Hp HD HV Hp' HD' g g' f f' HP HP' Hac ev ev' sets sets' sol sol'). Qed.

(** ** Example *)
(** A well I1 whose flow reaches cell 3 through a small and a large cell, and a well
    I2 with rate [r] in the small one. *)
Definition rz_p {N : Num} (r : Z) : problem := mkProblem 4
  [(0, 1, [nofZ 1]); (0, 2, [nofZ 1]); (1, 3, [nofZ 1]); (2, 3, [nofZ 1])] (map nofZ [1; 1; 100; 1])
  [("I1"%string, [(0, nofZ 2)]); ("I2"%string, [(1, nofZ r)]); ("P"%string, [(3, nofZ (-2))])].
Lemma rz_valid {N : Num} r : valid (rz_p r). Proof. valid_tac. Qed.
Lemma rz_poses {N : Num} r : poses (rz_p r) (graph_for (rz_p r)) (values_for (rz_p r) 1).
Proof. apply posed; [apply rz_valid|forall_tac|reflexivity]. Qed.
Lemma rz_int {N : Num} r : data is_int (rz_p r).
Proof. split; intros; cbv [rz_p pb_conns pb_rates pb_pv map fst snd] in *; int_tac. Qed.
Lemma rz_arcs r : net_arcs (@rz_p exact r) = [(0, 1, nofZ 1); (0, 2, nofZ 1); (1, 3, nofZ 1); (2, 3, nofZ 1)].
Proof. vm_compute. reflexivity. Qed.
Lemma rz_acyclic r : acyclic (net_arcs (@rz_p exact r)).
Proof. apply (acyclic_rank (λ z, z)). rewrite rz_arcs. forall_tac. Qed.
Lemma rz_pores r : pores_ok (@rz_p exact r).
Proof. apply pores_by. vm_compute. reflexivity. Qed.
Lemma rz_raised : raised Injection "I2"%string (@rz_p exact 1) (@rz_p exact 2).
Proof.
  split; try reflexivity.
  - intros i c Hi. unfold well_rate. cbn [rz_p pb_rates om_find]. destruct (kcmp i "I1"%string); [reflexivity|reflexivity|].
    destruct (kcmp i "I2"%string) eqn:E; [|reflexivity|reflexivity]. apply kcmp_eq in E. done.
  - intros c x. unfold well_rate. cbn [rz_p pb_rates om_find]. change (kcmp "I2"%string "I1"%string) with Gt. change (kcmp "I2"%string "I2"%string) with Eq. cbn iota.
    cbn [om_find]. destruct (kcmp c 1); [|discriminate|discriminate]. intros H. exists (nofZ 2). split; [vm_compute; reflexivity|].
    assert (x = nofZ 1) as -> by (injection H as <-; vm_compute; reflexivity). vm_compute. reflexivity.
Qed.
Definition rz_sets : list cellset := [cs_new "I1"%string; cs_new "I2"%string].
Definition rz_run {N : Num} r := diagnose Injection ex_ev (graph_for (@rz_p N r)) (rz_p r) (values_for (rz_p r) 1) rz_sets.
Lemma rz_fed u v : flows (flow Injection (@rz_p exact 1)) u v → nltb n0 (total_in (@rz_p exact 1) Injection u) = true.
Proof.
  unfold flows, flow. rewrite rz_arcs. intros H. do 4 (apply elem_of_cons in H as [H|H]; [injection H as -> ->; vm_compute; reflexivity|]). by apply elem_of_nil in H.
Qed.
Lemma rz_slow v : 0 ≤ v < 4 → slow_cell Injection (@rz_p exact 1) v = slow_cell Injection (@rz_p exact 2) v.
Proof. intros Hv. assert (v = 0 ∨ v = 1 ∨ v = 2 ∨ v = 3) as [->|[->|[->| ->]]] by lia; vm_compute; reflexivity. Qed.
(** In cell 3 the share of I2 goes from 1/4 to 1/3, that of I1 from 3/4 to 2/3. *)
Example C90_runs : solves (@rz_run exact 1) (λ sol, solves (@rz_run exact 2) (λ sol',
  holds (sol_concentration sol "I2"%string) [(1, frac 1 2); (3, frac 1 4)] && holds (sol_concentration sol' "I2"%string) [(1, frac 2 3); (3, frac 1 3)] &&
  holds (sol_concentration sol "I1"%string) [(0, n1); (1, frac 1 2); (2, n1); (3, frac 3 4)] &&
  holds (sol_concentration sol' "I1"%string) [(0, n1); (1, frac 1 3); (2, n1); (3, frac 2 3)])) = true.
Proof. vm_compute. reflexivity. Qed.
Example C90_ex sol sol' : @rz_run exact 1 = Ok (OSol sol) → @rz_run exact 2 = Ok (OSol sol') →
  (∀ v c, om_find v (sol_concentration sol "I2"%string) = Some c → ∃ c', om_find v (sol_concentration sol' "I2"%string) = Some c' ∧ nleb c c' = true) ∧
  (∀ v, option_Forall2 (λ x y, nleb y x = true) (om_find v (sol_concentration sol "I1"%string)) (om_find v (sol_concentration sol' "I1"%string))) ∧
  (∀ v, 0 ≤ v < 4 → ∃ t t', sol_global_tof sol !! Z.to_nat v = Some t ∧ sol_global_tof sol' !! Z.to_nat v = Some t' ∧ nleb t' t = true).
Proof.
  intros H H'. pose proof (data_impl _ _ _ int_finite (rz_int 1)) as HD. pose proof (data_impl _ _ _ int_finite (rz_int 2)) as HD'.
  pose proof (rz_valid (N := exact) 1) as V1. pose proof (rz_valid (N := exact) 2) as V2. split; [|split].
  - exact (C90_well _ _ _ _ _ _ _ _ _ _ _ sol sol' _ rz_raised V1 (rz_poses 1) HD (rz_pores 1) V2 (rz_poses 2) HD' (rz_acyclic 1) H H' ltac:(right; left) ltac:(right; left)).
  - exact (C90_others _ _ _ _ _ _ _ _ _ _ _ sol sol' _ rz_raised V1 (rz_poses 1) HD (rz_pores 1) V2 (rz_poses 2) HD' (rz_acyclic 1) H H' "I1"%string ltac:(done) ltac:(left) ltac:(left)).
  - exact (C90_times _ _ _ _ _ _ _ _ _ _ _ sol sol' _ rz_raised V1 (rz_poses 1) HD (rz_pores 1) V2 (rz_poses 2) HD' (rz_acyclic 1) H H' rz_fed rz_slow).
Qed.

(** The time-of-flight of another well can grow: less of I1's flow comes by the
    short way. *)
Theorem C90_tof_refuted : ∃ (p p' : @problem exact) g f g' f' ev sets sol sol' id i v t t', raised Injection id p p' ∧
  valid p ∧ poses p g f ∧ data finite p ∧ pores_ok p ∧ valid p' ∧ poses p' g' f' ∧ data finite p' ∧ acyclic (net_arcs p) ∧
  diagnose Injection ev g p f sets = Ok (OSol sol) ∧ diagnose Injection ev g' p' f' sets = Ok (OSol sol') ∧
  (∀ u v, flows (flow Injection p) u v → nltb n0 (total_in p Injection u) = true) ∧
  (∀ v, 0 ≤ v < pb_cells p → slow_cell Injection p v = slow_cell Injection p' v) ∧
  i ≠ id ∧ i ∈ map cs_id sets ∧ om_find v (sol_tof sol i) = Some t ∧ om_find v (sol_tof sol' i) = Some t' ∧ nltb t t' = true.
Proof.
  assert (solves (@rz_run exact 1) (λ sol, solves (@rz_run exact 2) (λ sol',
    match om_find 3 (sol_tof sol "I1"%string), om_find 3 (sol_tof sol' "I1"%string) with Some t, Some t' => nltb t t' | _, _ => false end)) = true) as (sol & H & H')%solves_inv
    by (vm_compute; reflexivity).
  apply solves_inv in H' as (sol' & H' & E).
  destruct (om_find 3 (sol_tof sol "I1"%string)) as [t|] eqn:Et; [|discriminate E]. destruct (om_find 3 (sol_tof sol' "I1"%string)) as [t'|] eqn:Et'; [|discriminate E].
  exists (rz_p 1), (rz_p 2), (graph_for (@rz_p exact 1)), (values_for (rz_p 1) 1), (graph_for (@rz_p exact 2)), (values_for (rz_p 2) 1),
    ex_ev, rz_sets, sol, sol', "I2"%string, "I1"%string, 3, t, t'.
  split; [exact rz_raised|]. split; [apply rz_valid|]. split; [apply rz_poses|]. split; [exact (data_impl _ _ _ int_finite (rz_int 1))|]. split; [apply rz_pores|].
  split; [apply rz_valid|]. split; [apply rz_poses|]. split; [exact (data_impl _ _ _ int_finite (rz_int 2))|]. split; [apply rz_acyclic|].
  split; [exact H|]. split; [exact H'|]. split; [exact rz_fed|]. split; [exact rz_slow|]. split; [done|]. split; [left|]. split; [exact Et|]. split; [exact Et'|exact E].
Qed.
(** Both conditions of [C90_times] are needed. Here nothing flows into cell 0, and
    more of I2 gives the flow through the large cell 2 more weight in cell 4. *)
Definition uf_p {N : Num} (r : Z) : problem := mkProblem 5
  [(0, 1, [nofZ 1]); (1, 2, [nofZ 1]); (2, 4, [nofZ 1]); (3, 4, [nofZ 1])] (map nofZ [1; 1; 100; 1; 1])
  [("I1"%string, [(3, nofZ 1)]); ("I2"%string, [(1, nofZ r)])].
(** Here cell 1 passes the cut-off, so that the time-of-flight of cell 0, which does
    not, is added to its own. *)
Definition sl_p {N : Num} (r : Z) : problem := mkProblem 3
  [(0, 1, [nofZ 10]); (1, 2, [nofZ 1])] (map nofZ [11 * 6307200000; 21 * 6307200000; 1])
  [("I1"%string, [(0, nofZ 10)]); ("I2"%string, [(1, nofZ r)]); ("I3"%string, [(2, nofZ 9)])].
Definition later (p p' : @problem exact) (ev : env) (sets : list cellset) (v : Z) : bool :=
  solves (diagnose Injection ev (graph_for p) p (values_for p 1) sets) (λ sol, solves (diagnose Injection ev (graph_for p') p' (values_for p' 1) sets) (λ sol',
    match sol_global_tof sol !! Z.to_nat v, sol_global_tof sol' !! Z.to_nat v with Some t, Some t' => nltb t t' | _, _ => false end)).
Lemma later_inv p p' ev sets v : later p p' ev sets v = true → ∃ sol sol' t t',
  diagnose Injection ev (graph_for p) p (values_for p 1) sets = Ok (OSol sol) ∧ diagnose Injection ev (graph_for p') p' (values_for p' 1) sets = Ok (OSol sol') ∧
  sol_global_tof sol !! Z.to_nat v = Some t ∧ sol_global_tof sol' !! Z.to_nat v = Some t' ∧ nltb t t' = true.
Proof.
  unfold later. intros (sol & H & H')%solves_inv. apply solves_inv in H' as (sol' & H' & E).
  destruct (sol_global_tof sol !! Z.to_nat v) as [t|] eqn:Et; [|discriminate E]. destruct (sol_global_tof sol' !! Z.to_nat v) as [t'|] eqn:Et'; [|discriminate E].
  by exists sol, sol', t, t'.
Qed.
Ltac raised_tac := split; try reflexivity;
  [intros i c Hi; unfold well_rate; cbn [uf_p sl_p pb_rates om_find]; destruct (kcmp i "I1"%string); [reflexivity|reflexivity|];
   destruct (kcmp i "I2"%string) eqn:E; [|reflexivity|reflexivity]; apply kcmp_eq in E; done
  |intros c x; unfold well_rate; cbn [uf_p sl_p pb_rates om_find]; change (kcmp "I2"%string "I1"%string) with Gt; change (kcmp "I2"%string "I2"%string) with Eq; cbn iota;
   cbn [om_find]; destruct (kcmp c 1); [|discriminate|discriminate]; intros H].
Lemma uf_raised : raised Injection "I2"%string (@uf_p exact 1) (@uf_p exact 3).
Proof. raised_tac. exists (nofZ 3). split; [vm_compute; reflexivity|]. assert (x = nofZ 1) as -> by (injection H as <-; vm_compute; reflexivity). vm_compute. reflexivity. Qed.
Lemma sl_raised : raised Injection "I2"%string (@sl_p exact 10) (@sl_p exact 11).
Proof. raised_tac. exists (nofZ 11). split; [vm_compute; reflexivity|]. assert (x = nofZ 10) as -> by (injection H as <-; vm_compute; reflexivity). vm_compute. reflexivity. Qed.
Lemma uf_valid {N : Num} r : valid (uf_p r). Proof. valid_tac. Qed.
Lemma uf_poses {N : Num} r : poses (uf_p r) (graph_for (uf_p r)) (values_for (uf_p r) 1).
Proof. apply posed; [apply uf_valid|forall_tac|reflexivity]. Qed.
Lemma uf_int {N : Num} r : data is_int (uf_p r).
Proof. split; intros; cbv [uf_p pb_conns pb_rates pb_pv map fst snd] in *; int_tac. Qed.
Lemma uf_arcs r : net_arcs (@uf_p exact r) = [(0, 1, nofZ 1); (1, 2, nofZ 1); (2, 4, nofZ 1); (3, 4, nofZ 1)].
Proof. vm_compute. reflexivity. Qed.
Lemma sl_valid {N : Num} r : valid (sl_p r). Proof. valid_tac. Qed.
Lemma sl_poses {N : Num} r : poses (sl_p r) (graph_for (sl_p r)) (values_for (sl_p r) 1).
Proof. apply posed; [apply sl_valid|forall_tac|reflexivity]. Qed.
Lemma sl_int {N : Num} r : data is_int (sl_p r).
Proof. split; intros; cbv [sl_p pb_conns pb_rates pb_pv map fst snd] in *; int_tac. Qed.
Lemma sl_arcs r : net_arcs (@sl_p exact r) = [(0, 1, nofZ 10); (1, 2, nofZ 1)].
Proof. vm_compute. reflexivity. Qed.
Theorem C90_unfed_refuted : ∃ (p p' : @problem exact) g f g' f' ev sets sol sol' id v t t', raised Injection id p p' ∧
  valid p ∧ poses p g f ∧ data finite p ∧ pores_ok p ∧ valid p' ∧ poses p' g' f' ∧ data finite p' ∧ acyclic (net_arcs p) ∧
  diagnose Injection ev g p f sets = Ok (OSol sol) ∧ diagnose Injection ev g' p' f' sets = Ok (OSol sol') ∧
  (∀ v, 0 ≤ v < pb_cells p → slow_cell Injection p v = slow_cell Injection p' v) ∧
  sol_global_tof sol !! Z.to_nat v = Some t ∧ sol_global_tof sol' !! Z.to_nat v = Some t' ∧ nltb t t' = true.
Proof.
  assert (later (uf_p 1) (uf_p 3) ex_ev [] 4 = true) as (sol & sol' & t & t' & H & H' & Et & Et' & E)%later_inv by (vm_compute; reflexivity).
  exists (uf_p 1), (uf_p 3), (graph_for (@uf_p exact 1)), (values_for (uf_p 1) 1), (graph_for (@uf_p exact 3)), (values_for (uf_p 3) 1), ex_ev, [], sol, sol', "I2"%string, 4, t, t'.
  split; [exact uf_raised|]. split; [apply uf_valid|]. split; [apply uf_poses|]. split; [exact (data_impl _ _ _ int_finite (uf_int 1))|].
  split; [apply pores_by; vm_compute; reflexivity|]. split; [apply uf_valid|]. split; [apply uf_poses|]. split; [exact (data_impl _ _ _ int_finite (uf_int 3))|].
  split; [apply (acyclic_rank (λ z, z)); rewrite uf_arcs; forall_tac|]. split; [exact H|]. split; [exact H'|].
  split; [|split; [exact Et|split; [exact Et'|exact E]]].
  intros v Hv. change (pb_cells (@uf_p exact 1)) with 5 in Hv. assert (v = 0 ∨ v = 1 ∨ v = 2 ∨ v = 3 ∨ v = 4) as [->|[->|[->|[->| ->]]]] by lia; vm_compute; reflexivity.
Qed.
Theorem C90_slow_refuted : ∃ (p p' : @problem exact) g f g' f' ev sets sol sol' id v t t', raised Injection id p p' ∧
  valid p ∧ poses p g f ∧ data finite p ∧ pores_ok p ∧ valid p' ∧ poses p' g' f' ∧ data finite p' ∧ acyclic (net_arcs p) ∧
  diagnose Injection ev g p f sets = Ok (OSol sol) ∧ diagnose Injection ev g' p' f' sets = Ok (OSol sol') ∧
  (∀ u v, flows (flow Injection p) u v → nltb n0 (total_in p Injection u) = true) ∧
  sol_global_tof sol !! Z.to_nat v = Some t ∧ sol_global_tof sol' !! Z.to_nat v = Some t' ∧ nltb t t' = true.
Proof.
  assert (later (sl_p 10) (sl_p 11) ex_ev [] 2 = true) as (sol & sol' & t & t' & H & H' & Et & Et' & E)%later_inv by (vm_compute; reflexivity).
  exists (sl_p 10), (sl_p 11), (graph_for (@sl_p exact 10)), (values_for (sl_p 10) 1), (graph_for (@sl_p exact 11)), (values_for (sl_p 11) 1), ex_ev, [], sol, sol', "I2"%string, 2, t, t'.
  split; [exact sl_raised|]. split; [apply sl_valid|]. split; [apply sl_poses|]. split; [exact (data_impl _ _ _ int_finite (sl_int 10))|].
  split; [apply pores_by; vm_compute; reflexivity|]. split; [apply sl_valid|]. split; [apply sl_poses|]. split; [exact (data_impl _ _ _ int_finite (sl_int 11))|].
  split; [apply (acyclic_rank (λ z, z)); rewrite sl_arcs; forall_tac|]. split; [exact H|]. split; [exact H'|].
  split; [|split; [exact Et|split; [exact Et'|exact E]]].
  unfold flows, flow. intros u v. rewrite sl_arcs. intros Hf. do 2 (apply elem_of_cons in Hf as [Hf|Hf]; [injection Hf as -> ->; vm_compute; reflexivity|]). apply elem_of_nil in Hf. destruct Hf.
Qed.
Print Assumptions C90_well.
Print Assumptions C90_others.
Print Assumptions C90_times.
Print Assumptions C90_tof_refuted.
Print Assumptions C90_unfed_refuted.
Print Assumptions C90_slow_refuted.
