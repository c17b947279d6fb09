(** Property C76: volumes of pairs of wells are rates times times-of-flight,
    Toolbox.cpp, TracerTofSolver.cpp and DerivedQuantities.cpp, in exact arithmetic. *)
From Coq Require Import String QArith Qcanon.
From Verif.Model Require Import Base Num OMap Containers Solution AssembledConnections Tarjan TracerTofSolver Toolbox DerivedQuantities.
From Verif.Spec Require Import ToolboxSpec MirrorSpec CyclicSpec.
From Verif.Proofs Require Import OMapFacts ExactNum OrdLaws ExactRun PairTime.
From Verif.Props Require Import Toolbox Duality SameFlow Balance Cyclic.
Open Scope Z_scope.

(** All times-of-flight of well [id] are at most [D]. *)
Definition times_within (sol : @solution exact) (id : cellset_id) (D : Qc) : Prop :=
  ∀ v t, om_find v (sol_tof sol id) = Some t → nleb t (Fin D : @num exact) = true.
(** [D] is a time below the cut-off. *)
Definition below_cutoff (D : Qc) : Prop :=
  nleb n0 (Fin D : @num exact) = true ∧ nltb (Fin D : @num exact) cutoff = true.
(** Concentration times time-of-flight. *)
Definition aged (sol : @solution exact) (id : cellset_id) (v : Z) : @num exact :=
  nmul (value_at (sol_concentration sol id) v) (value_at (sol_tof sol id) v).
(** What the iteration may leave out on a cycle: the sum of all fluxes times
    the cut-off/1e12 plus [D]/1e9. *)
Definition time_slack (p : @problem exact) (D : Qc) : @num exact :=
  nmul (nadd (ndiv cutoff (nofZ 1000000000000)) (ndiv (Fin D : @num exact) (nofZ 1000000000)))
    (sum_left (map (influx (pb_cells p) (net_arcs p)) (seqZ 0 (pb_cells p)))).

Lemma below_q D : below_cutoff D → (0 <= D)%Qc ∧ (D < gs_M)%Qc.
Proof.
  intros [H1 H2]. rewrite exact_n0 in H1. apply xleb_Fin in H1. split; [done|]. apply (xltb_Fin D gs_M).
  destruct gs_consts as (_ & _ & E & _). rewrite <-E. exact H2.
Qed.

(** ** Without cycles *)
(** The volume shared by two wells is the sum, over the cells of one of them, of
    its rate times concentration and time-of-flight of the other one there. *)
Theorem C76_pair_volume (p : @problem exact) g f d ev ev' sets sets' sol sol' i j D : valid p → poses p g f → data finite p → pores_ok p →
  acyclic (net_arcs p) → conserves p →
  diagnose d ev g p f sets = Ok (OSol sol) → diagnose (opposite d) ev' g p f sets' = Ok (OSol sol') →
  below_cutoff D → times_within sol i D → (is_well (opposite d) (pb_rates p) j → j ∈ map cs_id sets') →
  let x := sum_left (map (λ v, nmul (joint_rate p (opposite d) [j] v) (aged sol i v)) (seqZ 0 (pb_cells p))) in
  pair_volume sol sol' (pb_pv p) i j = Ok x ∧ pair_volume sol' sol (pb_pv p) j i = Ok x.
Proof.
  intros Hp HP HD HV Hac Hc H H' [D1 D2]%below_q He Hj.
  destruct (pair_volume_near p g f Hp HP HD HV D D1 D2 d ev ev' sets sets' sol sol' i j) as (V & E1 & E2 & _ & _ & E); try done.
  - intros v Hv. apply (Hac v). by apply tc_once.
  - cbn zeta. rewrite <-(E Hac) in E1, E2. split; [exact E1|exact E2].
Qed.

(** It can be found from the times of either well. *)
Theorem C76_either (p : @problem exact) g f ev ev' sets sets' sol sol' i j D : valid p → poses p g f → data finite p → pores_ok p →
  acyclic (net_arcs p) → conserves p →
  diagnose Injection ev g p f sets = Ok (OSol sol) → diagnose Production ev' g p f sets' = Ok (OSol sol') →
  below_cutoff D → times_within sol i D → times_within sol' j D →
  (is_well Injection (pb_rates p) i → i ∈ map cs_id sets) → (is_well Production (pb_rates p) j → j ∈ map cs_id sets') →
  let all := seqZ 0 (pb_cells p) in
  sum_left (map (λ v, nmul (joint_rate p Production [j] v) (aged sol i v)) all) =
  sum_left (map (λ v, nmul (joint_rate p Injection [i] v) (aged sol' j v)) all).
Proof.
  intros Hp HP HD HV Hac Hc H H' HB Hi Hj Ri Rj.
  destruct (C76_pair_volume p g f Injection ev ev' sets sets' sol sol' i j D Hp HP HD HV Hac Hc H H' HB Hi Rj) as [E1 _].
  destruct (C76_pair_volume p g f Production ev' ev sets' sets sol' sol j i D Hp HP HD HV Hac Hc H' H HB Hj Ri) as [_ E2].
  cbn zeta in *. rewrite E2 in E1. injection E1 as E1. symmetry. exact E1.
Qed.

(** ** With cycles *)
(** Both agree up to what the iteration leaves out. *)
Theorem C76_pair_near (p : @problem exact) g f d ev ev' sets sets' sol sol' i j D : valid p → poses p g f → data finite p → pores_ok p →
  (∀ v, ¬ flows (net_arcs p) v v) → conserves p →
  diagnose d ev g p f sets = Ok (OSol sol) → diagnose (opposite d) ev' g p f sets' = Ok (OSol sol') →
  below_cutoff D → times_within sol i D → (is_well (opposite d) (pb_rates p) j → j ∈ map cs_id sets') →
  let x := sum_left (map (λ v, nmul (joint_rate p (opposite d) [j] v) (aged sol i v)) (seqZ 0 (pb_cells p))) in
  ∃ V, pair_volume sol sol' (pb_pv p) i j = Ok V ∧ pair_volume sol' sol (pb_pv p) j i = Ok V ∧
    nleb x (nadd V (time_slack p D)) = true ∧ nleb V (nadd x (time_slack p D)) = true.
Proof.
  intros Hp HP HD HV Hs Hc H H' [D1 D2]%below_q He Hj.
  destruct (pair_volume_near p g f Hp HP HD HV D D1 D2 d ev ev' sets sets' sol sol' i j) as (V & E1 & E2 & E3 & E4 & _); try done.
  exists V. split_and!; [exact E1|exact E2|exact E3|exact E4].
Qed.

(** So do the volume swept by a well and the times at which its fluid leaves, and
    the latter is never larger. *)
Theorem C76_swept_near (p : @problem exact) g f d ev sets sol id D : valid p → poses p g f → data finite p → pores_ok p →
  (∀ v, ¬ flows (net_arcs p) v v) → conserves p → diagnose d ev g p f sets = Ok (OSol sol) →
  below_cutoff D → times_within sol id D →
  let all := seqZ 0 (pb_cells p) in
  let out := sum_left (map (λ v, nmul (cell_total (opposite d) (pb_rates p) v) (aged sol id v)) all) in
  let vol := sum_left (map (λ v, nmul (pore p v) (value_at (sol_concentration sol id) v)) all) in
  nleb out vol = true ∧ nleb vol (nadd out (time_slack p D)) = true.
Proof.
  intros Hp HP HD HV Hs Hc H [D1 D2]%below_q He.
  exact (swept_near p g f Hp HP HD HV D D1 D2 d ev sets sol id Hs Hc H He).
Qed.

(** ** Examples *)
(** I1 in cell 0 and I2 in cell 1 feed cell 2; P1 takes half of it, P2 the rest
    from cell 3. *)
Definition pr_conns {N : Num} : list (Z * Z * list num) := [(0, 2, [nofZ 3]); (1, 2, [nofZ 1]); (2, 3, [nofZ 2])].
Definition pr_rates {N : Num} : flux_map :=
  [("I1"%string, [(0, nofZ 3)]); ("I2"%string, [(1, nofZ 1)]); ("P1"%string, [(2, nofZ (-2))]); ("P2"%string, [(3, nofZ (-2))])].
Definition pr_p {N : Num} : problem := mkProblem 4 pr_conns (map nofZ [1; 2; 3; 4]) pr_rates.
Lemma pr_valid {N : Num} : valid pr_p. Proof. valid_tac. Qed.
Lemma pr_poses {N : Num} : poses pr_p (graph_for pr_p) (values_for pr_p 1).
Proof. apply posed; [apply pr_valid|forall_tac|reflexivity]. Qed.
Lemma pr_finite : data finite (@pr_p exact).
Proof. apply (data_impl is_int); [apply int_finite|]. split; intros; unfold pr_p, pr_conns, pr_rates in *; int_tac. Qed.
Lemma pr_pores : pores_ok (@pr_p exact).
Proof. intros x Hx. unfold pr_p in Hx. cbv [pb_pv map] in Hx. repeat (apply elem_of_cons in Hx as [->|Hx]; [vm_compute; reflexivity|]). by apply elem_of_nil in Hx. Qed.
Lemma pr_arcs : map fst (net_arcs (@pr_p exact)) = [(0, 2); (1, 2); (2, 3)].
Proof. vm_compute. reflexivity. Qed.
Lemma pr_acyclic : acyclic (net_arcs (@pr_p exact)).
Proof.
  assert (∀ u v, flows (net_arcs (@pr_p exact)) u v → u < v) as H1.
  { intros u v. unfold flows. rewrite pr_arcs. intros H. repeat (apply elem_of_cons in H as [[= -> ->]|H]; [lia|]). by apply elem_of_nil in H. }
  assert (∀ u v, tc (flows (net_arcs (@pr_p exact))) u v → u < v) as H2.
  { induction 1 as [u v H|u w v H _ IH]; [by apply H1|]. apply H1 in H. lia. }
  intros v H. apply H2 in H. lia.
Qed.
Lemma pr_conserves : conserves (@pr_p exact).
Proof.
  intros v Hv. cbn in Hv. assert (v = 0 ∨ v = 1 ∨ v = 2 ∨ v = 3) as [->|[->|[->| ->]]] by lia; apply xeqb_eq; vm_compute; reflexivity.
Qed.
Definition pr_run {N : Num} d sets := diagnose d ex_ev (graph_for pr_p) pr_p (values_for pr_p 1) sets.
Definition pr_inj := [cs_new "I1"%string; cs_new "I2"%string].
Definition pr_prod := [cs_new "P1"%string; cs_new "P2"%string].
Definition ten : Qc := Q2Qc (10 # 1).
Lemma ten_below : below_cutoff ten. Proof. split; vm_compute; reflexivity. Qed.
Definition all_within (m : @cellset_values exact) (D : Qc) : bool := forallb (λ kv, nleb kv.2 (Fin D : @num exact)) m.
Lemma all_within_inv (sol : @solution exact) id D : om_wf (sol_tof sol id) → all_within (sol_tof sol id) D = true → times_within sol id D.
Proof.
  intros Hm H v t E. apply om_find_elem in E; [|done]. unfold all_within in H. rewrite forallb_forall in H. exact (H _ (proj1 (elem_of_list_In _ _) E)).
Qed.
Lemma pr_early : solves (@pr_run exact Injection pr_inj) (λ sol, all_within (sol_tof sol "I1"%string) ten &&
  neqb (value_at (sol_tof sol "I1"%string) 3) (frac 37 12)) = true.
Proof. vm_compute. reflexivity. Qed.
Lemma pr_produced : solves (@pr_run exact Production pr_prod) (λ sol, all_within (sol_tof sol "P2"%string) ten) = true.
Proof. vm_compute. reflexivity. Qed.
(** The time from I1 to P2 is 37/12, so that the wells share a volume of
    2 * 3/4 * 37/12 = 37/8, in cells 0, 2 and 3. *)
Example C76_ex : ∃ sol sol', @pr_run exact Injection pr_inj = Ok (OSol sol) ∧ @pr_run exact Production pr_prod = Ok (OSol sol') ∧
  pair_volume sol sol' (pb_pv (@pr_p exact)) "I1"%string "P2"%string =
    Ok (sum_left (map (λ v, nmul (joint_rate (@pr_p exact) Production ["P2"%string] v) (aged sol "I1"%string v)) (seqZ 0 4))) ∧
  sum_left (map (λ v, nmul (joint_rate (@pr_p exact) Production ["P2"%string] v) (aged sol "I1"%string v)) (seqZ 0 4)) =
  sum_left (map (λ v, nmul (joint_rate (@pr_p exact) Injection ["I1"%string] v) (aged sol' "P2"%string v)) (seqZ 0 4)).
Proof.
  destruct (solves_inv _ _ pr_early) as (sol & H & [W _]%andb_true_iff). destruct (solves_inv _ _ pr_produced) as (sol' & H' & W').
  assert (times_within sol "I1"%string ten) as T.
  { apply all_within_inv; [|exact W]. apply (diagnose_wf _ _ _ pr_valid pr_poses _ _ _ _ _ H). }
  assert (times_within sol' "P2"%string ten) as T'.
  { apply all_within_inv; [|exact W']. apply (diagnose_wf _ _ _ pr_valid pr_poses _ _ _ _ _ H'). }
  exists sol, sol'. split; [exact H|]. split; [exact H'|].
  assert ("I1"%string ∈ map cs_id pr_inj) as Ri by left. assert ("P2"%string ∈ map cs_id pr_prod) as Rj by (right; left).
  split.
  - exact (proj1 (C76_pair_volume pr_p _ _ Injection _ _ _ _ _ _ _ _ ten pr_valid pr_poses pr_finite pr_pores pr_acyclic pr_conserves H H' ten_below T (λ _, Rj))).
  - exact (C76_either pr_p _ _ _ _ _ _ _ _ _ _ ten pr_valid pr_poses pr_finite pr_pores pr_acyclic pr_conserves H H' ten_below T T' (λ _, Ri) (λ _, Rj)).
Qed.
Example C76_value : match @pr_run exact Injection pr_inj, @pr_run exact Production pr_prod with
  | Ok (OSol sol), Ok (OSol sol') => match pair_volume sol sol' (pb_pv (@pr_p exact)) "I1"%string "P2"%string with
    | Ok V => neqb V (frac 37 8) | _ => false end
  | _, _ => false end = true.
Proof. vm_compute. reflexivity. Qed.

(** On the cycle of [mx_p] the slack is less than 0.045 and the volumes about 7. *)
Lemma mx_early : solves (@mx_run exact Injection mx_sets) (λ sol, all_within (sol_tof sol "I1"%string) ten &&
  nltb (nofZ 5) (sum_left (map (λ v, nmul (pore (@mx_p exact) v) (value_at (sol_concentration sol "I1"%string) v)) (seqZ 0 5)))) = true.
Proof. vm_compute. reflexivity. Qed.
Example C76_slack : nltb (time_slack (@mx_p exact) ten) (frac 45 1000) = true.
Proof. vm_compute. reflexivity. Qed.
Example C76_cycle_ex : ∃ sol sol', @mx_run exact Injection mx_sets = Ok (OSol sol) ∧ @mx_run exact Production [cs_new "P"%string] = Ok (OSol sol') ∧
  let x := sum_left (map (λ v, nmul (joint_rate (@mx_p exact) Production ["P"%string] v) (aged sol "I1"%string v)) (seqZ 0 5)) in
  let vol := sum_left (map (λ v, nmul (pore (@mx_p exact) v) (value_at (sol_concentration sol "I1"%string) v)) (seqZ 0 5)) in
  let out := sum_left (map (λ v, nmul (cell_total Production (@mx_rates exact) v) (aged sol "I1"%string v)) (seqZ 0 5)) in
  (∃ V, pair_volume sol sol' (pb_pv (@mx_p exact)) "I1"%string "P"%string = Ok V ∧
    nleb x (nadd V (time_slack mx_p ten)) = true ∧ nleb V (nadd x (time_slack mx_p ten)) = true) ∧
  nleb out vol = true ∧ nleb vol (nadd out (time_slack mx_p ten)) = true.
Proof.
  destruct (solves_inv _ _ mx_early) as (sol & H & [W _]%andb_true_iff). destruct mx_produce as [sol' H'].
  assert (times_within sol "I1"%string ten) as T.
  { apply all_within_inv; [|exact W]. apply (diagnose_wf _ _ _ mx_valid mx_poses _ _ _ _ _ H). }
  exists sol, sol'. split; [exact H|]. split; [exact H'|]. split.
  - destruct (C76_pair_near mx_p _ _ Injection _ _ _ _ _ _ "I1"%string "P"%string ten mx_valid mx_poses mx_finite mx_pores mx_no_self mx_conserves H H' ten_below T (mx_wells Production _)) as (V & E1 & _ & E3 & E4).
    exists V. split; [exact E1|]. split; [exact E3|exact E4].
  - exact (C76_swept_near mx_p _ _ Injection _ _ _ _ ten mx_valid mx_poses mx_finite mx_pores mx_no_self mx_conserves H ten_below T).
Qed.

Print Assumptions C76_pair_volume.
Print Assumptions C76_either.
Print Assumptions C76_pair_near.
Print Assumptions C76_swept_near.
