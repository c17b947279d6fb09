(** Property C65: larger pore volumes do not shorten times-of-flight, as long as
    no cell passes the cut-off of 200 years; otherwise they may. Toolbox.cpp and
    TracerTofSolver.cpp. *)
From Coq Require Import String QArith Qcanon.
From Verif.Model Require Import Base Num OMap Containers Solution AssembledConnections Tarjan TracerTofSolver Toolbox.
From Verif.Spec Require Import ToolboxSpec MonotoneSpec.
From Verif.Proofs Require Import OMapFacts ExactNum OrdLaws B64Laws OppLaws TofLaws ToolboxThms ToolboxExact Monotone.
From Verif.Props Require Import Toolbox.
Open Scope Z_scope.

Definition at_most {N : Num} (t t' : option num) : Prop :=
  match t, t' with Some x, Some y => nleb x y = true | None, None => True | _, _ => False end.

Theorem C65_tof_grows (p p' : @problem exact) g f g' f' d ev ev' sets sets' sol sol' : grown p p' →
  valid p → poses p g f → data finite p → pores_ok p → valid p' → poses p' g' f' → acyclic (net_arcs p) →
  (∀ v, 0 ≤ v < pb_cells p → slow_cell d p v = slow_cell d p' v) →
  diagnose d ev g p f sets = Ok (OSol sol) → diagnose d ev' g' p' f' sets' = Ok (OSol sol') →
  Forall2 (λ t t', nleb t t' = true) (sol_global_tof sol) (sol_global_tof sol') ∧
  ∀ id, id ∈ map cs_id sets → id ∈ map cs_id sets' → ∀ v,
    om_find v (sol_concentration sol' id) = om_find v (sol_concentration sol id) ∧
    at_most (om_find v (sol_tof sol id)) (om_find v (sol_tof sol' id)).
Proof.
  intros HG Hp HP HD HV Hp' HP' Hac Hs H H'. pose proof (exact_no_overflow p Hp HD HV d) as Hno.
  assert (data (o_ok exact exact_laws) p) as HD1 by by split. assert (data (o_ok exact exact_laws) p') as HD2 by by split. split.
  - exact (grown_global exact_laws exact_opp_laws exact_tof_laws p p' HG Hp HD1 HV Hp' HD2 g g' f f' HP HP' d ev ev' sets sets' sol sol' Hac Hno Hs H H').
  - intros id Hid Hid'. exact (grown_tof exact_laws exact_opp_laws exact_tof_laws p p' HG Hp HD1 HV Hp' HD2 g g' f f' HP HP' d ev ev' sets sets' sol sol' id Hac Hno Hs H H' Hid Hid').
Qed.

Theorem C65_tof_grows_b64 (p p' : @problem b64) g f g' f' d ev ev' sets sets' sol sol' : grown p p' →
  valid p → poses p g f → @data b64 b64_ok p → pores_ok p → valid p' → poses p' g' f' → @data b64 b64_ok p' →
  acyclic (net_arcs p) → no_overflow d p →
  (∀ v, 0 ≤ v < pb_cells p → slow_cell d p v = slow_cell d p' v) →
  diagnose d ev g p f sets = Ok (OSol sol) → diagnose d ev' g' p' f' sets' = Ok (OSol sol') →
  Forall2 (λ t t', nleb t t' = true) (sol_global_tof sol) (sol_global_tof sol') ∧
  ∀ id, id ∈ map cs_id sets → id ∈ map cs_id sets' → ∀ v,
    om_find v (sol_concentration sol' id) = om_find v (sol_concentration sol id) ∧
    at_most (om_find v (sol_tof sol id)) (om_find v (sol_tof sol' id)).
Proof.
  intros HG Hp HP HD HV Hp' HP' HD' Hac Hno Hs H H'. split.
  - exact (grown_global b64_laws b64_opp_laws b64_tof_laws p p' HG Hp HD HV Hp' HD' g g' f f' HP HP' d ev ev' sets sets' sol sol' Hac Hno Hs H H').
  - intros id Hid Hid'. exact (grown_tof b64_laws b64_opp_laws b64_tof_laws p p' HG Hp HD HV Hp' HD' g g' f f' HP HP' d ev ev' sets sets' sol sol' id Hac Hno Hs H H' Hid Hid').
Qed.

(** Without the condition on slow cells this fails: 0 -> 1 -> 2 -> 3 with rate 1
    into cell 0 and rate 3 into cell 2. Cells 0 and 1 need 200 years to fill each,
    so cell 1 passes on a time of 400 years. One unit of volume more in cell 1,
    and it passes on 200 years. *)
Definition M : Z := 200 * 365 * 24 * 60 * 60.
Definition sl_p {N : Num} (V : Z) : problem :=
  mkProblem 4 [(0, 1, [nofZ 1]); (1, 2, [nofZ 1]); (2, 3, [nofZ 4])] (map nofZ [M; V; 1; 1])
    [("I"%string, [(0, nofZ 1); (2, nofZ 3)]); ("P"%string, [(3, nofZ (-4))])].
Definition sl_run {N : Num} V := diagnose Injection ex_ev (graph_for (sl_p V)) (sl_p V) (values_for (sl_p V) 1) [cs_new "I"%string].
Lemma sl_valid {N : Num} V : valid (sl_p V). Proof. valid_tac. Qed.
Lemma sl_poses {N : Num} V : poses (sl_p V) (graph_for (sl_p V)) (values_for (sl_p V) 1).
Proof. apply posed; [apply sl_valid|forall_tac|reflexivity]. Qed.
Lemma sl_int {N : Num} V : data is_int (sl_p V).
Proof. split; intros; cbv [sl_p pb_conns pb_rates pb_pv map fst snd] in *; int_tac. Qed.
Ltac sl_acyclic_tac := apply (acyclic_rank id);
  match goal with |- context [map fst ?A] => assert (map fst A = [(0, 1); (1, 2); (2, 3)]) as -> by (vm_compute; reflexivity) end; forall_tac.
Ltac grown_tac := split; [split; [reflexivity|split; reflexivity]|]; cbn [pb_pv sl_p map];
  repeat (apply Forall2_cons; split); lazymatch goal with |- Forall2 _ _ _ => apply Forall2_nil_2 | _ => vm_compute; reflexivity end.
Lemma pores_by {N : Num} p : forallb (nleb n0) (pb_pv p) = true → pores_ok p.
Proof. intros H x Hx. rewrite forallb_forall in H. apply H. by apply elem_of_list_In. Qed.

Theorem C65_slow_refuted : ∃ (p p' : @problem exact) g f g' f' ev sets sol sol' id, grown p p' ∧
  valid p ∧ poses p g f ∧ data finite p ∧ pores_ok p ∧ valid p' ∧ poses p' g' f' ∧ acyclic (net_arcs p) ∧
  diagnose Injection ev g p f sets = Ok (OSol sol) ∧ diagnose Injection ev g' p' f' sets = Ok (OSol sol') ∧
  id ∈ map cs_id sets ∧ nltb (value_at (sol_tof sol' id) 3) (value_at (sol_tof sol id) 3) = true.
Proof.
  assert (solves (@sl_run exact M) (λ sol, solves (@sl_run exact (M + 1)) (λ sol',
    nltb (value_at (sol_tof sol' "I"%string) 3) (value_at (sol_tof sol "I"%string) 3))) = true) as (sol & H & H')%solves_inv
    by (vm_compute; reflexivity).
  apply solves_inv in H' as (sol' & H' & E).
  exists (sl_p M), (sl_p (M + 1)), (graph_for (@sl_p exact M)), (values_for (sl_p M) 1), (graph_for (@sl_p exact (M + 1))), (values_for (sl_p (M + 1)) 1),
    ex_ev, [cs_new "I"%string], sol, sol', "I"%string.
  split; [grown_tac|]. split; [apply sl_valid|]. split; [apply sl_poses|]. split; [exact (data_impl _ _ _ int_finite (sl_int M))|].
  split; [apply pores_by; vm_compute; reflexivity|]. split; [apply sl_valid|]. split; [apply sl_poses|]. split; [sl_acyclic_tac|].
  split; [exact H|]. split; [exact H'|]. split; [left|exact E].
Qed.
Theorem C65_slow_b64_refuted : ∃ (p p' : @problem b64) g f g' f' ev sets sol sol' id, grown p p' ∧
  valid p ∧ poses p g f ∧ @data b64 b64_ok p ∧ pores_ok p ∧ valid p' ∧ poses p' g' f' ∧ acyclic (net_arcs p) ∧
  diagnose Injection ev g p f sets = Ok (OSol sol) ∧ diagnose Injection ev g' p' f' sets = Ok (OSol sol') ∧
  id ∈ map cs_id sets ∧ nltb (value_at (sol_tof sol' id) 3) (value_at (sol_tof sol id) 3) = true.
Proof.
  assert (solves (@sl_run b64 M) (λ sol, solves (@sl_run b64 (M + 1)) (λ sol',
    nltb (value_at (sol_tof sol' "I"%string) 3) (value_at (sol_tof sol "I"%string) 3))) = true) as (sol & H & H')%solves_inv
    by (vm_compute; reflexivity).
  apply solves_inv in H' as (sol' & H' & E).
  exists (sl_p M), (sl_p (M + 1)), (graph_for (@sl_p b64 M)), (values_for (sl_p M) 1), (graph_for (@sl_p b64 (M + 1))), (values_for (sl_p (M + 1)) 1),
    ex_ev, [cs_new "I"%string], sol, sol', "I"%string.
  split; [grown_tac|]. split; [apply sl_valid|]. split; [apply sl_poses|]. split; [exact (data_impl _ _ _ int_b64 (sl_int M))|].
  split; [apply pores_by; vm_compute; reflexivity|]. split; [apply sl_valid|]. split; [apply sl_poses|]. split; [sl_acyclic_tac|].
  split; [exact H|]. split; [exact H'|]. split; [left|exact E].
Qed.
(** The two times in cell 3: a good 100 and a good 50 years. *)
Example C65_ex_refuted : solves (@sl_run exact M) (λ sol, solves (@sl_run exact (M + 1)) (λ sol',
  holds (sol_tof sol "I"%string) [(0, nofZ M); (1, nofZ M); (2, frac (2 * M + 1) 4); (3, frac (2 * M + 2) 4)] &&
  holds (sol_tof sol' "I"%string) [(0, nofZ M); (1, nofZ M); (2, frac (M + 1) 4); (3, frac (M + 2) 4)])) = true.
Proof. vm_compute. reflexivity. Qed.

(** More pore space in cells 1 and 2 of the first example. *)
Definition gr_p {N : Num} : problem := mkProblem 5 ex_conns (map nofZ [1; 3; 5; 4; 5]) ex_rates.
Lemma gr_valid {N : Num} : valid gr_p. Proof. valid_tac. Qed.
Lemma gr_poses {N : Num} : poses gr_p (graph_for gr_p) (values_for gr_p 2).
Proof. apply posed; [apply gr_valid|forall_tac|reflexivity]. Qed.
Definition gr_run {N : Num} := diagnose Injection ex_ev (graph_for gr_p) gr_p (values_for gr_p 2) ex_sets.
Example C65_ex : ∃ sol sol', ex_run Injection ex_sets = Ok (OSol sol) ∧ @gr_run exact = Ok (OSol sol') ∧
  (∀ v, at_most (om_find v (sol_tof sol "I1"%string)) (om_find v (sol_tof sol' "I1"%string))) ∧
  nltb (value_at (sol_tof sol "I1"%string) 3) (value_at (sol_tof sol' "I1"%string) 3) = true.
Proof.
  assert (solves (@ex_run exact Injection ex_sets) (λ sol, solves (@gr_run exact) (λ sol',
    nltb (value_at (sol_tof sol "I1"%string) 3) (value_at (sol_tof sol' "I1"%string) 3))) = true) as (sol & H & H')%solves_inv
    by (vm_compute; reflexivity).
  apply solves_inv in H' as (sol' & H' & E). exists sol, sol'. split; [exact H|]. split; [exact H'|]. split; [|exact E].
  destruct (C65_tof_grows ex_p gr_p (graph_for (@ex_p exact)) (values_for ex_p 2) (graph_for (@gr_p exact)) (values_for gr_p 2) Injection ex_ev ex_ev ex_sets ex_sets sol sol') as [_ Hc].
  - grown_tac.
  - apply ex_valid.
  - apply ex_poses.
  - exact (data_impl _ _ _ int_finite ex_int).
  - exact ex_pores.
  - apply gr_valid.
  - apply gr_poses.
  - exact ex_acyclic.
  - intros v Hv. cbn in Hv. assert (v = 0 ∨ v = 1 ∨ v = 2 ∨ v = 3 ∨ v = 4) as [->|[->|[->|[->| ->]]]] by lia; vm_compute; reflexivity.
  - exact H.
  - exact H'.
  - intros v. apply (Hc "I1"%string); left.
Qed.

Print Assumptions C65_tof_grows.
Print Assumptions C65_tof_grows_b64.
Print Assumptions C65_slow_refuted.
Print Assumptions C65_slow_b64_refuted.
