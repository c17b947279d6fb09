(** Properties C55-C57: diagnostics of flows without cycles, Toolbox.cpp and
    TracerTofSolver.cpp. *)
From Coq Require Import String QArith Qcanon.
From Verif.Model Require Import Base Num OMap Containers Solution AssembledConnections Tarjan TracerTofSolver Toolbox.
From Verif.Spec Require Import ToolboxSpec AcyclicSpec.
From Verif.Proofs Require Import OMapFacts ExactNum OrdLaws B64Laws OppLaws Acyclic Renumber.
From Verif.Props Require Import Toolbox SameFlow.
Open Scope Z_scope.

(** ** C55: the upwind equations determine the diagnostics *)
(** Whatever solves the equations of a well, and vanishes where the well does not
    reach, is the diagnostics of that well. *)
Theorem C55_unique_well (p : @problem exact) g f d ev sets sol id c τ : valid p → poses p g f → acyclic (net_arcs p) →
  diagnose d ev g p f sets = Ok (OSol sol) → id ∈ map cs_id sets →
  (∀ v, served p d id v → well_eqs p d id c τ v) → (∀ v, ¬ served p d id v → c v = n0 ∧ τ v = n0) →
  ∀ v, served p d id v → om_find v (sol_concentration sol id) = Some (c v) ∧ om_find v (sol_tof sol id) = Some (nmin (τ v) cutoff).
Proof. intros Hp HP. apply (unique_well exact_laws exact_opp_laws p g f d ev sets sol id c τ Hp HP). by split. Qed.
Theorem C55_unique_well_b64 (p : @problem b64) g f d ev sets sol id c τ : valid p → poses p g f → @data b64 b64_ok p →
  acyclic (net_arcs p) → diagnose d ev g p f sets = Ok (OSol sol) → id ∈ map cs_id sets →
  (∀ v, served p d id v → well_eqs p d id c τ v) → (∀ v, ¬ served p d id v → c v = n0 ∧ τ v = n0) →
  ∀ v, served p d id v → om_find v (sol_concentration sol id) = Some (c v) ∧ om_find v (sol_tof sol id) = Some (nmin (τ v) cutoff).
Proof. exact (unique_well b64_laws b64_opp_laws p g f d ev sets sol id c τ). Qed.
Theorem C55_unique_all (p : @problem exact) g f d ev sets sol c τ : valid p → poses p g f → acyclic (net_arcs p) →
  diagnose d ev g p f sets = Ok (OSol sol) → (∀ v, 0 ≤ v < pb_cells p → all_eqs p d c τ v) →
  ∀ v, 0 ≤ v < pb_cells p → sol_global_tof sol !! Z.to_nat v = Some (nmin (τ v) cutoff).
Proof. intros Hp HP. apply (unique_all exact_laws exact_opp_laws p g f d ev sets sol c τ Hp HP). by split. Qed.
Theorem C55_unique_all_b64 (p : @problem b64) g f d ev sets sol c τ : valid p → poses p g f → @data b64 b64_ok p →
  acyclic (net_arcs p) → diagnose d ev g p f sets = Ok (OSol sol) → (∀ v, 0 ≤ v < pb_cells p → all_eqs p d c τ v) →
  ∀ v, 0 ≤ v < pb_cells p → sol_global_tof sol !! Z.to_nat v = Some (nmin (τ v) cutoff).
Proof. exact (unique_all b64_laws b64_opp_laws p g f d ev sets sol c τ). Qed.

(** ** C56: what happens downstream has no influence *)
Theorem C56_causality (p p' : @problem exact) g f g' f' d ev ev' sets sets' sol sol' U : valid p → poses p g f →
  valid p' → poses p' g' f' → acyclic (net_arcs p) → acyclic (net_arcs p') → agree_on d p p' U →
  diagnose d ev g p f sets = Ok (OSol sol) → diagnose d ev' g' p' f' sets' = Ok (OSol sol') → ∀ v, U v →
  sol_global_tof sol !! Z.to_nat v = sol_global_tof sol' !! Z.to_nat v ∧
  ∀ id, id ∈ map cs_id sets → id ∈ map cs_id sets' →
    om_find v (sol_concentration sol id) = om_find v (sol_concentration sol' id) ∧
    om_find v (sol_tof sol id) = om_find v (sol_tof sol' id).
Proof. intros Hp HP Hp' HP'. apply (causality exact_laws exact_opp_laws p p' g f g' f' d ev ev' sets sets' sol sol' U Hp HP); try done; by split. Qed.
Theorem C56_causality_b64 (p p' : @problem b64) g f g' f' d ev ev' sets sets' sol sol' U : valid p → poses p g f → @data b64 b64_ok p →
  valid p' → poses p' g' f' → @data b64 b64_ok p' → acyclic (net_arcs p) → acyclic (net_arcs p') → agree_on d p p' U →
  diagnose d ev g p f sets = Ok (OSol sol) → diagnose d ev' g' p' f' sets' = Ok (OSol sol') → ∀ v, U v →
  sol_global_tof sol !! Z.to_nat v = sol_global_tof sol' !! Z.to_nat v ∧
  ∀ id, id ∈ map cs_id sets → id ∈ map cs_id sets' →
    om_find v (sol_concentration sol id) = om_find v (sol_concentration sol' id) ∧
    om_find v (sol_tof sol id) = om_find v (sol_tof sol' id).
Proof. exact (causality b64_laws b64_opp_laws p p' g f g' f' d ev ev' sets sets' sol sol' U). Qed.

(** ** C57: the numbering of the cells does not matter *)
Theorem C57_renumbered π (p p' : @problem exact) g f g' f' d ev ev' sets sets' sol sol' : renumbered π p p' →
  valid p → poses p g f → valid p' → poses p' g' f' → acyclic (net_arcs p) →
  diagnose d ev g p f sets = Ok (OSol sol) → diagnose d ev' g' p' f' sets' = Ok (OSol sol') → ∀ v, 0 ≤ v < pb_cells p →
  sol_global_tof sol' !! Z.to_nat (π v) = sol_global_tof sol !! Z.to_nat v ∧
  ∀ id, id ∈ map cs_id sets → id ∈ map cs_id sets' →
    om_find (π v) (sol_concentration sol' id) = om_find v (sol_concentration sol id) ∧
    om_find (π v) (sol_tof sol' id) = om_find v (sol_tof sol id).
Proof. intros HR Hp HP Hp' HP'. by apply (diagnose_renumbered π p p' HR Hp Hp' g f g' f' d ev ev' sets sets' sol sol' HP HP'). Qed.

(** ** Examples *)
Lemma served_in {N : Num} p d id (S : list Z) : (∀ r x, well_rate d (pb_rates p) id r = Some x → r ∈ S) →
  Forall (λ e : Z * Z, e.1 ∈ S → e.2 ∈ S) (map fst (flow d p)) → ∀ v, served p d id v → v ∈ S.
Proof.
  intros Hr HS v (r & [x Hx] & Hl). specialize (Hr r x Hx). clear x Hx.
  induction Hl as [|r w v Hf _ IH]; [done|]. apply IH. exact (proj1 (Forall_forall _ _) HS (r, w) Hf Hr).
Qed.
Ltac dec_tac := refine (bool_decide_unpack _ _); vm_compute; exact I.
Ltac xeq_tac := match goal with |- ?a = ?b => refine (xeqb_eq a b _); vm_compute; reflexivity end.
Lemma rate_cell {N : Num} p d id r x : valid p → well_rate d (pb_rates p) id r = Some x → r ∈ map fst (default [] (om_find id (pb_rates p))).
Proof.
  intros Hp. unfold well_rate. destruct (va_rates _ Hp) as [Hm Hv]. destruct (om_find id (pb_rates p)) as [vals|] eqn:E; [|done].
  apply om_find_elem in E; [|done]. destruct (om_find r vals) as [y|] eqn:E'; [|done]. intros _.
  apply om_find_elem in E'; [|exact (proj1 (Forall_forall _ _) Hv _ E)]. by apply (elem_of_list_fmap_1 fst) in E'.
Qed.
(** Fractions and zero elsewhere. *)
Definition fn {N : Num} (l : list (Z * num)) (v : Z) : num := value_at l v.
Definition c1 : Z → @num exact := fn [(0, n1); (2, frac 2 3); (3, frac 2 3)].
Definition τ1 : Z → @num exact := fn [(0, frac 1 4); (2, frac 3 4); (3, frac 17 12)].
Lemma ex_served_I1 v : served (@ex_p exact) Injection "I1"%string v ↔ v ∈ [0; 2; 3].
Proof.
  assert (map fst (net_arcs (@ex_p exact)) = [(0, 2); (1, 2); (2, 3)]) as E by (vm_compute; reflexivity). split.
  - apply served_in; [|cbn [flow]; rewrite E; dec_tac].
    intros r x Hr. apply (rate_cell ex_p) in Hr; [|apply ex_valid]. vm_compute in Hr. apply elem_of_list_singleton in Hr as ->. left.
  - intros Hv. exists 0. split; [by eexists; vm_compute|].
    assert (flows (net_arcs (@ex_p exact)) 0 2 ∧ flows (net_arcs (@ex_p exact)) 2 3) as [H1 H2] by (unfold flows; rewrite E; split; dec_tac).
    apply elem_of_cons in Hv as [->|[->|[->|Hv%elem_of_nil]%elem_of_cons]%elem_of_cons]; [apply rtc_refl|by apply rtc_once| |done].
    eapply rtc_l; [exact H1|by apply rtc_once].
Qed.
(** C25_ex, from the equations alone. *)
Example C55_ex : ∃ sol, ex_run Injection ex_sets = Ok (OSol sol) ∧
  ∀ v, v ∈ [0; 2; 3] → om_find v (sol_concentration sol "I1"%string) = Some (c1 v) ∧ om_find v (sol_tof sol "I1"%string) = Some (nmin (τ1 v) cutoff).
Proof.
  assert (solves (@ex_run exact Injection ex_sets) (λ _, true) = true) as (sol & H & _)%solves_inv by (vm_compute; reflexivity).
  exists sol. split; [exact H|]. intros v Hv%ex_served_I1. revert v Hv.
  apply (C55_unique_well ex_p (graph_for (@ex_p exact)) (values_for ex_p 2) Injection ex_ev ex_sets sol "I1"%string c1 τ1);
    [apply ex_valid|apply ex_poses|apply ex_acyclic|exact H|left| |].
  - intros v Hv%ex_served_I1. apply elem_of_cons in Hv as [->|[->|[->|Hv%elem_of_nil]%elem_of_cons]%elem_of_cons]; [| | |destruct Hv];
      (unfold well_eqs, all_eqs; split; xeq_tac).
  - intros v Hv. assert (om_find v [(0, @n1 exact); (2, frac 2 3); (3, frac 2 3)] = None ∧ om_find v [(0, @frac exact 1 4); (2, frac 3 4); (3, frac 17 12)] = None) as [E1 E2].
    { rewrite ex_served_I1 in Hv. split; (apply om_find_none; [repeat constructor|exact Hv]). }
    unfold c1, τ1, fn, value_at. rewrite E1, E2. split; reflexivity.
Qed.
Definition call : Z → @num exact := fn [(0, n1); (1, n1); (2, n1); (3, n1)].
Definition τall : Z → @num exact := fn [(0, frac 1 4); (1, n1); (2, n1); (3, frac 5 3); (4, cutoff)].
Lemma five v : 0 ≤ v < 5 → v ∈ [0; 1; 2; 3; 4].
Proof. intros H. apply elem_of_list_In. cbn. lia. Qed.
Ltac five_tac H := apply five, elem_of_cons in H as [->|[->|[->|[->|[->|H%elem_of_nil]%elem_of_cons]%elem_of_cons]%elem_of_cons]%elem_of_cons]; [| | | | |destruct H].
Ltac three_tac H := apply elem_of_cons in H as [->|[->|[->|H%elem_of_nil]%elem_of_cons]%elem_of_cons]; [| | |destruct H].
Example C55_ex_all : ∃ sol, ex_run Injection ex_sets = Ok (OSol sol) ∧
  ∀ v, 0 ≤ v < 5 → sol_global_tof sol !! Z.to_nat v = Some (nmin (τall v) cutoff).
Proof.
  assert (solves (@ex_run exact Injection ex_sets) (λ _, true) = true) as (sol & H & _)%solves_inv by (vm_compute; reflexivity).
  exists sol. split; [exact H|].
  apply (C55_unique_all ex_p (graph_for (@ex_p exact)) (values_for ex_p 2) Injection ex_ev ex_sets sol call τall);
    [apply ex_valid|apply ex_poses|apply ex_acyclic|exact H|].
  intros v Hv. cbn [ex_p pb_cells] in Hv. five_tac Hv; (unfold well_eqs, all_eqs; split; xeq_tac).
Qed.

(** The first example with everything changed downstream of cell 2: more flow to
    cell 3, flow on to cell 4, other volumes, the producer moved. *)
Definition dn_p {N : Num} : problem :=
  mkProblem 5 [(0, 2, [nofZ 3; nofZ 1]); (2, 1, [nofZ (-1); nofZ (-1)]); (2, 3, [nofZ 4; nofZ 5]); (3, 4, [nofZ 5; nofZ 0])]
    (map nofZ [1; 2; 3; 7; 9]) [("I1"%string, [(0, nofZ 4)]); ("I2"%string, [(1, nofZ 2)]); ("P"%string, [(4, nofZ (-5))])].
Lemma dn_valid {N : Num} : valid dn_p. Proof. valid_tac. Qed.
Lemma dn_poses {N : Num} : poses dn_p (graph_for dn_p) (values_for dn_p 2). Proof. posed_tac. Qed.
Lemma dn_acyclic : acyclic (net_arcs (@dn_p exact)).
Proof.
  apply (acyclic_rank id). assert (map fst (net_arcs (@dn_p exact)) = [(0, 2); (1, 2); (2, 3); (3, 4)]) as -> by (vm_compute; reflexivity). forall_tac.
Qed.
(** The first example with the cells numbered backwards. *)
Definition bw_p {N : Num} : problem :=
  mkProblem 5 [(4, 2, [nofZ 3; nofZ 1]); (2, 3, [nofZ (-1); nofZ (-1)]); (2, 1, [nofZ 2; nofZ 4]); (1, 0, [nofZ 1; nofZ (-1)])]
    (map nofZ [5; 4; 3; 2; 1]) [("I1"%string, [(4, nofZ 4)]); ("I2"%string, [(3, nofZ 2)]); ("P"%string, [(1, nofZ (-6))])].
Ltac rate_tac := unfold well_rate; cbn [pb_rates ex_p dn_p bw_p ex_rates om_find];
  repeat match goal with |- context [kcmp ?i (String ?c ?s)] => is_var i; destruct (kcmp i (String c s)) end; vm_compute; reflexivity.
Lemma closed_in {N : Num} A (S : list Z) : Forall (λ e : Z * Z, e.2 ∈ S → e.1 ∈ S) (map fst A) → ∀ u v, flows A u v → v ∈ S → u ∈ S.
Proof. intros H u v Hf. exact (proj1 (Forall_forall _ _) H (u, v) Hf). Qed.
Lemma dn_agrees : agree_on Injection (@ex_p exact) dn_p (λ v, v ∈ [0; 1; 2]).
Proof.
  assert (map fst (net_arcs (@ex_p exact)) = [(0, 2); (1, 2); (2, 3)]) as E1 by (vm_compute; reflexivity).
  assert (map fst (net_arcs (@dn_p exact)) = [(0, 2); (1, 2); (2, 3); (3, 4)]) as E2 by (vm_compute; reflexivity). split.
  - intros v Hv. cbn [pb_cells ex_p dn_p]. three_tac Hv; lia.
  - apply closed_in. cbn [flow]. rewrite E1. dec_tac.
  - apply closed_in. cbn [flow]. rewrite E2. dec_tac.
  - intros u v Hu Hv. cbn [flow]. split; [unfold flows; rewrite E1, E2|].
    + three_tac Hu; three_tac Hv; dec_tac.
    + three_tac Hu; three_tac Hv; xeq_tac.
  - intros v Hv. three_tac Hv; xeq_tac.
  - intros v Hv. three_tac Hv; vm_compute; reflexivity.
  - intros id v Hv. three_tac Hv; rate_tac.
Qed.
Lemma two_in : 2 ∈ [0; 1; 2]. Proof. dec_tac. Qed.
Example C56_ex : ∃ sol sol', ex_run Injection ex_sets = Ok (OSol sol) ∧ p_run (@dn_p exact) Injection ex_sets = Ok (OSol sol') ∧
  om_find 2 (sol_tof sol "I1"%string) = om_find 2 (sol_tof sol' "I1"%string) ∧ is_Some (om_find 2 (sol_tof sol "I1"%string)) ∧
  is_Some (om_find 4 (sol_tof sol' "I1"%string)) ∧ om_find 4 (sol_tof sol "I1"%string) = None.
Proof.
  assert (solves (@ex_run exact Injection ex_sets) (λ sol, solves (p_run (@dn_p exact) Injection ex_sets) (λ sol',
    bool_decide (map fst (sol_tof sol "I1"%string) = [0; 2; 3]) && match om_find 2 (sol_tof sol "I1"%string), om_find 4 (sol_tof sol' "I1"%string), om_find 4 (sol_tof sol "I1"%string) with
    | Some _, Some _, None => true | _, _, _ => false end)) = true) as (sol & H & H')%solves_inv by (vm_compute; reflexivity).
  apply solves_inv in H' as (sol' & H' & E). exists sol, sol'. split; [exact H|]. split; [exact H'|].
  destruct (C56_causality ex_p dn_p _ _ _ _ Injection ex_ev ex_ev ex_sets ex_sets sol sol' (λ v, v ∈ [0; 1; 2]) ex_valid ex_poses
    dn_valid dn_poses ex_acyclic dn_acyclic dn_agrees H H' 2 two_in) as [_ Hc].
  split; [apply Hc; left|]. apply andb_prop in E as [_ E]. clear H H' Hc.
  destruct (om_find 2 _), (om_find 4 (sol_tof sol' _)), (om_find 4 (sol_tof sol _)); try done; eauto.
Qed.

Lemma bw_valid {N : Num} : valid bw_p. Proof. valid_tac. Qed.
Lemma bw_poses {N : Num} : poses bw_p (graph_for bw_p) (values_for bw_p 2). Proof. posed_tac. Qed.
Lemma bw_renumbered : renumbered (λ v, 4 - v) (@ex_p exact) bw_p.
Proof.
  split; cbn [ex_p pb_cells bw_p].
  - reflexivity.
  - intros; lia.
  - intros; lia.
  - reflexivity.
  - intros v Hv. five_tac Hv; xeq_tac.
  - reflexivity.
  - intros d id v Hv. destruct d; five_tac Hv; rate_tac.
Qed.
Definition bw_sets := [cs_make "I1"%string [4]; cs_new "I2"%string].
Example C57_ex : ∃ sol sol', ex_run Injection ex_sets = Ok (OSol sol) ∧ p_run (@bw_p exact) Injection bw_sets = Ok (OSol sol') ∧
  ∀ v, 0 ≤ v < 5 → om_find (4 - v) (sol_tof sol' "I1"%string) = om_find v (sol_tof sol "I1"%string).
Proof.
  assert (solves (@ex_run exact Injection ex_sets) (λ _, solves (p_run (@bw_p exact) Injection bw_sets) (λ _, true)) = true) as (sol & H & H')%solves_inv
    by (vm_compute; reflexivity).
  apply solves_inv in H' as (sol' & H' & _). exists sol, sol'. split; [exact H|]. split; [exact H'|]. intros v Hv.
  destruct (C57_renumbered (λ v, 4 - v) ex_p bw_p _ _ _ _ Injection ex_ev ex_ev ex_sets bw_sets sol sol' bw_renumbered ex_valid ex_poses
    bw_valid bw_poses ex_acyclic H H' v Hv) as [_ Hc]. apply Hc; left.
Qed.

Print Assumptions C55_unique_well.
Print Assumptions C55_unique_well_b64.
Print Assumptions C55_unique_all.
Print Assumptions C55_unique_all_b64.
Print Assumptions C56_causality.
Print Assumptions C56_causality_b64.
Print Assumptions C57_renumbered.
