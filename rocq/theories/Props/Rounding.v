(** Where rounding breaks an exact balance: C39, C48, C59-C61 and C75 with doubles.

    The theorems of these properties are about exact arithmetic.  Here is one problem
    with two cells and integer data that meets their hypotheses, and whose results
    in doubles violate each of the conclusions by a rounding error. *)
From Coq Require Import String QArith Qcanon.
From Verif.Model Require Import Base Num OMap Containers Solution AssembledConnections Tarjan TracerTofSolver Toolbox DerivedQuantities.
From Verif.Spec Require Import ToolboxSpec MirrorSpec CyclicSpec MergeSpec.
From Verif.Proofs Require Import ExactNum OMapFacts ToolboxThms.
From Verif.Props Require Import Toolbox Balance.
Open Scope Z_scope.

(** Three injectors in cell 0, a producer in cell 1. *)
Definition rd_p {N : Num} : problem :=
  mkProblem 2 [(0, 1, [nofZ 45])] (map nofZ [1; 1])
    [("A"%string, [(0, nofZ 6)]); ("B"%string, [(0, nofZ 26)]); ("C"%string, [(0, nofZ 13)]); ("P"%string, [(1, nofZ (-45))])].
(** The same with A and B as one well. *)
Definition rd_p' {N : Num} : problem :=
  mkProblem 2 [(0, 1, [nofZ 45])] (map nofZ [1; 1])
    [("AB"%string, [(0, nofZ 32)]); ("C"%string, [(0, nofZ 13)]); ("P"%string, [(1, nofZ (-45))])].
Lemma rd_valid {N : Num} : valid rd_p. Proof. valid_tac. Qed.
Lemma rd_valid' {N : Num} : valid rd_p'. Proof. valid_tac. Qed.
Lemma rd_poses {N : Num} : poses rd_p (graph_for rd_p) (values_for rd_p 1).
Proof. apply posed; [apply rd_valid|forall_tac|reflexivity]. Qed.
Lemma rd_poses' {N : Num} : poses rd_p' (graph_for rd_p') (values_for rd_p' 1).
Proof. apply posed; [apply rd_valid'|forall_tac|reflexivity]. Qed.
Lemma rd_int {N : Num} : data is_int rd_p. Proof. split; intros; unfold rd_p in *; int_tac. Qed.
Lemma rd_int' {N : Num} : data is_int rd_p'. Proof. split; intros; unfold rd_p' in *; int_tac. Qed.
Lemma rd_pores : pores_ok (@rd_p b64). Proof. unfold rd_p. pores_tac. Qed.
Lemma rd_pores' : pores_ok (@rd_p' b64). Proof. unfold rd_p'. pores_tac. Qed.
Lemma rd_acyclic : acyclic (net_arcs (@rd_p b64)).
Proof. apply (acyclic_rank id). assert (map fst (net_arcs (@rd_p b64)) = [(0, 1)]) as -> by (vm_compute; reflexivity). forall_tac. Qed.
Ltac both_tac := intros v Hv; cbn in Hv; assert (v = 0 ∨ v = 1) as [->| ->] by lia; vm_compute; reflexivity.
Lemma rd_conserves : conserves (@rd_p b64).
Proof. both_tac. Qed.
Lemma rd_regrouped : regrouped Injection (@rd_p b64) rd_p'.
Proof. split; [done|done|done|]. both_tac. Qed.
Lemma rd_same : same_rates Injection (@rd_p b64) rd_p' ["A"; "B"]%string ["AB"]%string.
Proof. both_tac. Qed.
Lemma rd_wells d id : is_well d (pb_rates (@rd_p b64)) id → id ∈ match d with Injection => ["A"; "B"; "C"]%string | Production => ["P"]%string end.
Proof.
  intros (c & x & H). unfold well_rate in H.
  destruct (om_find id (pb_rates (@rd_p b64))) as [vals|] eqn:E; [|done].
  apply om_find_elem in E; [|repeat constructor].
  destruct (om_find c vals) as [y|] eqn:Ey in H; [|done].
  repeat (apply elem_of_cons in E as [[= -> ->]|E]); [..|by apply elem_of_nil in E].
  all: apply om_find_elem in Ey; [|repeat constructor]; apply elem_of_list_singleton in Ey as [= -> ->].
  all: destruct d; first [by vm_compute in H|set_solver].
Qed.
Lemma rd_inflow d u v : flows (flow d (@rd_p b64)) u v → nltb n0 (total_in (@rd_p b64) d u) = true.
Proof.
  assert (map fst (flow d (@rd_p b64)) = match d with Injection => [(0, 1)] | Production => [(1, 0)] end) as E by (destruct d; vm_compute; reflexivity).
  unfold flows. rewrite E. intros H. destruct d; apply elem_of_list_singleton in H as [= -> ->]; vm_compute; reflexivity.
Qed.

Definition rd_sets := [cs_new "A"%string; cs_new "B"%string; cs_new "C"%string].
Definition rd_run {N : Num} d sets := diagnose d ex_ev (graph_for rd_p) rd_p (values_for rd_p 1) sets.
Definition rd_run' {N : Num} := diagnose Injection ex_ev (graph_for rd_p') rd_p' (values_for rd_p' 1) [cs_new "AB"%string].
Definition rd_wells4 := ["A"; "B"; "C"; "P"]%string.
Definition early {N : Num} (sol : solution) (id : cellset_id) : bool := forallb (λ kv : Z * num, nltb kv.2 cutoff) (sol_tof sol id).
Lemma early_inv (sol : @solution b64) id v t : early sol id = true → om_find v (sol_tof sol id) = Some t → nltb t cutoff = true.
Proof.
  unfold early. induction (sol_tof sol id) as [|[w x] m IH]; [done|]. intros H. cbn [forallb] in H. apply andb_prop in H as [H1 H2].
  cbn [om_find]. destruct (kcmp v w); [by intros [= <-]|done|]. by apply IH.
Qed.
(** The values of the one run that all but the last theorem are about. *)
Definition rd_sum (sol : @solution b64) : @num b64 := sum_left (map (λ id, value_at (sol_concentration sol id) 1) rd_wells4).
Definition rd_times (sol : @solution b64) : @num b64 :=
  sum_left (map (λ id, nmul (value_at (sol_concentration sol id) 1) (value_at (sol_tof sol id) 1)) rd_wells4).
Definition rd_out (sol : @solution b64) : @num b64 :=
  sum_left (map (λ v, nmul (cell_total Production (pb_rates rd_p) v) (nmul (value_at (sol_concentration sol "A"%string) v) (value_at (sol_tof sol "A"%string) v))) (seqZ 0 2)).
Definition rd_volume (sol : @solution b64) : @num b64 :=
  sum_left (map (λ v, nmul (pore rd_p v) (value_at (sol_concentration sol "A"%string) v)) (seqZ 0 2)).
Definition rd_flux (sol sol' : @solution b64) i : @num b64 * @num b64 :=
  match pair_flux sol sol' i "P"%string (pb_rates rd_p) with Ok r => r | _ => (n0, n0) end.
Lemma rd_fails : solves (@rd_run b64 Injection rd_sets) (λ sol,
    nltb (rd_sum sol) n1 &&
    match sol_global_tof sol !! 1%nat with Some t => nltb (nmul (rd_sum sol) t) (rd_times sol) | None => false end &&
    (early sol "A"%string && nltb (rd_volume sol) (rd_out sol)) &&
    solves (@rd_run b64 Production [cs_new "P"%string]) (λ sol',
      match pair_flux sol sol' "B"%string "P"%string (pb_rates rd_p) with Ok (x, y) => nltb (nopp y) x | _ => false end &&
      nltb (nofZ (-45)) (sum_left (map (λ i, (rd_flux sol sol' i).2) rd_wells4))) &&
    solves (@rd_run' b64) (λ sol', nltb (sum_left (map (λ i, value_at (sol_concentration sol i) 1) ["A"; "B"]%string))
      (sum_left (map (λ i, value_at (sol_concentration sol' i) 1) ["AB"]%string)))) = true.
Proof. vm_compute. reflexivity. Qed.
Lemma some_inv {X} (o : option X) (P : X → bool) : match o with Some t => P t | None => false end = true → ∃ t, o = Some t ∧ P t = true.
Proof. destruct o as [t|]; [|done]. by exists t. Qed.
Lemma rd_in i : i ∈ ["A"; "B"]%string → i ∈ map cs_id rd_sets. Proof. cbn. set_solver. Qed.
Lemma rd_in' i : i ∈ ["AB"]%string → i ∈ map cs_id [cs_new "AB"%string]. Proof. done. Qed.
Lemma rd_one : 0 ≤ 1 < 2. Proof. lia. Qed.
Lemma rd_solved : ∃ sol, @rd_run b64 Injection rd_sets = Ok (OSol sol) ∧ nltb (rd_sum sol) n1 = true ∧
  (∃ t, sol_global_tof sol !! 1%nat = Some t ∧ nltb (nmul (rd_sum sol) t) (rd_times sol) = true) ∧
  (early sol "A"%string = true ∧ nltb (rd_volume sol) (rd_out sol) = true) ∧
  (∃ sol', @rd_run b64 Production [cs_new "P"%string] = Ok (OSol sol') ∧
    (∃ x y, pair_flux sol sol' "B"%string "P"%string (pb_rates rd_p) = Ok (x, y) ∧ nltb (nopp y) x = true) ∧
    nltb (nofZ (-45)) (sum_left (map (λ i, (rd_flux sol sol' i).2) rd_wells4)) = true) ∧
  (∃ sol', @rd_run' b64 = Ok (OSol sol') ∧ nltb (sum_left (map (λ i, value_at (sol_concentration sol i) 1) ["A"; "B"]%string))
      (sum_left (map (λ i, value_at (sol_concentration sol' i) 1) ["AB"]%string)) = true).
Proof.
  destruct (solves_inv _ _ rd_fails) as (sol & H & Hs). exists sol. split; [exact H|]. clear H.
  apply andb_prop in Hs as [Hs H5]. apply andb_prop in Hs as [Hs H4]. apply andb_prop in Hs as [Hs H3]. apply andb_prop in Hs as [H1 H2].
  split; [exact H1|]. split; [exact (some_inv _ _ H2)|]. split; [exact (andb_prop _ _ H3)|]. split.
  - destruct (solves_inv _ _ H4) as (sol' & H' & Hs'). apply andb_prop in Hs' as [Hx Hy]. exists sol'. split; [exact H'|]. split; [|exact Hy].
    revert Hx. generalize (pair_flux sol sol' "B"%string "P"%string (pb_rates rd_p)). intros [[x y]| | | |] Hx; try discriminate Hx. exists x, y. split; [reflexivity|exact Hx].
  - exact (solves_inv _ _ H5).
Qed.

(** ** C39: the concentrations of all wells add up to less than 1 *)
Theorem C39_b64_refuted : ∃ (p : @problem b64) g f d ev sets sol v, valid p ∧ poses p g f ∧ data is_int p ∧ pores_ok p ∧
  acyclic (net_arcs p) ∧ diagnose d ev g p f sets = Ok (OSol sol) ∧
  (∀ id, is_well d (pb_rates p) id → id ∈ map cs_id sets) ∧
  (∀ u v, flows (flow d p) u v → nltb n0 (total_in p d u) = true) ∧
  0 ≤ v < pb_cells p ∧ nltb n0 (total_in p d v) = true ∧
  nltb (sum_left (map (λ id, value_at (sol_concentration sol id) v) (map fst (pb_rates p)))) n1 = true.
Proof.
  destruct rd_solved as (sol & H & H1 & _). exists rd_p, (graph_for (@rd_p b64)), (values_for (@rd_p b64) 1), Injection, ex_ev, rd_sets, sol, 1.
  split; [apply rd_valid|]. split; [apply rd_poses|]. split; [apply rd_int|]. split; [apply rd_pores|]. split; [apply rd_acyclic|].
  split; [exact H|]. split; [apply (rd_wells Injection)|]. split; [apply (rd_inflow Injection)|]. split; [exact rd_one|]. split; [vm_compute; reflexivity|exact H1].
Qed.

(** ** C60: the mean of the wells' times exceeds the global time-of-flight *)
Theorem C60_b64_refuted : ∃ (p : @problem b64) g f d ev sets sol v t, valid p ∧ poses p g f ∧ data is_int p ∧ pores_ok p ∧
  acyclic (net_arcs p) ∧ diagnose d ev g p f sets = Ok (OSol sol) ∧
  (∀ id, is_well d (pb_rates p) id → id ∈ map cs_id sets) ∧
  0 ≤ v < pb_cells p ∧ sol_global_tof sol !! Z.to_nat v = Some t ∧
  nltb (nmul (sum_left (map (λ id, value_at (sol_concentration sol id) v) (map fst (pb_rates p)))) t)
    (sum_left (map (λ id, nmul (value_at (sol_concentration sol id) v) (value_at (sol_tof sol id) v)) (map fst (pb_rates p)))) = true.
Proof.
  destruct rd_solved as (sol & H & _ & (t & Ht & H2) & _). exists rd_p, (graph_for (@rd_p b64)), (values_for (@rd_p b64) 1), Injection, ex_ev, rd_sets, sol, 1, t.
  split; [apply rd_valid|]. split; [apply rd_poses|]. split; [apply rd_int|]. split; [apply rd_pores|]. split; [apply rd_acyclic|].
  split; [exact H|]. split; [apply (rd_wells Injection)|]. split; [exact rd_one|]. split; [exact Ht|exact H2].
Qed.

(** ** C61: rate times time exceeds the swept volume *)
Theorem C61_b64_refuted : ∃ (p : @problem b64) g f d ev sets sol id, valid p ∧ poses p g f ∧ data is_int p ∧ pores_ok p ∧
  acyclic (net_arcs p) ∧ conserves p ∧ diagnose d ev g p f sets = Ok (OSol sol) ∧ id ∈ map cs_id sets ∧
  (∀ v t, om_find v (sol_tof sol id) = Some t → nltb t cutoff = true) ∧
  let all := seqZ 0 (pb_cells p) in
  nltb (sum_left (map (λ v, nmul (pore p v) (value_at (sol_concentration sol id) v)) all))
    (sum_left (map (λ v, nmul (cell_total (opposite d) (pb_rates p) v)
                  (nmul (value_at (sol_concentration sol id) v) (value_at (sol_tof sol id) v))) all)) = true.
Proof.
  destruct rd_solved as (sol & H & _ & _ & [He H3] & _). exists rd_p, (graph_for (@rd_p b64)), (values_for (@rd_p b64) 1), Injection, ex_ev, rd_sets, sol, "A"%string.
  split; [apply rd_valid|]. split; [apply rd_poses|]. split; [apply rd_int|]. split; [apply rd_pores|]. split; [apply rd_acyclic|]. split; [apply rd_conserves|].
  split; [exact H|]. split; [left|]. split; [|exact H3]. intros v t. exact (early_inv _ _ _ _ He).
Qed.

(** ** C48 and C59: the two fluxes of a pair differ, and do not add up to the rate *)
Theorem C48_b64_refuted : ∃ (p : @problem b64) g f ev ev' sets sets' sol sol' i j, valid p ∧ poses p g f ∧ data is_int p ∧ pores_ok p ∧
  acyclic (net_arcs p) ∧ conserves p ∧
  diagnose Injection ev g p f sets = Ok (OSol sol) ∧ diagnose Production ev' g p f sets' = Ok (OSol sol') ∧
  i ∈ map cs_id sets ∧ j ∈ map cs_id sets' ∧
  ∃ x y, pair_flux sol sol' i j (pb_rates p) = Ok (x, y) ∧ nltb (nopp y) x = true.
Proof.
  destruct rd_solved as (sol & H & _ & _ & _ & (sol' & H' & HB & _) & _).
  exists rd_p, (graph_for (@rd_p b64)), (values_for (@rd_p b64) 1), ex_ev, ex_ev, rd_sets, [cs_new "P"%string], sol, sol', "B"%string, "P"%string.
  split; [apply rd_valid|]. split; [apply rd_poses|]. split; [apply rd_int|]. split; [apply rd_pores|]. split; [apply rd_acyclic|]. split; [apply rd_conserves|].
  split; [exact H|]. split; [exact H'|]. split; [right; left|]. split; [left|exact HB].
Qed.
Theorem C59_b64_refuted : ∃ (p : @problem b64) g f ev ev' sets sets' sol sol' j, valid p ∧ poses p g f ∧ data is_int p ∧ pores_ok p ∧
  acyclic (net_arcs p) ∧ conserves p ∧
  diagnose Injection ev g p f sets = Ok (OSol sol) ∧ diagnose Production ev' g p f sets' = Ok (OSol sol') ∧
  (∀ id, is_well Injection (pb_rates p) id → id ∈ map cs_id sets) ∧ (∀ id, is_well Production (pb_rates p) id → id ∈ map cs_id sets') ∧
  j ∈ map fst (pb_rates p) ∧
  ∀ F : cellset_id → @num b64 * @num b64, (∀ i, i ∈ map fst (pb_rates p) → pair_flux sol sol' i j (pb_rates p) = Ok (F i)) →
    nltb (nopp (sum_left (omap (well_rate Production (pb_rates p) j) (seqZ 0 (pb_cells p)))))
      (sum_left (map (λ i, (F i).2) (map fst (pb_rates p)))) = true.
Proof.
  destruct rd_solved as (sol & H & _ & _ & _ & (sol' & H' & _ & HS) & _).
  exists rd_p, (graph_for (@rd_p b64)), (values_for (@rd_p b64) 1), ex_ev, ex_ev, rd_sets, [cs_new "P"%string], sol, sol', "P"%string.
  split; [apply rd_valid|]. split; [apply rd_poses|]. split; [apply rd_int|]. split; [apply rd_pores|]. split; [apply rd_acyclic|]. split; [apply rd_conserves|].
  split; [exact H|]. split; [exact H'|]. split; [apply (rd_wells Injection)|]. split; [apply (rd_wells Production)|]. split; [do 3 right; left|].
  intros F HF.
  assert (map (λ i, (F i).2) rd_wells4 = map (λ i, (rd_flux sol sol' i).2) rd_wells4) as E.
  { apply map_ext_in. intros i Hi%elem_of_list_In. unfold rd_flux. by rewrite (HF i Hi). }
  change (map fst (pb_rates rd_p)) with rd_wells4. rewrite E. exact HS.
Qed.

(** ** C75: the concentration of a well made of two is not the sum of theirs *)
Theorem C75_b64_refuted : ∃ (p p' : @problem b64) g f g' f' d ev ev' sets sets' sol sol' G G' v,
  valid p ∧ poses p g f ∧ data is_int p ∧ pores_ok p ∧ valid p' ∧ poses p' g' f' ∧ data is_int p' ∧ pores_ok p' ∧
  acyclic (net_arcs p) ∧ regrouped d p p' ∧ same_rates d p p' G G' ∧
  diagnose d ev g p f sets = Ok (OSol sol) ∧ diagnose d ev' g' p' f' sets' = Ok (OSol sol') ∧
  (∀ i, i ∈ G → i ∈ map cs_id sets) ∧ (∀ i, i ∈ G' → i ∈ map cs_id sets') ∧ 0 ≤ v < pb_cells p ∧
  nltb (sum_left (map (λ i, value_at (sol_concentration sol i) v) G)) (sum_left (map (λ i, value_at (sol_concentration sol' i) v) G')) = true.
Proof.
  destruct rd_solved as (sol & H & _ & _ & _ & _ & (sol' & H' & HS)).
  exists rd_p, rd_p', (graph_for (@rd_p b64)), (values_for (@rd_p b64) 1), (graph_for (@rd_p' b64)), (values_for (@rd_p' b64) 1), Injection, ex_ev, ex_ev,
    rd_sets, [cs_new "AB"%string], sol, sol', ["A"; "B"]%string, ["AB"]%string, 1.
  split; [apply rd_valid|]. split; [apply rd_poses|]. split; [apply rd_int|]. split; [apply rd_pores|].
  split; [apply rd_valid'|]. split; [apply rd_poses'|]. split; [apply rd_int'|]. split; [apply rd_pores'|]. split; [apply rd_acyclic|].
  split; [apply rd_regrouped|]. split; [apply rd_same|]. split; [exact H|]. split; [exact H'|].
  split; [exact rd_in|]. split; [exact rd_in'|]. split; [exact rd_one|exact HS].
Qed.

Print Assumptions C39_b64_refuted.
Print Assumptions C60_b64_refuted.
Print Assumptions C61_b64_refuted.
Print Assumptions C48_b64_refuted.
Print Assumptions C59_b64_refuted.
Print Assumptions C75_b64_refuted.
