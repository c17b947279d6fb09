(** C63: diagnostics of flows without cycles, computed with doubles, agree with
    those of exact arithmetic up to a bounded number of roundings. *)
From Coq Require Import ZArith Reals Lra Psatz QArith Qcanon Qreals String.
From Coq.Floats Require Import SpecFloat.
From Verif.Model Require Import Base Num OMap Containers Solution Toolbox.
From Verif.Spec Require Import ToolboxSpec AcyclicSpec AccuracySpec.
From Verif.Proofs Require Import Util OMapFacts ExactNum OrdLaws B64Laws OppLaws TofLaws ToolboxThms Acyclic Rounding Accuracy.
From Verif.Props Require Import Toolbox SameFlow.
Open Scope Z_scope.

(** The concentrations and times-of-flight of a well. *)
Theorem C63_wells (p : @problem b64) g f g' f' d kc kt ev ev' sets sets' sol sol' id :
  valid p → poses p g f → poses (exactly p) g' f' → @data b64 b64_ok p → acyclic (net_arcs p) →
  ordinary p → budget d p kc kt → clear_of_cutoff d p →
  diagnose d ev g p f sets = Ok (OSol sol) → id ∈ map cs_id sets →
  diagnose d ev' g' (exactly p) f' sets' = Ok (OSol sol') → id ∈ map cs_id sets' →
  (∀ v c, om_find v (sol_concentration sol' id) = Some c → nleb (Fin (pow2 (-300)) : @num exact) c = true) →
  ∀ v, option_Forall2 (λ x y, close (kc v) (q_of x) y) (om_find v (sol_concentration sol id)) (om_find v (sol_concentration sol' id)) ∧
       option_Forall2 (λ x y, close (kt v) (q_of x) y) (om_find v (sol_tof sol id)) (om_find v (sol_tof sol' id)).
Proof. intros Hp HP HP' HD Hac OR BU CL. exact (well_close p g f g' f' Hp HP HP' HD Hac OR d kc kt BU CL ev ev' sets sets' sol sol' id). Qed.

(** The concentrations do not need the total influx to be clear of the bound
    below which times-of-flight are cut off. *)
Theorem C63_concentrations (p : @problem b64) g f g' f' d kc kt ev ev' sets sets' sol sol' id :
  valid p → poses p g f → poses (exactly p) g' f' → @data b64 b64_ok p → acyclic (net_arcs p) → ordinary p → budget d p kc kt →
  diagnose d ev g p f sets = Ok (OSol sol) → id ∈ map cs_id sets →
  diagnose d ev' g' (exactly p) f' sets' = Ok (OSol sol') → id ∈ map cs_id sets' →
  (∀ v c, om_find v (sol_concentration sol' id) = Some c → nleb (Fin (pow2 (-300)) : @num exact) c = true) →
  ∀ v, option_Forall2 (λ x y, close (kc v) (q_of x) y) (om_find v (sol_concentration sol id)) (om_find v (sol_concentration sol' id)).
Proof.
  intros Hp HP HP' HD Hac OR BU H Hid H' Hid' Hc v.
  destruct (conc_close p g f g' f' Hp HP HP' HD Hac OR d kc kt BU ev ev' sets sets' sol sol' id H Hid H' Hid' Hc) as [_ HA].
  destruct (HA v) as (H1 & H2 & H3). apply app_close in H1. unfold value_at in H1.
  destruct (om_find v (sol_concentration sol id)) as [x|], (om_find v (sol_concentration sol' id)) as [y|].
  - constructor. exact H1.
  - destruct (proj2 H3 (proj1 H2 ltac:(by eexists))); done.
  - destruct (proj2 H2 (proj1 H3 ltac:(by eexists))); done.
  - constructor.
Qed.

(** The times-of-flight of all wells together, if nothing flows out of cells into
    which nothing flows. *)
Theorem C63_all_wells (p : @problem b64) g f g' f' d kc kt ev ev' sets sets' sol sol' :
  valid p → poses p g f → poses (exactly p) g' f' → @data b64 b64_ok p → acyclic (net_arcs p) →
  ordinary p → budget d p kc kt → clear_of_cutoff d p →
  diagnose d ev g p f sets = Ok (OSol sol) → diagnose d ev' g' (exactly p) f' sets' = Ok (OSol sol') →
  (∀ u v, flows (flow d p) u v → nltb n0 (total_in (exactly p) d u) = true) →
  ∀ v, 0 ≤ v < pb_cells p →
    option_Forall2 (λ x y, close (kt v) (q_of x) y) (sol_global_tof sol !! Z.to_nat v) (sol_global_tof sol' !! Z.to_nat v).
Proof. intros Hp HP HP' HD Hac OR BU CL. exact (global_close p g f g' f' Hp HP HP' HD Hac OR d kc kt BU CL ev ev' sets sets' sol sol'). Qed.

(** Bounds on the relative errors from the numbers of cells, connections and
    wells alone. *)
Theorem C63_by_size (p : @problem b64) g f g' f' d ev ev' sets sets' sol sol' id : let n := Z.to_nat (pb_cells p) in let C := all_costs p in
  valid p → poses p g f → poses (exactly p) g' f' → @data b64 b64_ok p → acyclic (net_arcs p) → ordinary p →
  Z.of_nat (n * (C * (2 * n + 1))) ≤ 2 ^ 50 → clear_of_cutoff d p →
  diagnose d ev g p f sets = Ok (OSol sol) → id ∈ map cs_id sets →
  diagnose d ev' g' (exactly p) f' sets' = Ok (OSol sol') → id ∈ map cs_id sets' →
  (∀ v c, om_find v (sol_concentration sol' id) = Some c → nleb (Fin (pow2 (-300)) : @num exact) c = true) →
  ∀ v, option_Forall2 (λ x y, off_by (errors (n * C)) (q_of x) y) (om_find v (sol_concentration sol id)) (om_find v (sol_concentration sol' id)) ∧
       option_Forall2 (λ x y, off_by (errors (n * (C * (2 * n + 1)))) (q_of x) y) (om_find v (sol_tof sol id)) (om_find v (sol_tof sol' id)).
Proof.
  intros n C Hp HP HP' HD Hac OR Hs CL H Hid H' Hid' Hc v.
  destruct (rank_exists p Hp d g f ev sets sol HP Hac H) as (rank & Hr & Hn).
  pose proof (rank_budget p d rank n Hr Hn Hs) as BU.
  destruct (C63_wells p g f g' f' d _ _ ev ev' sets sets' sol sol' id Hp HP HP' HD Hac OR BU CL H Hid H' Hid' Hc v) as [H1 H2].
  pose proof (value_ranges (exactly p) g' f' (Accuracy.ex_valid p Hp) HP' exact_laws exact_opp_laws (ex_data p) exact_tof_laws (ex_pores_ok p OR)
    d ev' sets' sol' id (ex_no_overflow p Hp HD OR d _ _ BU) H') as [R1 R2].
  specialize (Hn v). fold n in Hn. fold C in H1, H2.
  assert ((rank v + 1) * C ≤ n * C)%nat as Hk1 by (apply Nat.mul_le_mono_r; lia).
  assert ((rank v + 1) * (C * (2 * n + 1)) ≤ n * (C * (2 * n + 1)))%nat as Hk2 by (apply Nat.mul_le_mono_r; lia).
  assert (n * C ≤ n * (C * (2 * n + 1)))%nat as Hk3 by nia.
  split.
  - destruct (om_find v (sol_concentration sol id)) as [x|], (om_find v (sol_concentration sol' id)) as [y|] eqn:Ey; inversion H1; subst; constructor.
    assert (nleb n0 y = true) as Hy. { apply (o_lt_le exact exact_laws); [exact I|exact I|apply (R1 v y Ey)]. }
    apply close_relative; [lia|done|]. eapply close_mono; [|exact Hy|eassumption]. lia.
  - destruct (om_find v (sol_tof sol id)) as [x|], (om_find v (sol_tof sol' id)) as [y|] eqn:Ey; inversion H2; subst; constructor.
    destruct (R2 v y Ey) as [Hy _]. apply close_relative; [lia|done|]. eapply close_mono; [|exact Hy|eassumption]. lia.
Qed.
Theorem C63_all_by_size (p : @problem b64) g f g' f' d ev ev' sets sets' sol sol' : let n := Z.to_nat (pb_cells p) in let C := all_costs p in
  valid p → poses p g f → poses (exactly p) g' f' → @data b64 b64_ok p → acyclic (net_arcs p) → ordinary p →
  Z.of_nat (n * (C * (2 * n + 1))) ≤ 2 ^ 50 → clear_of_cutoff d p →
  diagnose d ev g p f sets = Ok (OSol sol) → diagnose d ev' g' (exactly p) f' sets' = Ok (OSol sol') →
  (∀ u v, flows (flow d p) u v → nltb n0 (total_in (exactly p) d u) = true) →
  ∀ v, 0 ≤ v < pb_cells p →
    option_Forall2 (λ x y, off_by (errors (n * (C * (2 * n + 1)))) (q_of x) y) (sol_global_tof sol !! Z.to_nat v) (sol_global_tof sol' !! Z.to_nat v).
Proof.
  intros n C Hp HP HP' HD Hac OR Hs CL H H' Hfl v Hv.
  destruct (rank_exists p Hp d g f ev sets sol HP Hac H) as (rank & Hr & Hn).
  pose proof (rank_budget p d rank n Hr Hn Hs) as BU.
  pose proof (C63_all_wells p g f g' f' d _ _ ev ev' sets sets' sol sol' Hp HP HP' HD Hac OR BU CL H H' Hfl v Hv) as H2.
  pose proof (global_ranges (exactly p) g' f' (Accuracy.ex_valid p Hp) HP' exact_laws exact_opp_laws (ex_data p) exact_tof_laws (ex_pores_ok p OR)
    d ev' sets' sol' (ex_no_overflow p Hp HD OR d _ _ BU) H') as R2.
  specialize (Hn v). fold n in Hn. fold C in H2.
  assert ((rank v + 1) * (C * (2 * n + 1)) ≤ n * (C * (2 * n + 1)))%nat as Hk2 by (apply Nat.mul_le_mono_r; lia).
  destruct (sol_global_tof sol !! Z.to_nat v) as [x|], (sol_global_tof sol' !! Z.to_nat v) as [y|] eqn:Ey; inversion H2; subst; constructor.
  destruct (proj1 (Forall_forall _ _) R2 y (elem_of_list_lookup_2 _ _ _ Ey)) as [Hy _]. apply close_relative; [lia|done|]. eapply close_mono; [|exact Hy|eassumption]. lia.
Qed.

(** ** Example *)
Definition sizedb (lo hi : Z) (x : @num exact) : bool :=
  match x with Fin q => Qle_bool (pow2 lo) q && Qle_bool q (pow2 hi) | _ => false end.
Lemma sizedb_sized lo hi x : sizedb lo hi x = true → sized lo hi x.
Proof. destruct x as [q| | |]; try done. cbn. intros H. apply andb_prop in H as [H1 H2]. exists q. split; [done|]. split; by apply Qle_bool_iff. Qed.
Definition closeb (k : nat) (x y : @num exact) : bool :=
  match x, y with Fin a, Fin b => Qle_bool a (b * (1 + pow2 (-52)) ^ k)%Qc && Qle_bool b (a * (1 + pow2 (-52)) ^ k)%Qc | _, _ => false end.
Lemma close_closeb k x y : close k x y → closeb k x y = true.
Proof. intros (a & b & -> & -> & H1 & H2). cbn. apply andb_true_intro. split; by apply Qle_bool_iff. Qed.
Lemma ex_ordinary : ordinary (@ex_p b64).
Proof.
  assert (∀ {A} (P : A → bool) l, forallb P l = true → ∀ x, x ∈ l → P x = true) as FB.
  { intros A P l H x Hx. rewrite forallb_forall in H. apply H. by apply elem_of_list_In. }
  split.
  - intros x Hx. apply xeqb_eq. revert x Hx. apply (FB _ (λ x : Z * Z * list (@num b64), xeqb (q_of (sum_left x.2)) (sum_left (map q_of x.2)))). vm_compute. reflexivity.
  - intros a Ha. apply sizedb_sized. revert a Ha. apply (FB _ (λ a : @arc exact, sizedb (-100) 100 a.2)). vm_compute. reflexivity.
  - intros d id c x. unfold well_rate. destruct (om_find id (pb_rates (exactly ex_p))) as [vals|] eqn:E; [|done].
    apply om_find_elem in E; [|repeat constructor]. destruct (om_find c vals) as [y|] eqn:E'; [|done].
    assert (om_wf vals) as W.
    { revert E. cbn [exactly pb_rates ex_p ex_rates map fst snd]. intros E.
      repeat (apply elem_of_cons in E as [E|E]; [injection E as -> ->; repeat constructor|]). by apply elem_of_nil in E. }
    apply om_find_elem in E'; [|done]. intros Hx. apply sizedb_sized.
    assert (forallb (λ e : cellset_id * @cellset_values exact, forallb (λ k : Z * @num exact,
      forallb (λ d, match @rate_part exact d k.2 with Some x => sizedb (-100) 100 x | None => true end) [Injection; Production]) e.2) (pb_rates (exactly ex_p)) = true) as H by (vm_compute; reflexivity).
    pose proof (FB _ _ _ (FB _ _ _ (FB _ _ _ H _ E) _ E') d) as H'. cbv beta in H'. cbn [snd] in H'. rewrite Hx in H'. apply H'. destruct d; set_solver.
  - intros x Hx. apply sizedb_sized. revert x Hx. apply (FB _ (sizedb (-100) 100)). vm_compute. reflexivity.
Qed.
Lemma ex_clear d : clear_of_cutoff d (@ex_p b64).
Proof.
  intros v Hv Hc. apply close_closeb in Hc. cbn in Hv.
  assert (v = 0 ∨ v = 1 ∨ v = 2 ∨ v = 3 ∨ v = 4) as [->|[->|[->|[->| ->]]]] by lia; destruct d; revert Hc; vm_compute; discriminate.
Qed.
Definition ex_exactly : @problem exact := exactly (@ex_p b64).
Lemma ex_poses_exactly : poses ex_exactly (graph_for ex_exactly) (values_for ex_exactly 2).
Proof. apply posed; [apply Accuracy.ex_valid, ex_valid|forall_tac|reflexivity]. Qed.
(** Both arithmetics solve it.  The concentration of I1 in cell 3 is 2/3, which
    is no double. *)
Definition ex_run_exactly d sets := diagnose d ex_ev (graph_for ex_exactly) ex_exactly (values_for ex_exactly 2) sets.
Definition large (m : @cellset_values exact) : bool := forallb (λ e : Z * @num exact, nleb (Fin (pow2 (-300)) : @num exact) e.2) m.
Lemma large_find m v c : large m = true → om_find v m = Some c → nleb (Fin (pow2 (-300)) : @num exact) c = true.
Proof.
  unfold large. induction m as [|[w x] m IH]; [done|]. intros H. cbn [forallb] in H. apply andb_prop in H as [H1 H2].
  cbn [om_find]. destruct (kcmp v w); [by intros [= <-]|done|]. by apply IH.
Qed.
Example C63_runs :
  solves (@ex_run b64 Injection ex_sets) (λ sol, solves (ex_run_exactly Injection ex_sets) (λ sol',
    large (sol_concentration sol' "I1"%string) && large (sol_concentration sol' "I2"%string) &&
    match om_find 3 (sol_concentration sol "I1"%string), om_find 3 (sol_concentration sol' "I1"%string) with
    | Some x, Some y => negb (neqb (q_of x) y) && neqb y (frac 2 3) | _, _ => false
    end)) = true.
Proof. vm_compute. reflexivity. Qed.
(** The theorems apply: the concentrations are off by at most 140, the
    times-of-flight by at most 1540 parts in 2^51. *)
Example C63_ex sol sol' id : @ex_run b64 Injection ex_sets = Ok (OSol sol) → ex_run_exactly Injection ex_sets = Ok (OSol sol') →
  id ∈ ["I1"%string; "I2"%string] → ∀ v,
    option_Forall2 (λ x y, off_by (errors 140) (q_of x) y) (om_find v (sol_concentration sol id)) (om_find v (sol_concentration sol' id)) ∧
    option_Forall2 (λ x y, off_by (errors 1540) (q_of x) y) (om_find v (sol_tof sol id)) (om_find v (sol_tof sol' id)).
Proof.
  intros H H' Hid. pose proof C63_runs as HR. rewrite H in HR. cbn [solves] in HR. rewrite H' in HR. cbn [solves] in HR.
  apply andb_prop in HR as [HR _]. apply andb_prop in HR as [L1 L2].
  apply (C63_by_size (@ex_p b64) _ _ _ _ Injection _ _ _ _ sol sol' id ex_valid ex_poses ex_poses_exactly (data_impl _ _ _ int_b64 ex_int)
    ex_acyclic_b64 ex_ordinary ltac:(vm_compute; discriminate) (ex_clear _) H Hid H' Hid).
  intros v c E. apply elem_of_cons in Hid as [->|Hid]; [by eapply large_find; [exact L1|]|].
  apply elem_of_list_singleton in Hid as ->. by eapply large_find; [exact L2|].
Qed.
(** So does the one on all wells together. *)
Example C63_ex_all sol sol' : @ex_run b64 Injection ex_sets = Ok (OSol sol) → ex_run_exactly Injection ex_sets = Ok (OSol sol') → ∀ v, 0 ≤ v < 5 →
  option_Forall2 (λ x y, off_by (errors 1540) (q_of x) y) (sol_global_tof sol !! Z.to_nat v) (sol_global_tof sol' !! Z.to_nat v).
Proof.
  intros H H'.
  apply (C63_all_by_size (@ex_p b64) _ _ _ _ Injection _ _ _ _ sol sol' ex_valid ex_poses ex_poses_exactly (data_impl _ _ _ int_b64 ex_int)
    ex_acyclic_b64 ex_ordinary ltac:(vm_compute; discriminate) (ex_clear _) H H').
  intros u v Hf. assert (map fst (flow Injection (@ex_p b64)) = [(0, 2); (1, 2); (2, 3)]) as E by (vm_compute; reflexivity).
  unfold flows in Hf. rewrite E in Hf. clear E.
  do 3 (apply elem_of_cons in Hf as [Hf|Hf]; [injection Hf as -> ->; vm_compute; reflexivity|]). destruct (not_elem_of_nil _ Hf).
Qed.
Print Assumptions C63_wells.
Print Assumptions C63_concentrations.
Print Assumptions C63_all_wells.
Print Assumptions C63_by_size.
Print Assumptions C63_all_by_size.
