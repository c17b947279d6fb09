(** Flows without cycles: the equations have one solution, and a value depends
    on what is upstream only. *)
From Verif.Model Require Import Base Num OMap Containers Solution AssembledConnections Tarjan TracerTofSolver Toolbox.
From Verif.Spec Require Import AcyclicSpec.
From Verif.Proofs Require Import Util OMapFacts AConn OrdLaws ToolboxState ToolboxRates SolverBase SolverRun SolverTop SolverGen SolverOrd
  ToolboxFlow ToolboxVal ToolboxSane ToolboxThms.
Open Scope Z_scope.

Lemma flows_wf {N : Num} (A : list arc) : acyclic A → well_founded (flows A).
Proof.
  intros Hac v. change (sn (λ v u, flows A u v) v). apply tc_finite_sn.
  - intros u Hu. apply (Hac u). clear -Hu. assert (∀ a b, tc (λ v u, flows A u v) a b → tc (flows A) b a) as H.
    { intros a b. induction 1 as [a b H|a c b H _ IH]; [by apply tc_once|]. eapply tc_r; [exact IH|exact H]. }
    by apply H.
  - exists (map (λ a : arc, a.1.1) A). intros u Hu.
    assert (∃ w, flows A u w) as [w Hw].
    { clear -Hu. induction Hu as [a b H|a c b H _ IH]; [by exists a|exact IH]. }
    unfold flows in Hw. apply elem_of_list_fmap in Hw as (a & E & Ha). apply elem_of_list_fmap. exists a. split; [by rewrite <-E|done].
Qed.

Section acyclic.
Context {N : Num} (L : ord_laws N) (LO : opp_laws L).

(** Solutions of the equations. *)
Definition solves_well (p : problem) (d : direction) (id : cellset_id) (c τ : Z → num) : Prop :=
  ∀ v, (served p d id v ∧ well_eqs p d id c τ v) ∨ (¬ served p d id v ∧ c v = n0 ∧ τ v = n0).
Definition solves_all (p : problem) (d : direction) (c τ : Z → num) : Prop :=
  ∀ v, 0 ≤ v < pb_cells p → all_eqs p d c τ v.

Lemma diagnosis_solves p g f d ev sets sol id : valid p → poses p g f → data (o_ok N L) p → acyclic (net_arcs p) →
  diagnose d ev g p f sets = Ok (OSol sol) → id ∈ map cs_id sets →
  ∃ τ, solves_well p d id (value_at (sol_concentration sol id)) τ ∧
    ∀ v, (served p d id v → om_find v (sol_concentration sol id) = Some (value_at (sol_concentration sol id) v) ∧
                om_find v (sol_tof sol id) = Some (nmin (τ v) max_tof)) ∧
         (¬ served p d id v → om_find v (sol_concentration sol id) = None ∧ om_find v (sol_tof sol id) = None).
Proof.
  intros Hp HP HD Hac H Hid.
  pose proof (tracer_equation p g f Hp HP L LO HD d ev sets sol id Hac H Hid) as Hc.
  destruct (tof_equation p g f Hp HP L LO HD d ev sets sol id Hac H Hid) as [τ Hτ].
  assert (∀ v, (is_Some (om_find v (sol_concentration sol id)) ↔ served p d id v) ∧ (is_Some (om_find v (sol_tof sol id)) ↔ served p d id v)) as HS.
  { intros v. exact (support p g f Hp HP d ev sets sol id v H Hid). }
  exists τ. split.
  - intros v. destruct (HS v) as [H1 H2]. specialize (Hτ v). destruct (om_find v (sol_concentration sol id)) as [c|] eqn:Ec.
    + left. assert (served p d id v) as Hv by (apply H1; by eexists). split; [done|]. destruct (proj2 H2 Hv) as [t Et].
      rewrite Et in Hτ. unfold well_eqs. unfold value_at at 1 3. rewrite Ec. split; [by apply Hc|apply Hτ].
    + right. split.
      { intros Hv. by destruct (proj2 H1 Hv). }
      unfold value_at. rewrite Ec. split; [done|]. by destruct (om_find v (sol_tof sol id)).
  - intros v. destruct (HS v) as [H1 H2]. split.
    + intros Hv. destruct (proj2 H1 Hv) as [c Ec]. destruct (proj2 H2 Hv) as [t Et].
      specialize (Hτ v). rewrite Et, Ec in Hτ. unfold value_at. rewrite Ec, Et. split; [done|]. by destruct Hτ as [-> _].
    + intros Hv. split.
      * destruct (om_find v (sol_concentration sol id)) eqn:Ec; [|done]. exfalso. apply Hv, H1. by eexists.
      * destruct (om_find v (sol_tof sol id)) eqn:Ec; [|done]. exfalso. apply Hv, H2. by eexists.
Qed.
Lemma diagnosis_solves_all p g f d ev sets sol : valid p → poses p g f → data (o_ok N L) p → acyclic (net_arcs p) →
  diagnose d ev g p f sets = Ok (OSol sol) →
  ∃ c τ, solves_all p d c τ ∧ sol_global_tof sol = tab (pb_cells p) (λ v, nmin (τ v) max_tof).
Proof.
  intros Hp HP HD Hac H. destruct (global_equation p g f Hp HP L LO HD d ev sets sol Hac H) as (Hl & τ & c & Hτ).
  exists c, τ. split.
  - intros v Hv. destruct (Hτ v Hv) as (_ & H1 & H2). by split.
  - apply list_eq. intros k. destruct (decide (Z.of_nat k < pb_cells p)) as [Hk|Hk].
    + rewrite tab_lookup by done. destruct (Hτ (Z.of_nat k) ltac:(lia)) as [E _]. by rewrite Nat2Z.id in E.
    + rewrite !lookup_ge_None_2; [done|rewrite tab_len; lia|unfold zlen in Hl; lia].
Qed.

(** Two problems that look alike upstream of the cells in [U]. *)
Section alike.
Context (p p' : problem) (d : direction) (U : Z → Prop) (φ : Z → Z).
Context (Hac : acyclic (flow d p)) (HU : ∀ u v, flows (flow d p) u v → U v → U u).
Context (Hmix : ∀ h h' v, U v → (∀ u, flows (flow d p) u v → h' (φ u) = h u) →
  mix (pb_cells p') (flow d p') h' (φ v) = mix (pb_cells p) (flow d p) h v).
Context (Htot : ∀ v, U v → total_in p' d (φ v) = total_in p d v).
Context (Hpore : ∀ v, U v → pore p' (φ v) = pore p v).

Lemma alike_well id c τ c' τ' : (∀ v, U v → well_rate d (pb_rates p') id (φ v) = well_rate d (pb_rates p) id v) →
  (∀ v, U v → served p' d id (φ v) ↔ served p d id v) →
  solves_well p d id c τ → solves_well p' d id c' τ' →
  ∀ v, U v → c' (φ v) = c v ∧ τ' (φ v) = τ v.
Proof.
  intros Hw Hs S S' v. induction (flows_wf _ Hac v) as [v _ IH]. intros Hv.
  assert (∀ u, flows (flow d p) u v → c' (φ u) = c u ∧ τ' (φ u) = τ u) as IHu.
  { intros u Hu. apply IH; [done|]. by eapply HU. }
  destruct (S v) as [[Pv [E1 E2]]|(Pv & E1 & E2)], (S' (φ v)) as [[Pv' [E1' E2']]|(Pv' & E1' & E2')];
    rewrite (Hs v Hv) in Pv'; try done; [|by rewrite E1, E2].
  assert (c' (φ v) = c v) as Ec.
  { rewrite E1, E1'. unfold own. rewrite Hw, Htot by done. rewrite (Hmix c c') by (done || (intros u Hu; by apply IHu)). done. }
  split; [done|]. rewrite E2, E2', Hpore, Htot, Ec by done.
  rewrite (Hmix (λ u, nmul (τ u) (c u)) (λ u, nmul (τ' u) (c' u))); [done|done|]. intros u Hu. by destruct (IHu u Hu) as [-> ->].
Qed.
Lemma alike_all c τ c' τ' : (∀ v, U v → 0 ≤ v < pb_cells p ∧ 0 ≤ φ v < pb_cells p') →
  (∀ v, U v → cell_total d (pb_rates p') (φ v) = cell_total d (pb_rates p) v) →
  solves_all p d c τ → solves_all p' d c' τ' →
  ∀ v, U v → c' (φ v) = c v ∧ τ' (φ v) = τ v.
Proof.
  intros Hr Hq S S' v. induction (flows_wf _ Hac v) as [v _ IH]. intros Hv.
  assert (∀ u, flows (flow d p) u v → c' (φ u) = c u ∧ τ' (φ u) = τ u) as IHu.
  { intros u Hu. apply IH; [done|]. by eapply HU. }
  destruct (Hr v Hv) as [Rv Rv']. destruct (S v Rv) as [S1 S2]. destruct (S' (φ v) Rv') as [S1' S2'].
  assert (c' (φ v) = c v) as Ec.
  { rewrite S1, S1'. rewrite Htot, Hq by done. rewrite (Hmix c c') by (done || (intros u Hu; by apply IHu)). done. }
  split; [done|]. rewrite S2, S2', Hpore, Htot, Ec by done.
  rewrite (Hmix (λ u, nmul (τ u) (c u)) (λ u, nmul (τ' u) (c' u))); [done|done|]. intros u Hu. by destruct (IHu u Hu) as [-> ->].
Qed.
End alike.

(** ** The equations have one solution *)
Lemma mix_id (p : problem) d h h' v : (∀ u, flows (flow d p) u v → h' u = h u) → mix (pb_cells p) (flow d p) h' v = mix (pb_cells p) (flow d p) h v.
Proof. apply (mix_ext _ _ (λ _, None)). Qed.
Lemma unique_well p g f d ev sets sol id c τ : valid p → poses p g f → data (o_ok N L) p → acyclic (net_arcs p) →
  diagnose d ev g p f sets = Ok (OSol sol) → id ∈ map cs_id sets →
  (∀ v, served p d id v → well_eqs p d id c τ v) → (∀ v, ¬ served p d id v → c v = n0 ∧ τ v = n0) →
  ∀ v, served p d id v → om_find v (sol_concentration sol id) = Some (c v) ∧ om_find v (sol_tof sol id) = Some (nmin (τ v) max_tof).
Proof.
  intros Hp HP HD Hac H Hid I O v Hv.
  destruct (diagnosis_solves p g f d ev sets sol id Hp HP HD Hac H Hid) as (τ0 & S & Hm).
  assert (solves_well p d id c τ) as S'.
  { intros u. destruct (S u) as [[Pu _]|[Pu _]]; [left|right]; (split; [done|]); [by apply I|by apply O]. }
  destruct (alike_well p p d (λ _, True) (λ v, v) (acyclic_flow p d Hac)) with id (value_at (sol_concentration sol id)) τ0 c τ v as [Ec Et]; try done.
  { intros; by apply mix_id. }
  cbn in Ec, Et. rewrite Ec, Et. by apply Hm.
Qed.
Lemma unique_all p g f d ev sets sol c τ : valid p → poses p g f → data (o_ok N L) p → acyclic (net_arcs p) →
  diagnose d ev g p f sets = Ok (OSol sol) →
  (∀ v, 0 ≤ v < pb_cells p → all_eqs p d c τ v) →
  ∀ v, 0 ≤ v < pb_cells p → sol_global_tof sol !! Z.to_nat v = Some (nmin (τ v) max_tof).
Proof.
  intros Hp HP HD Hac H I v Hv.
  destruct (diagnosis_solves_all p g f d ev sets sol Hp HP HD Hac H) as (c0 & τ0 & S & ->).
  destruct (alike_all p p d (λ v, 0 ≤ v < pb_cells p) (λ v, v) (acyclic_flow p d Hac)) with c0 τ0 c τ v as [Ec Et]; try done.
  { intros u w Hf _. by apply (flows_range (pb_cells p) (flow d p) u w (flow_arcs p Hp d)). }
  { intros; by apply mix_id. }
  rewrite tab_lookup_Z by done. cbn in Et. by rewrite Et.
Qed.

(** ** Agreement upstream *)
Section agree.
Context (p p' : problem) (d : direction) (U : Z → Prop) (HU : agree_on d p p' U).
Lemma agree_up v : U v → upstream (pb_cells p') (flow d p') v = upstream (pb_cells p) (flow d p) v.
Proof.
  intros Hv. unfold upstream. apply sorted_lt_ext; [apply filter_sorted, seqZ_sorted|apply filter_sorted, seqZ_sorted|].
  intros u. rewrite !elem_of_list_filter, !elem_of_seqZ. destruct HU as [H1 H2 H3 H4 _ _ _]. split; intros [Hf Hr].
  - assert (U u) as Hu by (by eapply H3). split; [by apply H4|]. pose proof (H1 u Hu). lia.
  - assert (U u) as Hu by (by eapply H2). split; [by apply H4|]. pose proof (H1 u Hu). lia.
Qed.
Lemma agree_mix h h' v : U v → (∀ u, flows (flow d p) u v → h' u = h u) →
  mix (pb_cells p') (flow d p') h' v = mix (pb_cells p) (flow d p) h v.
Proof.
  intros Hv Hh. unfold mix. rewrite agree_up by done. f_equal. apply map_ext_in. intros u Hu%elem_of_list_In%upstream_elem.
  destruct Hu as [Hf _]. rewrite Hh by done. f_equal. symmetry. apply (ag_flows _ _ _ _ HU); [by eapply (ag_closed _ _ _ _ HU)|done].
Qed.
Lemma agree_total v : U v → total_in p' d v = total_in p d v.
Proof.
  intros Hv. unfold total_in, influx, cell_total. rewrite (ag_rates _ _ _ _ HU), agree_up by done. do 2 f_equal.
  apply map_ext_in. intros u Hu%elem_of_list_In%upstream_elem. destruct Hu as [Hf _]. symmetry.
  apply (ag_flows _ _ _ _ HU); [by eapply (ag_closed _ _ _ _ HU)|done].
Qed.
Lemma agree_leads r v : U v → leads (flow d p) r v ↔ leads (flow d p') r v.
Proof.
  intros Hv. split; intros H; revert v H Hv.
  - apply (rtc_ind_r (λ v, U v → leads (flow d p') r v)); [intros _; apply rtc_refl|]. intros w v _ Hf IH Hv.
    assert (U w) as Hw by (by eapply (ag_closed _ _ _ _ HU)). eapply rtc_r; [by apply IH|]. by apply (ag_flows _ _ _ _ HU).
  - apply (rtc_ind_r (λ v, U v → leads (flow d p) r v)); [intros _; apply rtc_refl|]. intros w v _ Hf IH Hv.
    assert (U w) as Hw by (by eapply (ag_closed' _ _ _ _ HU)). eapply rtc_r; [by apply IH|]. by apply (ag_flows _ _ _ _ HU).
Qed.
Lemma agree_start r v : U v → leads (flow d p) r v → U r.
Proof. intros Hv Hl. revert Hv. induction Hl as [|a b c Hf _ IH]; [done|]. intros Hv. eapply (ag_closed _ _ _ _ HU); [exact Hf|]. by apply IH. Qed.
Lemma agree_served id v : U v → served p' d id v ↔ served p d id v.
Proof.
  intros Hv. unfold served. split; intros (r & Hr & Hl).
  - apply agree_leads in Hl; [|done]. exists r. split; [|done]. rewrite (ag_well _ _ _ _ HU); [done|]. by eapply agree_start.
  - exists r. split; [|by apply agree_leads]. rewrite <-(ag_well _ _ _ _ HU); [done|]. by eapply agree_start.
Qed.
End agree.

Lemma causality p p' g f g' f' d ev ev' sets sets' sol sol' U : valid p → poses p g f → data (o_ok N L) p →
  valid p' → poses p' g' f' → data (o_ok N L) p' → acyclic (net_arcs p) → acyclic (net_arcs p') → agree_on d p p' U →
  diagnose d ev g p f sets = Ok (OSol sol) → diagnose d ev' g' p' f' sets' = Ok (OSol sol') → ∀ v, U v →
  sol_global_tof sol !! Z.to_nat v = sol_global_tof sol' !! Z.to_nat v ∧
  ∀ id, id ∈ map cs_id sets → id ∈ map cs_id sets' →
    om_find v (sol_concentration sol id) = om_find v (sol_concentration sol' id) ∧
    om_find v (sol_tof sol id) = om_find v (sol_tof sol' id).
Proof.
  intros Hp HP HD Hp' HP' HD' Hac Hac' HU H H' v Hv. split.
  - destruct (diagnosis_solves_all p g f d ev sets sol Hp HP HD Hac H) as (c & τ & S & ->).
    destruct (diagnosis_solves_all p' g' f' d ev' sets' sol' Hp' HP' HD' Hac' H') as (c' & τ' & S' & ->).
    destruct (alike_all p p' d U (λ v, v) (acyclic_flow p d Hac)) with c τ c' τ' v as [Ec Et]; try done.
    + apply (ag_closed _ _ _ _ HU).
    + intros h h' w; by apply (agree_mix p p' d U).
    + intros w; by apply (agree_total p p' d U).
    + intros; symmetry; by apply (ag_pore _ _ _ _ HU).
    + apply (ag_cells _ _ _ _ HU).
    + intros u Hu. unfold cell_total. by rewrite (ag_rates _ _ _ _ HU).
    + destruct (ag_cells _ _ _ _ HU v Hv). rewrite !tab_lookup_Z by done. cbn in Et. by rewrite Et.
  - intros id Hid Hid'.
    destruct (diagnosis_solves p g f d ev sets sol id Hp HP HD Hac H Hid) as (τ & S & Hm).
    destruct (diagnosis_solves p' g' f' d ev' sets' sol' id Hp' HP' HD' Hac' H' Hid') as (τ' & S' & Hm').
    destruct (alike_well p p' d U (λ v, v) (acyclic_flow p d Hac)) with id (value_at (sol_concentration sol id)) τ (value_at (sol_concentration sol' id)) τ' v as [Ec Et]; try done.
    + apply (ag_closed _ _ _ _ HU).
    + intros h h' w; by apply (agree_mix p p' d U).
    + intros w; by apply (agree_total p p' d U).
    + intros; symmetry; by apply (ag_pore _ _ _ _ HU).
    + intros; symmetry; by apply (ag_well _ _ _ _ HU).
    + intros; by apply (agree_served p p' d U).
    + destruct (Hm v) as [M1 M2]. destruct (Hm' v) as [M1' M2']. pose proof (agree_served p p' d U HU id v Hv) as Hs.
      destruct (S v) as [[Pv _]|[Pv _]].
      * destruct (M1 Pv) as [-> ->]. destruct M1' as [-> ->]; [by apply Hs|]. by rewrite Ec, Et.
      * destruct (M2 Pv) as [-> ->]. destruct M2' as [-> ->]; [|done]. intros Pv'. by apply Pv, Hs.
Qed.
End acyclic.
