(** Renumbering the cells. *)
From Coq Require Import QArith Qcanon.
From Verif.Model Require Import Base Num OMap Containers Solution AssembledConnections Tarjan TracerTofSolver Toolbox.
From Verif.Spec Require Import AcyclicSpec.
From Verif.Proofs Require Import Util OMapFacts AConn ExactNum OrdLaws OppLaws ToolboxState ToolboxRates SolverBase SolverRun SolverTop SolverGen SolverOrd
  ToolboxFlow ToolboxVal ToolboxSane ToolboxThms ToolboxExact Acyclic.
Open Scope Z_scope.

Section renumber.
Context (π : Z → Z) (p p' : @problem exact) (HR : renumbered π p p') (Hp : valid p) (Hp' : valid p').
Notation n := (pb_cells p).
Definition rarc (a : @arc exact) : @arc exact := (π a.1.1, π a.1.2, a.2).

Lemma rn_all : map π (seqZ 0 n) ≡ₚ seqZ 0 n.
Proof.
  apply submseteq_Permutation_length_eq; [by rewrite map_length|]. apply NoDup_submseteq.
  - apply (NoDup_fmap_2_strong π); [|apply NoDup_seqZ]. intros u v Hu%elem_of_seqZ Hv%elem_of_seqZ. apply (rn_inj _ _ _ HR); lia.
  - intros v (u & -> & Hu)%elem_of_list_fmap. apply elem_of_seqZ in Hu. apply elem_of_seqZ. pose proof (rn_range _ _ _ HR u). lia.
Qed.
Lemma rn_sur v : 0 ≤ v < n → ∃ u, 0 ≤ u < n ∧ v = π u.
Proof.
  intros Hv. assert (v ∈ map π (seqZ 0 n)) as H by (rewrite rn_all; apply elem_of_seqZ; lia).
  apply elem_of_list_fmap in H as (u & -> & Hu). apply elem_of_seqZ in Hu. exists u. split; [lia|done].
Qed.
Lemma rn_net : net_arcs p' = map rarc (net_arcs p).
Proof.
  unfold net_arcs. rewrite (rn_conns _ _ _ HR). induction (pb_conns p) as [|x l IH]; [done|]. cbn [map omap list_omap].
  assert (net_arc (π x.1.1, π x.1.2, x.2) = rarc <$> net_arc x) as ->.
  { unfold net_arc. cbn [fst snd]. destruct (nltb n0 (sum_left x.2)); [done|]. by destruct (nltb (sum_left x.2) n0). }
  destruct (net_arc x); cbn [fmap option_fmap option_map map]; [f_equal|]; exact IH.
Qed.
Lemma rn_flow d : flow d p' = map rarc (flow d p).
Proof. destruct d; cbn [flow]; rewrite rn_net; [done|]. unfold turn. by rewrite !map_map. Qed.
Lemma rn_flows d u v : 0 ≤ u < n → 0 ≤ v < n → flows (flow d p') (π u) (π v) ↔ flows (flow d p) u v.
Proof.
  intros Hu Hv. unfold flows. rewrite rn_flow, map_map. split.
  - intros (a & E & Ha)%elem_of_list_fmap. cbn in E. injection E as E1 E2.
    pose proof (proj1 (Forall_forall _ _) (flow_arcs p Hp d) a Ha) as [R1 R2]. apply (rn_inj _ _ _ HR) in E1; [|done|done].
    apply (rn_inj _ _ _ HR) in E2; [|done|done]. apply elem_of_list_fmap. exists a. split; [|done]. destruct a as [[? ?] ?]. cbn in *. by subst.
  - intros (a & E & Ha)%elem_of_list_fmap. apply elem_of_list_fmap. exists a. split; [|done]. destruct a as [[? ?] ?]. cbn in *. by injection E as -> ->.
Qed.
Lemma rn_flows_inv d x v : 0 ≤ v < n → flows (flow d p') x (π v) → ∃ u, x = π u ∧ flows (flow d p) u v.
Proof.
  intros Hv Hf. assert (0 ≤ x < n) as Hx.
  { rewrite <-(rn_cells _ _ _ HR). by apply (flows_range _ _ _ _ (flow_arcs p' Hp' d) Hf). }
  destruct (rn_sur x Hx) as (u & Hu & ->). exists u. split; [done|]. by apply rn_flows.
Qed.
Lemma rn_flux d u v : 0 ≤ u < n → 0 ≤ v < n → arc_flux (flow d p') (π u) (π v) = arc_flux (flow d p) u v.
Proof.
  intros Hu Hv. unfold arc_flux. f_equal. rewrite rn_flow. pose proof (flow_arcs p Hp d) as HA.
  induction HA as [|a A [R1 R2] _ IH]; [done|]. cbn [map omap list_omap]. rewrite IH. unfold rarc at 1. cbn [fst snd].
  destruct (decide (a.1 = (u, v))) as [E|E].
  - rewrite decide_True by (destruct a as [[? ?] ?]; cbn in *; by injection E as -> ->). done.
  - rewrite decide_False; [done|]. intros [= E1 E2]. apply E. apply (rn_inj _ _ _ HR) in E1; [|done|done].
    apply (rn_inj _ _ _ HR) in E2; [|done|done]. destruct a as [[? ?] ?]. cbn in *. by subst.
Qed.
Lemma rn_up d v : 0 ≤ v < n → upstream (pb_cells p') (flow d p') (π v) ≡ₚ map π (upstream n (flow d p) v).
Proof.
  intros Hv. unfold upstream. rewrite (rn_cells _ _ _ HR), <-rn_all at 1. 
  assert (∀ l, (∀ u, u ∈ l → 0 ≤ u < n) → filter (λ u, flows (flow d p') u (π v)) (map π l) = map π (filter (λ u, flows (flow d p) u v) l)) as Hl.
  { induction l as [|u l IH]; intros Hl; [done|]. cbn [map]. rewrite !filter_cons, IH by (intros; apply Hl; by right).
    assert (0 ≤ u < n) as Hu by (apply Hl; left). destruct (decide (flows (flow d p) u v)) as [Hf|Hf].
    - rewrite decide_True by (by apply rn_flows). done.
    - rewrite decide_False; [done|]. by rewrite rn_flows. }
  rewrite Hl; [done|]. intros u Hu%elem_of_seqZ. lia.
Qed.
Lemma rn_up_range d v u : u ∈ upstream n (flow d p) v → 0 ≤ u < n ∧ flows (flow d p) u v.
Proof. intros Hu%upstream_elem. tauto. Qed.
Lemma rn_mix d h h' v : 0 ≤ v < n → (∀ u, flows (flow d p) u v → h' (π u) = h u) →
  mix (pb_cells p') (flow d p') h' (π v) = mix n (flow d p) h v.
Proof.
  intros Hv Hh. unfold mix. rewrite (sum_left_perm _ (map (λ u, nmul (h' u) (arc_flux (flow d p') u (π v))) (map π (upstream n (flow d p) v)))).
  2:{ apply Permutation_map, rn_up. done. }
  f_equal. rewrite map_map. apply map_ext_in. intros u Hu%elem_of_list_In%rn_up_range. destruct Hu as [Hu Hf].
  by rewrite Hh, rn_flux by done.
Qed.
Lemma rn_total d v : 0 ≤ v < n → cell_total d (pb_rates p') (π v) = cell_total d (pb_rates p) v.
Proof.
  intros Hv. unfold cell_total, cell_rates. rewrite (rn_ids _ _ _ HR). f_equal. apply list_omap_ext. apply Forall_Forall2_diag, Forall_forall.
  intros id _. by apply (rn_rates _ _ _ HR).
Qed.
Lemma rn_in d v : 0 ≤ v < n → total_in p' d (π v) = total_in p d v.
Proof.
  intros Hv. unfold total_in. rewrite rn_total by done. f_equal. unfold influx.
  rewrite (sum_left_perm _ (map (λ u, arc_flux (flow d p') u (π v)) (map π (upstream n (flow d p) v)))).
  2:{ apply Permutation_map, rn_up. done. }
  f_equal. rewrite map_map. apply map_ext_in. intros u Hu%elem_of_list_In%rn_up_range. destruct Hu as [Hu _]. by apply rn_flux.
Qed.
Lemma rn_leads d r v : 0 ≤ r < n → leads (flow d p) r v → leads (flow d p') (π r) (π v).
Proof.
  intros Hr H. induction H as [|r w v Hf _ IH]; [apply rtc_refl|].
  pose proof (flows_range _ _ _ _ (flow_arcs p Hp d) Hf) as [H1 H2]. eapply rtc_l; [by apply rn_flows|]. by apply IH.
Qed.
Lemma rn_leads_inv d x y : leads (flow d p') x y → ∀ v, 0 ≤ v < n → y = π v → ∃ u, 0 ≤ u < n ∧ x = π u ∧ leads (flow d p) u v.
Proof.
  intros H. induction H as [y|x y z Hf _ IH]; intros v Hv ->.
  - exists v. split; [done|]. split; [done|apply rtc_refl].
  - destruct (IH v Hv eq_refl) as (w & Hw & -> & Hl). destruct (rn_flows_inv d x w Hw Hf) as (u & -> & Hu).
    exists u. split; [by apply (flows_range _ _ _ _ (flow_arcs p Hp d) Hu)|]. split; [done|]. by eapply rtc_l.
Qed.
Lemma rn_served d id v : 0 ≤ v < n → served p' d id (π v) ↔ served p d id v.
Proof.
  intros Hv. unfold served. split; intros (r & [x Hx] & Hl).
  - destruct (rn_leads_inv d r (π v) Hl v Hv eq_refl) as (u & Hu & -> & Hlu). exists u. split; [|done].
    rewrite (rn_rates _ _ _ HR) in Hx by done. by exists x.
  - assert (0 ≤ r < n) as Hr by (by eapply (va_cellrates _ Hp)). exists (π r). split; [|by apply rn_leads].
    rewrite (rn_rates _ _ _ HR) by done. by exists x.
Qed.
Lemma rn_acyclic : acyclic (net_arcs p) → acyclic (net_arcs p').
Proof.
  intros Hac x Hx.
  assert (∀ x y, tc (flows (net_arcs p')) x y → ∀ v, 0 ≤ v < n → y = π v → ∃ u, x = π u ∧ 0 ≤ u < n ∧ tc (flows (net_arcs p)) u v) as H.
  { clear x Hx. induction 1 as [x y Hf|x y z Hf _ IH]; intros v Hv ->.
    - destruct (rn_flows_inv Injection x v Hv Hf) as (u & -> & Hu). exists u. split; [done|]. split; [|by apply tc_once].
      by apply (flows_range _ _ _ _ (flow_arcs p Hp Injection) Hu).
    - destruct (IH v Hv eq_refl) as (w & -> & Hw & Ht). destruct (rn_flows_inv Injection x w Hw Hf) as (u & -> & Hu).
      exists u. split; [done|]. split; [|by eapply tc_l]. by apply (flows_range _ _ _ _ (flow_arcs p Hp Injection) Hu). }
  assert (0 ≤ x < n) as Hr.
  { rewrite <-(rn_cells _ _ _ HR). assert (∃ y, flows (net_arcs p') x y) as [y Hf] by (inversion Hx; eauto).
    by apply (flows_range _ _ _ _ (flow_arcs p' Hp' Injection) Hf). }
  destruct (rn_sur x Hr) as (v & Hv & ->). destruct (H _ _ Hx v Hv eq_refl) as (u & E & Hu & Ht).
  apply (rn_inj _ _ _ HR) in E; [|done|done]. subst. by apply (Hac u).
Qed.

Lemma diagnose_renumbered g f g' f' d ev ev' sets sets' sol sol' : poses p g f → poses p' g' f' → acyclic (net_arcs p) →
  diagnose d ev g p f sets = Ok (OSol sol) → diagnose d ev' g' p' f' sets' = Ok (OSol sol') → ∀ v, 0 ≤ v < n →
  sol_global_tof sol' !! Z.to_nat (π v) = sol_global_tof sol !! Z.to_nat v ∧
  ∀ id, id ∈ map cs_id sets → id ∈ map cs_id sets' →
    om_find (π v) (sol_concentration sol' id) = om_find v (sol_concentration sol id) ∧
    om_find (π v) (sol_tof sol' id) = om_find v (sol_tof sol id).
Proof.
  intros HP HP' Hac H H' v Hv. pose proof (rn_acyclic Hac) as Hac'.
  assert (data (o_ok exact exact_laws) p) as HD by (by split). assert (data (o_ok exact exact_laws) p') as HD' by (by split).
  assert (∀ u w, flows (flow d p) u w → 0 ≤ w < n → 0 ≤ u < n) as HU.
  { intros u w Hf _. by apply (flows_range _ _ _ _ (flow_arcs p Hp d) Hf). }
  split.
  - destruct (diagnosis_solves_all exact_laws exact_opp_laws p g f d ev sets sol Hp HP HD Hac H) as (c & τ & S & ->).
    destruct (diagnosis_solves_all exact_laws exact_opp_laws p' g' f' d ev' sets' sol' Hp' HP' HD' Hac' H') as (c' & τ' & S' & ->).
    pose proof (rn_range _ _ _ HR v Hv).
    destruct (alike_all p p' d (λ v, 0 ≤ v < n) π (acyclic_flow p d Hac) HU) with c τ c' τ' v as [Ec Et]; try done.
    + intros; by apply rn_mix.
    + intros; by apply rn_in.
    + apply (rn_pore _ _ _ HR).
    + intros u Hu. rewrite (rn_cells _ _ _ HR). split; [done|by apply (rn_range _ _ _ HR)].
    + intros; by apply rn_total.
    + rewrite !tab_lookup_Z by (rewrite ?(rn_cells _ _ _ HR); done). by rewrite Et.
  - intros id Hid Hid'.
    destruct (diagnosis_solves exact_laws exact_opp_laws p g f d ev sets sol id Hp HP HD Hac H Hid) as (τ & S & Hm).
    destruct (diagnosis_solves exact_laws exact_opp_laws p' g' f' d ev' sets' sol' id Hp' HP' HD' Hac' H' Hid') as (τ' & S' & Hm').
    destruct (alike_well p p' d (λ v, 0 ≤ v < n) π (acyclic_flow p d Hac) HU) with id (value_at (sol_concentration sol id)) τ (value_at (sol_concentration sol' id)) τ' v as [Ec Et]; try done.
    + intros; by apply rn_mix.
    + intros; by apply rn_in.
    + apply (rn_pore _ _ _ HR).
    + intros; by apply (rn_rates _ _ _ HR).
    + intros; by apply rn_served.
    + destruct (Hm v) as [M1 M2]. destruct (Hm' (π v)) as [M1' M2']. pose proof (rn_served d id v Hv) as Hs.
      destruct (S v) as [[Pv _]|[Pv _]].
      * destruct (M1 Pv) as [-> ->]. destruct M1' as [-> ->]; [by apply Hs|]. by rewrite Ec, Et.
      * destruct (M2 Pv) as [-> ->]. destruct M2' as [-> ->]; [|done]. intros Pv'. by apply Pv, Hs.
Qed.
End renumber.
