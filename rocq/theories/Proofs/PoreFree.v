(** Without cycles the concentrations do not depend on the pore volumes. *)
From Verif.Model Require Import Base Num OMap Containers Solution AssembledConnections Tarjan TracerTofSolver Toolbox DerivedQuantities.
From Verif.Spec Require Import AcyclicSpec SuperposeSpec.
From Verif.Proofs Require Import Util OMapFacts AConn OrdLaws ToolboxState ToolboxRates SolverBase SolverRun SolverTop SolverGen SolverOrd
  ToolboxFlow ToolboxVal ToolboxSane ToolboxThms Acyclic.
Open Scope Z_scope.

Section pores.
Context {N : Num} (L : ord_laws N) (LO : opp_laws L).
Lemma pores_served p p' d id v : same_but_pores p p' → served p' d id v ↔ served p d id v.
Proof. intros (_ & E2 & E3). unfold served, flow, net_arcs. by rewrite E2, E3. Qed.
(** The tracer equations have one solution, whatever the times-of-flight. *)
Lemma pores_tracer p p' d id c τ c' τ' : same_but_pores p p' → acyclic (net_arcs p) →
  solves_well p d id c τ → solves_well p' d id c' τ' → ∀ v, c' v = c v.
Proof.
  intros HE Hac S S' v. induction (flows_wf _ (acyclic_flow p d Hac) v) as [v _ IH].
  destruct (S v) as [[Pv [E1 _]]|(Pv & E1 & _)], (S' v) as [[Pv' [E1' _]]|(Pv' & E1' & _)];
    rewrite (pores_served p p' d id v HE) in Pv'; try done; [|congruence].
  rewrite E1, E1'. rewrite <-(mix_id p d c c' v) by done. destruct HE as (En & Ec & Er).
  assert (flow d p' = flow d p) as Ef by (unfold flow, net_arcs; by rewrite Ec).
  unfold own, total_in. by rewrite En, Er, Ef.
Qed.
Lemma pores_conc p p' g f g' f' d ev ev' sets sets' sol sol' : valid p → poses p g f → data (o_ok N L) p →
  valid p' → poses p' g' f' → data (o_ok N L) p' → acyclic (net_arcs p) → same_but_pores p p' →
  diagnose d ev g p f sets = Ok (OSol sol) → diagnose d ev' g' p' f' sets' = Ok (OSol sol') →
  ∀ id v, id ∈ map cs_id sets → id ∈ map cs_id sets' →
    om_find v (sol_concentration sol id) = om_find v (sol_concentration sol' id).
Proof.
  intros Hp HP HD Hp' HP' HD' Hac HE H H' id v Hid Hid'.
  assert (acyclic (net_arcs p')) as Hac' by (destruct HE as (_ & E & _); unfold net_arcs; by rewrite E).
  destruct (diagnosis_solves L LO p g f d ev sets sol id Hp HP HD Hac H Hid) as (τ & S & Hm).
  destruct (diagnosis_solves L LO p' g' f' d ev' sets' sol' id Hp' HP' HD' Hac' H' Hid') as (τ' & S' & Hm').
  pose proof (pores_tracer p p' d id _ τ _ τ' HE Hac S S' v) as Ec. pose proof (pores_served p p' d id v HE) as Hs.
  destruct (Hm v) as [M1 M2]. destruct (Hm' v) as [M1' M2']. destruct (S v) as [[Pv _]|[Pv _]].
  - destruct (M1 Pv) as [-> _]. destruct M1' as [-> _]; [by apply Hs|]. by rewrite Ec.
  - destruct (M2 Pv) as [-> _]. destruct M2' as [-> _]; [|done]. intros Pv'. by apply Pv, Hs.
Qed.
Lemma pores_map p p' g f g' f' d ev ev' sets sets' sol sol' : valid p → poses p g f → data (o_ok N L) p →
  valid p' → poses p' g' f' → data (o_ok N L) p' → acyclic (net_arcs p) → same_but_pores p p' →
  diagnose d ev g p f sets = Ok (OSol sol) → diagnose d ev' g' p' f' sets' = Ok (OSol sol') →
  ∀ id, id ∈ map cs_id sets → id ∈ map cs_id sets' → sol_concentration sol id = sol_concentration sol' id.
Proof.
  intros Hp HP HD Hp' HP' HD' Hac HE H H' id Hid Hid'. apply om_ext.
  - exact (proj1 (solution_maps p g f Hp HP d ev sets sol id H)).
  - exact (proj1 (solution_maps p' g' f' Hp' HP' d ev' sets' sol' id H')).
  - intros v. exact (pores_conc p p' g f g' f' d ev ev' sets sets' sol sol' Hp HP HD Hp' HP' HD' Hac HE H H' id v Hid Hid').
Qed.
Lemma pores_flux p p' g f g' f' ei ep ei' ep' si sp si' sp' inj prod inj' prod' : valid p → poses p g f → data (o_ok N L) p →
  valid p' → poses p' g' f' → data (o_ok N L) p' → acyclic (net_arcs p) → same_but_pores p p' →
  diagnose Injection ei g p f si = Ok (OSol inj) → diagnose Production ep g p f sp = Ok (OSol prod) →
  diagnose Injection ei' g' p' f' si' = Ok (OSol inj') → diagnose Production ep' g' p' f' sp' = Ok (OSol prod') →
  ∀ i j m, i ∈ map cs_id si → i ∈ map cs_id si' → j ∈ map cs_id sp → j ∈ map cs_id sp' →
    pair_flux inj prod i j m = pair_flux inj' prod' i j m.
Proof.
  intros Hp HP HD Hp' HP' HD' Hac HE H1 H2 H3 H4 i j m I1 I2 J1 J2. unfold pair_flux.
  rewrite (pores_map p p' g f g' f' Injection ei ei' si si' inj inj' Hp HP HD Hp' HP' HD' Hac HE H1 H3 i I1 I2).
  by rewrite (pores_map p p' g f g' f' Production ep ep' sp sp' prod prod' Hp HP HD Hp' HP' HD' Hac HE H2 H4 j J1 J2).
Qed.
End pores.
